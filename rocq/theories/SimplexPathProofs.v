(** Linear ids, descendants, successor of triangles and tetrahedra in terms of refinement paths. *)
From Verif Require Import Prelude PathSpec SimplexModel SimplexSpec BitLemmas SimplexProofs.

Lemma walk_snoc tet p i : walk tet (p ++ [i]) = child tet (walk tet p) i.
Proof. unfold walk. now rewrite fold_left_app. Qed.

Lemma tree_path_snoc tet p i : tree_path tet (p ++ [i]) <-> tree_path tet p /\ 0 <= i < CHILDREN tet /\ zlen p < MAXLEVEL tet.
Proof.
  unfold tree_path. rewrite valid_app, zlen_app. unfold zlen at 2. cbn. split.
  - intros [[H1 H2] H3]. inversion H2; subst. repeat split; auto; lia.
  - intros ((H1 & H2) & H3 & H4). repeat split; auto; try lia. constructor; auto.
Qed.

Lemma walk_wf tet p : tree_path tet p -> wf tet (walk tet p) /\ lv (walk tet p) = zlen p.
Proof.
  induction p as [|i p IH] using rev_ind; intros H.
  - split; [apply wf_root|reflexivity].
  - apply tree_path_snoc in H. destruct H as (H & Hi & Hl). destruct (IH H) as [W L].
    rewrite walk_snoc. split; [apply wf_child; auto; lia|]. rewrite child_lv, L, zlen_app. reflexivity.
Qed.
Lemma walk_lv tet p : tree_path tet p -> lv (walk tet p) = zlen p. Proof. intros; now apply walk_wf. Qed.

Lemma walk_step tet p i : tree_path tet (p ++ [i]) ->
  walk tet (p ++ [i]) = step tet (walk tet p) (Tt tet (ty (walk tet p)) i) (Tc tet (ty (walk tet p)) i).
Proof.
  intros H. apply tree_path_snoc in H. destruct H as (H & Hi & Hl). destruct (walk_wf H) as [W L].
  rewrite walk_snoc. apply child_step; auto; [apply W|lia].
Qed.

Lemma tree_path_firstn tet p n : tree_path tet p -> tree_path tet (firstn n p).
Proof. intros [H1 H2]. split; [now apply valid_firstn|]. unfold zlen in *. rewrite firstn_length. lia. Qed.

Lemma firstn_S {A} (d : A) p j : (j < length p)%nat -> firstn (S j) p = firstn j p ++ [nth j p d].
Proof.
  revert j. induction p as [|a p IH]; intros j Hj; [cbn in Hj; lia|].
  destruct j as [|j]; [reflexivity|]. cbn in Hj.
  change (a :: firstn (S j) p = a :: (firstn j p ++ [nth j p d])). f_equal. apply IH. lia.
Qed.

Lemma tree_path_nth tet p j : tree_path tet p -> (j < length p)%nat -> 0 <= nth j p 0 < CHILDREN tet.
Proof. intros [H _] Hj. apply (proj1 (Forall_forall _ _) H). now apply nth_In. Qed.

Lemma zlen_firstn {A} (p : list A) n : zlen (firstn n p) = Z.min (Z.of_nat n) (zlen p).
Proof. unfold zlen. rewrite firstn_length. lia. Qed.

(** the cube id at level j+1 is the one given by the table for the type at level j and the j-th child number *)
Lemma cubeid_walk tet p j : tree_path tet p -> (j < length p)%nat ->
  compute_cubeid tet (walk tet p) (Z.of_nat (S j)) = Tc tet (ty (walk tet (firstn j p))) (nth j p 0).
Proof.
  induction p as [|i p IH] using rev_ind; intros H Hj; [cbn in Hj; lia|].
  rewrite (walk_step H). apply tree_path_snoc in H. destruct H as (H & Hi & Hl). destruct (walk_wf H) as [W L].
  rewrite app_length in Hj. cbn in Hj. unfold zlen in *.
  destruct (Nat.eq_dec j (length p)) as [->|Hne].
  - rewrite firstn_app, Nat.sub_diag, firstn_all, app_nil_r. rewrite app_nth2, Nat.sub_diag by lia. cbn [nth].
    replace (Z.of_nat (S (length p))) with (lv (walk tet p) + 1) by lia.
    apply cubeid_step_same; auto; [lia|]. apply tab_Tc_range; auto. apply W.
  - rewrite cubeid_step_lo by (auto; lia). rewrite IH by (auto; lia).
    rewrite firstn_app, app_nth1 by lia. replace (j - length p)%nat with O by lia. now rewrite app_nil_r.
Qed.

Lemma ty_walk_S tet p j : tree_path tet p -> (j < length p)%nat ->
  ty (walk tet (firstn (S j) p)) = Tt tet (ty (walk tet (firstn j p))) (nth j p 0).
Proof.
  intros H Hj. assert (E := firstn_S 0 Hj). rewrite E, walk_step; [reflexivity|]. rewrite <- E. now apply tree_path_firstn.
Qed.

Lemma parenttype_walk tet p j : tree_path tet p -> (j < length p)%nat ->
  Pt tet (compute_cubeid tet (walk tet p) (Z.of_nat (S j))) (ty (walk tet (firstn (S j) p))) = ty (walk tet (firstn j p)).
Proof.
  intros H Hj. rewrite cubeid_walk, ty_walk_S by auto. apply tab_Pt_Tc; [|now apply tree_path_nth].
  apply walk_wf. now apply tree_path_firstn.
Qed.
Lemma iloc_walk tet p j : tree_path tet p -> (j < length p)%nat ->
  Li tet (ty (walk tet (firstn (S j) p))) (compute_cubeid tet (walk tet p) (Z.of_nat (S j))) = nth j p 0.
Proof.
  intros H Hj. rewrite cubeid_walk, ty_walk_S by auto. apply tab_Li_Tc; [|now apply tree_path_nth].
  apply walk_wf. now apply tree_path_firstn.
Qed.

Lemma type_loop_walk tet p n i : tree_path tet p -> (n <= i <= length p)%nat ->
  type_loop tet (walk tet p) n (Z.of_nat i) (ty (walk tet (firstn i p))) = ty (walk tet (firstn (i - n) p)).
Proof.
  intros H. revert i. induction n as [|n IH]; intros i Hi; cbn [type_loop].
  - now rewrite Nat.sub_0_r.
  - destruct i as [|i]; [lia|]. rewrite parenttype_walk by (auto; lia).
    replace (Z.of_nat (S i) - 1) with (Z.of_nat i) by lia. rewrite IH by lia. f_equal.
Qed.

Lemma firstn_zlen_all {A} (p : list A) : firstn (Z.to_nat (zlen p)) p = p.
Proof. unfold zlen. rewrite Nat2Z.id. apply firstn_all. Qed.

Lemma compute_type_ext_walk tet p i j : tree_path tet p -> (j <= i <= length p)%nat ->
  compute_type_ext tet (walk tet p) (Z.of_nat j) (ty (walk tet (firstn i p))) (Z.of_nat i) = ty (walk tet (firstn j p)).
Proof.
  intros H Hij. unfold compute_type_ext.
  destruct (Z.eqb_spec (Z.of_nat j) (Z.of_nat i)) as [E|E]; [replace j with i by lia; reflexivity|].
  destruct (Z.eqb_spec (Z.of_nat j) 0) as [E0|E0]; [replace j with O by lia; reflexivity|].
  replace (Z.to_nat (Z.of_nat i - Z.of_nat j)) with (i - j)%nat by lia.
  rewrite type_loop_walk by (auto; lia). do 3 f_equal. lia.
Qed.

Lemma compute_type_walk tet p j : tree_path tet p -> 0 <= j <= zlen p ->
  compute_type tet (walk tet p) j = ty (walk tet (firstn (Z.to_nat j) p)).
Proof.
  intros H Hj. unfold compute_type. rewrite (walk_lv H).
  assert (E := @compute_type_ext_walk tet p (length p) (Z.to_nat j) H). unfold zlen in *.
  rewrite firstn_all in E. rewrite Z2Nat.id in E by lia. apply E. lia.
Qed.

(** ** linear ids *)
Lemma linear_id_loop_walk tet p i ex id : tree_path tet p -> (i <= length p)%nat -> 0 <= ex -> 0 <= id < 2 ^ ex ->
  linear_id_loop tet (walk tet p) i (ty (walk tet (firstn i p))) ex id = id + 2 ^ ex * num (CHILDREN tet) (firstn i p).
Proof.
  intros H. revert ex id. induction i as [|i IH]; intros ex id Hi He Hid.
  - cbn [linear_id_loop firstn]. rewrite num_nil. lia.
  - cbn [linear_id_loop]. rewrite parenttype_walk, iloc_walk by (auto; lia).
    pose proof (DIM_pos tet). pose proof (pow2_pos He).
    pose proof (@tree_path_nth tet p i H ltac:(lia)) as B.
    rewrite lor_low_shift by lia.
    assert (PE : 2 ^ (ex + DIM tet) = CHILDREN tet * 2 ^ ex) by (rewrite CHILDREN_pow, Z.pow_add_r by lia; lia).
    rewrite IH; try lia.
    + rewrite (@firstn_S _ 0 p i) by lia. rewrite num_snoc, PE. lia.
    + rewrite PE. assert (nth i p 0 * 2 ^ ex <= (CHILDREN tet - 1) * 2 ^ ex) by (apply Z.mul_le_mono_nonneg_r; lia).
      assert (0 <= nth i p 0 * 2 ^ ex) by (apply Z.mul_nonneg_nonneg; lia). lia.
Qed.

Lemma children_pow tet n : 0 <= n -> 2 ^ (n * DIM tet) = CHILDREN tet ^ n.
Proof. intros. rewrite CHILDREN_pow. rewrite Z.mul_comm. pose proof (DIM_pos tet). now rewrite Z.pow_mul_r by lia. Qed.

(** the id at a level not above the element's: number of the truncated path *)
Lemma linear_id_coarse tet p L : tree_path tet p -> 0 <= L <= zlen p ->
  linear_id tet (walk tet p) L = num (CHILDREN tet) (firstn (Z.to_nat L) p).
Proof.
  intros H HL. unfold linear_id. rewrite (walk_lv H). destruct (Z.ltb_spec (zlen p) L); [lia|].
  rewrite compute_type_walk by (auto; lia). unfold zlen in *. rewrite linear_id_loop_walk by (auto; cbn; lia). lia.
Qed.
(** the id at a finer level: number of the path continued with first children *)
Lemma linear_id_fine tet p L : tree_path tet p -> zlen p <= L ->
  linear_id tet (walk tet p) L = num (CHILDREN tet) p * CHILDREN tet ^ (L - zlen p).
Proof.
  intros H HL. destruct (Z.eq_dec L (zlen p)) as [->|Hne].
  - rewrite linear_id_coarse by (auto; unfold zlen; lia). rewrite firstn_zlen_all, Z.sub_diag. lia.
  - unfold linear_id. rewrite (walk_lv H). destruct (Z.ltb_spec (zlen p) L); [|lia].
    assert (E : ty (walk tet p) = ty (walk tet (firstn (length p) p))) by (now rewrite firstn_all). rewrite E.
    unfold zlen in *. rewrite Nat2Z.id. pose proof (DIM_pos tet).
    assert (0 < 2 ^ ((L - Z.of_nat (length p)) * DIM tet)) by (apply pow2_pos; nia).
    rewrite linear_id_loop_walk; auto; try nia.
    rewrite children_pow by lia. rewrite firstn_all. lia.
Qed.

Lemma land_children tet v : Z.land v (CHILDREN tet - 1) = v mod CHILDREN tet.
Proof. rewrite CHILDREN_pow. apply land_ones_low. pose proof (DIM_pos tet). lia. Qed.

Lemma or_bit_add v c m k (b : bool) : 0 <= k -> al (k + 1) v -> (Z.land c m =? 0) = negb b ->
  or_bit v c m k = v + Z.b2z b * 2 ^ k.
Proof.
  intros Hk Hv Hb. unfold or_bit. rewrite Hb. pose proof (pow2_pos Hk). destruct b; cbn [negb Z.b2z].
  - rewrite shiftl1_pow by lia. rewrite (@lor_high_low v (2 ^ k) (k + 1)) by (auto; rewrite ?pow2_S; lia). lia.
  - rewrite Z.lor_0_r. lia.
Qed.

Lemma cid_mask c : (Z.land c 1 =? 0) = negb (Z.testbit c 0) /\ (Z.land c 2 =? 0) = negb (Z.testbit c 1)
  /\ (Z.land c 4 =? 0) = negb (Z.testbit c 2).
Proof. repeat split; [apply (@land_pow2 c 0)|apply (@land_pow2 c 1)|apply (@land_pow2 c 2)]; lia. Qed.

Lemma init_loop_walk tet id L q : tree_path tet q -> zlen q = L -> id = num (CHILDREN tet) q ->
  forall n, (n <= length q)%nat ->
  let s := walk tet (firstn (length q - n) q) in
  init_loop tet id L n (L - Z.of_nat n + 1) (ty s) (sx s) (sy s) (sz s) = walk tet q.
Proof.
  intros H HL Hid. pose proof (CHILDREN_pos tet) as CP. pose proof (DIM_pos tet) as DP.
  induction n as [|n IH]; intros Hn; cbn zeta.
  - cbn [init_loop]. rewrite Nat.sub_0_r, firstn_all. rewrite <- HL, <- (walk_lv H). apply simp_eta.
  - cbn [init_loop].
    set (j := (length q - S n)%nat).
    assert (Hj : (j < length q)%nat) by lia.
    assert (EL : Z.land (Z.shiftr id (DIM tet * (L - (L - Z.of_nat (S n) + 1)))) (CHILDREN tet - 1) = nth j q 0).
    { rewrite land_children, Z.shiftr_div_pow2 by lia.
      replace (L - (L - Z.of_nat (S n) + 1)) with (Z.of_nat n) by lia.
      rewrite Z.mul_comm, children_pow by lia.
      assert (E2 := @num_firstn (CHILDREN tet) q (S j) CP (proj1 H)).
      assert (E3 : zlen q - zlen (firstn (S j) q) = Z.of_nat n) by (unfold zlen; rewrite firstn_length; lia).
      rewrite E3 in E2. rewrite Hid, <- E2, (@firstn_S _ 0) by auto. rewrite num_snoc.
      pose proof (tree_path_nth H Hj). rewrite Z.add_comm, Z.mod_add by lia. apply Z.mod_small. lia. }
    rewrite EL.
    assert (HF : tree_path tet (firstn (S j) q)) by now apply tree_path_firstn.
    assert (EF : firstn (S j) q = firstn j q ++ [nth j q 0]) by now apply firstn_S.
    assert (HF' : tree_path tet (firstn j q ++ [nth j q 0])) by (now rewrite <- EF).
    assert (ES := walk_step HF'). apply tree_path_snoc in HF'. destruct HF' as (HF0 & Hi & HFl).
    destruct (walk_wf HF0) as [[_ Ht Ax Ay Az _ _ _ _] WL].
    assert (Hzl : zlen (firstn j q) = Z.of_nat j) by (rewrite zlen_firstn; unfold zlen; lia).
    unfold zlen in HL. 
    set (s := walk tet (firstn j q)) in *. set (c := Tc tet (ty s) (nth j q 0)) in *.
    assert (K : MAXLEVEL tet - (L - Z.of_nat (S n) + 1) = MAXLEVEL tet - lv s - 1) by lia.
    rewrite K. assert (K1 : MAXLEVEL tet - lv s = MAXLEVEL tet - lv s - 1 + 1) by lia. rewrite K1 in Ax, Ay, Az.
    destruct (cid_mask c) as (M0 & M1 & M2).
    assert (HK : 0 <= MAXLEVEL tet - lv s - 1) by lia.
    rewrite (or_bit_add HK Ax M0), (or_bit_add HK Ay M1), (or_bit_add HK Az M2).
    specialize (IH ltac:(lia)). cbn zeta in IH.
    replace (length q - n)%nat with (S j) in IH by lia. rewrite EF, ES in IH.
    replace (L - Z.of_nat n + 1) with (L - Z.of_nat (S n) + 1 + 1) in IH by lia. exact IH.
Qed.

Lemma init_linear_id_num tet q : tree_path tet q -> init_linear_id tet (num (CHILDREN tet) q) (zlen q) = walk tet q.
Proof.
  intros H. unfold init_linear_id. assert (E := @init_loop_walk tet _ _ q H eq_refl eq_refl (length q) (le_n _)).
  cbn zeta in E. rewrite Nat.sub_diag in E. unfold zlen in *. rewrite Nat2Z.id.
  replace (Z.of_nat (length q) - Z.of_nat (length q) + 1) with 1 in E by lia. exact E.
Qed.

Lemma init_linear_id_walk tet id L : 0 <= L <= MAXLEVEL tet -> 0 <= id < CHILDREN tet ^ L ->
  tree_path tet (digits (CHILDREN tet) (Z.to_nat L) id) /\
  init_linear_id tet id L = walk tet (digits (CHILDREN tet) (Z.to_nat L) id).
Proof.
  intros HL Hid. pose proof (CHILDREN_pos tet) as CP. set (q := digits _ _ _).
  assert (Hq : tree_path tet q).
  { split; [now apply digits_valid|]. unfold zlen, q. rewrite digits_length. lia. }
  split; [exact Hq|]. rewrite <- (init_linear_id_num Hq). f_equal.
  - unfold q. symmetry. apply num_digits; auto. rewrite Z2Nat.id by lia. exact Hid.
  - unfold zlen, q. rewrite digits_length. lia.
Qed.

(** ** descendants *)
Lemma tree_path_pad tet p i n : tree_path tet p -> 0 <= i < CHILDREN tet -> zlen p + Z.of_nat n <= MAXLEVEL tet ->
  tree_path tet (p ++ repeat i n).
Proof. intros [H1 H2] Hi Hn. split; [apply valid_app; split; auto; now apply valid_repeat|]. rewrite zlen_app, zlen_repeat. lia. Qed.

Lemma first_descendant_walk tet p L : tree_path tet p -> zlen p <= L <= MAXLEVEL tet ->
  first_descendant tet (walk tet p) L = walk tet (p ++ repeat 0 (Z.to_nat (L - zlen p))).
Proof.
  intros H HL. pose proof (CHILDREN_pos tet) as CP. unfold first_descendant. rewrite linear_id_fine by (auto; lia).
  rewrite <- init_linear_id_num by (apply tree_path_pad; auto; lia).
  rewrite num_pad0, zlen_app, zlen_repeat. f_equal; [f_equal; f_equal; lia|lia].
Qed.

Lemma linear_id_last_desc_walk tet p L : tree_path tet p -> zlen p <= L <= MAXLEVEL tet ->
  linear_id_last_desc tet (walk tet p) L = num (CHILDREN tet) (p ++ repeat (CHILDREN tet - 1) (Z.to_nat (L - zlen p))).
Proof.
  intros H HL. pose proof (CHILDREN_pos tet) as CP. pose proof (DIM_pos tet). unfold linear_id_last_desc.
  rewrite (walk_lv H), linear_id_fine by (auto; lia). rewrite Z.sub_diag, Z.pow_0_r, Z.mul_1_r.
  rewrite shiftl1_pow by nia. 
  assert (0 < 2 ^ (DIM tet * (L - zlen p))) by (apply pow2_pos; nia).
  rewrite lor_low_shift by nia. rewrite num_app, num_repeat_last, zlen_repeat by lia.
  rewrite Z.mul_comm, children_pow by lia. rewrite Z2Nat.id by lia. lia.
Qed.

Lemma last_descendant_walk tet p L : tree_path tet p -> zlen p <= L <= MAXLEVEL tet ->
  last_descendant tet (walk tet p) L = walk tet (p ++ repeat (CHILDREN tet - 1) (Z.to_nat (L - zlen p))).
Proof.
  intros H HL. pose proof (CHILDREN_pos tet) as CP. unfold last_descendant. rewrite linear_id_last_desc_walk by auto.
  rewrite <- init_linear_id_num by (apply tree_path_pad; auto; lia).
  f_equal. rewrite zlen_app, zlen_repeat. lia.
Qed.

Lemma corner_loop_num tet c n it id : 0 <= c < CHILDREN tet -> 0 <= it -> 0 <= id < 2 ^ (DIM tet * it) ->
  corner_loop tet c n it id = id + 2 ^ (DIM tet * it) * num (CHILDREN tet) (repeat c n).
Proof.
  intros Hc. revert it id. pose proof (DIM_pos tet) as DP. induction n as [|n IH]; intros it id Hit Hid; cbn [corner_loop].
  - cbn [repeat]. rewrite num_nil. lia.
  - rewrite lor_low_shift by nia.
    assert (P : 0 < 2 ^ (DIM tet * it)) by (apply pow2_pos; nia).
    assert (PE : 2 ^ (DIM tet * (it + 1)) = CHILDREN tet * 2 ^ (DIM tet * it)).
    { replace (DIM tet * (it + 1)) with (DIM tet * it + DIM tet) by lia. rewrite CHILDREN_pow, Z.pow_add_r by nia. lia. }
    rewrite IH; [|lia|].
    + rewrite PE. cbn [repeat]. assert (E : num (CHILDREN tet) (c :: repeat c n) = num (CHILDREN tet) (repeat c n ++ [c])).
      { f_equal. apply repeat_cons. }
      rewrite E, num_snoc. lia.
    + rewrite PE. assert (c * 2 ^ (DIM tet * it) <= (CHILDREN tet - 1) * 2 ^ (DIM tet * it)) by (apply Z.mul_le_mono_nonneg_r; lia).
      assert (0 <= c * 2 ^ (DIM tet * it)) by (apply Z.mul_nonneg_nonneg; lia). lia.
Qed.

(** the descendant at corner c takes, at every level, the child whose Bey number is c *)
Lemma corner_descendant_walk tet p corner L : tree_path tet p -> zlen p <= L <= MAXLEVEL tet -> 0 <= corner < CORNERS tet ->
  corner_descendant tet (walk tet p) corner L =
  walk tet (p ++ repeat (parenttype_beyid_to_Iloc tet (ty (walk tet p)) corner) (Z.to_nat (L - zlen p))).
Proof.
  intros H HL Hc. pose proof (CHILDREN_pos tet) as CP. pose proof (DIM_pos tet) as DP. unfold corner_descendant.
  destruct (walk_wf H) as [W WL]. assert (Ht := wf_ty W).
  assert (T : parenttype_beyid_to_Iloc tet (ty (walk tet p)) 0 = 0 /\
              parenttype_beyid_to_Iloc tet (ty (walk tet p)) (DIM tet) = CHILDREN tet - 1 /\
              0 <= parenttype_beyid_to_Iloc tet (ty (walk tet p)) corner < CHILDREN tet).
  { generalize dependent (ty (walk tet p)). intros t Ht.
    destruct tet; cbn [NUM_TYPES CORNERS] in *; split_range Ht; split_range Hc; vm_compute; repeat split; discriminate. }
  destruct T as (T0 & TD & TR).
  destruct (Z.eqb_spec corner 0) as [->|]; [rewrite T0; now apply first_descendant_walk|].
  destruct (Z.eqb_spec corner (DIM tet)) as [->|]; [rewrite TD; now apply last_descendant_walk|].
  unfold linear_id_corner_desc. destruct (Z.eqb_spec corner 0); [lia|]. destruct (Z.eqb_spec corner (DIM tet)); [lia|].
  rewrite WL, linear_id_fine by (auto; lia). rewrite Z.sub_diag, Z.pow_0_r, Z.mul_1_r.
  clear T0 TD. set (c := parenttype_beyid_to_Iloc tet (ty (walk tet p)) corner) in *.
  rewrite corner_loop_num by (try lia; rewrite Z.mul_0_r; cbn; lia). rewrite Z.mul_0_r, Z.pow_0_r.
  assert (TP : tree_path tet (p ++ repeat c (Z.to_nat (L - zlen p)))) by (apply tree_path_pad; auto; lia).
  rewrite <- (init_linear_id_num TP).
  assert (V : valid_path (CHILDREN tet) (repeat c (Z.to_nat (L - zlen p)))) by now apply valid_repeat.
  pose proof (num_range CP V) as B. rewrite zlen_repeat, Z2Nat.id in B by lia.
  rewrite lor_low_shift.
  - rewrite num_app, zlen_app, zlen_repeat, Z2Nat.id by lia. rewrite (Z.mul_comm (DIM tet)), children_pow by lia.
    f_equal; lia.
  - nia.
  - rewrite (Z.mul_comm (DIM tet)), children_pow by lia. lia.
Qed.

(** ** ancestor ids *)
Lemma ancestor_id_walk tet p L : tree_path tet p -> 1 <= L <= zlen p ->
  ancestor_id tet (walk tet p) L = nth (Z.to_nat (L - 1)) p 0.
Proof.
  intros H HL. unfold ancestor_id. rewrite compute_type_walk by (auto; lia). unfold zlen in *.
  replace (Z.to_nat L) with (S (Z.to_nat (L - 1))) by lia.
  rewrite <- iloc_walk with (tet := tet) (p := p) by (auto; lia). do 2 f_equal. lia.
Qed.

(** Order, ancestry by linear id, successor of triangles and tetrahedra in terms of refinement paths. *)
From Verif Require Import Prelude PathSpec SimplexModel SimplexSpec BitLemmas SimplexProofs SimplexPathProofs.

Lemma linear_id_pad tet p (n : nat) : tree_path tet p -> (length p <= n)%nat ->
  linear_id tet (walk tet p) (Z.of_nat n) = num (CHILDREN tet) (p ++ repeat 0 (n - length p)).
Proof.
  intros H Hn. rewrite linear_id_fine by (auto; unfold zlen; lia). rewrite num_pad0. do 2 f_equal. unfold zlen. lia.
Qed.

Lemma compare_walk tet p q : tree_path tet p -> tree_path tet q ->
  (compare tet (walk tet p) (walk tet q) ?= 0) = path_cmp p q.
Proof.
  intros Hp Hq. unfold compare. rewrite (walk_lv Hp), (walk_lv Hq).
  set (n := Nat.max (length p) (length q)).
  assert (E : Z.max (zlen p) (zlen q) = Z.of_nat n) by (unfold zlen; lia). rewrite E.
  rewrite !linear_id_pad by (auto; lia).
  rewrite (@path_cmp_num_aux (CHILDREN tet) n p q); try apply Hp; try apply Hq; try apply CHILDREN_pos; try lia.
  destruct (Z.compare_spec (num (CHILDREN tet) (p ++ repeat 0 (n - length p))) (num (CHILDREN tet) (q ++ repeat 0 (n - length q)))) as [->|Hlt|Hgt].
  - rewrite Z.eqb_refl. destruct (Z.compare_spec (zlen p) (zlen q)); destruct (Z.compare_spec (zlen p - zlen q) 0); auto; lia.
  - destruct (Z.eqb_spec (num (CHILDREN tet) (p ++ repeat 0 (n - length p))) (num (CHILDREN tet) (q ++ repeat 0 (n - length q)))); [lia|].
    rewrite (proj2 (Z.ltb_lt _ _) Hlt). reflexivity.
  - destruct (Z.eqb_spec (num (CHILDREN tet) (p ++ repeat 0 (n - length p))) (num (CHILDREN tet) (q ++ repeat 0 (n - length q)))); [lia|].
    destruct (Z.ltb_spec (num (CHILDREN tet) (p ++ repeat 0 (n - length p))) (num (CHILDREN tet) (q ++ repeat 0 (n - length q)))); [lia|reflexivity].
Qed.

Lemma walk_inj tet p q : tree_path tet p -> tree_path tet q -> walk tet p = walk tet q -> p = q.
Proof.
  intros Hp Hq E. assert (L : zlen p = zlen q) by (rewrite <- (walk_lv Hp), <- (walk_lv Hq); congruence).
  apply (@num_inj (CHILDREN tet)); try apply Hp; try apply Hq; [apply CHILDREN_pos|unfold zlen in L; lia|].
  assert (E1 := linear_id_fine Hp (Z.le_refl _)). assert (E2 := linear_id_fine Hq (Z.le_refl _)).
  rewrite Z.sub_diag, Z.pow_0_r, Z.mul_1_r in *. rewrite <- E1, <- E2, E, L. reflexivity.
Qed.

Lemma equal_iff tet a b : wf tet a -> wf tet b -> equal tet a b = true <-> a = b.
Proof.
  intros Wa Wb. unfold equal. split.
  - intros H. destruct a as [l t x y z], b as [l' t' x' y' z']. cbn in *.
    assert (z = z').
    { destruct tet; [lia|]. pose proof (wf_z0 Wa eq_refl). pose proof (wf_z0 Wb eq_refl). cbn in *. congruence. }
    f_equal; lia.
  - intros ->. rewrite !Z.eqb_refl. destruct tet; cbn; auto.
Qed.

Lemma element_is_ancestor_walk tet p q : tree_path tet p -> tree_path tet q ->
  element_is_ancestor tet (walk tet p) (walk tet q) = true <-> prefix p q.
Proof.
  intros Hp Hq. unfold element_is_ancestor. rewrite (walk_lv Hp), (walk_lv Hq), prefix_firstn. unfold zlen.
  destruct (Z.ltb_spec (Z.of_nat (length q)) (Z.of_nat (length p))) as [Hlt|Hge].
  - split; [discriminate|lia].
  - rewrite linear_id_coarse by (auto; unfold zlen; lia). rewrite linear_id_coarse by (auto; unfold zlen; lia).
    rewrite !Nat2Z.id, firstn_all. rewrite Z.eqb_eq. split.
    + intros E. split; [lia|]. apply (@num_inj (CHILDREN tet)); try apply Hp; try apply CHILDREN_pos; auto.
      * apply valid_firstn, Hq.
      * rewrite firstn_length. lia.
    + intros [_ E]. now rewrite E.
Qed.

(** ** successor *)
Lemma land_pow2_val v k : 0 <= k -> Z.land v (2 ^ k) = Z.b2z (Z.testbit v k) * 2 ^ k.
Proof.
  intros Hk. apply Z.bits_inj'. intros n Hn. rewrite Z.land_spec, Z.pow2_bits_eqb by lia.
  destruct (Z.eqb_spec k n) as [->|Hne].
  - rewrite andb_true_r. destruct (Z.testbit v n) eqn:E; cbn [Z.b2z]; rewrite ?Z.mul_0_l, ?Z.bits_0, ?Z.mul_1_l; auto.
    now rewrite Z.pow2_bits_true.
  - rewrite andb_false_r. destruct (Z.testbit v k); cbn [Z.b2z]; rewrite ?Z.mul_0_l, ?Z.bits_0, ?Z.mul_1_l; auto.
    now rewrite Z.pow2_bits_false.
Qed.
Lemma clear_val v k : 0 <= k -> clear v (2 ^ k) = v - Z.b2z (Z.testbit v k) * 2 ^ k.
Proof.
  intros Hk. unfold clear. rewrite <- Z.ldiff_land. rewrite <- land_pow2_val by lia.
  assert (E : Z.lor (Z.ldiff v (2 ^ k)) (Z.land v (2 ^ k)) = v) by apply Z.lor_ldiff_and.
  rewrite lor_add_disjoint in E; [lia|].
  apply Z.bits_inj'. intros n Hn. rewrite !Z.land_spec, Z.ldiff_spec, Z.bits_0.
  destruct (Z.testbit v n), (Z.testbit (2 ^ k) n); reflexivity.
Qed.
Lemma lor_pow_val v k : 0 <= k -> Z.lor v (2 ^ k) = v + (1 - Z.b2z (Z.testbit v k)) * 2 ^ k.
Proof.
  intros Hk. assert (E : Z.lor v (2 ^ k) = Z.lor (clear v (2 ^ k)) (2 ^ k)).
  { apply Z.bits_inj'. intros n Hn. rewrite !Z.lor_spec, clear_pow_bits, Z.pow2_bits_eqb by lia.
    rewrite (Z.eqb_sym k n). destruct (Z.testbit v n), (n =? k); reflexivity. }
  rewrite E, lor_add_disjoint; [rewrite clear_val by lia|].
  - lia.
  - apply Z.bits_inj'. intros n Hn. rewrite !Z.land_spec, clear_pow_bits, Z.pow2_bits_eqb, Z.bits_0 by lia.
    rewrite (Z.eqb_sym k n). destruct (Z.testbit v n), (n =? k); reflexivity.
Qed.

Lemma tb_mid k a b r : 0 <= k -> al (k + 1) a -> 0 <= r < 2 ^ k -> Z.testbit (a + Z.b2z b * 2 ^ k + r) k = b.
Proof.
  intros Hk Ha Hr. rewrite testbit_div by lia. pose proof (pow2_pos Hk). destruct Ha as (q & ->). rewrite pow2_S by lia.
  replace (q * (2 * 2 ^ k) + Z.b2z b * 2 ^ k + r) with ((2 * q + Z.b2z b) * 2 ^ k + r) by lia.
  rewrite Z.div_add_l, (Z.div_small r) by lia. rewrite Z.add_0_r, Z.odd_add, Z.odd_mul. destruct b; reflexivity.
Qed.

Lemma set_bit_val k a b r c m b' : 0 <= k -> al (k + 1) a -> 0 <= r < 2 ^ k -> (Z.land c m =? 0) = negb b' ->
  set_bit (a + Z.b2z b * 2 ^ k + r) c m k = a + Z.b2z b' * 2 ^ k + r.
Proof.
  intros Hk Ha Hr Hc. unfold set_bit. rewrite Hc, shiftl1_pow by lia. destruct b'; cbn [negb].
  - rewrite lor_pow_val, tb_mid by auto. destruct b; cbn [Z.b2z]; lia.
  - rewrite clear_val, tb_mid by auto. destruct b; cbn [Z.b2z]; lia.
Qed.

(** the next path of the same length *)
Definition next_path (N : Z) (p : list Z) : list Z := digits N (length p) (num N p + 1).
Lemma next_path_length N p : length (next_path N p) = length p.
Proof. apply digits_length. Qed.
Lemma next_path_snoc_in N p i : 0 < N -> valid_path N (p ++ [i]) -> i + 1 < N -> next_path N (p ++ [i]) = p ++ [i + 1].
Proof.
  intros HN Hv Hi. assert (V : valid_path N (p ++ [i + 1])).
  { apply valid_app in Hv. apply valid_app. destruct Hv as [H1 H2]. inversion H2; subst. split; auto. constructor; auto. lia. }
  rewrite <- (digits_num HN V). unfold next_path. rewrite !app_length. cbn [length]. f_equal. rewrite !num_snoc. lia.
Qed.
Lemma next_path_snoc_wrap N p : 0 < N -> valid_path N p -> num N p + 1 < N ^ zlen p ->
  next_path N (p ++ [N - 1]) = next_path N p ++ [0].
Proof.
  intros HN Hv Hb. assert (V : valid_path N (next_path N p ++ [0])).
  { apply valid_app. split; [now apply digits_valid|]. constructor; auto. lia. }
  rewrite <- (digits_num HN V). unfold next_path at 1. rewrite !app_length, next_path_length. cbn [length]. f_equal.
  rewrite !num_snoc. unfold next_path. rewrite num_digits; [lia|lia|]. pose proof (num_range HN Hv). unfold zlen in *. lia.
Qed.

(** coordinates of a walk split at level j: the part of the ancestor plus a remainder smaller than its length *)
Definition low (tet : bool) (f : simp -> Z) (p : list Z) (j : nat) : Z := f (walk tet p) - f (walk tet (firstn j p)).

Definition coordfn (tet : bool) (f : simp -> Z) (b : Z) : Prop :=
  (forall e t c, f (step tet e t c) = f e + Z.b2z (Z.testbit c b) * 2 ^ (MAXLEVEL tet - lv e - 1)) /\
  (forall e, wf tet e -> al (MAXLEVEL tet - lv e) (f e)).
Lemma coordfn_x tet : coordfn tet sx 0. Proof. split; [reflexivity|]. intros e W; apply W. Qed.
Lemma coordfn_y tet : coordfn tet sy 1. Proof. split; [reflexivity|]. intros e W; apply W. Qed.
Lemma coordfn_z : coordfn true sz 2. Proof. split; [reflexivity|]. intros e W; apply W. Qed.

Lemma low_range tet f b p j : coordfn tet f b -> tree_path tet p -> (j <= length p)%nat ->
  0 <= low tet f p j <= 2 ^ (MAXLEVEL tet - Z.of_nat j) - 2 ^ (MAXLEVEL tet - zlen p).
Proof.
  intros [F1 F2]. induction p as [|i p IH] using rev_ind; intros H Hj.
  - unfold low. cbn in *. destruct j; [|lia]. cbn. unfold zlen; cbn. lia.
  - rewrite app_length in Hj. cbn in Hj. assert (HS := walk_step H).
    assert (H' := H). apply tree_path_snoc in H'. destruct H' as (H0 & Hi & Hl). destruct (walk_wf H0) as [W WL].
    destruct (Nat.eq_dec j (length p + 1)) as [->|Hne].
    + unfold low. rewrite firstn_all2 by (rewrite app_length; cbn; lia). rewrite zlen_app. unfold zlen. cbn. lia.
    + unfold low. rewrite firstn_app. replace (j - length p)%nat with O by lia. rewrite app_nil_r.
      rewrite HS, F1. specialize (IH H0 ltac:(lia)). unfold low in IH. rewrite WL, zlen_app. unfold zlen in *. cbn [length].
      assert (E : 2 ^ (MAXLEVEL tet - Z.of_nat (length p)) = 2 * 2 ^ (MAXLEVEL tet - Z.of_nat (length p) - 1)).
      { rewrite <- pow2_S by lia. f_equal. lia. }
      replace (MAXLEVEL tet - (Z.of_nat (length p) + Z.of_nat 1)) with (MAXLEVEL tet - Z.of_nat (length p) - 1) by lia.
      pose proof (@pow2_pos (MAXLEVEL tet - Z.of_nat (length p) - 1) ltac:(lia)).
      destruct (Z.testbit _ b); cbn [Z.b2z]; lia.
Qed.

Lemma low_S tet f b p j : coordfn tet f b -> tree_path tet p -> (j < length p)%nat ->
  low tet f p j = Z.b2z (Z.testbit (Tc tet (ty (walk tet (firstn j p))) (nth j p 0)) b) * 2 ^ (MAXLEVEL tet - Z.of_nat (S j))
                  + low tet f p (S j).
Proof.
  intros [F1 F2] H Hj. unfold low.
  assert (H' : tree_path tet (firstn j p ++ [nth j p 0])) by (rewrite <- firstn_S by auto; now apply tree_path_firstn).
  rewrite (@firstn_S _ 0 p j) by auto. rewrite (walk_step H'), F1.
  apply tree_path_snoc in H'. rewrite (walk_lv (proj1 H')). rewrite zlen_firstn. unfold zlen.
  replace (Z.min (Z.of_nat j) (Z.of_nat (length p))) with (Z.of_nat j) by lia.
  replace (MAXLEVEL tet - Z.of_nat j - 1) with (MAXLEVEL tet - Z.of_nat (S j)) by lia. lia.
Qed.

(** setting bit [b] of coordinate f at level j+1 to that of child number i of an element of type t *)
Lemma set_bit_level tet f b p j m i a t : coordfn tet f b -> 0 <= b -> m = 2 ^ b -> tree_path tet p -> (j < length p)%nat ->
  al (MAXLEVEL tet - Z.of_nat j) a ->
  set_bit (a + low tet f p j) (Tc tet t i) m (MAXLEVEL tet - Z.of_nat (S j)) =
  a + Z.b2z (Z.testbit (Tc tet t i) b) * 2 ^ (MAXLEVEL tet - Z.of_nat (S j)) + low tet f p (S j).
Proof.
  intros F Hb -> H Hj Ha. assert (HL : zlen p <= MAXLEVEL tet) by apply H. unfold zlen in HL.
  rewrite (low_S F H Hj), Z.add_assoc. apply set_bit_val; [lia| | |].
  - replace (MAXLEVEL tet - Z.of_nat (S j) + 1) with (MAXLEVEL tet - Z.of_nat j) by lia. exact Ha.
  - pose proof (low_range F H (j:=S j) Hj). pose proof (@pow2_pos (MAXLEVEL tet - zlen p) ltac:(unfold zlen; lia)). lia.
  - apply land_pow2; auto.
Qed.

Lemma tree_path_next tet p : tree_path tet p -> tree_path tet (next_path (CHILDREN tet) p).
Proof.
  intros [H1 H2]. split; [apply digits_valid, CHILDREN_pos|]. unfold zlen in *. now rewrite next_path_length.
Qed.

(** one level: if s' agrees with the next element at level j, the update at level j+1 yields child i of it *)
Lemma succ_level tet p j i q s' : tree_path tet p -> (j < length p)%nat -> tree_path tet (q ++ [i]) -> length q = j ->
  sx s' = sx (walk tet q) + low tet sx p j -> sy s' = sy (walk tet q) + low tet sy p j ->
  (if tet then sz s' = sz (walk tet q) + low tet sz p j else sz s' = sz (walk tet p)) ->
  let c := Tc tet (ty (walk tet q)) i in
  let o := MAXLEVEL tet - Z.of_nat (S j) in
  set_bit (sx s') c 1 o = sx (walk tet (q ++ [i])) + low tet sx p (S j) /\
  set_bit (sy s') c 2 o = sy (walk tet (q ++ [i])) + low tet sy p (S j) /\
  (if tet then set_bit (sz s') c 4 o = sz (walk tet (q ++ [i])) + low tet sz p (S j) else sz s' = sz (walk tet p)).
Proof.
  intros H Hj Hq Lq Ex Ey Ez c o. assert (Q := Hq). apply tree_path_snoc in Q. destruct Q as (Q & Hi & Hl).
  destruct (walk_wf Q) as [W WL]. unfold zlen in WL, Hl.
  assert (Eo : MAXLEVEL tet - lv (walk tet q) - 1 = o) by (unfold o; lia).
  assert (A : forall f b, coordfn tet f b -> al (MAXLEVEL tet - Z.of_nat j) (f (walk tet q))).
  { intros f b F. rewrite <- Lq, <- WL. apply F, W. }
  rewrite (walk_step Hq). repeat split.
  - rewrite Ex. unfold c, o. rewrite (@set_bit_level tet sx 0) by (auto using coordfn_x, Z.le_refl; eapply A, coordfn_x).
    rewrite (proj1 (coordfn_x tet)), Eo. reflexivity.
  - rewrite Ey. unfold c, o. rewrite (@set_bit_level tet sy 1); auto using coordfn_y; [|lia|eapply A, coordfn_y].
    rewrite (proj1 (coordfn_y tet)), Eo. reflexivity.
  - destruct tet; auto. rewrite Ez. unfold c, o. rewrite (@set_bit_level true sz 2); auto using coordfn_z; [|lia|eapply A, coordfn_z].
    rewrite (proj1 coordfn_z), Eo. reflexivity.
Qed.

Lemma succ_rec tet p j : tree_path tet p -> (j <= length p)%nat ->
  num (CHILDREN tet) (firstn j p) + 1 < CHILDREN tet ^ Z.of_nat j ->
  exists s, succ_pred_recursion tet (walk tet p) (walk tet p) j 1 = Ok s /\
    let q := walk tet (next_path (CHILDREN tet) (firstn j p)) in
    lv s = Z.of_nat j /\ ty s = ty q /\
    sx s = sx q + low tet sx p j /\ sy s = sy q + low tet sy p j /\
    (if tet then sz s = sz q + low tet sz p j else sz s = sz (walk tet p)).
Proof.
  intros H. pose proof (CHILDREN_pos tet) as CP.
  induction j as [|j IH]; intros Hj Hb; [cbn in Hb; lia|].
  cbn [succ_pred_recursion]. change (1 =? 0) with false. cbv iota.
  rewrite compute_type_walk by (auto; unfold zlen; lia). rewrite Nat2Z.id.
  rewrite iloc_walk by auto. assert (Hd := tree_path_nth H Hj).
  assert (Ef := @firstn_S _ 0 p j Hj).
  assert (HT : tree_path tet (firstn (S j) p)) by now apply tree_path_firstn.
  assert (HTj : tree_path tet (firstn j p)) by now apply tree_path_firstn.
  assert (Lj : length (firstn j p) = j) by (rewrite firstn_length; lia).
  set (d := nth j p 0) in *.
  destruct (Z.eq_dec d (CHILDREN tet - 1)) as [Ed|Ed].
  - assert (Em : (d + CHILDREN tet + 1) mod CHILDREN tet = 0).
    { rewrite Ed. replace (CHILDREN tet - 1 + CHILDREN tet + 1) with (2 * CHILDREN tet) by lia. apply Z.mod_mul. lia. }
    rewrite Em. change (0 =? 0) with true. cbv iota.
    assert (Hb' : num (CHILDREN tet) (firstn j p) + 1 < CHILDREN tet ^ Z.of_nat j).
    { rewrite Ef, num_snoc in Hb. rewrite Nat2Z.inj_succ, Z.pow_succ_r in Hb by lia. nia. }
    destruct (IH ltac:(lia) Hb') as (s' & Es & Hl & Ht & Hx & Hy & Hz).
    change (if 1 <? 0 then -1 else 1) with 1. rewrite Es. cbn [obind]. eexists. split; [reflexivity|].
    set (q := next_path (CHILDREN tet) (firstn j p)) in *.
    assert (En : next_path (CHILDREN tet) (firstn (S j) p) = q ++ [0]).
    { rewrite Ef, Ed. apply next_path_snoc_wrap; auto; [apply HTj|]. unfold zlen. rewrite Lj. exact Hb'. }
    assert (HQ : tree_path tet (q ++ [0])) by (rewrite <- En; now apply tree_path_next).
    rewrite En, Ht. cbn [lv ty sx sy sz]. split; [reflexivity|]. split.
    { rewrite (walk_step HQ). reflexivity. }
    assert (Lq : length q = j) by (unfold q; rewrite next_path_length; exact Lj).
    destruct (succ_level H Hj HQ Lq Hx Hy Hz) as (A1 & A2 & A3).
    split; [exact A1|]. split; [exact A2|]. destruct tet; [exact A3|exact Hz].
  - assert (Em : (d + CHILDREN tet + 1) mod CHILDREN tet = d + 1).
    { replace (d + CHILDREN tet + 1) with ((d + 1) + 1 * CHILDREN tet) by lia. rewrite Z.mod_add by lia. apply Z.mod_small. lia. }
    rewrite Em. destruct (Z.eqb_spec (d + 1) 0); [lia|]. cbn [obind]. eexists. split; [reflexivity|].
    rewrite parenttype_walk by auto.
    assert (En : next_path (CHILDREN tet) (firstn (S j) p) = firstn j p ++ [d + 1]).
    { rewrite Ef. apply next_path_snoc_in; try lia. rewrite <- Ef. apply HT. }
    assert (HQ : tree_path tet (firstn j p ++ [d + 1])) by (rewrite <- En; now apply tree_path_next).
    rewrite En. cbn [lv ty sx sy sz]. split; [reflexivity|]. split.
    { rewrite (walk_step HQ). reflexivity. }
    assert (Hz : if tet then sz (walk tet p) = sz (walk tet (firstn j p)) + low tet sz p j else sz (walk tet p) = sz (walk tet p)).
    { unfold low. destruct tet; lia. }
    destruct (@succ_level tet p j (d + 1) (firstn j p) (walk tet p) H Hj HQ Lj) as (A1 & A2 & A3).
    { unfold low. lia. } { unfold low. lia. } { exact Hz. }
    split; [exact A1|]. split; [exact A2|]. destruct tet; [exact A3|reflexivity].
Qed.

Lemma low_full tet f p : low tet f p (length p) = 0.
Proof. unfold low. rewrite firstn_all. lia. Qed.

Lemma successor_walk tet p : tree_path tet p -> num (CHILDREN tet) p + 1 < CHILDREN tet ^ zlen p ->
  successor tet (walk tet p) (zlen p) = Ok (walk tet (next_path (CHILDREN tet) p)).
Proof.
  intros H Hb. unfold successor, zlen. rewrite Nat2Z.id.
  destruct (@succ_rec tet p (length p) H (le_n _)) as (s & Es & Hl & Ht & Hx & Hy & Hz).
  { rewrite firstn_all. exact Hb. }
  rewrite Es. f_equal. rewrite firstn_all in *. rewrite !low_full, !Z.add_0_r in *.
  assert (HQ := tree_path_next H). destruct (walk_wf HQ) as [W WL]. destruct (walk_wf H) as [W' _].
  assert (Ez : sz s = sz (walk tet (next_path (CHILDREN tet) p))).
  { destruct tet; [exact Hz|]. rewrite Hz. rewrite (wf_z0 W eq_refl), (wf_z0 W' eq_refl). reflexivity. }
  unfold zlen in WL. rewrite next_path_length in WL. rewrite <- Hl in WL.
  destruct s, (walk tet (next_path (CHILDREN tet) p)). cbn in *. congruence.
Qed.

(** the last element of its level has no successor: the assertion on the level fails *)
Lemma succ_rec_last tet p j : tree_path tet p -> (j <= length p)%nat ->
  num (CHILDREN tet) (firstn j p) + 1 = CHILDREN tet ^ Z.of_nat j ->
  succ_pred_recursion tet (walk tet p) (walk tet p) j 1 = AssertFail.
Proof.
  intros H. pose proof (CHILDREN_pos tet) as CP.
  induction j as [|j IH]; intros Hj Hb; [reflexivity|].
  cbn [succ_pred_recursion]. change (1 =? 0) with false. cbv iota.
  rewrite compute_type_walk by (auto; unfold zlen; lia). rewrite Nat2Z.id.
  rewrite iloc_walk by auto. assert (Hd := tree_path_nth H Hj).
  rewrite (@firstn_S _ 0 p j Hj), num_snoc in Hb. rewrite Nat2Z.inj_succ, Z.pow_succ_r in Hb by lia.
  assert (HTj : tree_path tet (firstn j p)) by now apply tree_path_firstn.
  assert (R := num_range CP (proj1 HTj)). unfold zlen in R. rewrite firstn_length in R.
  replace (Nat.min j (length p)) with j in R by lia.
  assert (E : num (CHILDREN tet) (firstn j p) + 1 = CHILDREN tet ^ Z.of_nat j) by nia.
  assert (Ed : nth j p 0 = CHILDREN tet - 1) by nia. rewrite Ed.
  assert (Em : (CHILDREN tet - 1 + CHILDREN tet + 1) mod CHILDREN tet = 0).
  { replace (CHILDREN tet - 1 + CHILDREN tet + 1) with (2 * CHILDREN tet) by lia. apply Z.mod_mul. lia. }
  rewrite Em. change (0 =? 0) with true. cbv iota. change (if 1 <? 0 then -1 else 1) with 1.
  rewrite IH by (auto; lia). reflexivity.
Qed.
Lemma successor_last tet p : tree_path tet p -> num (CHILDREN tet) p + 1 = CHILDREN tet ^ zlen p ->
  successor tet (walk tet p) (zlen p) = AssertFail.
Proof. intros H Hb. unfold successor, zlen in *. rewrite Nat2Z.id. apply succ_rec_last; auto. now rewrite firstn_all. Qed.

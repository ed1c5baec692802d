(** Prisms in terms of refinement paths: everything follows from the line and from the triangle. *)
From Verif Require Import Prelude PathSpec BitLemmas SimplexModel SimplexSpec SimplexProofs SimplexPathProofs SimplexOrderProofs SimplexAncProofs SimplexFamilyProofs.
From Verif Require Import LineModel LineSpec LineProofs PrismModel PrismSpec.

(** the path of the line and of the triangle of a prism *)
Definition lpart (p : list Z) : list Z := map (fun i => i / 4) p.
Definition tpart (p : list Z) : list Z := map (fun i => i mod 4) p.
Lemma lpart_len p : zlen (lpart p) = zlen p. Proof. unfold zlen, lpart. now rewrite map_length. Qed.
Lemma tpart_len p : zlen (tpart p) = zlen p. Proof. unfold zlen, tpart. now rewrite map_length. Qed.
Lemma lpart_app p q : lpart (p ++ q) = lpart p ++ lpart q. Proof. apply map_app. Qed.
Lemma tpart_app p q : tpart (p ++ q) = tpart p ++ tpart q. Proof. apply map_app. Qed.
Lemma lpart_firstn p n : lpart (firstn n p) = firstn n (lpart p). Proof. symmetry. apply firstn_map. Qed.
Lemma tpart_firstn p n : tpart (firstn n p) = firstn n (tpart p). Proof. symmetry. apply firstn_map. Qed.

Lemma p_walk_snoc p i : p_walk (p ++ [i]) = p_child (p_walk p) i.
Proof. unfold p_walk. now rewrite fold_left_app. Qed.
Lemma p_walk_eq p : p_walk p = Prism (l_walk (lpart p)) (walk false (tpart p)).
Proof.
  induction p as [|i p IH] using rev_ind; [reflexivity|].
  rewrite p_walk_snoc, IH, lpart_app, tpart_app. cbn [lpart tpart map]. rewrite l_child_walk, walk_snoc. reflexivity.
Qed.
Lemma p_path_snoc p i : p_path (p ++ [i]) <-> p_path p /\ 0 <= i < 8 /\ zlen p < PMAX.
Proof.
  unfold p_path. rewrite valid_app, zlen_app. change (zlen [i]) with 1. split.
  - intros [[H1 H2] H3]. inversion H2; subst. repeat split; auto; lia.
  - intros [[H1 H2] [H3 H4]]. repeat split; auto; [constructor; auto; constructor|lia].
Qed.
Lemma p_path_firstn p n : p_path p -> p_path (firstn n p).
Proof. intros [V L]. split; [now apply valid_firstn|]. rewrite zlen_firstn. lia. Qed.
Lemma lpart_valid p : valid_path 8 p -> valid_path 2 (lpart p).
Proof. intros V. unfold valid_path, lpart. apply Forall_map. eapply Forall_impl; [|exact V]. cbn. lia. Qed.
Lemma tpart_valid p : valid_path 4 (tpart p).
Proof. unfold valid_path, tpart. apply Forall_map. apply Forall_forall. intros x _. lia. Qed.
Lemma p_l_path p : p_path p -> l_path (lpart p).
Proof. intros [V L]. split; [now apply lpart_valid|]. rewrite lpart_len. change PMAX with 21 in L. change LMAX with 30. lia. Qed.
Lemma p_t_path p : p_path p -> tree_path false (tpart p).
Proof. intros [V L]. split; [apply tpart_valid|]. rewrite tpart_len. change PMAX with 21 in L. change (MAXLEVEL false) with 29. lia. Qed.
Lemma parts_inj p q : lpart p = lpart q -> tpart p = tpart q -> p = q.
Proof.
  revert q. induction p as [|i p IH]; intros [|j q] H1 H2; cbn in *; try discriminate; auto.
  injection H1 as H1 H1'. injection H2 as H2 H2'. f_equal; [|now apply IH]. lia.
Qed.

(** levels, equality, parents *)
Lemma p_walk_level p : p_path p -> p_level (p_walk p) = zlen p.
Proof. intros H. rewrite p_walk_eq. unfold p_level. cbn [pline]. rewrite (proj2 (l_walk_wf (p_l_path H))). apply lpart_len. Qed.
Lemma p_walk_inj p q : p_path p -> p_path q -> p_walk p = p_walk q -> p = q.
Proof.
  intros Hp Hq E. rewrite !p_walk_eq in E. injection E as E1 E2. apply parts_inj.
  - apply l_walk_inj; auto using p_l_path.
  - apply (@walk_inj false); auto using p_t_path.
Qed.
Lemma p_equal_walk p q : p_path p -> p_path q -> p_equal (p_walk p) (p_walk q) = true <-> p = q.
Proof.
  intros Hp Hq. split.
  - intros H. apply p_walk_inj; auto. rewrite !p_walk_eq in *. unfold p_equal in H. cbn [pline ptri] in H.
    apply andb_prop in H. destruct H as [H1 H2]. apply equal_iff in H2; [|apply walk_wf; auto using p_t_path..].
    f_equal; auto. unfold l_equal in H1. destruct (l_walk (lpart p)), (l_walk (lpart q)). cbn in H1. f_equal; lia.
  - intros ->. unfold p_equal, l_equal. rewrite !Z.eqb_refl. cbn [andb]. apply equal_iff; auto; rewrite p_walk_eq; apply walk_wf; auto using p_t_path.
Qed.
Lemma p_child_facts p i : p_path (p ++ [i]) ->
  p_parent (p_walk (p ++ [i])) = p_walk p /\ p_child_id (p_walk (p ++ [i])) = i.
Proof.
  intros H. apply p_path_snoc in H. destruct H as (H & Hi & HL). rewrite p_walk_snoc, p_walk_eq. unfold p_parent, p_child_id, p_child. cbn [pline ptri].
  destruct (l_walk_wf (p_l_path H)) as [LW LL]. destruct (walk_wf (p_t_path H)) as [TW TL]. rewrite lpart_len in LL. rewrite tpart_len in TL.
  change PMAX with 21 in HL.
  destruct (@l_parent_child _ (i / 4) LW) as (_ & A & B & _); [rewrite LL; change LMAX with 30; lia|lia|].
  rewrite A, B, parent_child, child_id_child; auto; try (rewrite TL; change (MAXLEVEL false) with 29; lia); try (change (CHILDREN false) with 4; lia).
  split; auto. lia.
Qed.

(** linear ids *)
Lemma num_parts p : num 8 p = num 8 (tpart p) + 4 * num 8 (lpart p).
Proof.
  induction p as [|i p IH] using rev_ind; [reflexivity|]. rewrite lpart_app, tpart_app. cbn [lpart tpart map].
  rewrite !num_snoc, IH. lia.
Qed.
Lemma p_tri_part_num q s id : valid_path 4 q -> p_tri_part (length q) (num 4 q) s id = id + s * num 8 q.
Proof.
  revert s id. induction q as [|i q IH] using rev_ind; intros s id V; [cbn; lia|].
  apply valid_app in V. destruct V as [V Vi]. inversion Vi; subst.
  rewrite app_length. cbn [length]. rewrite Nat.add_comm. cbn [Nat.add p_tri_part]. rewrite !num_snoc.
  replace ((num 4 q * 4 + i) / 4) with (num 4 q) by lia. replace ((num 4 q * 4 + i) mod 4) with i by lia.
  rewrite IH by auto. lia.
Qed.
Lemma p_line_part_num c r id : valid_path 2 r ->
  p_line_part (length r) (num 2 r) (2 ^ (zlen r - 1)) (c * 8 ^ (zlen r - 1)) id = id + c * num 8 r.
Proof.
  revert id. induction r as [|i r IH]; intros id V; [cbn; lia|]. inversion V; subst.
  cbn [length p_line_part]. rewrite !num_cons. replace (zlen (i :: r) - 1) with (zlen r) by (unfold zlen; cbn [length]; lia).
  assert (R := num_range (N:=2) ltac:(lia) H2).
  assert (P : 0 < 2 ^ zlen r) by (apply pow2_pos, zlen_nonneg).
  replace ((i * 2 ^ zlen r + num 2 r) / 2 ^ zlen r) with i by (rewrite Z.div_add_l, Z.div_small by lia; lia).
  replace ((i * 2 ^ zlen r + num 2 r) mod 2 ^ zlen r) with (num 2 r) by (rewrite Z.add_comm, Z.mod_add, Z.mod_small by lia; lia).
  destruct r as [|j r].
  - cbn. lia.
  - assert (Z1 : zlen (j :: r) = zlen r + 1) by (unfold zlen; cbn [length]; lia). pose proof (zlen_nonneg r).
    replace (2 ^ zlen (j :: r) / 2) with (2 ^ (zlen (j :: r) - 1)).
    2:{ rewrite Z1, Z.add_simpl_r, pow2_S by lia. rewrite (Z.mul_comm 2), Z.div_mul; lia. }
    replace (c * 8 ^ zlen (j :: r) / 8) with (c * 8 ^ (zlen (j :: r) - 1)).
    2:{ rewrite Z1, Z.add_simpl_r, (Z.pow_add_r 8) by lia. change (8 ^ 1) with 8. rewrite Z.mul_assoc, Z.div_mul; lia. }
    rewrite IH by auto. lia.
Qed.
Lemma p_ids q : valid_path 8 q -> 0 < zlen q ->
  p_line_part (Z.to_nat (zlen q)) (num 2 (lpart q)) (2 ^ (zlen q - 1)) (8 / 2 * 8 ^ (zlen q - 1))
    (p_tri_part (Z.to_nat (zlen q)) (num 4 (tpart q)) 1 0) = num 8 q.
Proof.
  intros V L. replace (Z.to_nat (zlen q)) with (length (lpart q)) at 1 by (unfold lpart, zlen; rewrite map_length; lia).
  replace (Z.to_nat (zlen q)) with (length (tpart q)) by (unfold tpart, zlen; rewrite map_length; lia).
  rewrite p_tri_part_num by apply tpart_valid. rewrite <- (lpart_len q). change (8 / 2) with 4. rewrite p_line_part_num by now apply lpart_valid.
  rewrite (num_parts q). lia.
Qed.
Lemma p_linear_id_coarse p L : p_path p -> 0 <= L <= zlen p -> p_linear_id (p_walk p) L = num 8 (firstn (Z.to_nat L) p).
Proof.
  intros H HL. unfold p_linear_id. destruct (Z.eqb_spec L 0) as [->|N]; [reflexivity|]. rewrite p_walk_eq. cbn [pline ptri].
  rewrite l_linear_id_coarse by (auto using p_l_path; rewrite lpart_len; lia).
  rewrite linear_id_coarse by (auto using p_t_path; rewrite tpart_len; lia). rewrite <- lpart_firstn, <- tpart_firstn.
  change (CHILDREN false) with 4.
  assert (E : zlen (firstn (Z.to_nat L) p) = L) by (rewrite zlen_firstn; lia).
  rewrite <- (@p_ids (firstn (Z.to_nat L) p)) by (try lia; apply valid_firstn, H). now rewrite E.
Qed.
Lemma repeat_parts i n : lpart (repeat i n) = repeat (i / 4) n /\ tpart (repeat i n) = repeat (i mod 4) n.
Proof. induction n as [|n [IH1 IH2]]; [auto|]. cbn [repeat lpart tpart map]. unfold lpart, tpart in IH1, IH2. now rewrite IH1, IH2. Qed.
Lemma p_linear_id_pad p L : p_path p -> zlen p <= L <= PMAX ->
  p_linear_id (p_walk p) L = num 8 (p ++ repeat 0 (Z.to_nat (L - zlen p))).
Proof.
  intros H HL. pose proof (zlen_nonneg p). unfold p_linear_id. change PMAX with 21 in HL. set (q := p ++ repeat 0 (Z.to_nat (L - zlen p))).
  assert (EQ : zlen q = L) by (unfold q; rewrite zlen_app, zlen_repeat; lia).
  destruct (Z.eqb_spec L 0) as [->|N].
  { destruct q; [reflexivity|]. unfold zlen in EQ. cbn in EQ. lia. }
  rewrite p_walk_eq. cbn [pline ptri].
  rewrite l_linear_id_fine by (auto using p_l_path; rewrite lpart_len; change LMAX with 30; lia).
  rewrite linear_id_fine by (auto using p_t_path; rewrite tpart_len; lia). change (CHILDREN false) with 4.
  rewrite lpart_len, tpart_len.
  replace (L - zlen p) with (Z.of_nat (Z.to_nat (L - zlen p))) by lia. rewrite <- !num_pad0.
  assert (V : valid_path 8 q). { unfold q. apply valid_app. split; [apply H|]. apply valid_repeat. lia. }
  rewrite <- (p_ids V) by lia. rewrite EQ. unfold q. rewrite lpart_app, tpart_app.
  destruct (repeat_parts 0 (Z.to_nat (L - zlen p))) as [E1 E2]. rewrite E1, E2. reflexivity.
Qed.
Lemma p_linear_id_fine p L : p_path p -> zlen p <= L <= PMAX -> p_linear_id (p_walk p) L = num 8 p * 8 ^ (L - zlen p).
Proof. intros H HL. rewrite p_linear_id_pad by auto. rewrite num_pad0. do 2 f_equal. lia. Qed.

Lemma p_split_num q i t l : valid_path 8 q -> 0 <= i ->
  p_split (S (length q)) i (num 8 q) (4 ^ i) t l = (t + 4 ^ i * num 4 (tpart q), l + 2 ^ i * num 2 (lpart q)).
Proof.
  revert i t l. induction q as [|d q IH] using rev_ind; intros i t l V Hi.
  - cbn [length p_split]. change (num 8 []) with 0. change (0 mod 4) with 0. change (0 mod 8 / 4) with 0. cbn [tpart lpart map]. rewrite !num_nil. f_equal; lia.
  - apply valid_app in V. destruct V as [V Vi]. inversion Vi; subst.
    rewrite app_length. cbn [length]. rewrite Nat.add_1_r. cbn [p_split]. rewrite num_snoc.
    replace ((num 8 q * 8 + d) / 8) with (num 8 q) by lia. replace ((num 8 q * 8 + d) mod 4) with (d mod 4) by lia.
    replace ((num 8 q * 8 + d) mod 8) with d by lia.
    replace (4 ^ i * 4) with (4 ^ (i + 1)) by (rewrite Z.pow_add_r by lia; lia).
    specialize (IH (i + 1) (t + d mod 4 * 4 ^ i) (l + d / 4 * 2 ^ i) V ltac:(lia)). cbn [p_split] in IH. rewrite IH.
    rewrite lpart_app, tpart_app. cbn [lpart tpart map]. rewrite !num_snoc, !Z.pow_add_r by lia. change (4 ^ 1) with 4. change (2 ^ 1) with 2. f_equal; lia.
Qed.
Lemma p_init_linear_id_num p : p_path p -> p_init_linear_id (zlen p) (num 8 p) = p_walk p.
Proof.
  intros H. unfold p_init_linear_id. replace (Z.to_nat (zlen p)) with (length p) by (unfold zlen; lia).
  assert (E := @p_split_num p 0 0 0 (proj1 H) (Z.le_refl 0)). change (4 ^ 0) with 1 in E. change (2 ^ 0) with 1 in E. rewrite E.
  rewrite !Z.mul_1_l, !Z.add_0_l, p_walk_eq. f_equal.
  - rewrite <- (lpart_len p). apply l_init_linear_id_num, p_l_path, H.
  - rewrite <- (tpart_len p). apply (@init_linear_id_num false), p_t_path, H.
Qed.
Lemma p_path_digits L id : 0 <= L <= PMAX -> p_path (digits 8 (Z.to_nat L) id).
Proof. intros H. split; [apply digits_valid; lia|]. unfold zlen. rewrite digits_length. lia. Qed.

(** order, ancestors *)
Lemma p_compare_walk p q : p_path p -> p_path q -> (p_compare (p_walk p) (p_walk q) ?= 0) = path_cmp p q.
Proof.
  intros Hp Hq. unfold p_compare. rewrite !p_walk_level by auto.
  set (n := Nat.max (length p) (length q)).
  assert (E : Z.max (zlen p) (zlen q) = Z.of_nat n) by (unfold zlen; lia). rewrite E.
  assert (N : Z.of_nat n <= PMAX) by (rewrite <- E; destruct Hp, Hq; lia).
  rewrite !p_linear_id_pad by (auto; unfold zlen in *; lia).
  replace (Z.to_nat (Z.of_nat n - zlen p)) with (n - length p)%nat by (unfold zlen; lia).
  replace (Z.to_nat (Z.of_nat n - zlen q)) with (n - length q)%nat by (unfold zlen; lia).
  rewrite (@path_cmp_num_aux 8 n p q); try apply Hp; try apply Hq; try lia.
  destruct (Z.compare_spec (num 8 (p ++ repeat 0 (n - length p))) (num 8 (q ++ repeat 0 (n - length q)))) as [->|Hlt|Hgt].
  - rewrite Z.eqb_refl. destruct (Z.compare_spec (zlen p) (zlen q)); destruct (Z.compare_spec (zlen p - zlen q) 0); auto; lia.
  - destruct (Z.eqb_spec (num 8 (p ++ repeat 0 (n - length p))) (num 8 (q ++ repeat 0 (n - length q)))); [lia|].
    rewrite (proj2 (Z.ltb_lt _ _) Hlt). reflexivity.
  - destruct (Z.eqb_spec (num 8 (p ++ repeat 0 (n - length p))) (num 8 (q ++ repeat 0 (n - length q)))); [lia|].
    destruct (Z.ltb_spec (num 8 (p ++ repeat 0 (n - length p))) (num 8 (q ++ repeat 0 (n - length q)))); [lia|reflexivity].
Qed.
Lemma p_is_ancestor_walk p q : p_path p -> p_path q -> p_is_ancestor (p_walk p) (p_walk q) = true <-> prefix p q.
Proof.
  intros Hp Hq. unfold p_is_ancestor. rewrite !p_walk_level by auto. rewrite prefix_firstn. unfold zlen.
  destruct (Z.ltb_spec (Z.of_nat (length q)) (Z.of_nat (length p))) as [Hlt|Hge].
  - split; [discriminate|lia].
  - rewrite !p_linear_id_coarse by (auto; unfold zlen; lia). rewrite !Nat2Z.id, firstn_all. rewrite Z.eqb_eq. split.
    + intros E. split; [lia|]. apply (@num_inj 8); try apply Hp; try lia; auto.
      * apply valid_firstn, Hq.
      * rewrite firstn_length. lia.
    + intros [_ E]. now rewrite E.
Qed.
Lemma p_ancestor_id_walk p L : p_path p -> 1 <= L <= zlen p -> p_ancestor_id (p_walk p) L = nth (Z.to_nat (L - 1)) p 0.
Proof.
  intros H HL. rewrite p_walk_eq. unfold p_ancestor_id. cbn [pline ptri].
  rewrite l_ancestor_id_walk by (auto using p_l_path; rewrite lpart_len; lia).
  rewrite ancestor_id_walk by (auto using p_t_path; rewrite tpart_len; lia).
  assert (B : (Z.to_nat (L - 1) < length p)%nat) by (unfold zlen in HL; lia).
  assert (E1 : nth (Z.to_nat (L - 1)) (lpart p) 0 = nth (Z.to_nat (L - 1)) p 0 / 4) by exact (map_nth (fun i => i / 4) p 0 _).
  assert (E2 : nth (Z.to_nat (L - 1)) (tpart p) 0 = nth (Z.to_nat (L - 1)) p 0 mod 4) by exact (map_nth (fun i => i mod 4) p 0 _).
  rewrite E1, E2. lia.
Qed.
Lemma p_first_descendant_walk p L : p_path p -> zlen p <= L <= PMAX ->
  p_first_descendant (p_walk p) L = p_walk (p ++ repeat 0 (Z.to_nat (L - zlen p))).
Proof.
  intros H HL. change PMAX with 21 in HL. rewrite !p_walk_eq, lpart_app, tpart_app. destruct (repeat_parts 0 (Z.to_nat (L - zlen p))) as [-> ->].
  unfold p_first_descendant. cbn [pline ptri]. rewrite l_first_descendant_walk by (auto using p_l_path; rewrite lpart_len; change LMAX with 30; lia).
  rewrite first_descendant_walk by (auto using p_t_path; rewrite tpart_len; change (MAXLEVEL false) with 29; lia).
  now rewrite lpart_len, tpart_len.
Qed.
Lemma p_last_descendant_walk p L : p_path p -> zlen p <= L <= PMAX ->
  p_last_descendant (p_walk p) L = p_walk (p ++ repeat 7 (Z.to_nat (L - zlen p))).
Proof.
  intros H HL. change PMAX with 21 in HL. rewrite !p_walk_eq, lpart_app, tpart_app. destruct (repeat_parts 7 (Z.to_nat (L - zlen p))) as [-> ->].
  unfold p_last_descendant. cbn [pline ptri]. rewrite l_last_descendant_walk by (auto using p_l_path; rewrite lpart_len; change LMAX with 30; lia).
  rewrite last_descendant_walk by (auto using p_t_path; rewrite tpart_len; change (MAXLEVEL false) with 29; lia).
  now rewrite lpart_len, tpart_len.
Qed.

(** nearest common ancestor *)
Lemma lcp_parts p q :
  lcp p q = firstn (Nat.min (length (lcp (lpart p) (lpart q))) (length (lcp (tpart p) (tpart q)))) p /\
  length (lcp p q) = Nat.min (length (lcp (lpart p) (lpart q))) (length (lcp (tpart p) (tpart q))).
Proof.
  revert q. induction p as [|i p IH]; intros [|j q]; try (cbn; auto; fail).
  cbn [lpart tpart map lcp]. fold (lpart p) (lpart q) (tpart p) (tpart q). destruct (IH q) as [IH1 IH2].
  destruct (Z.eqb_spec i j) as [<-|N].
  - rewrite !Z.eqb_refl. cbn [length Nat.min firstn]. split; [now f_equal|now f_equal].
  - destruct (Z.eqb_spec (i / 4) (j / 4)), (Z.eqb_spec (i mod 4) (j mod 4)); cbn [length Nat.min firstn]; auto. exfalso. lia.
Qed.
Lemma lcp_firstn p q : lcp p q = firstn (length (lcp p q)) p.
Proof. destruct (lcp_prefix_l p q) as (r & E). rewrite E at 3. now rewrite firstn_app, Nat.sub_diag, firstn_all, app_nil_r. Qed.
Lemma p_nca_walk p q : p_path p -> p_path q -> p_nca (p_walk p) (p_walk q) = Ok (p_walk (lcp p q)).
Proof.
  intros Hp Hq. rewrite !p_walk_eq. unfold p_nca. cbn [pline ptri]. rewrite nca_walk by auto using p_t_path. cbn [obind].
  rewrite l_nca_walk by auto using p_l_path. f_equal.
  destruct (lcp_parts p q) as [E1 E2]. set (a := lcp (lpart p) (lpart q)) in *. set (b := lcp (tpart p) (tpart q)) in *.
  assert (Fa : a = firstn (length a) (lpart p)) by apply lcp_firstn. assert (Fb : b = firstn (length b) (tpart p)) by apply lcp_firstn.
  assert (Ha : l_path a). { rewrite Fa, <- lpart_firstn. apply p_l_path, p_path_firstn, Hp. }
  assert (Hb : tree_path false b). { rewrite Fb, <- tpart_firstn. apply p_t_path, p_path_firstn, Hp. }
  rewrite (proj2 (l_walk_wf Ha)), (proj2 (walk_wf Hb)).
  rewrite E1, lpart_firstn, tpart_firstn. unfold zlen.
  destruct (Z.eqb_spec (Z.of_nat (length b)) (Z.of_nat (length a))) as [E|N].
  - replace (Nat.min (length a) (length b)) with (length a) by lia. rewrite <- Fa. f_equal. rewrite Fb at 1. f_equal. f_equal. lia.
  - destruct (Z.ltb_spec (Z.of_nat (length a)) (Z.of_nat (length b))) as [Lt|Ge].
    + replace (Nat.min (length a) (length b)) with (length a) by lia. rewrite <- Fa. f_equal.
      rewrite ancestor_walk by (auto; unfold zlen; lia). replace (Z.to_nat (Z.min (Z.of_nat (length b)) (Z.of_nat (length a)))) with (length a) by lia.
      f_equal. rewrite Fb at 1. rewrite firstn_firstn. f_equal. lia.
    + replace (Nat.min (length a) (length b)) with (length b) by lia. rewrite <- Fb. f_equal.
      rewrite l_ancestor_walk by (auto; unfold zlen; lia). replace (Z.to_nat (Z.min (Z.of_nat (length b)) (Z.of_nat (length a)))) with (length b) by lia.
      f_equal. rewrite Fa at 1. rewrite firstn_firstn. f_equal. lia.
Qed.

(** ** successor *)
Lemma tri_tab t : 0 <= t < 2 -> Tt false t 3 = t /\ Tt false t 0 = t /\ Tc false t 3 = 3 /\ Tc false t 0 = 0.
Proof. intros H. assert (t = 0 \/ t = 1) as [-> | ->] by lia; vm_compute; auto. Qed.
Lemma ty_tail q k : tree_path false (q ++ repeat 3 k) -> ty (walk false (q ++ repeat 3 k)) = ty (walk false q).
Proof.
  induction k as [|k IH]; intros H; [now rewrite app_nil_r|].
  assert (E : q ++ repeat 3 (S k) = (q ++ repeat 3 k) ++ [3]).
  { rewrite <- app_assoc. f_equal. change [3] with (repeat 3 1). now rewrite <- repeat_app, Nat.add_1_r. }
  rewrite E in *. rewrite (walk_step H). cbn [step ty]. apply tree_path_snoc in H. destruct H as [H _].
  rewrite (proj1 (tri_tab (wf_ty (proj1 (walk_wf H))))). auto.
Qed.
Lemma cut_low k a r : 0 <= k -> al k a -> 0 <= r < 2 ^ k -> cut (a + r) k = a.
Proof.
  intros Hk (q & ->) Hr. unfold cut. rewrite Z.shiftr_div_pow2, Z.shiftl_mul_pow2 by lia.
  rewrite Z.div_add_l, Z.div_small by lia. lia.
Qed.
(** v is a up to the digits below K, and exactly a if k = 0 *)
Definition near (k : nat) (K v a : Z) : Prop := exists r, v = a + r /\ 0 <= r < 2 ^ K /\ (k = O -> r = 0).
Lemma near_tri f b q k : coordfn false f b -> tree_path false (q ++ repeat 3 k) ->
  near k (MAXLEVEL false - zlen q) (f (walk false (q ++ repeat 3 k))) (f (walk false q)).
Proof.
  intros F H. exists (low false f (q ++ repeat 3 k) (length q)).
  assert (E : firstn (length q) (q ++ repeat 3 k) = q) by now rewrite firstn_app, Nat.sub_diag, firstn_all, app_nil_r.
  split; [unfold low; rewrite E; lia|]. split.
  - assert (R := @low_range false f b (q ++ repeat 3 k) (length q) F H). rewrite app_length in R.
    specialize (R ltac:(lia)). pose proof (@pow2_pos (MAXLEVEL false - zlen (q ++ repeat 3 k)) ltac:(destruct H; lia)). unfold zlen in *. lia.
  - intros ->. unfold low. rewrite E. cbn [repeat]. rewrite app_nil_r. lia.
Qed.
Lemma near_line q k : l_path (q ++ repeat 1 k) -> near k (LMAX - zlen q) (lx (l_walk (q ++ repeat 1 k))) (lx (l_walk q)).
Proof.
  intros H. assert (HL := proj2 H). rewrite zlen_app, zlen_repeat in HL.
  assert (Hq : l_path q). { destruct H as [V L]. apply valid_app in V. split; [apply V|lia]. }
  rewrite !l_walk_elem by auto. unfold l_elem. cbn [lx]. rewrite num_app, zlen_app, zlen_repeat.
  assert (E := @num_repeat_last 2 k ltac:(lia)). change (2 - 1) with 1 in E. rewrite E.
  assert (P : 0 < 2 ^ (LMAX - (zlen q + Z.of_nat k))) by (apply pow2_pos; lia).
  assert (E2 : 2 ^ (LMAX - zlen q) = 2 ^ Z.of_nat k * 2 ^ (LMAX - (zlen q + Z.of_nat k))) by (rewrite <- pw by lia; f_equal; lia).
  assert (P2 : 0 < 2 ^ Z.of_nat k) by (apply pow2_pos; lia).
  exists ((2 ^ Z.of_nat k - 1) * 2 ^ (LMAX - (zlen q + Z.of_nat k))). split; [rewrite E2; lia|]. split; [rewrite E2; nia|].
  intros ->. change (2 ^ Z.of_nat 0) with 1. lia.
Qed.

Lemma p_child_id_level q i k : p_path ((q ++ [i]) ++ repeat 7 k) ->
  p_child_id (with_level (p_walk ((q ++ [i]) ++ repeat 7 k)) (Z.of_nat (S (length q)))) = i.
Proof.
  intros H. set (p := (q ++ [i]) ++ repeat 7 k) in *.
  assert (Vi : 0 <= i < 8). { destruct H as [V _]. unfold p in V. apply valid_app in V. destruct V as [V _]. apply valid_app in V. destruct V as [_ V]. now inversion V. }
  assert (HT := p_t_path H). assert (HLp := p_l_path H). rewrite p_walk_eq. unfold p_child_id, with_level. cbn [pline ptri].
  assert (LQ : (length q < length p)%nat) by (unfold p; rewrite !app_length; cbn [length]; lia).
  assert (E1 : child_id false (Simp (Z.of_nat (S (length q))) (ty (walk false (tpart p))) (sx (walk false (tpart p))) (sy (walk false (tpart p))) (sz (walk false (tpart p)))) = i mod 4).
  { unfold child_id. cbn [ty lv].
    assert (LT : (length q < length (tpart p))%nat) by (unfold tpart; now rewrite map_length).
    assert (T := iloc_walk HT LT).
    assert (EF : firstn (S (length q)) (tpart p) = tpart (q ++ [i])).
    { rewrite <- tpart_firstn. f_equal. unfold p. rewrite firstn_app. replace (S (length q) - length (q ++ [i]))%nat with O by (rewrite app_length; cbn [length]; lia).
      rewrite app_nil_r. apply firstn_all2. rewrite app_length. cbn [length]. lia. }
    rewrite EF in T.
    assert (ET : ty (walk false (tpart p)) = ty (walk false (tpart (q ++ [i])))).
    { unfold p in *. rewrite tpart_app in HT. rewrite tpart_app. rewrite (proj2 (repeat_parts 7 k)) in *. change (7 mod 4) with 3 in *. now apply ty_tail. }
    rewrite ET. unfold Li in T. refine (eq_trans T _). refine (eq_trans (map_nth (fun i => i mod 4) p 0 _) _). f_equal. unfold p.
    rewrite <- app_assoc. apply (nth_middle q (repeat 7 k)). }
  assert (E2 : l_child_id (Line (Z.of_nat (S (length q))) (lx (l_walk (lpart p)))) = i / 4).
  { unfold l_child_id. cbn [ll lx].
    assert (T := @l_linear_id_coarse (lpart p) (Z.of_nat (S (length q))) HLp ltac:(rewrite lpart_len; unfold zlen; lia)).
    unfold l_linear_id in T. rewrite T, Nat2Z.id, <- lpart_firstn.
    assert (EF : firstn (S (length q)) p = q ++ [i]).
    { unfold p. rewrite firstn_app. replace (S (length q) - length (q ++ [i]))%nat with O by (rewrite app_length; cbn [length]; lia).
      rewrite app_nil_r. apply firstn_all2. rewrite app_length. cbn [length]. lia. }
    rewrite EF, lpart_app. cbn [lpart map]. rewrite num_snoc. change 1 with (Z.ones 1). rewrite Z.land_ones by lia. change (2 ^ 1) with 2. lia. }
  rewrite E1, E2. lia.
Qed.

Lemma p_succ_walk q : forall k, p_path (q ++ repeat 7 k) -> num 8 q + 1 < 8 ^ zlen q ->
  exists s, p_succ (p_walk (q ++ repeat 7 k)) (length q) = Ok s /\
    let n := p_walk (next_path 8 q) in
    ll (pline s) = zlen q /\ lv (ptri s) = zlen q /\ ty (ptri s) = ty (ptri n) /\ sz (ptri s) = sz (ptri n) /\
    near k (MAXLEVEL false - zlen q) (sx (ptri s)) (sx (ptri n)) /\ near k (MAXLEVEL false - zlen q) (sy (ptri s)) (sy (ptri n)) /\
    near k (LMAX - zlen q) (lx (pline s)) (lx (pline n)).
Proof.
  induction q as [|i q IH] using rev_ind; intros k H Hb; [cbn in Hb; lia|].
  assert (VQ : valid_path 8 (q ++ [i])) by (destruct H as [V _]; apply valid_app in V; apply V).
  assert (VQ' := VQ). apply valid_app in VQ'. destruct VQ' as [VQ0 Vi]. assert (Hi : 0 <= i < 8) by now inversion Vi. clear Vi.
  assert (HLq : zlen q + 1 + Z.of_nat k <= 21).
  { destruct H as [_ L]. rewrite !zlen_app, zlen_repeat in L. change (zlen [i]) with 1 in L. change PMAX with 21 in L. lia. }
  assert (LZ : zlen (q ++ [i]) = zlen q + 1) by (rewrite zlen_app; reflexivity). pose proof (zlen_nonneg q) as Zq.
  rewrite app_length. cbn [length]. rewrite Nat.add_1_r. cbn [p_succ].
  rewrite p_child_id_level by exact H. rewrite LZ in *.
  replace (Z.of_nat (S (length q))) with (zlen q + 1) by (unfold zlen; lia).
  change (8 - 1) with 7.
  assert (HT := p_t_path H). assert (HLn := p_l_path H).
  destruct (Z.eqb_spec i 7) as [->|N7].
  - assert (ER : (q ++ [7]) ++ repeat 7 k = q ++ repeat 7 (S k)) by (rewrite <- app_assoc; reflexivity). rewrite ER in *.
    assert (Hb' : num 8 q + 1 < 8 ^ zlen q).
    { rewrite num_snoc, Z.pow_add_r in Hb by lia. change (8 ^ 1) with 8 in Hb. lia. }
    destruct (IH (S k) H Hb') as (s & Es & A1 & A2 & A3 & A4 & A5 & A6 & A7). rewrite Es. cbn [obind]. eexists. split; [reflexivity|].
    cbn zeta. cbn [pline ptri ll lx lv ty sx sy sz].
    assert (EN : next_path 8 (q ++ [7]) = next_path 8 q ++ [0]) by (apply (@next_path_snoc_wrap 8); auto; lia).
    assert (HN : p_path (next_path 8 q ++ [0])).
    { apply p_path_snoc. split; [split; [apply digits_valid; lia|]|]; unfold zlen in *; rewrite next_path_length; change PMAX with 21; lia. }
    rewrite EN. assert (HN0 : p_path (next_path 8 q)) by (apply p_path_snoc in HN; apply HN).
    assert (LN : zlen (next_path 8 q) = zlen q) by (unfold zlen; now rewrite next_path_length).
    rewrite p_walk_eq in *. cbn [pline ptri] in *. rewrite lpart_app, tpart_app. change (lpart [0]) with [0]. change (tpart [0]) with [0].
    assert (HNT := p_t_path HN). rewrite tpart_app in HNT. change (tpart [0]) with [0] in HNT. assert (HNL := p_l_path HN).
    rewrite lpart_app in HNL. change (lpart [0]) with [0] in HNL.
    rewrite l_child_walk, (walk_step HNT). assert (HNT0 := p_t_path HN0). destruct (walk_wf HNT0) as [WT WL]. rewrite tpart_len, LN in WL.
    destruct (l_walk_wf (p_l_path HN0)) as [LW LL]. rewrite lpart_len, LN in LL.
    destruct (tri_tab (wf_ty WT)) as (_ & T0 & _ & C0). rewrite T0, C0. unfold step, l_child. cbn [ty sx sy sz lx Z.testbit Z.b2z Z.eqb].
    assert (AX := wf_ax WT). assert (AY := wf_ay WT). rewrite WL in AX, AY. assert (AL := lwf_a LW). rewrite LL in AL.
    replace (MAXLEVEL false - (zlen q + 1) + 1) with (MAXLEVEL false - zlen q) by lia. replace (LMAX - (zlen q + 1) + 1) with (LMAX - zlen q) by lia.
    destruct A5 as (r5 & -> & R5 & _). destruct A6 as (r6 & -> & R6 & _). destruct A7 as (r7 & -> & R7 & _).
    change (MAXLEVEL false) with 29 in *. change LMAX with 30 in *.
    rewrite !cut_low by (auto; lia).
    change (Z.testbit 0 0) with false. change (Z.testbit 0 1) with false. cbn [Z.b2z]. rewrite !Z.mul_0_l, !Z.add_0_r.
    repeat split; auto; try lia; exists 0; (split; [lia|split; [split; [lia|apply pow2_pos; lia]|auto]]).
  - assert (EN : next_path 8 (q ++ [i]) = q ++ [i + 1]) by (apply (@next_path_snoc_in 8); auto; lia).
    assert (HQI : p_path (q ++ [i])).
    { destruct H as [V L]. split; [exact VQ|]. rewrite LZ. change PMAX with 21. lia. }
    assert (HN : p_path (q ++ [i + 1])). { apply p_path_snoc in HQI. apply p_path_snoc. intuition lia. }
    assert (HQ : p_path q) by (apply p_path_snoc in HQI; apply HQI).
    assert (HQT := p_t_path HQ). destruct (walk_wf HQT) as [WT WL]. rewrite tpart_len in WL.
    destruct (l_walk_wf (p_l_path HQ)) as [LW LL]. rewrite lpart_len in LL.
    rewrite EN, !p_walk_eq. rewrite (tpart_app q [i + 1]), (lpart_app q [i + 1]). cbn [tpart lpart map].
    assert (EL : lpart ((q ++ [i]) ++ repeat 7 k) = lpart (q ++ [i]) ++ repeat 1 k) by (rewrite lpart_app, (proj1 (repeat_parts 7 k)); reflexivity).
    assert (ET : tpart ((q ++ [i]) ++ repeat 7 k) = tpart (q ++ [i]) ++ repeat 3 k) by (rewrite tpart_app, (proj2 (repeat_parts 7 k)); reflexivity).
    rewrite EL in HLn. rewrite ET in HT.
    assert (NL := near_line HLn). assert (NX := near_tri (coordfn_x false) HT). assert (NY := near_tri (coordfn_y false) HT).
    assert (TY := ty_tail HT). rewrite EL, ET. rewrite lpart_len, LZ in NL. rewrite tpart_len, LZ in NX, NY.
    assert (SZ : forall t, tree_path false t -> sz (walk false t) = 0) by (intros t Ht; apply (wf_z0 (proj1 (walk_wf Ht)) eq_refl)).
    destruct (Z.eqb_spec ((i + 1) mod 4) 0) as [E4|N4].
    + assert (i = 3) as -> by lia. clear N7 E4 Hi. eexists. split; [reflexivity|]. cbn zeta.
      change ((3 + 1) / 4) with 1. change ((3 + 1) mod 4) with 0. unfold p_child, p_parent, with_level. cbn [pline ptri].
      change ((3 + 1) / 4) with 1. change ((3 + 1) mod 4) with 0.
      assert (HIT := p_t_path HQI). rewrite tpart_app in HIT, NX, NY, TY. change (tpart [3]) with [3] in *.
      rewrite tpart_app in HT. change (tpart [3]) with [3] in HT. rewrite tpart_app. change (tpart [3]) with [3].
      rewrite lpart_app in NL, HLn. rewrite lpart_app. change (lpart [3]) with [0] in *.
      assert (HNT := p_t_path HN). rewrite tpart_app in HNT. change (tpart [3 + 1]) with [0] in HNT.
      rewrite (walk_step HNT). rewrite l_child_walk. set (T := walk false (tpart q)) in *. set (L := l_walk (lpart q)) in *.
      destruct (tri_tab (wf_ty WT)) as (T3 & T0 & C3 & C0). fold T in T3, T0, C3, C0.
      rewrite (walk_step HIT) in NX, NY, TY. fold T in NX, NY, TY. rewrite T3, C3 in *. unfold step in NX, NY, TY. cbn [sx sy ty] in NX, NY, TY.
      rewrite l_child_walk in NL. fold L in NL. unfold l_child in NL. cbn [Z.eqb lx] in NL.
      set (P := walk false ((tpart q ++ [3]) ++ repeat 3 k)) in *. set (PL := l_walk ((lpart q ++ [0]) ++ repeat 1 k)) in *.
      assert (LTq : (length (tpart q) < length ((tpart q ++ [3%Z]) ++ repeat 3%Z k))%nat) by (rewrite !app_length; cbn [length]; lia).
      assert (PT := parenttype_walk HT LTq). assert (CW := cubeid_walk HT LTq). fold P in PT, CW.
      assert (F1 : firstn (length (tpart q)) ((tpart q ++ [3]) ++ repeat 3 k) = tpart q) by (rewrite <- app_assoc, firstn_app, Nat.sub_diag, firstn_all; apply app_nil_r).
      assert (F2 : firstn (S (length (tpart q))) ((tpart q ++ [3]) ++ repeat 3 k) = tpart q ++ [3]).
      { rewrite firstn_app. replace (S (length (tpart q)) - length (tpart q ++ [3%Z]))%nat with O by (rewrite app_length; cbn [length]; lia).
        rewrite app_nil_r. apply firstn_all2. rewrite app_length. cbn [length]. lia. }
      rewrite F1, F2 in PT. rewrite (walk_step HIT) in PT. fold T in PT. rewrite T3, C3 in PT. unfold step in PT. cbn [ty] in PT.
      replace (Z.of_nat (S (length (tpart q)))) with (zlen q + 1) in PT by (rewrite <- (tpart_len q); unfold zlen; lia).
      set (X := parent false (Simp (zlen q + 1) (ty P) (sx P) (sy P) (sz P))).
      assert (XT : ty X = ty T).
      { unfold X, parent. cbn [ty lv]. rewrite TY. exact PT. }
      assert (XL : lv X = zlen q) by (unfold X, parent; cbn [lv]; lia).
      assert (XZ : sz X = 0) by (unfold X, parent; cbn [sz]; now apply SZ).
      rewrite child_step; [|rewrite XT; apply WT|change (CHILDREN false) with 4; lia|rewrite XL; change (MAXLEVEL false) with 29; lia].
      rewrite XT, T0, C0. unfold step, l_child, l_parent. cbn [ll lx lv ty sx sy sz Z.testbit Z.b2z Z.eqb]. rewrite XL, XZ.
      assert (ZT : sz T = 0) by now apply SZ.
      assert (AX := wf_ax WT). assert (AY := wf_ay WT). rewrite WL in AX, AY. assert (AL := lwf_a LW). rewrite LL in AL. fold T in AX, AY. fold L in AL.
      replace (MAXLEVEL false - zlen q) with ((MAXLEVEL false - (zlen q + 1)) + 1) in AX, AY by lia.
      replace (LMAX - zlen q) with ((LMAX - (zlen q + 1)) + 1) in AL by lia.
      rewrite !LLEN_pow by (change LMAX with 30; lia). fold L in LL. rewrite LL.
      destruct NX as (rx & NX & RX & KX). destruct NY as (ry & NY & RY & KY). destruct NL as (rl & NL & RL & KL).
      fold T in WL. rewrite WL in NX, NY. replace (MAXLEVEL false - zlen q - 1) with (MAXLEVEL false - (zlen q + 1)) in NX, NY by lia.
      change (Z.testbit 3 0) with true in NX. change (Z.testbit 3 1) with true in NY.
      assert (GX : sx X = sx T + rx).
      { unfold X, parent. cbn [sx lv]. rewrite LEN_pow by (change (MAXLEVEL false) with 29; lia).
        rewrite clear_val by (change (MAXLEVEL false) with 29; lia). rewrite NX, tb_mid by (auto; change (MAXLEVEL false) with 29; lia). cbn [Z.b2z]. lia. }
      assert (GY : sy X = sy T + ry).
      { unfold X, parent. cbn [sy lv]. rewrite LEN_pow by (change (MAXLEVEL false) with 29; lia).
        rewrite clear_val by (change (MAXLEVEL false) with 29; lia). rewrite NY, tb_mid by (auto; change (MAXLEVEL false) with 29; lia). cbn [Z.b2z]. lia. }
      assert (GL : clear (lx PL) (2 ^ (LMAX - (zlen q + 1))) = lx L + rl).
      { rewrite clear_val by (change LMAX with 30; lia). rewrite NL. replace (lx L + 0 + rl) with (lx L + Z.b2z false * 2 ^ (LMAX - (zlen q + 1)) + rl) by (cbn [Z.b2z]; lia).
        rewrite tb_mid by (auto; change LMAX with 30; lia). cbn [Z.b2z]. lia. }
      rewrite GX, GY, GL. change (Z.testbit 0 0) with false. change (Z.testbit 0 1) with false. cbn [Z.b2z]. replace (zlen q + 1 - 1 + 1) with (zlen q + 1) by lia.
      split; [reflexivity|]. split; [reflexivity|]. split; [reflexivity|]. split; [now symmetry|]. rewrite !Z.mul_0_l, !Z.add_0_r.
      split; [exists rx; auto|]. split; [exists ry; auto|]. exists rl. split; [lia|auto].
    + unfold successor. replace (Z.to_nat (zlen q + 1)) with (S (length q)) by (unfold zlen; lia). cbn [ptri].
      set (tp := tpart (q ++ [i]) ++ repeat 3 k) in *.
      assert (LT : (S (length q) <= length tp)%nat) by (unfold tp, tpart; rewrite app_length, map_length, app_length; cbn [length]; lia).
      assert (F2 : firstn (S (length q)) tp = tpart (q ++ [i])).
      { unfold tp. rewrite firstn_app. replace (S (length q) - length (tpart (q ++ [i])))%nat with O by (unfold tpart; rewrite map_length, app_length; cbn [length]; lia).
        rewrite app_nil_r. apply firstn_all2. unfold tpart. rewrite map_length, app_length. cbn [length]. lia. }
      assert (VT := tpart_valid (q ++ [i])). rewrite tpart_app in VT. cbn [tpart map] in VT. fold (tpart q) in VT.
      assert (Di : 0 <= i mod 4 + 1 < 4 /\ (i + 1) mod 4 = i mod 4 + 1 /\ (i + 1) / 4 = i / 4) by lia. destruct Di as (Di & Dm & Dd).
      assert (NP : next_path 4 (tpart (q ++ [i])) = tpart q ++ [i mod 4 + 1]).
      { rewrite tpart_app. cbn [tpart map]. apply (@next_path_snoc_in 4); auto; lia. }
      destruct (@succ_rec false tp (S (length q)) HT LT) as (s & Es & B1 & B2 & B3 & B4 & B5).
      { rewrite F2. change (CHILDREN false) with 4. rewrite tpart_app. cbn [tpart map]. fold (tpart q). rewrite num_snoc.
        assert (R := num_range (N:=4) ltac:(lia) (tpart_valid q)). rewrite tpart_len in R.
        replace (Z.of_nat (S (length q))) with (zlen q + 1) by (unfold zlen; lia). rewrite Z.pow_add_r by lia. change (4 ^ 1) with 4. lia. }
      rewrite F2 in B2, B3, B4. change (CHILDREN false) with 4 in B2, B3, B4. rewrite NP in B2, B3, B4.
      rewrite Es. cbn [obind]. eexists. split; [reflexivity|]. cbn zeta. unfold with_level. cbn [pline ptri ll lx].
      rewrite Dm, Dd. fold (tpart q). fold (lpart q).
      assert (HNT := p_t_path HN). rewrite tpart_app in HNT. change (tpart [i + 1]) with [(i + 1) mod 4] in HNT. rewrite Dm in HNT.
      replace (Z.of_nat (S (length q))) with (zlen q + 1) in B1 by (unfold zlen; lia).
      split; [reflexivity|]. split; [exact B1|]. split; [exact B2|]. split; [rewrite B5, !SZ; auto|].
      rewrite B3, B4. destruct NX as (rx & NX & RX & KX). destruct NY as (ry & NY & RY & KY).
      unfold low. rewrite F2. rewrite NX, NY.
      split; [exists rx; split; [lia|auto]|]. split; [exists ry; split; [lia|auto]|].
      rewrite lpart_app in NL |- *. exact NL.
Qed.
Lemma p_successor_walk p : p_path p -> num 8 p + 1 < 8 ^ zlen p -> p_successor (p_walk p) (zlen p) = Ok (p_walk (next_path 8 p)).
Proof.
  intros H Hb. unfold p_successor. replace (Z.to_nat (zlen p)) with (length p) by (unfold zlen; lia).
  destruct (@p_succ_walk p O) as (s & Es & A1 & A2 & A3 & A4 & A5 & A6 & A7); [now rewrite app_nil_r|exact Hb|].
  rewrite app_nil_r in Es. rewrite Es. f_equal. assert (HN : p_path (next_path 8 p)).
  { destruct H as [V L]. split; [apply digits_valid; lia|]. unfold zlen in *. now rewrite next_path_length. }
  rewrite p_walk_eq in *. cbn [pline ptri] in *.
  assert (LN : zlen (next_path 8 p) = zlen p) by (unfold zlen; now rewrite next_path_length).
  assert (L1 := proj2 (l_walk_wf (p_l_path HN))). assert (L2 := proj2 (walk_wf (p_t_path HN))). rewrite lpart_len, LN in L1. rewrite tpart_len, LN in L2.
  destruct A5 as (r5 & E5 & _ & K5). destruct A6 as (r6 & E6 & _ & K6). destruct A7 as (r7 & E7 & _ & K7).
  rewrite K5, Z.add_0_r in E5 by auto. rewrite K6, Z.add_0_r in E6 by auto. rewrite K7, Z.add_0_r in E7 by auto.
  destruct s as [[a b] [l t x y z]]. destruct (l_walk (lpart (next_path 8 p))) as [a1 a2], (walk false (tpart (next_path 8 p))) as [b1 b2 b3 b4 b5]. cbn [pline ptri ll lx lv ty sx sy sz] in *.
  congruence.
Qed.

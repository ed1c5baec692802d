(** More about prisms: parents, the last element, descendants at corners and the leaf count. *)
From Verif Require Import Prelude PathSpec GeoSpec BitLemmas SimplexModel SimplexSpec LineModel LineSpec SimplexPathProofs SimplexProofs SimplexOrderProofs SimplexAncProofs SimplexGeoProofs SimplexMoreProofs SimplexRefuteProofs LineProofs.
From Verif Require Import PrismModel PrismSpec PrismProofs.

Lemma p_child_of_parent p : p_path p -> 0 < zlen p ->
  let e := p_walk p in p_level (p_parent e) = p_level e - 1 /\ 0 <= p_child_id e < 8 /\ p_child (p_parent e) (p_child_id e) = e /\ p_parent e = p_walk (removelast p).
Proof.
  intros Hp HL. destruct p as [|i p _] using rev_ind; [vm_compute in HL; congruence|]. cbn zeta. destruct (p_child_facts Hp) as [E1 E2]. assert (L := p_walk_level Hp).
  apply p_path_snoc in Hp as Hq. destruct Hq as (Hq & Hi & _). rewrite E1, E2, L, removelast_last. rewrite zlen_app. change (zlen [i]) with 1. rewrite (p_walk_level Hq).
  split; [lia|]. split; [exact Hi|]. split; [symmetry; apply p_walk_snoc|reflexivity].
Qed.
Lemma p_succ_last q : forall k, p_path (q ++ repeat 7 k) -> num 8 q + 1 = 8 ^ zlen q -> p_succ (p_walk (q ++ repeat 7 k)) (length q) = AssertFail.
Proof.
  induction q as [|i q IH] using rev_ind; intros k Hp HN; [reflexivity|].
  assert (V : valid_path 8 q /\ 0 <= i < 8). { destruct Hp as [V _]. apply valid_app in V. destruct V as [V _]. apply valid_app in V. destruct V as [V W]. inversion W; subst. auto. }
  destruct V as [V Hi]. assert (R := num_range (N:=8) eq_refl V). rewrite num_snoc, zlen_app in HN. change (zlen [i]) with 1 in HN. rewrite Z.pow_add_r in HN by (unfold zlen; lia). change (8 ^ 1) with 8 in HN.
  assert (i = 7 /\ num 8 q + 1 = 8 ^ zlen q) as [-> HN'] by lia.
  rewrite app_length. cbn [length]. rewrite Nat.add_1_r. cbn [p_succ]. rewrite (@p_child_id_level q 7 k) by exact Hp. change (7 =? 8 - 1) with true. cbv iota.
  rewrite <- app_assoc in *. change ([7] ++ repeat 7 k) with (repeat 7 (S k)) in *. rewrite (IH (S k) Hp HN'). reflexivity.
Qed.
Lemma p_successor_last p : p_path p -> num 8 p + 1 = 8 ^ zlen p -> p_successor (p_walk p) (zlen p) = AssertFail.
Proof.
  intros Hp HN. unfold p_successor. replace (Z.to_nat (zlen p)) with (length p) by (unfold zlen; lia).
  assert (H := @p_succ_last p O). cbn [repeat] in H. rewrite app_nil_r in H. now apply H.
Qed.
Lemma p_path_repeat p i L : p_path p -> zlen p <= L <= PMAX -> 0 <= i < 8 -> p_path (p ++ repeat i (Z.to_nat (L - zlen p))) /\ zlen (p ++ repeat i (Z.to_nat (L - zlen p))) = L.
Proof.
  intros [V _] HL Hi. assert (E : zlen (p ++ repeat i (Z.to_nat (L - zlen p))) = L) by (rewrite zlen_app, zlen_repeat; lia).
  split; [|exact E]. split; [apply valid_app; split; [exact V|now apply valid_repeat]|]. rewrite E. lia.
Qed.
Lemma p_first_id p L : p_path p -> zlen p <= L <= PMAX -> p_linear_id (p_first_descendant (p_walk p) L) L = num 8 p * 8 ^ (L - zlen p) /\
  p_linear_id (p_last_descendant (p_walk p) L) L = num 8 p * 8 ^ (L - zlen p) + 8 ^ (L - zlen p) - 1.
Proof.
  intros Hp HL. rewrite p_first_descendant_walk, p_last_descendant_walk by auto.
  destruct (@p_path_repeat p 0 L Hp HL) as [P0 L0]; [lia|]. destruct (@p_path_repeat p 7 L Hp HL) as [P7 L7]; [lia|].
  rewrite !p_linear_id_fine by (auto; lia). rewrite L0, L7, !Z.sub_diag, !Z.mul_1_r. rewrite num_pad0, num_app, zlen_repeat. change 7 with (8 - 1). rewrite num_repeat_last by lia. rewrite Z2Nat.id by lia. lia.
Qed.
Lemma p_descendant_ids p L id : p_path p -> zlen p <= L <= PMAX -> 0 <= id < 8 ^ L ->
  (p_linear_id (p_first_descendant (p_walk p) L) L <= id <= p_linear_id (p_last_descendant (p_walk p) L) L <-> prefix p (digits 8 (Z.to_nat L) id)).
Proof.
  intros Hp HL Hid. destruct (p_first_id Hp HL) as [-> ->]. assert (Z0 : 0 <= zlen p) by (unfold zlen; lia).
  set (N := 8) in *. set (d := digits N (Z.to_nat L) id). assert (Hd : valid_path N d) by (apply digits_valid; lia).
  assert (Ld : length d = Z.to_nat L) by apply digits_length. assert (Nd : num N d = id) by (apply num_digits; rewrite ?Z2Nat.id; lia).
  rewrite prefix_firstn. assert (PW : 0 < N ^ (L - zlen p)) by (apply Z.pow_pos_nonneg; lia).
  assert (F : num N (firstn (length p) d) = id / N ^ (L - zlen p)).
  { rewrite num_firstn by (auto; lia). rewrite Nd. unfold zlen at 1 2. rewrite firstn_length, Ld. do 2 f_equal. unfold zlen in *. lia. }
  split.
  - intros H. split; [unfold zlen in *; lia|]. apply (@num_inj N); [lia|now apply valid_firstn|apply Hp|rewrite firstn_length, Ld; unfold zlen in *; lia|].
    rewrite F. symmetry. apply Z.div_unique with (id - num N p * N ^ (L - zlen p)); [left; lia|lia].
  - intros (_ & E). rewrite E in F. pose proof (Z.div_mod id (N ^ (L - zlen p)) ltac:(lia)) as D. pose proof (Z.mod_pos_bound id (N ^ (L - zlen p)) PW). rewrite <- F in D. rewrite Z.mul_comm in D. lia.
Qed.
Lemma p_not_children_of l p : p_path p -> zlen p < PMAX -> l = p_children_of (p_walk p) ->
  forall i j, 0 <= i < 8 -> 0 <= j < 8 -> p_parent (znth prism0 l i) = p_parent (znth prism0 l j).
Proof.
  intros Hp HL -> i j Hi Hj. assert (N : forall k, 0 <= k < 8 -> p_parent (znth prism0 (p_children_of (p_walk p)) k) = p_walk p).
  { intros k Hk. assert (E : znth prism0 (p_children_of (p_walk p)) k = p_child (p_walk p) k).
    { unfold znth, p_children_of. rewrite nth_indep with (d' := p_child (p_walk p) 0) by (rewrite map_length, zseq_length; lia). rewrite map_nth, nth_zseq by lia. f_equal. lia. }
    rewrite E, <- p_walk_snoc. apply p_child_facts. apply p_path_snoc. auto. }
  now rewrite !N.
Qed.
Lemma p_count_leaves_num p L : p_path p -> zlen p <= L <= PMAX -> L - zlen p < PMAX ->
  p_count_leaves (p_walk p) L = 8 ^ (L - zlen p) /\
  p_count_leaves (p_walk p) L = p_linear_id (p_last_descendant (p_walk p) L) L - p_linear_id (p_first_descendant (p_walk p) L) L + 1.
Proof.
  intros Hp HL HB. destruct (p_first_id Hp HL) as [-> ->]. unfold p_count_leaves. rewrite (p_walk_level Hp). unfold count_leaves_from_level.
  destruct (Z.ltb_spec L (zlen p)); [lia|]. rewrite shiftl1_pow by lia. rewrite Z.pow_mul_r by lia. change (2 ^ 3) with 8. change PMAX with 21 in *.
  assert (8 ^ (L - zlen p) <= 8 ^ 20) by (apply Z.pow_le_mono_r; lia). assert (0 < 8 ^ (L - zlen p)) by (apply Z.pow_pos_nonneg; lia). change (8 ^ 20) with (2 ^ 60) in *. rewrite i64_small by lia. lia.
Qed.
Lemma p_corner_walk p c L : p_path p -> zlen p <= L <= PMAX -> 0 <= c < 6 ->
  let i := 4 * (c / 3) + parenttype_beyid_to_Iloc false (ty (ptri (p_walk p))) (c mod 3) in
  0 <= i < 8 /\ p_corner_descendant (p_walk p) c L = p_walk (p ++ repeat i (Z.to_nat (L - zlen p))).
Proof.
  intros Hp HL Hc. cbn zeta. rewrite !p_walk_eq, lpart_app, tpart_app. cbn [ptri]. change PMAX with 21 in HL.
  assert (TT := p_t_path Hp). assert (TL := p_l_path Hp). assert (T := tab_corner (tet:=false) (wf_ty (proj1 (walk_wf TT))) (c := c mod 3) ltac:(change (CORNERS false) with 3; lia)). unfold corner_ok in T.
  set (j := parenttype_beyid_to_Iloc false (ty (walk false (tpart p))) (c mod 3)) in *. change (CHILDREN false) with 4 in T.
  assert (Hj : 0 <= j < 4) by lia.
  destruct (repeat_parts (4 * (c / 3) + j) (Z.to_nat (L - zlen p))) as [-> ->]. replace ((4 * (c / 3) + j) / 4) with (c / 3) by lia. replace ((4 * (c / 3) + j) mod 4) with j by lia.
  split; [lia|]. unfold p_corner_descendant. cbn [pline ptri].
  assert (E := corner_descendant_walk (tet := false) TT (L := L) (corner := c mod 3)). rewrite tpart_len in E. rewrite E; [|change (MAXLEVEL false) with 29; lia|change (CORNERS false) with 3; lia]. fold j. f_equal.
  assert (F := l_first_descendant_walk TL (L := L)). assert (G := l_last_descendant_walk TL (L := L)). rewrite lpart_len in F, G. change LMAX with 30 in *.
  destruct (Z.ltb_spec c 3); [replace (c / 3) with 0 by lia; apply F; lia|replace (c / 3) with 1 by lia; apply G; lia].
Qed.
Lemma p_corner_descendant_corner p c L : p_path p -> zlen p <= L <= PMAX -> 0 <= c < 6 ->
  exists r, p_path (p ++ r) /\ zlen (p ++ r) = L /\ p_corner_descendant (p_walk p) c L = p_walk (p ++ r) /\
  p_vertex (p_corner_descendant (p_walk p) c L) c = p_vertex (p_walk p) c.
Proof.
  intros Hp HL Hc. destruct (p_corner_walk Hp HL Hc) as [Hi E]. cbn zeta in Hi, E. eexists. destruct (p_path_repeat Hp HL Hi) as [P Q]. split; [exact P|]. split; [exact Q|]. split; [exact E|].
  assert (TT := p_t_path Hp). assert (TL := p_l_path Hp). change PMAX with 21 in HL. rewrite p_walk_eq. unfold p_vertex, p_corner_descendant. cbn [pline ptri].
  assert (C := corner_descendant_corner (tet := false) TT (L := L) (c := c mod 3)). rewrite tpart_len in C. rewrite C; [|change (MAXLEVEL false) with 29; lia|change (CORNERS false) with 3; lia].
  assert (D : l_coords (if c <? 3 then l_first_descendant (l_walk (lpart p)) L else l_last_descendant (l_walk (lpart p)) L) (c / 3) = l_coords (l_walk (lpart p)) (c / 3)).
  { destruct (Z.ltb_spec c 3); [replace (c / 3) with 0 by lia|replace (c / 3) with 1 by lia].
    - reflexivity.
    - unfold l_coords, l_last_descendant. cbn [lx ll]. change (1 =? 0) with false. destruct (1 =? 1) eqn:Q1; [|discriminate]. cbv iota. lia. }
  rewrite D. reflexivity.
Qed.

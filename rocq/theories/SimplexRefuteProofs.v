(** Facts needed by the property file only: corners of descendants, ranges of descendants, and witnesses for wrong answers. *)
From Verif Require Import Prelude PathSpec GeoSpec SimplexModel SimplexSpec BitLemmas SimplexProofs SimplexPathProofs SimplexOrderProofs
  SimplexGeoProofs SimplexAncProofs SimplexTileProofs SimplexFaceProofs SimplexFaceChildProofs.

(** the child at corner c has the type of its parent and shares corner c *)
Definition corner_ok (tet : bool) (t c : Z) : bool :=
  let i := parenttype_beyid_to_Iloc tet t c in
  (0 <=? i) && (i <? CHILDREN tet) && (Tt tet t i =? t) &&
  ieqb (iadd (ubits tet (Tc tet t i)) (ucoord tet t c)) (iadd (ucoord tet t c) (ucoord tet t c)).
Lemma tab_corner tet t c : 0 <= t < NUM_TYPES tet -> 0 <= c < CORNERS tet -> corner_ok tet t c = true.
Proof.
  intros Ht Hf. assert (all2 (NUM_TYPES tet) (CORNERS tet) (corner_ok tet) = true) as A by (destruct tet; vm_compute; reflexivity).
  exact (all2_spec A Ht Hf).
Qed.
Lemma corner_child tet e c : wf tet e -> lv e < MAXLEVEL tet -> 0 <= c < CORNERS tet ->
  let i := parenttype_beyid_to_Iloc tet (ty e) c in
  0 <= i < CHILDREN tet /\ ty (child tet e i) = ty e /\
  compute_integer_coords tet (child tet e i) c = compute_integer_coords tet e c.
Proof.
  intros W Hl Hc. cbn zeta. assert (T := tab_corner (wf_ty W) Hc). unfold corner_ok in T. set (i := parenttype_beyid_to_Iloc tet (ty e) c) in *.
  rewrite !andb_true_iff in T. destruct T as (((T1 & T2) & T3) & T4). apply Z.eqb_eq in T3. apply ieqb_eq in T4.
  assert (Hi : 0 <= i < CHILDREN tet) by lia. destruct (child_anchor W Hl Hi) as (C1 & C2 & C3). cbn zeta in C1, C2, C3.
  split; [exact Hi|]. split; [congruence|]. assert (Ht := wf_ty W).
  rewrite !coords_unit by (auto; rewrite C2, T3; auto). rewrite C1, C2, C3, T3.
  assert (HH : LEN tet (lv e) = 2 * LEN tet (lv e + 1)). { rewrite !LEN_pow by lia. rewrite <- pow2_S by lia. f_equal. lia. }
  rewrite scale_scale, T4. rewrite HH. unfold scale, iadd. destruct (ucoord tet (ty e) c) as [[a b] d]. cbn [ix iy iz fst snd]. f_equal; [f_equal|]; ring.
Qed.

Lemma corner_descendant_corner tet p c L : tree_path tet p -> zlen p <= L <= MAXLEVEL tet -> 0 <= c < CORNERS tet ->
  compute_integer_coords tet (corner_descendant tet (walk tet p) c L) c = compute_integer_coords tet (walk tet p) c.
Proof.
  intros Hp HL Hc. rewrite corner_descendant_walk by auto. set (t := ty (walk tet p)). set (i := parenttype_beyid_to_Iloc tet t c).
  assert (Hi : 0 <= i < CHILDREN tet). { assert (T := tab_corner (wf_ty (proj1 (walk_wf Hp))) Hc). unfold corner_ok in T. fold t in T. fold i in T. lia. }
  enough (G : forall n, zlen p + Z.of_nat n <= MAXLEVEL tet -> tree_path tet (p ++ repeat i n) /\ ty (walk tet (p ++ repeat i n)) = t /\
     compute_integer_coords tet (walk tet (p ++ repeat i n)) c = compute_integer_coords tet (walk tet p) c).
  { apply G. lia. }
  induction n as [|n IH]; intros Hn.
  - cbn [repeat]. rewrite app_nil_r. auto.
  - destruct IH as (I1 & I2 & I3); [lia|]. assert (E : p ++ repeat i (S n) = (p ++ repeat i n) ++ [i]).
    { rewrite <- app_assoc. f_equal. clear. induction n; cbn; [reflexivity|]. now rewrite <- IHn. }
    rewrite E. destruct (walk_wf I1) as [W Lv]. rewrite zlen_app, zlen_repeat in Lv.
    assert (W2 : walk tet ((p ++ repeat i n) ++ [i]) = child tet (walk tet (p ++ repeat i n)) i) by (unfold walk; now rewrite fold_left_app).
    destruct (@corner_child tet (walk tet (p ++ repeat i n)) c W ltac:(lia) Hc) as (D1 & D2 & D3). cbn zeta in D2, D3. rewrite I2 in D2, D3. fold i in D2, D3.
    split; [|rewrite W2; split; congruence]. destruct I1 as [V1 V2]. split.
    + apply valid_app. split; auto. repeat constructor; lia.
    + rewrite !zlen_app, zlen_repeat. unfold zlen at 2. cbn [length]. lia.
Qed.

(** linear ids of descendants: exactly the interval between those of the first and the last descendant *)
Lemma descendant_ids tet p L id : tree_path tet p -> zlen p <= L <= MAXLEVEL tet -> 0 <= id < CHILDREN tet ^ L ->
  (linear_id tet (first_descendant tet (walk tet p) L) L <= id <= linear_id tet (last_descendant tet (walk tet p) L) L <->
   prefix p (digits (CHILDREN tet) (Z.to_nat L) id)).
Proof.
  intros Hp HL Hid. assert (HC := CHILDREN_pos tet). assert (Z0 : 0 <= zlen p) by (unfold zlen; lia).
  rewrite first_descendant_walk, last_descendant_walk by auto.
  assert (V : forall i, 0 <= i < CHILDREN tet -> tree_path tet (p ++ repeat i (Z.to_nat (L - zlen p)))).
  { intros i Hi. destruct Hp. split; [apply valid_app; split; auto; now apply valid_repeat|]. rewrite zlen_app, zlen_repeat. lia. }
  assert (ZL : forall i, zlen (p ++ repeat i (Z.to_nat (L - zlen p))) = L) by (intros; rewrite zlen_app, zlen_repeat; lia).
  rewrite !linear_id_fine by (try apply V; try rewrite ZL; lia). rewrite !ZL, !Z.sub_diag, !Z.mul_1_r.
  rewrite num_pad0, num_app, num_repeat_last, zlen_repeat by lia. rewrite Z2Nat.id by lia.
  set (N := CHILDREN tet) in *. set (d := digits N (Z.to_nat L) id). assert (Hd : valid_path N d) by (apply digits_valid; lia).
  assert (Ld : length d = Z.to_nat L) by apply digits_length. assert (Nd : num N d = id) by (apply num_digits; rewrite ?Z2Nat.id; lia).
  rewrite prefix_firstn. assert (PW : 0 < N ^ (L - zlen p)) by (apply Z.pow_pos_nonneg; lia).
  assert (F : num N (firstn (length p) d) = id / N ^ (L - zlen p)).
  { rewrite num_firstn by (auto; lia). rewrite Nd. unfold zlen at 1 2. rewrite firstn_length, Ld. do 2 f_equal. unfold zlen in *. lia. }
  split.
  - intros H. split; [unfold zlen in *; lia|]. apply (@num_inj N); [lia|now apply valid_firstn|apply Hp|rewrite firstn_length, Ld; unfold zlen in *; lia|].
    rewrite F. symmetry. apply Z.div_unique with (id - num N p * N ^ (L - zlen p)); [left; lia|lia].
  - intros (_ & E). rewrite E in F. pose proof (Z.div_mod id (N ^ (L - zlen p)) ltac:(lia)) as D. pose proof (Z.mod_pos_bound id (N ^ (L - zlen p)) PW). rewrite <- F in D. rewrite Z.mul_comm in D. lia.
Qed.

(** ** wrong answers *)
(** four triangles of the tree that are not children of one element although the test says so: the family of element 0 of level 1,
    moved by one element to the right *)
Definition shifted_tri_family : list simp := [walk false [0; 1]; walk false [1; 0]; walk false [2; 0]; walk false [2; 1]].
(** ... and a list in which one child appears twice *)
Definition repeated_tri_family : list simp := [walk false [0; 0]; walk false [0; 1]; walk false [0; 1]; walk false [0; 3]].
Definition shifted_tet_family : list simp :=
  map (walk true) [[0; 1]; [1; 0]; [2; 0]; [3; 0]; [3; 1]; [3; 2]; [2; 1]; [2; 4]].

Lemma not_children_of tet l p d : tree_path tet p -> zlen p < MAXLEVEL tet -> l = children_of tet (walk tet p) ->
  forall i j, 0 <= i < CHILDREN tet -> 0 <= j < CHILDREN tet -> parent tet (znth d l i) = parent tet (znth d l j) /\ child_id tet (znth d l i) = i.
Proof.
  intros Hp HL -> i j Hi Hj. destruct (walk_wf Hp) as [W Lv]. assert (HC := CHILDREN_pos tet).
  assert (N : forall k, 0 <= k < CHILDREN tet -> znth d (children_of tet (walk tet p)) k = child tet (walk tet p) k).
  { intros k Hk. unfold znth, children_of. rewrite nth_indep with (d' := child tet (walk tet p) 0) by (rewrite map_length, zseq_length; lia).
    rewrite map_nth, nth_zseq by lia. f_equal. lia. }
  rewrite !N by auto. rewrite !parent_child by (auto; lia). split; auto. apply child_id_child; auto; lia.
Qed.

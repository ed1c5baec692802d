(** Properties C01-C15 for lines.  Vocabulary: PathSpec.v, LineSpec.v; the elements of the tree are [l_walk p], [l_path p]. *)
From Coq Require Import QArith.
From Verif Require Import Prelude PathSpec BitLemmas SimplexModel LineModel LineSpec SimplexPathProofs SimplexProofs SimplexOrderProofs SimplexRefuteProofs LineProofs LineGeoProofs.
Open Scope Z_scope.

Definition ex_line : list Z := [1; 0; 1; 1; 0].
Example ex_line_path : l_path ex_line.
Proof. split; [repeat constructor; vm_compute; congruence|vm_compute; congruence]. Qed.

(** C01 *)
Theorem C01_line_parent_of_child : forall p i, l_path p -> zlen p < LMAX -> 0 <= i < 2 ->
  l_parent (l_child (l_walk p) i) = l_walk p /\ l_child_id (l_child (l_walk p) i) = i /\ ll (l_child (l_walk p) i) = ll (l_walk p) + 1.
Proof. intros p i Hp HL Hi. destruct (l_walk_wf Hp) as [W E]. rewrite <- E in HL. exact (proj2 (l_parent_child W HL Hi)). Qed.
Print Assumptions C01_line_parent_of_child.
Theorem C01_line_child_of_parent : forall p, l_path p -> 0 < zlen p ->
  let e := l_walk p in ll (l_parent e) = ll e - 1 /\ 0 <= l_child_id e < 2 /\ l_child (l_parent e) (l_child_id e) = e.
Proof. intros p Hp HL. destruct (l_walk_wf Hp) as [W E]. rewrite <- E in HL. exact (proj2 (l_child_parent W HL)). Qed.
Print Assumptions C01_line_child_of_parent.
Theorem C01_line_children_array : forall p, l_path p -> zlen p < LMAX ->
  l_childrenpv (l_walk p) = [l_child (l_walk p) 0; l_child (l_walk p) 1].
Proof. intros p _ _. exact (l_childrenpv_eq (l_walk p)). Qed.
Print Assumptions C01_line_children_array.
Example C01_line_ex : l_child (l_walk ex_line) 1 = Line 6 (45 * 2 ^ 24) /\ l_parent (Line 6 (45 * 2 ^ 24)) = l_walk ex_line.
Proof. split; vm_compute; reflexivity. Qed.

(** C02 *)
Theorem C02_line_id_of_element : forall p, l_path p ->
  l_linear_id (l_walk p) (zlen p) = num 2 p /\ 0 <= num 2 p < 2 ^ zlen p /\
  l_init_linear_id (zlen p) (l_linear_id (l_walk p) (zlen p)) = l_walk p.
Proof.
  intros p Hp. assert (E := l_linear_id_fine Hp (conj (Z.le_refl _) (proj2 Hp))). rewrite Z.sub_diag, Z.mul_1_r in E. rewrite E.
  exact (conj eq_refl (conj (num_range (N:=2) eq_refl (proj1 Hp)) (l_init_linear_id_num Hp))).
Qed.
Print Assumptions C02_line_id_of_element.
Theorem C02_line_element_of_id : forall L id, 0 <= L <= LMAX -> 0 <= id < 2 ^ L ->
  exists p, l_path p /\ zlen p = L /\ l_init_linear_id L id = l_walk p /\ l_linear_id (l_walk p) L = id.
Proof.
  intros L id HL Hid. exists (digits 2 (Z.to_nat L) id). assert (Hp := l_path_digits id HL).
  assert (Z : zlen (digits 2 (Z.to_nat L) id) = L) by (unfold zlen; rewrite digits_length; exact (Z2Nat.id L (proj1 HL))).
  assert (H := l_linear_id_fine Hp (conj (Z.le_refl _) (proj2 Hp))). rewrite Z.sub_diag, Z.mul_1_r, Z in H.
  rewrite num_digits in H by (rewrite ?Z2Nat.id by lia; try exact Hid; exact eq_refl).
  exact (conj Hp (conj Z (conj (l_init_linear_id_walk HL Hid) H))).
Qed.
Print Assumptions C02_line_element_of_id.
Theorem C02_line_id_at_other_levels : forall p L, l_path p ->
  (0 <= L <= zlen p -> l_linear_id (l_walk p) L = num 2 (firstn (Z.to_nat L) p)) /\
  (zlen p <= L <= LMAX -> l_linear_id (l_walk p) L = num 2 p * 2 ^ (L - zlen p)).
Proof. intros p L Hp. exact (conj (l_linear_id_coarse Hp) (l_linear_id_fine Hp)). Qed.
Print Assumptions C02_line_id_at_other_levels.
Example C02_line_ex : l_linear_id (l_walk ex_line) 5 = 22 /\ l_init_linear_id 5 22 = l_walk ex_line.
Proof. split; vm_compute; reflexivity. Qed.

(** C03 *)
Theorem C03_line_successor : forall p, l_path p -> num 2 p + 1 < 2 ^ zlen p ->
  exists q, l_path q /\ zlen q = zlen p /\ l_successor (l_walk p) (zlen p) = l_walk q /\ num 2 q = num 2 p + 1.
Proof.
  intros p Hp HN. exists (next_path 2 p). assert (R := num_range (N:=2) eq_refl (proj1 Hp)).
  assert (E : num 2 (next_path 2 p) = num 2 p + 1) by (apply num_digits; [exact eq_refl|unfold zlen in *; lia]).
  assert (P : l_path (next_path 2 p)) by (split; [apply digits_valid; lia|unfold zlen; rewrite next_path_length; apply Hp]).
  exact (conj P (conj (f_equal Z.of_nat (next_path_length _ p)) (conj (l_next_path Hp HN) E))).
Qed.
Print Assumptions C03_line_successor.
Example C03_line_ex : num 2 ex_line + 1 < 2 ^ zlen ex_line /\ l_successor (l_walk [1;0;1;1;1]) 5 = l_walk [1;1;0;0;0].
Proof. split; vm_compute; congruence. Qed.

(** C04 *)
Theorem C04_line_compare : forall p q, l_path p -> l_path q -> (l_compare (l_walk p) (l_walk q) ?= 0) = path_cmp p q.
Proof. intros p q. exact (@l_compare_walk p q). Qed.
Print Assumptions C04_line_compare.
Theorem C04_line_equal : forall p q, l_path p -> l_path q -> (l_equal (l_walk p) (l_walk q) = true <-> p = q).
Proof.
  intros p q Hp Hq. split; [intros H; apply (l_walk_inj Hp Hq)|intros <-; unfold l_equal; now rewrite !Z.eqb_refl].
  unfold l_equal in H. apply andb_prop in H. destruct H as [H1 H2]. apply Z.eqb_eq in H1, H2. destruct (l_walk p) as [a b], (l_walk q) as [c d]. cbn [ll lx] in *. congruence.
Qed.
Print Assumptions C04_line_equal.
Example C04_line_ex : l_compare (l_walk ex_line) (l_walk [1;0;1;1;1;0]) = -1 /\ l_compare (l_walk ex_line) (l_walk [1;0;1;1]) = 1.
Proof. split; vm_compute; reflexivity. Qed.

(** C05 *)
Theorem C05_line_first_last : forall p L, l_path p -> zlen p <= L <= LMAX ->
  l_first_descendant (l_walk p) L = l_walk (p ++ repeat 0 (Z.to_nat (L - zlen p))) /\
  l_last_descendant (l_walk p) L = l_walk (p ++ repeat 1 (Z.to_nat (L - zlen p))).
Proof. intros p L Hp HL. exact (conj (l_first_descendant_walk Hp HL) (l_last_descendant_walk Hp HL)). Qed.
Print Assumptions C05_line_first_last.
Example C05_line_ex : l_linear_id (l_first_descendant (l_walk ex_line) 8) 8 = 176 /\ l_linear_id (l_last_descendant (l_walk ex_line) 8) 8 = 183.
Proof. split; vm_compute; reflexivity. Qed.

(** C06 *)
Theorem C06_line_nca : forall p q, l_path p -> l_path q ->
  exists c, l_path c /\ l_nca (l_walk p) (l_walk q) = l_walk c /\ prefix c p /\ prefix c q /\ forall r, prefix r p -> prefix r q -> prefix r c.
Proof.
  intros p q Hp Hq. exists (lcp p q).
  assert (TP : l_path (lcp p q)).
  { destruct (lcp_prefix_l p q) as (r & E). destruct Hp as [V L]. rewrite E in V, L. apply valid_app in V. rewrite zlen_app in L. split; [apply V|unfold zlen in *; lia]. }
  exact (conj TP (conj (l_nca_walk Hp Hq) (conj (lcp_prefix_l p q) (conj (lcp_prefix_r p q) (fun r H1 H2 => lcp_greatest H1 H2))))).
Qed.
Print Assumptions C06_line_nca.
Example C06_line_ex : l_nca (l_walk ex_line) (l_walk [1;0;1;0;1;1]) = l_walk [1;0;1].
Proof. vm_compute. reflexivity. Qed.

(** C07 *)
Theorem C07_line_is_ancestor : forall p q, l_path p -> l_path q -> (l_element_is_ancestor (l_walk p) (l_walk q) = true <-> prefix p q).
Proof. intros p q. exact (@l_is_ancestor_walk p q). Qed.
Print Assumptions C07_line_is_ancestor.
Theorem C07_line_ancestor_at_level : forall p L, l_path p -> 0 <= L <= zlen p -> l_ancestor (l_walk p) L = l_walk (firstn (Z.to_nat L) p).
Proof. intros p L. exact (@l_ancestor_walk p L). Qed.
Print Assumptions C07_line_ancestor_at_level.
Example C07_line_ex : l_element_is_ancestor (l_walk [1;0;1]) (l_walk ex_line) = true /\ l_element_is_ancestor (l_walk [1;1]) (l_walk ex_line) = false.
Proof. split; vm_compute; reflexivity. Qed.

(** C08: for lines the test is exact for arbitrary pairs *)
Theorem C08_line_family : forall p q, l_path p -> l_path q ->
  (l_is_family [l_walk p; l_walk q] = true <-> exists r, l_path r /\ zlen r < LMAX /\ p = r ++ [0] /\ q = r ++ [1]).
Proof.
  intros p q Hp Hq. destruct (l_walk_wf Hp) as [W E]. destruct (l_walk_wf Hq) as [W' E']. rewrite (l_is_family_iff W W'). split.
  - intros (e & We & HL & H). destruct (l_wf_walk We) as (r & Hr & ->). rewrite (proj2 (l_walk_wf Hr)) in HL. exists r.
    split; auto. split; auto. unfold l_children_of in H. rewrite <- !l_child_walk in H.
    assert (H1 := f_equal (hd l_root) H). assert (H2 := f_equal (fun l => hd l_root (tl l)) H). cbn [hd tl] in H1, H2.
    assert (A0 := proj2 (l_path_snoc r 0) (conj Hr (conj (conj (Z.le_refl 0) (eq_refl : 0 < 2)) HL))).
    assert (A1 := proj2 (l_path_snoc r 1) (conj Hr (conj (conj (Z.le_0_1) (eq_refl : 1 < 2)) HL))).
    exact (conj (l_walk_inj Hp A0 H1) (l_walk_inj Hq A1 H2)).
  - intros (r & Hr & HL & -> & ->). destruct (l_walk_wf Hr) as [Wr Er]. exists (l_walk r). rewrite Er. rewrite !l_child_walk. repeat split; auto; apply Wr.
Qed.
Print Assumptions C08_line_family.
Example C08_line_ex : l_is_family [l_walk [1;0;0]; l_walk [1;0;1]] = true /\ l_is_family [l_walk [1;0;1]; l_walk [1;1;0]] = false.
Proof. split; vm_compute; reflexivity. Qed.

(** C09, for all rational points x *)
Theorem C09_line_children_tile_parent : forall p, l_path p -> zlen p < LMAX -> let e := l_walk p in
  (forall x : Q, inject_Z (l_coords e 0) <= x <= inject_Z (l_coords e 1) <->
     exists i, (0 <= i < 2)%Z /\ inject_Z (l_coords (l_child e i) 0) <= x <= inject_Z (l_coords (l_child e i) 1))%Q /\
  (forall (x : Q) i, (0 <= i < 2)%Z -> inject_Z (l_coords (l_child e i) 0) < x < inject_Z (l_coords (l_child e i) 1) ->
     inject_Z (l_coords e 0) < x < inject_Z (l_coords e 1))%Q /\
  (forall (x : Q) i j, (0 <= i < 2)%Z -> (0 <= j < 2)%Z -> i <> j ->
     ~ (inject_Z (l_coords (l_child e i) 0) < x < inject_Z (l_coords (l_child e i) 1) /\
        inject_Z (l_coords (l_child e j) 0) < x < inject_Z (l_coords (l_child e j) 1)))%Q.
Proof.
  intros p Hp HL. destruct (l_walk_wf Hp) as [W E]. rewrite <- E in HL. assert (R := conj (proj1 (lwf_l W)) HL).
  exact (conj (fun x => @l_tile _ x R) (conj (fun x i Hi => @l_tile_interior _ i x R Hi) (fun x i j Hi Hj => @l_tile_disjoint _ i j x R Hi Hj))).
Qed.
Print Assumptions C09_line_children_tile_parent.
Theorem C09_line_unrelated_elements_disjoint : forall p q (x : Q), l_path p -> l_path q -> ~ prefix p q -> ~ prefix q p ->
  ~ (inject_Z (l_coords (l_walk p) 0) < x < inject_Z (l_coords (l_walk p) 1) /\ inject_Z (l_coords (l_walk q) 0) < x < inject_Z (l_coords (l_walk q) 1))%Q.
Proof. intros p q x. exact (@l_disjoint p q x). Qed.
Print Assumptions C09_line_unrelated_elements_disjoint.
Example C09_line_ex : l_path [1;0;1] /\ l_path [1;1] /\ ~ prefix [1;0;1] [1;1] /\ ~ prefix [1;1] [1;0;1] /\
  l_coords (l_walk [1;0;1]) 1 = l_coords (l_walk [1;1]) 0.
Proof.
  split; [split; [repeat constructor; vm_compute; congruence|vm_compute; congruence]|]. split; [split; [repeat constructor; vm_compute; congruence|vm_compute; congruence]|].
  split; [intros (r & E); discriminate E|]. split; [intros (r & E); discriminate E|]. vm_compute. reflexivity.
Qed.

(** C10: also for lines outside of the root (neighbours across the root boundary) *)
Theorem C10_line_face_neighbour : forall e f, laligned e -> 0 <= f < 2 ->
  let (n, g) := l_face_neighbour e f in
  laligned n /\ ll n = ll e /\ 0 <= g < 2 /\ l_coords n g = l_coords e f /\ n <> e /\ l_face_neighbour n g = (e, f).
Proof. intros e f. exact (@l_face_neighbour_spec e f). Qed.
Print Assumptions C10_line_face_neighbour.
Example C10_line_ex : l_face_neighbour (l_walk ex_line) 1 = (l_walk [1;0;1;1;1], 0) /\ laligned (l_walk ex_line).
Proof. split; [vm_compute; reflexivity|]. destruct (l_walk_wf ex_line_path) as [[A B C] _]. exact (conj A B). Qed.

(** C11 *)
Theorem C11_line_inside_root : forall e, laligned e -> (l_is_inside_root e = true <-> exists p, l_path p /\ e = l_walk p).
Proof. intros e. exact (@l_is_inside_root_iff e). Qed.
Print Assumptions C11_line_inside_root.
Theorem C11_line_root_boundary : forall p f, l_path p -> 0 <= f < 2 ->
  (l_is_root_boundary (l_walk p) f = true <-> l_coords (l_walk p) f = f * LROOT) /\
  (l_is_root_boundary (l_walk p) f = true <-> l_is_inside_root (fst (l_face_neighbour (l_walk p) f)) = false).
Proof. intros p f Hp Hf. exact (conj (l_root_boundary_iff Hp Hf) (l_root_boundary_neighbour Hp Hf)). Qed.
Print Assumptions C11_line_root_boundary.
Example C11_line_ex : l_is_root_boundary (l_walk [1;1;1]) 1 = true /\ l_is_root_boundary (l_walk [1;1;0]) 1 = false.
Proof. split; vm_compute; reflexivity. Qed.

(** C12 *)
Theorem C12_line_children_at_face : forall p f i, l_path p -> zlen p < LMAX -> 0 <= f < 2 -> 0 <= i < 2 ->
  (In i (l_child_ids_at_face f) <-> l_coords (l_child (l_walk p) i) f = l_coords (l_walk p) f) /\
  (In i (l_child_ids_at_face f) -> l_coords (l_child (l_walk p) i) (l_face_child_face f) = l_coords (l_walk p) f).
Proof.
  intros p f i Hp HL Hf Hi. destruct (l_walk_wf Hp) as [W E]. rewrite <- E in HL.
  destruct (@l_child_face _ f (conj (proj1 (lwf_l W)) HL) Hf i Hi) as [H1 H2]. exact (conj H1 (fun H => H2 (proj1 H1 H))).
Qed.
Print Assumptions C12_line_children_at_face.
Theorem C12_line_parent_face : forall p i f, l_path p -> zlen p < LMAX -> 0 <= i < 2 -> 0 <= f < 2 ->
  l_face_parent_face (l_child (l_walk p) i) f = if i =? f then f else -1.
Proof. intros p i f Hp HL Hi Hf. destruct (l_walk_wf Hp) as [W E]. rewrite <- E in HL. exact (l_face_parent_face_child W HL Hi Hf). Qed.
Print Assumptions C12_line_parent_face.

(** C13: vertices (identified with their level) as faces of lines *)
Theorem C13_line_extrude_then_boundary : forall v rf, 0 <= v <= LMAX -> 0 <= rf < 2 ->
  let (l, f) := l_extrude_face v rf in
  (exists p, l_path p /\ zlen p = v /\ l = l_walk p) /\ l_boundary_face l f = v /\ 0 <= f < 2 /\ l_is_root_boundary l f = true /\ l_coords l f = rf * LROOT.
Proof.
  intros v rf Hv Hr. assert (H := l_extrude_spec Hv Hr). destruct (l_extrude_face v rf) as [l f]. destruct H as (W & H1 & H2 & H3 & H4).
  destruct (l_wf_walk W) as (p & Hp & ->). unfold l_boundary_face in H1. rewrite (proj2 (l_walk_wf Hp)) in H1. split; [now exists p|].
  unfold l_boundary_face. rewrite (proj2 (l_walk_wf Hp)). exact (conj H1 (conj H2 (conj H3 H4))).
Qed.
Print Assumptions C13_line_extrude_then_boundary.
Theorem C13_line_boundary_then_extrude : forall p f, l_path p -> 0 <= f < 2 -> l_is_root_boundary (l_walk p) f = true ->
  l_extrude_face (l_boundary_face (l_walk p) f) f = (l_walk p, f).
Proof. intros p f. exact (@l_boundary_extrude p f). Qed.
Print Assumptions C13_line_boundary_then_extrude.

(** C14 *)
Theorem C14_line_transform_face : forall p o, l_path p -> 0 <= o < 2 ->
  (exists q, l_path q /\ l_transform_face (l_walk p) o = l_walk q /\ zlen q = zlen p) /\
  l_transform_face (l_transform_face (l_walk p) o) o = l_walk p /\
  (forall v, 0 <= v < 2 -> l_coords (l_transform_face (l_walk p) o) v = if o =? 0 then l_coords (l_walk p) v else LROOT - l_coords (l_walk p) (1 - v)).
Proof.
  intros p o Hp Ho. destruct (l_walk_wf Hp) as [W E]. destruct (l_wf_walk (l_transform_face_wf o W)) as (q & Hq & Eq).
  split; [|exact (conj (l_transform_face_invol (l_walk p) o) (fun v Hv => l_transform_face_spec (l_walk p) Ho Hv))].
  exists q. split; auto. split; auto. assert (H := f_equal ll Eq). rewrite (proj2 (l_walk_wf Hq)) in H. rewrite <- E. symmetry. exact H.
Qed.
Print Assumptions C14_line_transform_face.
Theorem C14_line_transform_refines : forall p o i, l_path p -> zlen p < LMAX -> 0 <= o < 2 -> 0 <= i < 2 ->
  l_transform_face (l_child (l_walk p) i) o = l_child (l_transform_face (l_walk p) o) (if o =? 0 then i else 1 - i).
Proof. intros p o i Hp HL Ho Hi. destruct (l_walk_wf Hp) as [W E]. rewrite <- E in HL. exact (l_transform_face_child W HL Ho Hi). Qed.
Print Assumptions C14_line_transform_refines.
Example C14_line_ex : l_transform_face (l_walk ex_line) 1 = l_walk [0;1;0;0;1].
Proof. vm_compute. reflexivity. Qed.

(** C15 *)
Theorem C15_line_count_leaves : forall p L, l_path p -> zlen p <= L <= LMAX -> l_count_leaves (l_walk p) L = 2 ^ (L - zlen p).
Proof. intros p L. exact (@l_count_leaves_num p L). Qed.
Print Assumptions C15_line_count_leaves.
Example C15_line_ex : l_count_leaves (l_walk ex_line) 9 = 16.
Proof. vm_compute. reflexivity. Qed.

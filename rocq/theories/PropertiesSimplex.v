(** Properties C01-C15 for triangles and tetrahedra.  Vocabulary: PathSpec.v, GeoSpec.v, SimplexSpec.v, BoundarySpec.v.
    [tet] chooses the class: false = triangle, true = tetrahedron.  The elements of a tree are [walk tet p] for the refinement
    paths p ([tree_path tet p]); that these are all elements inside the root is C11_simplex_inside_root. *)
From Verif Require Import Prelude PathSpec GeoSpec SimplexModel SimplexSpec BitLemmas SimplexProofs SimplexPathProofs SimplexOrderProofs
  SimplexGeoProofs SimplexAncProofs SimplexTileProofs SimplexFaceProofs SimplexFaceChildProofs SimplexFamilyProofs SimplexMoreProofs
  SimplexRefuteProofs LineModel LineSpec LineProofs BoundarySpec BoundaryProofs TransformProofs.

(** A tetrahedron of level 4 and a triangle of level 5 used in the examples. *)
Definition ex_tet : list Z := [3; 5; 0; 6].
Definition ex_tri : list Z := [2; 0; 3; 1; 2].
Example ex_tet_path : tree_path true ex_tet.
Proof. split; [repeat constructor; vm_compute; congruence|vm_compute; congruence]. Qed.
Example ex_tri_path : tree_path false ex_tri.
Proof. split; [repeat constructor; vm_compute; congruence|vm_compute; congruence]. Qed.

(** C01 *)
Theorem C01_simplex_parent_of_child : forall tet p i,
  tree_path tet p -> zlen p < MAXLEVEL tet -> 0 <= i < CHILDREN tet ->
  parent tet (child tet (walk tet p) i) = walk tet p /\ child_id tet (child tet (walk tet p) i) = i /\
  lv (child tet (walk tet p) i) = lv (walk tet p) + 1.
Proof.
  intros tet p i Hp HL Hi. destruct (walk_wf Hp) as [W E]. rewrite <- E in HL.
  exact (conj (parent_child W HL Hi) (conj (child_id_child W HL Hi) (child_lv tet (walk tet p) i))).
Qed.
Print Assumptions C01_simplex_parent_of_child.
Theorem C01_simplex_child_of_parent : forall tet p,
  tree_path tet p -> 0 < zlen p ->
  let e := walk tet p in
  lv (parent tet e) = lv e - 1 /\ 0 <= child_id tet e < CHILDREN tet /\ child tet (parent tet e) (child_id tet e) = e /\
  parent tet e = walk tet (removelast p).
Proof.
  intros tet p Hp HL. assert (N : p <> []) by (intros ->; discriminate HL).
  destruct (walk_wf Hp) as [W E]. rewrite <- E in HL. destruct (parent_inv W HL) as (_ & H1 & H2 & H3).
  exact (conj H1 (conj H2 (conj H3 (parent_walk Hp N)))).
Qed.
Print Assumptions C01_simplex_child_of_parent.
(** the array versions of the API agree with the single-child function *)
Theorem C01_simplex_children_array : forall tet p, tree_path tet p -> zlen p < MAXLEVEL tet ->
  childrenpv tet (walk tet p) = children_of tet (walk tet p).
Proof. intros tet p Hp HL. destruct (walk_wf Hp) as [W E]. rewrite <- E in HL. exact (childrenpv_eq W HL). Qed.
Print Assumptions C01_simplex_children_array.
Theorem C01_simplex_siblings : forall tet p q, tree_path tet p -> tree_path tet q -> 0 < zlen p ->
  (is_sibling tet (walk tet p) (walk tet q) = true <->
   lv (walk tet p) = lv (walk tet q) /\ parent tet (walk tet p) = parent tet (walk tet q)).
Proof.
  intros tet p q Hp Hq HL. destruct (walk_wf Hp) as [W E]. destruct (walk_wf Hq) as [W' E']. rewrite <- E in HL. exact (is_sibling_iff W W' HL).
Qed.
Print Assumptions C01_simplex_siblings.
Theorem C01_simplex_is_parent : forall tet p q, tree_path tet p -> tree_path tet q -> 0 < zlen q ->
  (is_parent tet (walk tet p) (walk tet q) = true <-> walk tet p = parent tet (walk tet q)).
Proof.
  intros tet p q Hp Hq HL. destruct (walk_wf Hp) as [W E]. destruct (walk_wf Hq) as [W' E']. rewrite <- E' in HL. exact (is_parent_iff W W' HL).
Qed.
Print Assumptions C01_simplex_is_parent.
Example C01_ex : child true (walk true ex_tet) 5 = Simp 5 4 1638400 131072 720896 /\ parent true (Simp 5 4 1638400 131072 720896) = walk true ex_tet
  /\ zlen ex_tet < MAXLEVEL true.
Proof. repeat split; vm_compute; congruence. Qed.

(** C02: the linear id of an element at its level is the number written by its path; both conversions are inverse. *)
Theorem C02_simplex_id_of_element : forall tet p, tree_path tet p ->
  linear_id tet (walk tet p) (zlen p) = num (CHILDREN tet) p /\
  0 <= linear_id tet (walk tet p) (zlen p) < CHILDREN tet ^ zlen p /\
  init_linear_id tet (linear_id tet (walk tet p) (zlen p)) (zlen p) = walk tet p.
Proof.
  intros tet p Hp. assert (E := linear_id_fine Hp (Z.le_refl (zlen p))). rewrite Z.sub_diag, Z.mul_1_r in E. rewrite E.
  exact (conj eq_refl (conj (num_range (CHILDREN_pos tet) (proj1 Hp)) (init_linear_id_num Hp))).
Qed.
Print Assumptions C02_simplex_id_of_element.
Theorem C02_simplex_element_of_id : forall tet L id, 0 <= L <= MAXLEVEL tet -> 0 <= id < CHILDREN tet ^ L ->
  exists p, tree_path tet p /\ zlen p = L /\ init_linear_id tet id L = walk tet p /\ linear_id tet (walk tet p) L = id.
Proof.
  intros tet L id HL Hid. destruct (init_linear_id_walk HL Hid) as [Hp E]. exists (digits (CHILDREN tet) (Z.to_nat L) id).
  assert (Z : zlen (digits (CHILDREN tet) (Z.to_nat L) id) = L) by (unfold zlen; rewrite digits_length; exact (Z2Nat.id L (proj1 HL))).
  assert (H := linear_id_fine Hp (Z.le_refl _)). rewrite Z.sub_diag, Z.mul_1_r, Z in H.
  rewrite num_digits in H by (rewrite ?Z2Nat.id by lia; try exact Hid; exact (CHILDREN_pos tet)). exact (conj Hp (conj Z (conj E H))).
Qed.
Print Assumptions C02_simplex_element_of_id.
(** the id at a coarser level is the id of the ancestor, at a finer level the id of the first descendant *)
Theorem C02_simplex_id_at_other_levels : forall tet p L, tree_path tet p ->
  (0 <= L <= zlen p -> linear_id tet (walk tet p) L = linear_id tet (walk tet (firstn (Z.to_nat L) p)) L) /\
  (zlen p <= L <= MAXLEVEL tet -> linear_id tet (walk tet p) L = num (CHILDREN tet) p * CHILDREN tet ^ (L - zlen p)).
Proof.
  intros tet p L Hp. split; intros HL; [|exact (linear_id_fine Hp (proj1 HL))].
  assert (Hf : tree_path tet (firstn (Z.to_nat L) p)) by (split; [exact (valid_firstn _ (proj1 Hp))|rewrite zlen_firstn; destruct Hp; lia]).
  assert (Z : zlen (firstn (Z.to_nat L) p) = L) by (rewrite zlen_firstn; lia).
  rewrite (linear_id_coarse Hp HL). rewrite linear_id_coarse by (auto; lia). rewrite firstn_firstn, Nat.min_id. exact eq_refl.
Qed.
Print Assumptions C02_simplex_id_at_other_levels.
Example C02_ex : linear_id true (walk true ex_tet) 4 = 1862 /\ init_linear_id true 1862 4 = walk true ex_tet /\
  linear_id false (walk false ex_tri) 5 = 566.
Proof. repeat split; vm_compute; reflexivity. Qed.

(** C03: the successor at the element's level has the next id; the last element has none (the code's assertion fails). *)
Theorem C03_simplex_successor : forall tet p, tree_path tet p -> num (CHILDREN tet) p + 1 < CHILDREN tet ^ zlen p ->
  exists q, tree_path tet q /\ zlen q = zlen p /\ successor tet (walk tet p) (zlen p) = Ok (walk tet q) /\
            num (CHILDREN tet) q = num (CHILDREN tet) p + 1.
Proof.
  intros tet p Hp HN. exists (next_path (CHILDREN tet) p). assert (R := num_range (CHILDREN_pos tet) (proj1 Hp)).
  assert (E : num (CHILDREN tet) (next_path (CHILDREN tet) p) = num (CHILDREN tet) p + 1)
    by (apply num_digits; [exact (CHILDREN_pos tet)|unfold zlen in *; lia]).
  exact (conj (tree_path_next Hp) (conj (f_equal Z.of_nat (next_path_length _ p)) (conj (successor_walk Hp HN) E))).
Qed.
Print Assumptions C03_simplex_successor.
Theorem C03_simplex_last_has_no_successor : forall tet p, tree_path tet p -> num (CHILDREN tet) p + 1 = CHILDREN tet ^ zlen p ->
  successor tet (walk tet p) (zlen p) = AssertFail.
Proof. intros tet p. exact (@successor_last tet p). Qed.
Print Assumptions C03_simplex_last_has_no_successor.
(** the mirror image, t8_dtri_predecessor, is wrong when the predecessor is in another family (it is not called by the schemes) *)
Theorem C03_simplex_predecessor_refuted : exists p q, tree_path false p /\ tree_path false q /\ zlen p = zlen q /\
  num 4 q + 1 = num 4 p /\ predecessor false (walk false p) (zlen p) <> Ok (walk false q).
Proof.
  exists [1; 0], [0; 3]. unfold tree_path, valid_path.
  repeat match goal with |- _ /\ _ => split | |- Forall _ _ => repeat constructor end; vm_compute; congruence.
Qed.
Print Assumptions C03_simplex_predecessor_refuted.
Example C03_ex : num 8 ex_tet + 1 < 8 ^ zlen ex_tet /\ successor true (walk true [3;5;7;7]) 4 = Ok (walk true [3;6;0;0]).
Proof. split; vm_compute; congruence. Qed.

(** C04: compare is the lexicographic order of the refinement paths, an ancestor before its descendants. *)
Theorem C04_simplex_compare : forall tet p q, tree_path tet p -> tree_path tet q ->
  (compare tet (walk tet p) (walk tet q) ?= 0) = path_cmp p q.
Proof. intros tet p q. exact (@compare_walk tet p q). Qed.
Print Assumptions C04_simplex_compare.
Theorem C04_simplex_equal : forall tet p q, tree_path tet p -> tree_path tet q ->
  (equal tet (walk tet p) (walk tet q) = true <-> p = q).
Proof.
  intros tet p q Hp Hq. destruct (walk_wf Hp) as [W E]. destruct (walk_wf Hq) as [W' E'].
  exact (iff_trans (equal_iff W W') (conj (walk_inj Hp Hq) (fun H => f_equal (walk tet) H))).
Qed.
Print Assumptions C04_simplex_equal.
Example C04_ex : compare true (walk true ex_tet) (walk true [3;5;1]) = -1 /\ compare true (walk true ex_tet) (walk true [3;5;0]) = 1.
Proof. split; vm_compute; reflexivity. Qed.

(** C05: the descendants of an element at a level are exactly the elements whose ids lie between the two bounds. *)
Theorem C05_simplex_descendant_range : forall tet p L id, tree_path tet p -> zlen p <= L <= MAXLEVEL tet -> 0 <= id < CHILDREN tet ^ L ->
  (linear_id tet (first_descendant tet (walk tet p) L) L <= id <= linear_id tet (last_descendant tet (walk tet p) L) L <->
   prefix p (digits (CHILDREN tet) (Z.to_nat L) id)).
Proof. intros tet p L id. exact (@descendant_ids tet p L id). Qed.
Print Assumptions C05_simplex_descendant_range.
Theorem C05_simplex_first_last : forall tet p L, tree_path tet p -> zlen p <= L <= MAXLEVEL tet ->
  first_descendant tet (walk tet p) L = walk tet (p ++ repeat 0 (Z.to_nat (L - zlen p))) /\
  last_descendant tet (walk tet p) L = walk tet (p ++ repeat (CHILDREN tet - 1) (Z.to_nat (L - zlen p))).
Proof. intros tet p L Hp HL. exact (conj (first_descendant_walk Hp HL) (last_descendant_walk Hp HL)). Qed.
Print Assumptions C05_simplex_first_last.
(** the descendant at a corner is a descendant of the requested level that has this corner *)
Theorem C05_simplex_corner_descendant : forall tet p c L, tree_path tet p -> zlen p <= L <= MAXLEVEL tet -> 0 <= c < CORNERS tet ->
  exists r, tree_path tet (p ++ r) /\ zlen (p ++ r) = L /\ corner_descendant tet (walk tet p) c L = walk tet (p ++ r) /\
  compute_integer_coords tet (corner_descendant tet (walk tet p) c L) c = compute_integer_coords tet (walk tet p) c.
Proof.
  intros tet p c L Hp HL Hc. exists (repeat (parenttype_beyid_to_Iloc tet (ty (walk tet p)) c) (Z.to_nat (L - zlen p))).
  assert (T := tab_corner (wf_ty (proj1 (walk_wf Hp))) Hc). unfold corner_ok in T.
  assert (Z : zlen (p ++ repeat (parenttype_beyid_to_Iloc tet (ty (walk tet p)) c) (Z.to_nat (L - zlen p))) = L) by (rewrite zlen_app, zlen_repeat; lia).
  assert (TP : tree_path tet (p ++ repeat (parenttype_beyid_to_Iloc tet (ty (walk tet p)) c) (Z.to_nat (L - zlen p)))).
  { split; [apply valid_app; split; [exact (proj1 Hp)|apply valid_repeat; lia]|lia]. }
  exact (conj TP (conj Z (conj (corner_descendant_walk Hp HL Hc) (corner_descendant_corner Hp HL Hc)))).
Qed.
Print Assumptions C05_simplex_corner_descendant.
Example C05_ex : linear_id false (first_descendant false (walk false ex_tri) 7) 7 = 566 * 16 /\
  linear_id false (last_descendant false (walk false ex_tri) 7) 7 = 566 * 16 + 15.
Proof. split; vm_compute; reflexivity. Qed.

(** C06: the nearest common ancestor *)
Theorem C06_simplex_nca : forall tet p q, tree_path tet p -> tree_path tet q ->
  exists c, tree_path tet c /\ nca tet (walk tet p) (walk tet q) = Ok (walk tet c) /\ prefix c p /\ prefix c q /\
            forall r, prefix r p -> prefix r q -> prefix r c.
Proof.
  intros tet p q Hp Hq. exists (lcp p q).
  assert (TP : tree_path tet (lcp p q)).
  { destruct (lcp_prefix_l p q) as (r & E). destruct Hp as [V L]. rewrite E in V, L. apply valid_app in V. rewrite zlen_app in L. split; [apply V|unfold zlen in *; lia]. }
  exact (conj TP (conj (nca_walk Hp Hq) (conj (lcp_prefix_l p q) (conj (lcp_prefix_r p q) (fun r H1 H2 => lcp_greatest H1 H2))))).
Qed.
Print Assumptions C06_simplex_nca.
Example C06_ex : nca true (walk true ex_tet) (walk true [3;5;2;6;1]) = Ok (walk true [3;5]).
Proof. vm_compute. reflexivity. Qed.

(** C07: both ancestor tests (by linear ids and by coordinates) are the prefix relation; ancestors at a level *)
Theorem C07_simplex_is_ancestor : forall tet p q, tree_path tet p -> tree_path tet q ->
  (element_is_ancestor tet (walk tet p) (walk tet q) = true <-> prefix p q).
Proof. intros tet p q. exact (@element_is_ancestor_walk tet p q). Qed.
Print Assumptions C07_simplex_is_ancestor.
Theorem C07_simplex_is_ancestor_coordinates : forall tet p q, tree_path tet p -> tree_path tet q ->
  (is_ancestor tet (walk tet p) (walk tet q) = true <-> prefix p q).
Proof. intros tet p q. exact (@is_ancestor_walk tet p q). Qed.
Print Assumptions C07_simplex_is_ancestor_coordinates.
Theorem C07_simplex_ancestor_at_level : forall tet p L, tree_path tet p -> 0 <= L <= zlen p ->
  ancestor tet (walk tet p) L = walk tet (firstn (Z.to_nat L) p) /\
  (1 <= L -> ancestor_id tet (walk tet p) L = nth (Z.to_nat (L - 1)) p 0).
Proof. intros tet p L Hp HL. exact (conj (ancestor_walk Hp HL) (fun H => ancestor_id_walk Hp (conj H (proj2 HL)))). Qed.
Print Assumptions C07_simplex_ancestor_at_level.
Example C07_ex : element_is_ancestor true (walk true [3;5]) (walk true ex_tet) = true /\ is_ancestor true (walk true [3;4]) (walk true ex_tet) = false.
Proof. split; vm_compute; reflexivity. Qed.

(** C08: a complete family is recognised; among N consecutive elements of a level only families are. *)
Theorem C08_simplex_family_recognised : forall tet p, tree_path tet p -> zlen p < MAXLEVEL tet ->
  is_family tet (children_of tet (walk tet p)) = true.
Proof. intros tet p Hp HL. destruct (walk_wf Hp) as [W E]. rewrite <- E in HL. exact (is_family_complete W HL). Qed.
Print Assumptions C08_simplex_family_recognised.
Theorem C08_simplex_consecutive_elements : forall tet L id, 1 <= L <= MAXLEVEL tet -> 0 <= id -> id + CHILDREN tet <= CHILDREN tet ^ L ->
  (is_family tet (map (fun k => nth_elem tet L (id + k)) (zseq 0 (Z.to_nat (CHILDREN tet)))) = true <->
   exists p, tree_path tet p /\ zlen p + 1 = L /\
     map (fun k => nth_elem tet L (id + k)) (zseq 0 (Z.to_nat (CHILDREN tet))) = children_of tet (walk tet p)).
Proof. intros tet L id. exact (@is_family_consecutive tet L id). Qed.
Print Assumptions C08_simplex_consecutive_elements.
(** For arbitrary lists of elements the test is wrong: a family shifted by one element is accepted for both classes, and for
    triangles a list that contains one child twice. *)
Theorem C08_simplex_arbitrary_list_refuted : forall tet, exists ps, Forall (tree_path tet) ps /\ zlen ps = CHILDREN tet /\
  is_family tet (map (walk tet) ps) = true /\
  forall p, tree_path tet p -> zlen p < MAXLEVEL tet -> map (walk tet) ps <> children_of tet (walk tet p).
Proof.
  intros [|].
  - exists [[0; 1]; [1; 0]; [2; 0]; [3; 0]; [3; 1]; [3; 2]; [2; 1]; [2; 4]].
    split; [repeat constructor; vm_compute; congruence|]. split; [reflexivity|]. split; [vm_compute; reflexivity|].
    intros p Hp HL E. assert (H := @not_children_of true _ p dsimp Hp HL E 0 1 ltac:(cbn [CHILDREN]; lia) ltac:(cbn [CHILDREN]; lia)).
    vm_compute in H. destruct H as [H _]. discriminate H.
  - exists [[0; 0]; [0; 1]; [0; 1]; [0; 3]].
    split; [repeat constructor; vm_compute; congruence|]. split; [reflexivity|]. split; [vm_compute; reflexivity|].
    intros p Hp HL E. assert (H := @not_children_of false _ p dsimp Hp HL E 2 1 ltac:(cbn [CHILDREN]; lia) ltac:(cbn [CHILDREN]; lia)).
    vm_compute in H. destruct H as [_ H]. discriminate H.
Qed.
Print Assumptions C08_simplex_arbitrary_list_refuted.
Example C08_ex : is_family true (map (fun k => nth_elem true 4 (1856 + k)) (zseq 0 8)) = true /\
  is_family true (map (fun k => nth_elem true 4 (1857 + k)) (zseq 0 8)) = false.
Proof. split; vm_compute; reflexivity. Qed.

(** C09 *)
Theorem C09_simplex_children_tile_parent : forall tet p, tree_path tet p -> zlen p < MAXLEVEL tet ->
  let e := walk tet p in
  (forall P, hull (vertices tet e) P <-> exists i, 0 <= i < CHILDREN tet /\ hull (vertices tet (child tet e i)) P) /\
  (forall P i, 0 <= i < CHILDREN tet -> interior (vertices tet (child tet e i)) P -> interior (vertices tet e) P) /\
  (forall P i j, 0 <= i < CHILDREN tet -> 0 <= j < CHILDREN tet -> i <> j ->
     ~ (interior (vertices tet (child tet e i)) P /\ interior (vertices tet (child tet e j)) P)).
Proof. intros tet p Hp HL. destruct (walk_wf Hp) as [W E]. rewrite <- E in HL. exact (children_tile W HL). Qed.
Print Assumptions C09_simplex_children_tile_parent.
Theorem C09_simplex_levels_tile_root : forall tet n P, Z.of_nat n <= MAXLEVEL tet -> hull (vertices tet (walk tet [])) P ->
  exists r, length r = n /\ tree_path tet r /\ hull (vertices tet (walk tet r)) P.
Proof.
  intros tet n P Hn. exact (@hull_cover tet [] n P (conj (Forall_nil _) (Z.lt_le_incl _ _ (MAXLEVEL_pos tet))) Hn).
Qed.
Print Assumptions C09_simplex_levels_tile_root.
Theorem C09_simplex_unrelated_elements_disjoint : forall tet p q P, tree_path tet p -> tree_path tet q -> ~ prefix p q -> ~ prefix q p ->
  ~ (interior (vertices tet (walk tet p)) P /\ interior (vertices tet (walk tet q)) P).
Proof. intros tet p q P. exact (@interiors_disjoint tet p q P). Qed.
Print Assumptions C09_simplex_unrelated_elements_disjoint.
Example C09_ex : vertices false (walk false [2]) = [(2^28, 0, 0); (2^28, 2^28, 0); (2^29, 2^28, 0)].
Proof. vm_compute. reflexivity. Qed.

(** C10 *)
Theorem C10_simplex_face_neighbour : forall tet e f, aligned tet e -> 0 <= f < FACES tet ->
  let '(n, g) := face_neighbour tet e f in
  aligned tet n /\ 0 <= g < FACES tet /\ lv n = lv e /\ n <> e /\ face_neighbour tet n g = (e, f) /\
  (forall v, In v (face_vertices tet e f) <-> In v (face_vertices tet n g)).
Proof. intros tet e f. exact (@face_neighbour_spec tet e f). Qed.
Print Assumptions C10_simplex_face_neighbour.
Theorem C10_simplex_face_neighbour_disjoint : forall tet e f P, aligned tet e -> 0 <= f < FACES tet ->
  ~ (interior (vertices tet e) P /\ interior (vertices tet (fst (face_neighbour tet e f))) P).
Proof. intros tet e f P. exact (@face_neighbour_disjoint tet e f P). Qed.
Print Assumptions C10_simplex_face_neighbour_disjoint.
(** every element of the tree meets the hypothesis *)
Theorem C10_simplex_tree_elements_aligned : forall tet p, tree_path tet p -> aligned tet (walk tet p).
Proof. intros tet p Hp. exact (wf_aligned (proj1 (walk_wf Hp))). Qed.
Print Assumptions C10_simplex_tree_elements_aligned.
Example C10_ex : face_neighbour true (walk true ex_tet) 2 = (walk true [3; 5; 0; 5], 2) /\ face_neighbour true (walk true [3; 5; 0; 5]) 2 = (walk true ex_tet, 2).
Proof. split; vm_compute; reflexivity. Qed.

(** C11 *)
Theorem C11_simplex_inside_root : forall tet e, aligned tet e ->
  (is_inside_root tet e = true <-> exists p, tree_path tet p /\ e = walk tet p).
Proof. intros tet e. exact (@is_inside_root_walk tet e). Qed.
Print Assumptions C11_simplex_inside_root.
Theorem C11_simplex_root_boundary : forall tet p f, tree_path tet p -> 0 <= f < FACES tet ->
  is_root_boundary tet (walk tet p) f = negb (is_inside_root tet (fst (face_neighbour tet (walk tet p) f))).
Proof.
  intros tet p f Hp. assert (A := wf_aligned (proj1 (walk_wf Hp))).
  exact (root_boundary_iff A (proj2 (is_inside_root_walk A) (ex_intro _ p (conj Hp eq_refl))) (f:=f)).
Qed.
Print Assumptions C11_simplex_root_boundary.
(** the face lies in the plane of the root face that element_get_tree_face reports, and in no other *)
Theorem C11_simplex_tree_face : forall tet p f rf, tree_path tet p -> 0 <= f < FACES tet -> 0 <= rf < FACES tet ->
  ((forall v, In v (face_vertices tet (walk tet p) f) -> on_root_plane tet rf v) <->
   (is_root_boundary tet (walk tet p) f = true /\ rf = tree_face tet (walk tet p) f)).
Proof.
  intros tet p f rf Hp. assert (A := wf_aligned (proj1 (walk_wf Hp))).
  exact (@root_face_iff tet _ f rf A (proj2 (is_inside_root_walk A) (ex_intro _ p (conj Hp eq_refl)))).
Qed.
Print Assumptions C11_simplex_tree_face.
Theorem C11_simplex_root_planes : forall tet v rf, 0 <= v < CORNERS tet -> 0 <= rf < FACES tet ->
  (on_root_plane tet rf (compute_integer_coords tet init_root v) <-> v <> rf).
Proof. intros tet v rf. exact (@on_root_plane_root tet v rf). Qed.
Print Assumptions C11_simplex_root_planes.
Example C11_ex : is_root_boundary true (walk true [1; 5]) 0 = true /\ is_inside_root true (fst (face_neighbour true (walk true [1; 5]) 0)) = false.
Proof. split; vm_compute; reflexivity. Qed.

(** C12 *)
Theorem C12_simplex_children_at_face : forall tet p f, tree_path tet p -> zlen p < MAXLEVEL tet -> 0 <= f < FACES tet ->
  let e := walk tet p in
  zlen (child_ids_at_face tet e f) = FACE_CHILDREN tet /\ increasing (child_ids_at_face tet e f) = true /\
  forall i, 0 <= i < CHILDREN tet ->
    (In i (child_ids_at_face tet e f) <-> exists g, 0 <= g < FACES tet /\ subface tet e f (child tet e i) g).
Proof.
  intros tet p f Hp HL Hf. destruct (walk_wf Hp) as [W E]. rewrite <- E in HL. destruct (children_at_face_ids W Hf) as (H1 & H2 & _).
  exact (conj H1 (conj H2 (fun i => children_at_face_exact W HL Hf (i:=i)))).
Qed.
Print Assumptions C12_simplex_children_at_face.
Theorem C12_simplex_child_face : forall tet p f k g, tree_path tet p -> zlen p < MAXLEVEL tet -> 0 <= f < FACES tet ->
  0 <= k < FACE_CHILDREN tet -> 0 <= g < FACES tet ->
  let e := walk tet p in
  0 <= face_child_face tet e f k < FACES tet /\
  (subface tet e f (child tet e (znth (-1) (child_ids_at_face tet e f) k)) g <-> g = face_child_face tet e f k).
Proof.
  intros tet p f k g Hp HL Hf Hk Hg. destruct (walk_wf Hp) as [W E]. rewrite <- E in HL. exact (face_child_face_exact W HL Hf Hk Hg).
Qed.
Print Assumptions C12_simplex_child_face.
Theorem C12_simplex_parent_face : forall tet p i g, tree_path tet p -> zlen p < MAXLEVEL tet -> 0 <= i < CHILDREN tet -> 0 <= g < FACES tet ->
  let e := walk tet p in let pf := face_parent_face tet (child tet e i) g in
  (forall f, 0 <= f < FACES tet -> subface tet e f (child tet e i) g <-> f = pf) /\
  ((forall f, 0 <= f < FACES tet -> ~ subface tet e f (child tet e i) g) -> pf = -1) /\ (pf = -1 \/ 0 <= pf < FACES tet).
Proof.
  intros tet p i g Hp HL Hi Hg. destruct (walk_wf Hp) as [W E]. rewrite <- E in HL. exact (face_parent_face_exact W HL Hi Hg).
Qed.
Print Assumptions C12_simplex_parent_face.
Example C12_ex : child_ids_at_face true (walk true ex_tet) 1 = [0; 4; 6; 7] /\ ty (walk true ex_tet) = 5.
Proof. split; vm_compute; reflexivity. Qed.

(** C13: triangles and their line faces, tetrahedra and their triangle faces *)
Theorem C13_triangle_extrude_then_boundary : forall l rf, l_path l -> zlen l <= MAXLEVEL false -> 0 <= rf < 3 ->
  let (t, f) := tri_extrude_face (l_walk l) rf in
  (exists p, tree_path false p /\ t = walk false p) /\ lv t = zlen l /\ 0 <= f < 3 /\ is_root_boundary false t f = true /\
  tree_face false t f = rf /\ tri_boundary_face t f = l_walk l.
Proof.
  intros l rf Hl HL Hr. destruct (l_walk_wf Hl) as [W E]. rewrite <- E in HL. assert (H := tri_extrude_ok W HL Hr).
  destruct (tri_extrude_face (l_walk l) rf) as [t f]. destruct H as (A & HI & H1 & H2 & H3 & H4 & H5). rewrite E in H1.
  exact (conj (proj1 (is_inside_root_walk A) HI) (conj H1 (conj H2 (conj H3 (conj H4 H5))))).
Qed.
Print Assumptions C13_triangle_extrude_then_boundary.
Theorem C13_triangle_boundary_then_extrude : forall p f, tree_path false p -> 0 <= f < 3 -> is_root_boundary false (walk false p) f = true ->
  let l := tri_boundary_face (walk false p) f in
  (exists q, l_path q /\ l = l_walk q) /\ ll l = zlen p /\ tri_extrude_face l (tree_face false (walk false p) f) = (walk false p, f) /\
  (forall v, In v (face_vertices false (walk false p) f) <->
     exists c, 0 <= c < 2 /\ mul3 2 v = emb_tri (tree_face false (walk false p) f) (l_coords l c)).
Proof.
  intros p f Hp Hf HB. destruct (walk_wf Hp) as [W E]. assert (A := wf_aligned W).
  destruct (tri_boundary_ok A (proj2 (is_inside_root_walk A) (ex_intro _ p (conj Hp eq_refl))) Hf HB) as (H1 & H2 & H3 & H4). rewrite E in H2.
  exact (conj (l_wf_walk H1) (conj H2 (conj H3 H4))).
Qed.
Print Assumptions C13_triangle_boundary_then_extrude.
Theorem C13_tetrahedron_extrude_then_boundary : forall b rf, tree_path false b -> zlen b <= MAXLEVEL true -> 0 <= rf < 4 ->
  let (t, f) := tet_extrude_face (walk false b) rf in
  (exists p, tree_path true p /\ t = walk true p) /\ lv t = zlen b /\ 0 <= f < 4 /\ is_root_boundary true t f = true /\
  tree_face true t f = rf /\ tet_boundary_face t f = Ok (walk false b).
Proof.
  intros b rf Hb HL Hr. destruct (walk_wf Hb) as [W E]. rewrite <- E in HL. assert (A := wf_aligned W).
  assert (H := tet_extrude_ok A (proj2 (is_inside_root_walk A) (ex_intro _ b (conj Hb eq_refl))) HL Hr).
  destruct (tet_extrude_face (walk false b) rf) as [t f]. destruct H as (A' & HI & H1 & H2 & H3 & H4 & H5). rewrite E in H1.
  exact (conj (proj1 (is_inside_root_walk A') HI) (conj H1 (conj H2 (conj H3 (conj H4 H5))))).
Qed.
Print Assumptions C13_tetrahedron_extrude_then_boundary.
Theorem C13_tetrahedron_boundary_then_extrude : forall p f, tree_path true p -> 0 <= f < 4 -> is_root_boundary true (walk true p) f = true ->
  exists b, tree_path false b /\ tet_boundary_face (walk true p) f = Ok (walk false b) /\ zlen b = zlen p /\
  tet_extrude_face (walk false b) (tree_face true (walk true p) f) = (walk true p, f) /\
  (forall v, In v (face_vertices true (walk true p) f) <->
     exists w, In w (vertices false (walk false b)) /\ mul3 256 v = emb_tet (tree_face true (walk true p) f) w).
Proof.
  intros p f Hp Hf HB. destruct (walk_wf Hp) as [W E]. assert (A := wf_aligned W).
  destruct (tet_boundary_ok A (proj2 (is_inside_root_walk A) (ex_intro _ p (conj Hp eq_refl))) Hf HB) as (b & H0 & H1 & H2 & H3 & H4 & H5).
  destruct (proj1 (is_inside_root_walk H1) H2) as (q & Hq & ->). rewrite E, (proj2 (walk_wf Hq)) in H3.
  exact (ex_intro _ q (conj Hq (conj H0 (conj H3 (conj H4 H5))))).
Qed.
Print Assumptions C13_tetrahedron_boundary_then_extrude.
Example C13_ex : is_root_boundary true (walk true [1; 5]) 0 = true /\ tet_boundary_face (walk true [1; 5]) 0 = Ok (walk false [0; 2]) /\
  tet_extrude_face (walk false [0; 2]) 0 = (walk true [1; 5], 0).
Proof. repeat split; vm_compute; reflexivity. Qed.

(** C14: triangles as face elements of two neighbouring trees *)
Theorem C14_triangle_transform_face : forall p o sign smaller, tree_path false p -> 0 <= o < 3 ->
  exists q, tree_path false q /\ zlen q = zlen p /\ transform_face (walk false p) o sign smaller = walk false q /\
  transform_face (walk false q) o sign (negb smaller) = walk false p /\
  (forall v, In v (vertices false (walk false q)) <->
     exists w, In w (vertices false (walk false p)) /\ iz v = iz w /\
       if smaller then bary v = face_symmetry o sign (bary w) else face_symmetry o sign (bary v) = bary w).
Proof.
  intros p o sign sm Hp Ho. destruct (walk_wf Hp) as [W E]. assert (A := wf_aligned W). assert (Ht := ag_ty A).
  destruct (@transform_face_ok _ o sign sm A (proj2 (is_inside_root_walk A) (ex_intro _ p (conj Hp eq_refl))) Ho) as (H1 & H2 & H3 & H4).
  destruct (proj1 (is_inside_root_walk H1) H2) as (q & Hq & EQ). exists q. rewrite EQ, E, (proj2 (walk_wf Hq)) in H3.
  rewrite <- EQ. exact (conj Hq (conj H3 (conj eq_refl (conj (transform_face_inv sign sm Ht Ho) (transform_face_image sign sm Ht Ho))))).
Qed.
Print Assumptions C14_triangle_transform_face.
Theorem C14_triangle_transform_refines : forall p o sign smaller i, tree_path false p -> zlen p < MAXLEVEL false -> 0 <= o < 3 -> 0 <= i < 4 ->
  exists j, 0 <= j < 4 /\
    transform_face (child false (walk false p) i) o sign smaller = child false (transform_face (walk false p) o sign smaller) j.
Proof.
  intros p o sign sm i Hp HL Ho Hi. destruct (walk_wf Hp) as [W E]. rewrite <- E in HL. exact (transform_face_child sign sm (wf_ty W) Ho HL Hi).
Qed.
Print Assumptions C14_triangle_transform_refines.
Example C14_ex : transform_face (walk false ex_tri) 1 true true = walk false [2; 0; 2; 1; 2] /\
                 transform_face (walk false ex_tri) 2 false false = walk false [2; 3; 2; 1; 2].
Proof. split; vm_compute; reflexivity. Qed.

(** C15 *)
Theorem C15_simplex_count_leaves_partial : forall tet p L, tree_path tet p -> zlen p <= L <= MAXLEVEL tet -> CHILDREN tet ^ (L - zlen p) < 2 ^ 63 ->
  element_count_leaves tet (walk tet p) L = CHILDREN tet ^ (L - zlen p) /\
  element_count_leaves tet (walk tet p) L =
    linear_id tet (last_descendant tet (walk tet p) L) L - linear_id tet (first_descendant tet (walk tet p) L) L + 1.
Proof.
  intros tet p L Hp HL HB. destruct (walk_wf Hp) as [W E].
  assert (C := @element_count_leaves_num tet (walk tet p) L W ltac:(lia)). rewrite E in C. assert (HC := CHILDREN_pos tet).
  rewrite i64_small in C by (pose proof (Z.pow_pos_nonneg (CHILDREN tet) (L - zlen p) ltac:(lia) ltac:(lia)); lia).
  refine (conj C _). rewrite C. assert (Z0 : 0 <= zlen p) by (unfold zlen; lia).
  rewrite first_descendant_walk, last_descendant_walk by auto.
  assert (V : forall i, 0 <= i < CHILDREN tet -> tree_path tet (p ++ repeat i (Z.to_nat (L - zlen p)))).
  { intros i Hi. destruct Hp. split; [apply valid_app; split; auto; now apply valid_repeat|]. rewrite zlen_app, zlen_repeat. lia. }
  assert (ZL : forall i, zlen (p ++ repeat i (Z.to_nat (L - zlen p))) = L) by (intros; rewrite zlen_app, zlen_repeat; lia).
  rewrite !linear_id_fine by (try apply V; try rewrite ZL; lia). rewrite !ZL, !Z.sub_diag, !Z.mul_1_r.
  rewrite num_pad0, num_app, num_repeat_last, zlen_repeat by lia. rewrite Z2Nat.id by lia. lia.
Qed.
Print Assumptions C15_simplex_count_leaves_partial.
(** the excluded case is only the root tetrahedron at level 21: there the count is negative *)
Theorem C15_triangle_count_leaves : forall p L, tree_path false p -> zlen p <= L <= MAXLEVEL false ->
  element_count_leaves false (walk false p) L = CHILDREN false ^ (L - zlen p) /\ count_leaves_from_root false L = CHILDREN false ^ L.
Proof.
  assert (B : forall n, 0 <= n <= 29 -> CHILDREN false ^ n < 2 ^ 63).
  { intros n Hn. apply Z.le_lt_trans with (4 ^ 29); [apply Z.pow_le_mono_r; lia|vm_compute; reflexivity]. }
  intros p L Hp HL. change (MAXLEVEL false) with 29 in HL. assert (Z0 : 0 <= zlen p) by (unfold zlen; lia).
  refine (conj (proj1 (@C15_simplex_count_leaves_partial false p L Hp HL (B _ _))) _); [lia|].
  refine (eq_trans (proj1 (@C15_simplex_count_leaves_partial false [] L _ _ (B _ _))) _).
  - split; [constructor|vm_compute; discriminate].
  - change (zlen (@nil Z)) with 0. change (MAXLEVEL false) with 29. lia.
  - change (zlen (@nil Z)) with 0. lia.
  - change (zlen (@nil Z)) with 0. now rewrite Z.sub_0_r.
Qed.
Print Assumptions C15_triangle_count_leaves.
Theorem C15_tetrahedron_count_leaves_refuted : element_count_leaves true init_root (MAXLEVEL true) = - 2 ^ 63 /\
  count_leaves_from_root true (MAXLEVEL true) = - 2 ^ 63 /\
  linear_id true (last_descendant true init_root (MAXLEVEL true)) (MAXLEVEL true) - linear_id true (first_descendant true init_root (MAXLEVEL true)) (MAXLEVEL true) + 1 = 2 ^ 63.
Proof. repeat split; vm_compute; reflexivity. Qed.
Print Assumptions C15_tetrahedron_count_leaves_refuted.
Example C15_ex : element_count_leaves true (walk true ex_tet) 7 = 512 /\ count_leaves_from_root false 6 = 4096.
Proof. split; vm_compute; reflexivity. Qed.

(** Properties C09-C14 for the hypercubes of the standalone scheme.  Vocabulary: PathSpec.v, GeoSpec.v, HyperSpec.v.
    [h_aligned c e] says that the coordinates of e are multiples of its length and that its level is at most the maximum level;
    it also holds of elements outside of the root. *)
From Coq Require Import QArith.
From Verif Require Import Prelude PathSpec GeoSpec BitLemmas SimplexModel SimplexSpec SimplexPathProofs SimplexProofs SimplexFaceChildProofs SchemeModel SchemeSpec SchemeProofs SchemeInstances LineModel LineProofs PrismModel PyramidModel.
From Verif Require Import HyperModel HyperSpec HyperProofs HyperOrderProofs HyperScheme HyperGeoProofs HyperFaceProofs HyperNbProofs FaceModel FaceSpec FaceInstances HyperFlaws HyperCrossProofs HyperMoreProofs PropertiesHyper.
Open Scope Z_scope.

(** C09 *)
Theorem C09_hypercube_children_tile_parent : forall c p, h_path c p -> zlen p < hmax c ->
  let e := h_walk c p in
  (forall P, hull (h_vertices c e) P <-> exists i, 0 <= i < hchildren c /\ hull (h_vertices c (h_child c e i)) P) /\
  (forall P i, 0 <= i < hchildren c -> interior (h_vertices c (h_child c e i)) P -> interior (h_vertices c e) P) /\
  (forall P i j, 0 <= i < hchildren c -> 0 <= j < hchildren c -> i <> j ->
     ~ (interior (h_vertices c (h_child c e i)) P /\ interior (h_vertices c (h_child c e j)) P)).
Proof. intros c p Hp HL. rewrite <- (h_walk_level (proj2 Hp)) in HL. exact (h_children_tile (h_walk_aligned Hp) HL). Qed.
Print Assumptions C09_hypercube_children_tile_parent.
Theorem C09_hypercube_unrelated_elements_disjoint : forall c p q P, h_path c p -> h_path c q -> ~ prefix p q -> ~ prefix q p ->
  ~ (interior (h_vertices c (h_walk c p)) P /\ interior (h_vertices c (h_walk c q)) P).
Proof. intros c p q P. exact (@h_interiors_disjoint c p q P). Qed.
Print Assumptions C09_hypercube_unrelated_elements_disjoint.
Example C09_hypercube_ex : h_vertices HQuad (h_walk HQuad [3; 0; 1]) =
  [(671088640, 536870912, 0); (805306368, 536870912, 0); (671088640, 671088640, 0); (805306368, 671088640, 0)] /\ h_path HQuad [3; 0; 1] /\ zlen [3; 0; 1] < hmax HQuad.
Proof. split; [vm_compute; reflexivity|]. split; [split; [repeat constructor; vm_compute; congruence|vm_compute; congruence]|vm_compute; reflexivity]. Qed.

(** C10 *)
Theorem C10_hypercube_face_neighbour : forall c e f, h_aligned c e -> 0 <= f < hfaces c ->
  let (n, g) := h_face_neighbour c e f in
  h_aligned c n /\ 0 <= g < hfaces c /\ hl n = hl e /\ n <> e /\ h_face_neighbour c n g = (e, f) /\
  (forall v, In v (h_face_vertices c e f) <-> In v (h_face_vertices c n g)).
Proof. intros c e f. exact (@h_face_neighbour_spec c e f). Qed.
Print Assumptions C10_hypercube_face_neighbour.
Theorem C10_hypercube_face_neighbour_disjoint : forall c e f P, h_aligned c e -> 0 <= f < hfaces c ->
  ~ (interior (h_vertices c e) P /\ interior (h_vertices c (fst (h_face_neighbour c e f))) P).
Proof. intros c e f P. exact (@h_neighbour_disjoint c e f P). Qed.
Print Assumptions C10_hypercube_face_neighbour_disjoint.
Theorem C10_hypercube_tree_elements_aligned : forall c p, h_path c p -> h_aligned c (h_walk c p).
Proof. intros c p. exact (@h_walk_aligned c p). Qed.
Print Assumptions C10_hypercube_tree_elements_aligned.
(** the corners of the face 2k or 2k+1 that the API lists are the corners where the coordinate k is minimal or maximal, and
    the faces at a corner are those *)
Theorem C10_hypercube_face_corners : forall c f v, 0 <= f < hfaces c -> 0 <= v < hcorners c ->
  (In v (h_face_corners c f) <-> Z.b2z (Z.testbit v (f / 2)) = f mod 2) /\ NoDup (h_face_corners c f).
Proof.
  intros c f v Hf Hv. assert (T : h_face_corners_ok c f = true) by exact (tab_face_corners Hf). exact (h_face_corners_spec T Hv).
Qed.
Print Assumptions C10_hypercube_face_corners.
Theorem C10_hypercube_corner_face : forall c v k f, 0 <= v < hcorners c -> 0 <= k < Z.of_nat (hdim c) -> 0 <= f < hfaces c ->
  (f = h_corner_face v k <-> f / 2 = k /\ In v (h_face_corners c f)).
Proof. intros c v k f. exact (@h_corner_face_spec c v k f). Qed.
Print Assumptions C10_hypercube_corner_face.
Example C10_hypercube_ex : h_face_neighbour HHex (h_walk HHex ex_hex) 2 = (h_walk HHex [3; 5; 0; 4], 3) /\ h_face_neighbour HHex (h_walk HHex [3; 5; 0; 4]) 3 = (h_walk HHex ex_hex, 2) /\
  h_face_neighbour HHex (h_walk HHex ex_hex) 5 = (h_walk HHex [3; 5; 4; 2], 4).
Proof. split; [|split]; vm_compute; reflexivity. Qed.

(** C11 *)
Theorem C11_hypercube_inside_root : forall c e, h_aligned c e -> (h_is_inside_root c e = true <-> exists p, h_path c p /\ e = h_walk c p).
Proof. intros c e. exact (@h_inside_root c e). Qed.
Print Assumptions C11_hypercube_inside_root.
Theorem C11_hypercube_neighbour_inside : forall c p f, h_path c p -> 0 <= f < hfaces c ->
  match h_face_neighbor_inside c (h_walk c p) f with
  | (Some n, g) => (n, g) = h_face_neighbour c (h_walk c p) f /\ exists q, h_path c q /\ n = h_walk c q
  | (None, g) => g = snd (h_face_neighbour c (h_walk c p) f) /\ forall q, h_path c q -> fst (h_face_neighbour c (h_walk c p) f) <> h_walk c q
  end.
Proof. intros c p f. exact (@h_neighbor_inside_spec c p f). Qed.
Print Assumptions C11_hypercube_neighbour_inside.
Theorem C11_hypercube_root_boundary : forall c p f, h_path c p -> 0 <= f < hfaces c ->
  h_is_root_boundary c (h_walk c p) f = negb (h_is_inside_root c (fst (h_face_neighbour c (h_walk c p) f))).
Proof. intros c p f. exact (@h_root_boundary c p f). Qed.
Print Assumptions C11_hypercube_root_boundary.
Theorem C11_hypercube_tree_face : forall c p f rf, h_path c p -> 0 <= f < hfaces c -> 0 <= rf < hfaces c ->
  ((forall v, In v (h_face_vertices c (h_walk c p) f) -> h_on_root_plane c rf v) <-> (h_is_root_boundary c (h_walk c p) f = true /\ rf = h_tree_face f)).
Proof. intros c p f rf. exact (@h_tree_face_spec c p f rf). Qed.
Print Assumptions C11_hypercube_tree_face.
Example C11_hypercube_ex : h_is_root_boundary HQuad (h_walk HQuad [1; 3]) 1 = true /\ h_is_root_boundary HQuad (h_walk HQuad [1; 3]) 3 = false /\
  h_face_neighbor_inside HQuad (h_walk HQuad [1; 3]) 1 = (None, 0) /\ h_face_neighbor_inside HQuad (h_walk HQuad [1; 3]) 3 = (Some (h_walk HQuad [3; 1]), 2).
Proof. split; [|split; [|split]]; vm_compute; reflexivity. Qed.

(** C12 *)
Theorem C12_hypercube_children_at_face : forall c p f, h_path c p -> zlen p < hmax c -> 0 <= f < hfaces c ->
  let e := h_walk c p in
  zlen (h_child_ids_at_face c f) = h_num_face_children c /\ increasing (h_child_ids_at_face c f) = true /\ h_children_at_face c e f = map (h_child c e) (h_child_ids_at_face c f) /\
  forall i, 0 <= i < hchildren c -> (In i (h_child_ids_at_face c f) <-> exists g, 0 <= g < hfaces c /\ h_subface c e f (h_child c e i) g).
Proof.
  intros c p f Hp HL Hf e. destruct (ids_facts Hf) as (H1 & _ & H2 & _). refine (conj H1 (conj H2 (conj eq_refl _))).
  rewrite <- (h_walk_level (proj2 Hp)) in HL. intros i Hi. exact (h_children_at_face_exact (h_walk_aligned Hp) HL Hf Hi).
Qed.
Print Assumptions C12_hypercube_children_at_face.
Theorem C12_hypercube_child_face : forall c p f k g, h_path c p -> zlen p < hmax c -> 0 <= f < hfaces c -> 0 <= k < h_num_face_children c -> 0 <= g < hfaces c ->
  let e := h_walk c p in
  h_subface c e f (h_child c e (znth (-1) (h_child_ids_at_face c f) k)) g <-> g = h_face_child_face f k.
Proof. intros c p f k g Hp HL. rewrite <- (h_walk_level (proj2 Hp)) in HL. exact (@h_face_child_face_exact c _ f k g (h_walk_aligned Hp) HL). Qed.
Print Assumptions C12_hypercube_child_face.
Theorem C12_hypercube_parent_face : forall c p i g, h_path c p -> zlen p < hmax c -> 0 <= i < hchildren c -> 0 <= g < hfaces c ->
  let e := h_walk c p in let pf := h_face_parent_face c (h_child c e i) g in
  (forall f, 0 <= f < hfaces c -> h_subface c e f (h_child c e i) g <-> f = pf) /\ (pf = -1 \/ 0 <= pf < hfaces c).
Proof. intros c p i g. exact (@h_face_parent_face_exact c p i g). Qed.
Print Assumptions C12_hypercube_parent_face.
(** the first and the last descendant at a face: the number of each child on the way is the first, or the last, of those at the face *)
Theorem C12_hypercube_descendants_at_face : forall c p f L, h_path c p -> zlen p <= L <= hmax c -> 0 <= f < hfaces c ->
  exists i j, 0 <= i < hchildren c /\ 0 <= j < hchildren c /\ hd (-1) (h_child_ids_at_face c f) = i /\ last (h_child_ids_at_face c f) (-1) = j /\
  h_first_descendant_face c (h_walk c p) f L = h_walk c (p ++ repeat i (Z.to_nat (L - zlen p))) /\
  h_last_descendant_face c (h_walk c p) f L = h_walk c (p ++ repeat j (Z.to_nat (L - zlen p))).
Proof.
  intros c p f L Hp HL Hf. exists (fid f), (lid c f). destruct (ids_facts Hf) as (_ & _ & _ & _ & E1 & E2 & R1 & R2 & _).
  exact (conj R1 (conj R2 (conj E1 (conj E2 (conj (h_first_face_walk Hp HL Hf) (h_last_face_walk Hp HL Hf)))))).
Qed.
Print Assumptions C12_hypercube_descendants_at_face.
(** For the root the function that returns the face of the parent is documented to return the face (t8_scheme.hxx:639), and does so for all
    classes of the default scheme that are modelled; *)
Theorem C12_default_root_parent_face :
  (forall f, 0 <= f < 2 -> l_face_parent_face (LineSpec.l_walk []) f = f) /\ (forall tet f, 0 <= f < FACES tet -> face_parent_face tet (walk tet []) f = f) /\
  (forall f, 0 <= f < 5 -> p_face_parent_face p_root f = f) /\ (forall f, 0 <= f < 5 -> y_face_parent_face y_root f = f).
Proof. exact default_root_parent_face. Qed.
Print Assumptions C12_default_root_parent_face.
(** but the standalone scheme returns -1 *)
Theorem C12_standalone_root_parent_face_refuted : forall c f, 0 <= f < hfaces c -> h_face_parent_face c (h_root c) f = -1.
Proof. intros c f _. exact eq_refl. Qed.
Print Assumptions C12_standalone_root_parent_face_refuted.
Example C12_hypercube_ex : h_child_ids_at_face HHex 2 = [0; 1; 4; 5] /\ h_face_parent_face HHex (h_child HHex (h_walk HHex ex_hex) 5) 2 = 2 /\
  h_face_parent_face HHex (h_child HHex (h_walk HHex ex_hex) 5) 3 = -1 /\ h_face_parent_face HHex (h_child HHex (h_walk HHex ex_hex) 5) 1 = 1.
Proof. split; [|split; [|split]]; vm_compute; reflexivity. Qed.

(** C13: the boundary face is an element of the class of the faces *)
Theorem C13_hypercube_extrude_then_boundary : forall c b rf, h_path (h_face_class c) b -> zlen b <= hmax c -> 0 <= rf < hfaces c ->
  let (e, f) := h_extrude_face c (h_walk (h_face_class c) b) rf in
  (exists p, h_path c p /\ zlen p = zlen b /\ e = h_walk c p) /\ 0 <= f < hfaces c /\ h_is_root_boundary c e f = true /\ h_tree_face f = rf /\
  h_boundary_face c e f = h_walk (h_face_class c) b.
Proof.
  intros c b rf Hb HL Hr. assert (V := proj1 (hin_valid _ _) (ex_intro _ b (conj Hb eq_refl))). rewrite <- (h_walk_level (proj2 Hb)) in HL. assert (H := h_extrude_in V HL Hr).
  destruct (h_extrude_face c (h_walk (h_face_class c) b) rf) as [e f]. destruct H as (H1 & H2 & -> & H3 & H4). apply hin_valid in H1. destruct H1 as (p & Hp & ->).
  rewrite !h_walk_level in H2 by (first [exact (proj2 Hp)|exact (proj2 Hb)]). exact (conj (ex_intro _ p (conj Hp (conj H2 eq_refl))) (conj Hr (conj H3 (conj eq_refl H4)))).
Qed.
Print Assumptions C13_hypercube_extrude_then_boundary.
(** the vertices of the boundary face are, in order, the corners of the face, in the coordinates of the face *)
Theorem C13_hypercube_boundary_then_extrude : forall c p f, h_path c p -> 0 <= f < hfaces c -> h_is_root_boundary c (h_walk c p) f = true ->
  exists b, h_path (h_face_class c) b /\ zlen b = zlen p /\ h_boundary_face c (h_walk c p) f = h_walk (h_face_class c) b /\
  h_extrude_face c (h_walk (h_face_class c) b) (h_tree_face f) = (h_walk c p, f) /\
  forall j, 0 <= j < h_num_face_corners c ->
    h_scale (2 ^ (hbits (h_face_class c) - hbits c)) (h_vertex c (h_walk c p) (h_face_corner f j)) =
    h_embed (h_tree_face f) (2 ^ hbits (h_face_class c)) (h_vertex (h_face_class c) (h_walk (h_face_class c) b) j).
Proof.
  intros c p f Hp Hf HB. assert (V := proj1 (hin_valid _ _) (ex_intro _ p (conj Hp eq_refl))). destruct (h_boundary_in V Hf) as [H1 H2]. assert (H3 := h_boundary_extrude V Hf HB).
  assert (H4 := fun j => @h_boundary_image c _ f j V Hf HB). apply hin_valid in H1. destruct H1 as (b & Hb & E). rewrite E in *. rewrite !h_walk_level in H2 by (first [exact (proj2 Hp)|exact (proj2 Hb)]).
  exists b. exact (conj Hb (conj H2 (conj eq_refl (conj H3 H4)))).
Qed.
Print Assumptions C13_hypercube_boundary_then_extrude.
Example C13_hypercube_ex : h_boundary_face HHex (h_walk HHex [5; 7; 3]) 1 = h_walk HQuad [2; 3; 1] /\ h_extrude_face HHex (h_walk HQuad [2; 3; 1]) 1 = (h_walk HHex [5; 7; 3], 1) /\
  h_is_root_boundary HHex (h_walk HHex [5; 7; 3]) 1 = true.
Proof. split; [|split]; vm_compute; reflexivity. Qed.

(** C14 *)
Theorem C14_hypercube_transform_face : forall c p o sign smaller, c <> HHex -> c <> PHex -> h_path c p -> 0 <= o < h_orientations c ->
  exists q, h_path c q /\ zlen q = zlen p /\ h_transform_face c (h_walk c p) o sign smaller = Ok (h_walk c q) /\
  h_transform_face c (h_walk c q) o sign (negb smaller) = Ok (h_walk c p) /\
  (forall v, In v (h_vertices c (h_walk c q)) <->
     exists w, In w (h_vertices c (h_walk c p)) /\ if smaller then v = h_symmetry c o sign w else h_symmetry c o sign v = w).
Proof.
  intros c p o sign sm Hc Hc' Hp Ho. assert (V := proj1 (hin_valid _ _) (ex_intro _ p (conj Hp eq_refl))). destruct (@h_transform_in c _ o sign sm Hc Hc' V Ho) as (b & H1 & H2 & H3 & H4 & _).
  assert (H5 := @h_transform_image c _ o sign sm _ V Ho H1). apply hin_valid in H2. destruct H2 as (q & Hq & ->). rewrite !h_walk_level in H3 by (first [exact (proj2 Hp)|exact (proj2 Hq)]).
  exists q. exact (conj Hq (conj H3 (conj H1 (conj H4 H5)))).
Qed.
Print Assumptions C14_hypercube_transform_face.
(** the symmetry maps the corner 0 of the face to its corner o *)
Theorem C14_hypercube_orientation : forall c o sign, 0 <= o < h_orientations c -> h_symmetry c o sign (h_vertex c (h_root c) 0) = h_vertex c (h_root c) o.
Proof. intros c o sign. exact (@h_symmetry_corner c o sign). Qed.
Print Assumptions C14_hypercube_orientation.
Theorem C14_hypercube_transform_refines : forall c p o sign smaller i, c <> HHex -> c <> PHex -> h_path c p -> zlen p < hmax c -> 0 <= o < h_orientations c -> 0 <= i < hchildren c ->
  exists b j, 0 <= j < hchildren c /\ h_transform_face c (h_walk c p) o sign smaller = Ok b /\ h_transform_face c (h_child c (h_walk c p) i) o sign smaller = Ok (h_child c b j).
Proof.
  intros c p o sign sm i Hc Hc' Hp HL Ho Hi. rewrite <- (h_walk_level (proj2 Hp)) in HL.
  exact (@h_transform_child c _ o sign sm i Hc Hc' (proj1 (hin_valid _ _) (ex_intro _ p (conj Hp eq_refl))) HL Ho Hi).
Qed.
Print Assumptions C14_hypercube_transform_refines.
Example C14_hypercube_ex : h_transform_face HQuad (h_walk HQuad [2; 3; 1]) 1 false true = Ok (h_walk HQuad [0; 2; 3]) /\
  h_transform_face HQuad (h_walk HQuad [0; 2; 3]) 1 false false = Ok (h_walk HQuad [2; 3; 1]).
Proof. split; vm_compute; reflexivity. Qed.

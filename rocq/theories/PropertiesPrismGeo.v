(** Properties C09-C12 for prisms, and C46 (the anchor of an element).  Vocabulary: PathSpec.v, GeoSpec.v, PrismSpec.v.
    [p_aligned e] says that the coordinates of e are multiples of its length, that e has the same level in both parts and that this level is at most 21;
    it also holds of elements outside of the root. *)
From Coq Require Import QArith.
From Verif Require Import Prelude PathSpec GeoSpec BitLemmas SimplexModel SimplexSpec LineModel LineSpec SimplexPathProofs SimplexProofs SimplexOrderProofs SimplexAncProofs
  SimplexTileProofs SimplexFaceProofs SimplexFaceChildProofs LineProofs PrismModel PrismSpec PrismProofs PrismGeoProofs PrismFaceProofs PropertiesPrism AnchorModel AnchorProofs.
Open Scope Z_scope.

(** C09 *)
Theorem C09_prism_children_tile_parent : forall p, p_path p -> zlen p < PMAX ->
  let e := p_walk p in
  (forall P, hull (p_vertices e) P <-> exists i, 0 <= i < 8 /\ hull (p_vertices (p_child e i)) P) /\
  (forall P i, 0 <= i < 8 -> interior (p_vertices (p_child e i)) P -> interior (p_vertices e) P) /\
  (forall P i j, 0 <= i < 8 -> 0 <= j < 8 -> i <> j -> ~ (interior (p_vertices (p_child e i)) P /\ interior (p_vertices (p_child e j)) P)).
Proof. intros p Hp HL. exact (p_children_tile Hp HL). Qed.
Print Assumptions C09_prism_children_tile_parent.
Theorem C09_prism_unrelated_elements_disjoint : forall p q P, p_path p -> p_path q -> ~ prefix p q -> ~ prefix q p ->
  ~ (interior (p_vertices (p_walk p)) P /\ interior (p_vertices (p_walk q)) P).
Proof. intros p q P. exact (@p_interiors_disjoint p q P). Qed.
Print Assumptions C09_prism_unrelated_elements_disjoint.
(** the middle of the fifth child of the example, which has the vertex 0 and the length given above *)
Example C09_prism_ex : p_vertices (p_walk ex_prism) =
  [(1703936, 1048576, 655360); (1703936, 1179648, 655360); (1835008, 1179648, 655360); (1703936, 1048576, 786432); (1703936, 1179648, 786432); (1835008, 1179648, 786432)] /\
  zlen ex_prism < PMAX /\ ~ prefix ex_prism [3; 4] /\ ~ prefix [3; 4] ex_prism.
Proof.
  split; [vm_compute; reflexivity|]. split; [vm_compute; reflexivity|]. split; intros [r H]; [|discriminate]. apply (f_equal (@length Z)) in H. discriminate.
Qed.

(** C10 *)
Theorem C10_prism_face_neighbour : forall e f, p_aligned e -> 0 <= f < 5 ->
  let '(n, g) := p_face_neighbour e f in
  p_aligned n /\ 0 <= g < 5 /\ p_level n = p_level e /\ n <> e /\ p_face_neighbour n g = (e, f) /\
  (forall v, In v (p_face_vertices e f) <-> In v (p_face_vertices n g)).
Proof. intros e f. exact (@p_face_neighbour_spec e f). Qed.
Print Assumptions C10_prism_face_neighbour.
Theorem C10_prism_face_neighbour_disjoint : forall e f P, p_aligned e -> 0 <= f < 5 ->
  ~ (interior (p_vertices e) P /\ interior (p_vertices (fst (p_face_neighbour e f))) P).
Proof. intros e f P. exact (@p_face_neighbour_disjoint e f P). Qed.
Print Assumptions C10_prism_face_neighbour_disjoint.
Theorem C10_prism_tree_elements_aligned : forall p, p_path p -> p_aligned (p_walk p).
Proof. intros p. exact (@p_walk_aligned p). Qed.
Print Assumptions C10_prism_tree_elements_aligned.
(** the corners of a face that the API lists are those of the specification *)
Theorem C10_prism_face_corners : forall f k, 0 <= f < 5 -> 0 <= k < zlen (p_face_corner_numbers f) -> p_face_corner f k = znth (-1) (p_face_corner_numbers f) k.
Proof. intros f k. exact (@p_face_corner_ok f k). Qed.
Print Assumptions C10_prism_face_corners.
Example C10_prism_ex : p_face_neighbour (p_walk ex_prism) 0 = (p_walk [3; 5; 0; 7], 2) /\ p_face_neighbour (p_walk [3; 5; 0; 7]) 2 = (p_walk ex_prism, 0) /\
  p_face_neighbour (p_walk ex_prism) 4 = (p_walk [3; 5; 4; 2], 3).
Proof. split; [vm_compute; reflexivity|split; vm_compute; reflexivity]. Qed.

(** C11 *)
Theorem C11_prism_inside_root : forall e, p_aligned e -> (p_is_inside_root e = true <-> exists p, p_path p /\ e = p_walk p).
Proof. intros e. exact (@p_is_inside_root_iff e). Qed.
Print Assumptions C11_prism_inside_root.
Theorem C11_prism_neighbour_inside : forall p f, p_path p -> 0 <= f < 5 ->
  match p_neighbor_inside (p_walk p) f with
  | Some n => n = p_face_neighbour (p_walk p) f /\ exists q, p_path q /\ fst n = p_walk q
  | None => forall q, p_path q -> fst (p_face_neighbour (p_walk p) f) <> p_walk q
  end.
Proof. intros p f. exact (@p_neighbor_inside_iff p f). Qed.
Print Assumptions C11_prism_neighbour_inside.
Theorem C11_prism_root_boundary : forall p f, p_path p -> 0 <= f < 5 ->
  p_is_root_boundary (p_walk p) f = negb (p_is_inside_root (fst (p_face_neighbour (p_walk p) f))).
Proof. intros p f. exact (@p_root_boundary_neighbour p f). Qed.
Print Assumptions C11_prism_root_boundary.
(** the face lies in the plane of the root face that element_get_tree_face reports, and in no other *)
Theorem C11_prism_tree_face : forall p f rf, p_path p -> 0 <= f < 5 -> 0 <= rf < 5 ->
  ((forall v, In v (p_face_vertices (p_walk p) f) -> p_on_root_plane rf v) <-> (p_is_root_boundary (p_walk p) f = true /\ rf = p_tree_face (p_walk p) f)).
Proof. intros p f rf. exact (@p_root_face_iff p f rf). Qed.
Print Assumptions C11_prism_tree_face.
(** the planes are those of the faces of the root *)
Theorem C11_prism_root_planes : forall v rf, 0 <= v < 6 -> 0 <= rf < 5 -> (p_on_root_plane rf (p_vertex p_root v) <-> In v (p_face_corner_numbers rf)).
Proof. intros v rf. exact (@p_root_planes v rf). Qed.
Print Assumptions C11_prism_root_planes.
Example C11_prism_ex : p_is_root_boundary (p_walk [5; 5]) 0 = true /\ p_is_root_boundary (p_walk [5; 5]) 4 = true /\ p_is_root_boundary (p_walk [5; 5]) 1 = false /\
  p_neighbor_inside (p_walk [5; 5]) 0 = None /\ p_neighbor_inside (p_walk [5; 5]) 3 = Some (p_walk [5; 1], 4).
Proof. split; [|split; [|split; [|split]]]; vm_compute; reflexivity. Qed.

(** C12 *)
Theorem C12_prism_children_at_face : forall p f, p_path p -> zlen p < PMAX -> 0 <= f < 5 ->
  let e := p_walk p in
  zlen (p_child_ids_at_face e f) = p_num_face_children f /\ increasing (p_child_ids_at_face e f) = true /\
  forall i, 0 <= i < 8 -> (In i (p_child_ids_at_face e f) <-> exists g, 0 <= g < 5 /\ p_subface e f (p_child e i) g).
Proof.
  intros p f Hp HL Hf. destruct (p_children_at_face_ids Hp Hf) as (H1 & H2 & _).
  exact (conj H1 (conj H2 (fun i => @p_children_at_face_exact p f i Hp HL Hf))).
Qed.
Print Assumptions C12_prism_children_at_face.
Theorem C12_prism_child_face : forall p f k g, p_path p -> zlen p < PMAX -> 0 <= f < 5 -> 0 <= k < p_num_face_children f -> 0 <= g < 5 ->
  let e := p_walk p in
  p_subface e f (p_child e (znth (-1) (p_child_ids_at_face e f) k)) g <-> g = p_face_child_face e f k.
Proof. intros p f k g. exact (@p_face_child_face_exact p f k g). Qed.
Print Assumptions C12_prism_child_face.
Theorem C12_prism_parent_face : forall p i g, p_path p -> zlen p < PMAX -> 0 <= i < 8 -> 0 <= g < 5 ->
  let e := p_walk p in let pf := p_face_parent_face (p_child e i) g in
  (forall f, 0 <= f < 5 -> p_subface e f (p_child e i) g <-> f = pf) /\ (pf = -1 \/ 0 <= pf < 5).
Proof. intros p i g. exact (@p_face_parent_face_exact p i g). Qed.
Print Assumptions C12_prism_parent_face.
Example C12_prism_ex : p_child_ids_at_face (p_walk ex_prism) 0 = [2; 3; 6; 7] /\ p_face_parent_face (p_child (p_walk ex_prism) 6) 0 = 0 /\
  p_face_parent_face (p_child (p_walk ex_prism) 6) 1 = -1 /\ p_face_parent_face (p_child (p_walk ex_prism) 6) 4 = 4.
Proof. split; [|split; [|split]]; vm_compute; reflexivity. Qed.

(** C46: the anchor is the vertex number 0, and no vertex of the element has a smaller coordinate *)
Theorem C46_simplex_anchor : forall tet p, tree_path tet p ->
  let e := walk tet p in
  get_anchor tet e = compute_integer_coords tet e 0 /\
  forall v, In v (vertices tet e) -> ix (get_anchor tet e) <= ix v <= ROOT_LEN tet /\ iy (get_anchor tet e) <= iy v <= ROOT_LEN tet /\ iz (get_anchor tet e) <= iz v <= ROOT_LEN tet.
Proof. intros tet p. exact (@simplex_anchor tet p). Qed.
Print Assumptions C46_simplex_anchor.
(** the anchor of every prism of level 1 or more is the origin, also where no vertex is *)
Theorem C46_prism_anchor_refuted :
  (forall p, p_path p -> 0 < zlen p -> p_anchor (p_walk p) = (0, 0, 0)) /\
  exists p, p_path p /\ 0 < zlen p /\ ~ In (p_anchor (p_walk p)) (p_vertices (p_walk p)).
Proof. exact prism_anchor_refuted. Qed.
Print Assumptions C46_prism_anchor_refuted.
(** the vertex number 0, by contrast, is where the documentation says the anchor is *)
Theorem C46_prism_lowest_vertex : forall p, p_path p ->
  forall v, In v (p_vertices (p_walk p)) ->
    ix (p_vertex (p_walk p) 0) <= ix v <= PROOT /\ iy (p_vertex (p_walk p) 0) <= iy v <= PROOT /\ iz (p_vertex (p_walk p) 0) <= iz v <= PROOT.
Proof. intros p. exact (@prism_lowest_vertex p). Qed.
Print Assumptions C46_prism_lowest_vertex.
Example C46_ex : get_anchor true (walk true [3; 5; 0; 4]) = compute_integer_coords true (walk true [3; 5; 0; 4]) 0 /\ p_anchor (p_walk ex_prism) = (0, 0, 0) /\
  p_vertex (p_walk ex_prism) 0 = (1703936, 1048576, 655360).
Proof. split; [|split]; vm_compute; reflexivity. Qed.

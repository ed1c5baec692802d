(** Properties C09-C12 and C46 for pyramid trees.  Vocabulary: PathSpec.v, GeoSpec.v, PyramidSpec.v, PyramidGeoSpec.v.
    An element of a pyramid tree is [y_walk p] for a refinement path p, and has the shape of a pyramid or of a tetrahedron. *)
From Coq Require Import QArith.
From Verif Require Import Prelude PathSpec GeoSpec BitLemmas SimplexModel SimplexSpec SimplexPathProofs SimplexProofs SimplexTileProofs SimplexFaceProofs SimplexFaceChildProofs.
From Verif Require Import PyramidModel PyramidSpec PyramidProofs PyramidAncProofs PyramidGeoSpec PyramidGeoProofs PyramidFaceProofs PyramidNbProofs PropertiesPyramid.
Open Scope Z_scope.

(** C09 *)
Theorem C09_pyramid_children_tile_parent : forall p, y_path p -> zlen p < YMAX ->
  let e := y_walk p in
  (forall P, hull (y_vertices e) P <-> exists i, 0 <= i < y_num_children e /\ hull (y_vertices (y_child e i)) P) /\
  (forall P i, 0 <= i < y_num_children e -> interior (y_vertices (y_child e i)) P -> interior (y_vertices e) P) /\
  (forall P i j, 0 <= i < y_num_children e -> 0 <= j < y_num_children e -> i <> j ->
     ~ (interior (y_vertices (y_child e i)) P /\ interior (y_vertices (y_child e j)) P)).
Proof. intros p Hp HL. destruct (y_walk_wf Hp) as [W L]. exact (@y_children_tile (y_walk p) W ltac:(change YMAX with 21 in HL; lia)). Qed.
Print Assumptions C09_pyramid_children_tile_parent.
Theorem C09_pyramid_levels_tile_root : forall L P, 0 <= L <= YMAX ->
  (hull (y_vertices y_root) P <-> exists p, y_path p /\ zlen p = L /\ hull (y_vertices (y_walk p)) P).
Proof.
  intros L P HL. change YMAX with 21 in HL. split.
  - intros H. destruct (@y_hull_cover (Z.to_nat L) P ltac:(lia) H) as (r & Lr & Hr & HP). exists r. split; [exact Hr|]. split; [unfold zlen; lia|exact HP].
  - intros (p & Hp & _ & H). apply (@y_hull_prefix [] p P Hp); [now exists p|exact H].
Qed.
Print Assumptions C09_pyramid_levels_tile_root.
Theorem C09_pyramid_unrelated_elements_disjoint : forall p q P, y_path p -> y_path q -> ~ prefix p q -> ~ prefix q p ->
  ~ (interior (y_vertices (y_walk p)) P /\ interior (y_vertices (y_walk q)) P).
Proof. intros p q P. exact (@y_interiors_disjoint p q P). Qed.
Print Assumptions C09_pyramid_unrelated_elements_disjoint.
Example C09_pyramid_ex : y_vertices (y_walk ex_pyr) = [(2031616, 1441792, 1048576); (2031616, 1441792, 1114112); (2097152, 1441792, 1114112); (2097152, 1507328, 1114112)] /\
  y_vertices (y_walk ex_pyr2) = [(655360, 1703936, 262144); (786432, 1703936, 262144); (655360, 1835008, 262144); (786432, 1835008, 262144); (655360, 1703936, 131072)] /\
  y_path ex_pyr /\ y_path ex_pyr2 /\ zlen ex_pyr < YMAX /\ ~ prefix ex_pyr ex_pyr2 /\ ~ prefix ex_pyr2 ex_pyr.
Proof.
  split; [vm_compute; reflexivity|]. split; [vm_compute; reflexivity|]. split; [exact (proj1 ex_pyr_path)|]. split; [exact (proj1 ex_pyr2_path)|].
  split; [vm_compute; reflexivity|]. split; intros [r H]; discriminate H.
Qed.

(** C10, C11: the neighbour across a face, which either is an element of the same level of the tree, at whose face the neighbour is the element
    itself, or is outside of the tree; and the vertices of the face are those of the face of the neighbour.  A tetrahedron has pyramids and
    tetrahedra as neighbours *)
Theorem C10_pyramid_face_neighbour : forall p f, y_path p -> 0 <= f < y_num_faces (y_walk p) ->
  let e := y_walk p in let '(n, g) := y_face_neighbour e f in
  (forall s, 0 <= g < y_num_faces (Pyr n s) /\ forall v, In v (y_face_vertices e f) <-> In v (y_face_vertices (Pyr n s) g)) /\
  match y_face_neighbor_inside e f with
  | Ok (Some m, g') => g' = g /\ yt m = n /\
      exists q, y_path q /\ zlen q = zlen p /\ m = y_walk q /\ q <> p /\ y_face_neighbour m g = (yt e, f) /\ y_face_neighbor_inside m g = Ok (Some e, f)
  | Ok (None, g') => g' = g /\ forall q, y_path q -> yt (y_walk q) <> n
  | _ => False
  end.
Proof.
  intros p f Hp Hf. rewrite nf_num in Hf. cbv zeta. assert (N := y_neighbour_spec Hp Hf). cbv zeta in N. assert (SH := fun s => @y_nb_share p f s Hp Hf).
  destruct (y_face_neighbour (y_walk p) f) as [n g]. split.
  - intros s. destruct (SH s) as (_ & _ & R & V). rewrite nf_num. exact (conj R V).
  - destruct (y_face_neighbor_inside (y_walk p) f) as [[[m|] g']| | |]; try exact N; [|].
    + destruct N as (N1 & N2 & _ & _ & N3). exact (conj N1 (conj N2 N3)).
    + destruct N as (N1 & _ & _ & N3). exact (conj N1 N3).
Qed.
Print Assumptions C10_pyramid_face_neighbour.
Theorem C10_pyramid_face_neighbour_disjoint : forall p f m g P, y_path p -> 0 <= f < y_num_faces (y_walk p) -> y_face_neighbor_inside (y_walk p) f = Ok (Some m, g) ->
  ~ (interior (y_vertices (y_walk p)) P /\ interior (y_vertices m) P).
Proof.
  intros p f m g P Hp Hf E. rewrite nf_num in Hf. assert (N := y_neighbour_spec Hp Hf). cbv zeta in N. destruct (y_face_neighbour (y_walk p) f) as [n g0]. rewrite E in N.
  destruct N as (_ & _ & _ & _ & q & Hq & Lq & -> & NE & _).
  assert (LL : forall a b : list Z, zlen a = zlen b -> prefix a b -> a = b).
  { intros a b H [r ->]. rewrite zlen_app in H. destruct r as [|x r]; [now rewrite app_nil_r|]. unfold zlen in H. cbn [length] in H. lia. }
  apply (@y_interiors_disjoint p q P Hp Hq); intros H; apply NE; [symmetry|]; apply LL; auto.
Qed.
Print Assumptions C10_pyramid_face_neighbour_disjoint.
(** the faces as the interface lists their corners are faces: the other corners of the element lie on one side of the plane of the face *)
Theorem C10_pyramid_face_corners : forall p f, y_path p -> 0 <= f < y_num_faces (y_walk p) -> let e := y_walk p in
  NoDup (y_face_corners e f) /\ (forall v, In v (y_face_corners e f) -> 0 <= v < y_num_corners e) /\
  exists n d, forall v, 0 <= v < y_num_corners e -> 0 <= yform n d (y_integer_coords e v) /\ (yform n d (y_integer_coords e v) = 0 <-> In v (y_face_corners e f)).
Proof. intros p f Hp Hf. rewrite nf_num in Hf. exact (y_face_supported Hp Hf). Qed.
Print Assumptions C10_pyramid_face_corners.
(** a tetrahedron between two tetrahedra of different history, and a pyramid with tetrahedra and a pyramid around it *)
Example C10_pyramid_ex :
  y_face_neighbor_inside (y_walk ex_pyr) 3 = Ok (Some (Pyr (Simp 5 3 2031616 1376256 1048576) 5), 0) /\
  y_face_neighbor_inside (y_walk ex_pyr2) 0 = Ok (Some (Pyr (Simp 4 3 655360 1703936 131072) 2), 1) /\
  y_face_neighbor_inside (y_walk ex_pyr2) 4 = Ok (Some (Pyr (Simp 4 6 655360 1703936 262144) (-1)), 4) /\
  y_face_neighbor_inside (y_walk [9; 9; 3]) 0 = Ok (Some (y_walk [9; 9; 8]), 3) /\ y_face_neighbor_inside (y_walk [9; 9; 3]) 1 = Ok (None, 1).
Proof. split; [|split; [|split; [|split]]]; vm_compute; reflexivity. Qed.

(** C11 *)
Theorem C11_pyramid_inside_root : forall p, y_path p -> y_is_inside_root (yt (y_walk p)) = true.
Proof. intros p. exact (@y_walk_inside p). Qed.
Print Assumptions C11_pyramid_inside_root.
(** a neighbour of an element of the tree is recognised as inside of the root exactly if it is an element of the tree *)
Theorem C11_pyramid_neighbour_inside : forall p f, y_path p -> 0 <= f < y_num_faces (y_walk p) ->
  let n := fst (y_face_neighbour (y_walk p) f) in
  (y_is_inside_root n = true <-> exists q, y_path q /\ yt (y_walk q) = n) /\
  y_is_root_boundary (y_walk p) f = negb (y_is_inside_root n).
Proof.
  intros p f Hp Hf. rewrite nf_num in Hf. cbv zeta. assert (N := y_neighbour_spec Hp Hf). cbv zeta in N. destruct (y_face_neighbour (y_walk p) f) as [n g]. cbn [fst].
  destruct (y_face_neighbor_inside (y_walk p) f) as [[[m|] g']| | |]; try destruct N as [].
  - destruct H0 as (E & RB & IR & q & Hq & _ & -> & _). rewrite RB, IR. split; [|reflexivity]. split; [|reflexivity]. intros _. exists q. auto.
  - destruct H0 as (RB & IR & NO). rewrite RB, IR. split; [|reflexivity]. split; [discriminate|]. intros (q & Hq & E). destruct (NO q Hq E).
Qed.
Print Assumptions C11_pyramid_neighbour_inside.
(** the face lies in the plane of the root face that element_get_tree_face reports, and in no other *)
Theorem C11_pyramid_tree_face : forall p f rf, y_path p -> 0 <= f < y_num_faces (y_walk p) -> 0 <= rf < 5 ->
  ((forall v, In v (y_face_vertices (y_walk p) f) -> y_on_root_plane rf v) <-> (y_is_root_boundary (y_walk p) f = true /\ rf = y_tree_face (y_walk p) f)).
Proof.
  intros p f rf Hp Hf Hrf. rewrite nf_num in Hf. destruct (y_walk_wf Hp) as [W _]. rewrite <- (on_plane_iff (yw_ty W) Hf Hrf). exact (y_root_face_iff Hp Hf Hrf).
Qed.
Print Assumptions C11_pyramid_tree_face.
(** the planes are those of the faces of the root *)
Theorem C11_pyramid_root_planes : forall v rf, 0 <= v < 5 -> 0 <= rf < 5 -> (y_on_root_plane rf (y_integer_coords y_root v) <-> In v (y_face_corners y_root rf)).
Proof.
  intros v rf Hv Hrf.
  split_range Hv; split_range Hrf; vm_compute; intuition (try discriminate; try lia).
Qed.
Print Assumptions C11_pyramid_root_planes.
Example C11_pyramid_ex : y_is_root_boundary (y_walk [9; 9; 3]) 1 = true /\ y_tree_face (y_walk [9; 9; 3]) 1 = 0 /\ y_is_root_boundary (y_walk [9; 9; 3]) 0 = false /\
  y_is_root_boundary (y_walk [9; 9; 9]) 3 = true /\ y_is_inside_root (fst (y_face_neighbour (y_walk [9; 9; 3]) 1)) = false.
Proof. split; [|split; [|split; [|split]]]; vm_compute; reflexivity. Qed.

(** C12 *)
Theorem C12_pyramid_children_at_face : forall p f, y_path p -> zlen p < YMAX -> 0 <= f < y_num_faces (y_walk p) -> let e := y_walk p in
  zlen (y_child_ids_at_face e f) = 4 /\ increasing (y_child_ids_at_face e f) = true /\ y_children_at_face e f = map (y_child e) (y_child_ids_at_face e f) /\
  forall i, 0 <= i < y_num_children e -> (In i (y_child_ids_at_face e f) <-> exists g, 0 <= g < y_num_faces (y_child e i) /\ y_subface e f (y_child e i) g).
Proof. intros p f Hp HL Hf. rewrite nf_num in Hf. cbv zeta. rewrite nch_num. exact (y_children_at_face_exact Hp HL Hf). Qed.
Print Assumptions C12_pyramid_children_at_face.
Theorem C12_pyramid_child_face : forall p f k g, y_path p -> zlen p < YMAX -> 0 <= f < y_num_faces (y_walk p) -> 0 <= k < 4 ->
  let e := y_walk p in let c := y_child e (znth (-1) (y_child_ids_at_face e f) k) in
  0 <= g < y_num_faces c -> 0 <= y_face_child_face e f k < y_num_faces c /\ (y_subface e f c g <-> g = y_face_child_face e f k).
Proof. intros p f k g Hp HL Hf Hk. rewrite nf_num in Hf. exact (@y_face_child_face_exact p f k g Hp HL Hf Hk). Qed.
Print Assumptions C12_pyramid_child_face.
Theorem C12_pyramid_parent_face : forall p i g, y_path p -> zlen p < YMAX -> 0 <= i < y_num_children (y_walk p) ->
  let e := y_walk p in let c := y_child e i in 0 <= g < y_num_faces c ->
  let pf := y_face_parent_face c g in
  (forall f, 0 <= f < y_num_faces e -> y_subface e f c g <-> f = pf) /\ (pf = -1 \/ 0 <= pf < y_num_faces e).
Proof. intros p i g Hp HL Hi. rewrite nch_num in Hi. exact (@y_face_parent_face_exact p i g Hp HL Hi). Qed.
Print Assumptions C12_pyramid_parent_face.
Example C12_pyramid_ex : y_child_ids_at_face (y_walk ex_pyr2) 0 = [0; 7; 8; 9] /\ y_face_parent_face (y_child (y_walk ex_pyr2) 7) 2 = 0 /\
  y_face_parent_face (y_child (y_walk ex_pyr2) 7) 0 = -1 /\ y_face_parent_face (y_child (y_walk ex_pyr2) 1) 3 = 1.
Proof. split; [|split; [|split]]; vm_compute; reflexivity. Qed.

(** C46: the anchor is a vertex of the element and no vertex has a smaller coordinate; except for the pyramids that point down it is the vertex 0 *)
Theorem C46_pyramid_anchor_partial : forall p, y_path p -> let e := y_walk p in
  In (y_get_anchor e) (y_vertices e) /\ (yty e <> 7 -> y_get_anchor e = y_integer_coords e 0) /\
  forall v, In v (y_vertices e) -> ix (y_get_anchor e) <= ix v <= YROOT /\ iy (y_get_anchor e) <= iy v <= YROOT /\ iz (y_get_anchor e) <= iz v <= YROOT.
Proof. intros p. exact (@y_anchor p). Qed.
Print Assumptions C46_pyramid_anchor_partial.
Theorem C46_pyramid_anchor_refuted : ~ forall p, y_path p -> y_get_anchor (y_walk p) = y_integer_coords (y_walk p) 0.
Proof. intros H. specialize (H ex_pyr2 (proj1 ex_pyr2_path)). apply (f_equal iz) in H. revert H. vm_compute. discriminate. Qed.
Print Assumptions C46_pyramid_anchor_refuted.
Example C46_pyramid_ex : y_get_anchor (y_walk ex_pyr2) = (655360, 1703936, 131072) /\ y_integer_coords (y_walk ex_pyr2) 0 = (655360, 1703936, 262144) /\
  y_get_anchor (y_walk ex_pyr) = y_integer_coords (y_walk ex_pyr) 0.
Proof. split; [|split]; vm_compute; reflexivity. Qed.

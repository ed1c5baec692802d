(** Properties C09-C14 for the quadrilaterals (oct = false) and hexahedra (oct = true) of the default scheme.  Vocabulary: PathSpec.v, GeoSpec.v,
    CubeSpec.v.  [c_aligned oct e] says that the coordinates of e are multiples of its length and that its level is at most the maximum level;
    it also holds of elements outside of the root. *)
From Coq Require Import QArith.
From Verif Require Import Prelude PathSpec GeoSpec BitLemmas SimplexModel SimplexSpec SimplexPathProofs SimplexProofs SimplexFaceChildProofs SchemeModel SchemeSpec SchemeProofs SchemeInstances LineModel LineSpec LineProofs.
From Verif Require Import HyperModel HyperSpec HyperProofs HyperOrderProofs HyperScheme HyperGeoProofs HyperFaceProofs HyperNbProofs HyperFlaws HyperCrossProofs HyperMoreProofs CubeModel CubeSpec TransferProofs CubeScheme CubeProofs.
Open Scope Z_scope.

(** C09 *)
Theorem C09_cube_children_tile_parent : forall oct p, c_path oct p -> zlen p < c_maxlevel oct ->
  let e := c_walk oct p in
  (forall P, hull (c_vertices oct e) P <-> exists i, 0 <= i < c_num_children oct /\ hull (c_vertices oct (c_child oct e i)) P) /\
  (forall P i, 0 <= i < c_num_children oct -> interior (c_vertices oct (c_child oct e i)) P -> interior (c_vertices oct e) P) /\
  (forall P i j, 0 <= i < c_num_children oct -> 0 <= j < c_num_children oct -> i <> j ->
     ~ (interior (c_vertices oct (c_child oct e i)) P /\ interior (c_vertices oct (c_child oct e j)) P)).
Proof. intros oct p. exact (@c_children_tile oct p). Qed.
Print Assumptions C09_cube_children_tile_parent.
Theorem C09_cube_unrelated_elements_disjoint : forall oct p q P, c_path oct p -> c_path oct q -> ~ prefix p q -> ~ prefix q p ->
  ~ (interior (c_vertices oct (c_walk oct p)) P /\ interior (c_vertices oct (c_walk oct q)) P).
Proof.
  intros oct p q P Hp Hq H1 H2. rewrite (c_vertices_eq (oct := oct) (proj1 (proj2 (proj1 (c_walk_hin Hp))))), (c_vertices_eq (oct := oct) (proj1 (proj2 (proj1 (c_walk_hin Hq))))), (c_walk_eq Hp), (c_walk_eq Hq).
  apply c_path_eq in Hp, Hq. exact (@h_interiors_disjoint (cclass oct) p q P Hp Hq H1 H2).
Qed.
Print Assumptions C09_cube_unrelated_elements_disjoint.
(** C46: the anchor, in three coordinates, is the vertex 0 *)
Theorem C46_cube_anchor : forall oct p, c_path oct p -> let e := c_walk oct p in let a := to_ipt (c_anchor oct e) in
  a = c_vertex oct e 0 /\ forall v, In v (c_vertices oct e) -> ix a <= ix v <= 2 ^ 30 /\ iy a <= iy v <= 2 ^ 30 /\ iz a <= iz v <= 2 ^ 30.
Proof. intros oct p. exact (@c_anchor_spec oct p). Qed.
Print Assumptions C46_cube_anchor.
Example C09_cube_ex : c_vertices false (c_walk false [3; 0; 1]) =
  [(671088640, 536870912, 0); (805306368, 536870912, 0); (671088640, 671088640, 0); (805306368, 671088640, 0)] /\ c_path false [3; 0; 1] /\ zlen [3; 0; 1] < c_maxlevel false.
Proof. split; [vm_compute; reflexivity|]. split; [split; [repeat constructor; vm_compute; congruence|vm_compute; congruence]|vm_compute; reflexivity]. Qed.

(** C10 *)
Theorem C10_cube_face_neighbour : forall oct e f, c_aligned oct e -> 0 <= f < c_num_faces oct ->
  let (n, g) := c_face_neighbour e f in
  c_aligned oct n /\ 0 <= g < c_num_faces oct /\ hl n = hl e /\ n <> e /\ c_face_neighbour n g = (e, f) /\
  (forall v, In v (c_face_vertices oct e f) <-> In v (c_face_vertices oct n g)).
Proof. intros oct e f. exact (@c_neighbour_spec oct e f). Qed.
Print Assumptions C10_cube_face_neighbour.
Theorem C10_cube_face_neighbour_disjoint : forall oct e f P, c_aligned oct e -> 0 <= f < c_num_faces oct ->
  ~ (interior (c_vertices oct e) P /\ interior (c_vertices oct (fst (c_face_neighbour e f))) P).
Proof. intros oct e f P. exact (@c_neighbour_disjoint oct e f P). Qed.
Print Assumptions C10_cube_face_neighbour_disjoint.
Theorem C10_cube_tree_elements_aligned : forall oct p, c_path oct p -> c_aligned oct (c_walk oct p).
Proof. intros oct p Hp. exact (proj2 (c_aligned_eq oct _) (proj1 (c_walk_hin Hp))). Qed.
Print Assumptions C10_cube_tree_elements_aligned.
(** the corners of the face 2k or 2k+1 that the API lists are the corners where the coordinate k is minimal or maximal, and
    the faces at a corner are those *)
Theorem C10_cube_face_corners : forall oct f v, 0 <= f < c_num_faces oct -> 0 <= v < c_num_children oct ->
  (In v (c_face_corners oct f) <-> Z.b2z (Z.testbit v (f / 2)) = f mod 2) /\ NoDup (c_face_corners oct f).
Proof.
  intros oct f v Hf Hv. rewrite (c_face_corners_eq Hf). rewrite c_num_faces_eq in Hf. assert (T : h_face_corners_ok (cclass oct) f = true) by exact (tab_face_corners Hf).
  assert (Hv' : 0 <= v < hcorners (cclass oct)) by (destruct oct; exact Hv). exact (h_face_corners_spec T Hv').
Qed.
Print Assumptions C10_cube_face_corners.
Theorem C10_cube_corner_face : forall oct v k f, 0 <= v < c_num_children oct -> 0 <= k < c_dim oct -> 0 <= f < c_num_faces oct ->
  (f = c_corner_face oct v k <-> f / 2 = k /\ In v (c_face_corners oct f)).
Proof.
  intros oct v k f Hv Hk Hf.
  assert (T : forallb (fun v => forallb (fun k => forallb (fun f => Bool.eqb (f =? c_corner_face oct v k) ((f / 2 =? k) && existsb (Z.eqb v) (c_face_corners oct f))) (zseq 0 (Z.to_nat (c_num_faces oct)))) (zseq 0 (Z.to_nat (c_dim oct)))) (zseq 0 (Z.to_nat (c_num_children oct))) = true) by (destruct oct; vm_compute; reflexivity).
  rewrite forallb_forall in T. specialize (T v ltac:(apply in_zseq; lia)). rewrite forallb_forall in T. specialize (T k ltac:(apply in_zseq; lia)). rewrite forallb_forall in T. specialize (T f ltac:(apply in_zseq; lia)).
  apply Bool.eqb_prop in T. rewrite <- Z.eqb_eq, T, andb_true_iff, Z.eqb_eq, existsb_exists.
  split; [intros [H (x & H1 & H2)]; apply Z.eqb_eq in H2; subst x; exact (conj H H1)|intros [H1 H2]; exact (conj H1 (ex_intro _ v (conj H2 (Z.eqb_refl v))))].
Qed.
Print Assumptions C10_cube_corner_face.
Example C10_cube_ex : c_face_neighbour (c_walk true [3; 5; 0; 6]) 2 = (c_walk true [3; 5; 0; 4], 3) /\ c_face_neighbour (c_walk true [3; 5; 0; 4]) 3 = (c_walk true [3; 5; 0; 6], 2).
Proof. split; vm_compute; reflexivity. Qed.

(** C11 *)
Theorem C11_cube_inside_root : forall oct e, c_aligned oct e -> (p4_is_inside_root e = true <-> exists p, c_path oct p /\ e = c_walk oct p).
Proof. intros oct e. exact (@c_inside_root oct e). Qed.
Print Assumptions C11_cube_inside_root.
Theorem C11_cube_neighbour_inside : forall oct p f, c_path oct p -> 0 <= f < c_num_faces oct ->
  match c_face_neighbor_inside (c_walk oct p) f with
  | (Some n, g) => (n, g) = c_face_neighbour (c_walk oct p) f /\ exists q, c_path oct q /\ n = c_walk oct q
  | (None, g) => g = snd (c_face_neighbour (c_walk oct p) f) /\ forall q, c_path oct q -> fst (c_face_neighbour (c_walk oct p) f) <> c_walk oct q
  end.
Proof. intros oct p f. exact (@c_neighbor_inside_spec oct p f). Qed.
Print Assumptions C11_cube_neighbour_inside.
Theorem C11_cube_root_boundary : forall oct p f, c_path oct p -> 0 <= f < c_num_faces oct ->
  c_is_root_boundary oct (c_walk oct p) f = negb (p4_is_inside_root (fst (c_face_neighbour (c_walk oct p) f))).
Proof. intros oct p f. exact (@c_root_boundary oct p f). Qed.
Print Assumptions C11_cube_root_boundary.
Theorem C11_cube_tree_face : forall oct p f rf, c_path oct p -> 0 <= f < c_num_faces oct -> 0 <= rf < c_num_faces oct ->
  ((forall v, In v (c_face_vertices oct (c_walk oct p) f) -> c_on_root_plane rf v) <-> (c_is_root_boundary oct (c_walk oct p) f = true /\ rf = c_tree_face f)).
Proof. intros oct p f rf. exact (@c_tree_face_spec oct p f rf). Qed.
Print Assumptions C11_cube_tree_face.
Example C11_cube_ex : c_is_root_boundary false (c_walk false [1; 3]) 1 = true /\ c_is_root_boundary false (c_walk false [1; 3]) 3 = false /\
  c_face_neighbor_inside (c_walk false [1; 3]) 1 = (None, 0) /\ c_face_neighbor_inside (c_walk false [1; 3]) 3 = (Some (c_walk false [3; 1]), 2).
Proof. split; [|split; [|split]]; vm_compute; reflexivity. Qed.

(** C12 *)
Theorem C12_cube_children_at_face : forall oct p f, c_path oct p -> zlen p < c_maxlevel oct -> 0 <= f < c_num_faces oct ->
  let e := c_walk oct p in
  zlen (c_child_ids_at_face oct f) = c_num_face_children oct /\ increasing (c_child_ids_at_face oct f) = true /\
  forall i, 0 <= i < c_num_children oct -> (In i (c_child_ids_at_face oct f) <-> exists g, 0 <= g < c_num_faces oct /\ c_subface oct e f (c_child oct e i) g).
Proof.
  intros oct p f Hp HL Hf e. assert (Hf' := Hf). rewrite c_num_faces_eq in Hf'. destruct (ids_facts Hf') as (H1 & _ & H2 & _).
  assert (E : h_num_face_children (cclass oct) = c_num_face_children oct) by (destruct oct; exact eq_refl). rewrite (@c_ids_eq oct f Hf'). rewrite E in H1.
  refine (conj H1 (conj H2 _)). intros i Hi. assert (X := @c_children_at_face_exact oct p f i Hp HL Hf Hi). rewrite (@c_ids_eq oct f Hf') in X. exact X.
Qed.
Print Assumptions C12_cube_children_at_face.
Theorem C12_cube_child_face : forall oct p f k g, c_path oct p -> zlen p < c_maxlevel oct -> 0 <= f < c_num_faces oct -> 0 <= k < c_num_face_children oct -> 0 <= g < c_num_faces oct ->
  let e := c_walk oct p in
  c_subface oct e f (c_child oct e (znth (-1) (c_child_ids_at_face oct f) k)) g <-> g = c_face_child_face f k.
Proof. intros oct p f k g. exact (@c_face_child_face_exact oct p f k g). Qed.
Print Assumptions C12_cube_child_face.
Theorem C12_cube_parent_face : forall oct p i g, c_path oct p -> zlen p < c_maxlevel oct -> 0 <= i < c_num_children oct -> 0 <= g < c_num_faces oct ->
  let e := c_walk oct p in let pf := c_face_parent_face oct (c_child oct e i) g in
  (forall f, 0 <= f < c_num_faces oct -> c_subface oct e f (c_child oct e i) g <-> f = pf) /\ (pf = -1 \/ 0 <= pf < c_num_faces oct).
Proof. intros oct p i g. exact (@c_face_parent_face_exact oct p i g). Qed.
Print Assumptions C12_cube_parent_face.
Theorem C12_cube_root_parent_face : forall oct f, 0 <= f < c_num_faces oct -> c_face_parent_face oct (c_root oct) f = f.
Proof. intros oct f _. destruct oct; exact eq_refl. Qed.
Print Assumptions C12_cube_root_parent_face.
(** the first and the last descendant at a face: the number of each child on the way is the first, or the last, of those at the face *)
Theorem C12_cube_descendants_at_face : forall oct p f L, c_path oct p -> zlen p <= L <= c_maxlevel oct -> 0 <= f < c_num_faces oct ->
  exists i j, 0 <= i < c_num_children oct /\ 0 <= j < c_num_children oct /\ hd (-1) (c_child_ids_at_face oct f) = i /\ last (c_child_ids_at_face oct f) (-1) = j /\
  c_first_descendant_face oct (c_walk oct p) f L = c_walk oct (p ++ repeat i (Z.to_nat (L - zlen p))) /\
  c_last_descendant_face oct (c_walk oct p) f L = c_walk oct (p ++ repeat j (Z.to_nat (L - zlen p))).
Proof. intros oct p f L. exact (@c_descendants_at_face oct p f L). Qed.
Print Assumptions C12_cube_descendants_at_face.
Example C12_cube_ex : c_child_ids_at_face true 2 = [0; 1; 4; 5] /\ c_face_parent_face true (c_child true (c_walk true [3; 5; 0; 6]) 5) 2 = 2 /\
  c_face_parent_face true (c_child true (c_walk true [3; 5; 0; 6]) 5) 3 = -1 /\ c_face_parent_face true (c_child true (c_walk true [3; 5; 0; 6]) 5) 1 = 1.
Proof. split; [|split; [|split]]; vm_compute; reflexivity. Qed.

(** C13: the boundary face of a quadrilateral is a line, *)
Theorem C13_quad_extrude_then_boundary : forall b rf, l_path b -> zlen b <= c_maxlevel false -> 0 <= rf < 4 ->
  exists p f, q_extrude_face (l_walk b) rf = Ok (c_walk false p, f) /\ c_path false p /\ zlen p = zlen b /\ 0 <= f < 4 /\
  c_is_root_boundary false (c_walk false p) f = true /\ c_tree_face f = rf /\ q_boundary_face (c_walk false p) f = l_walk b.
Proof.
  intros b rf Hb HL Hr. assert (V := proj1 (hin_valid HLine _) (ex_intro _ b (conj Hb eq_refl))). assert (Lb : hl (h_walk HLine b) = zlen b) by exact (h_walk_level (c:=HLine) (p:=b) (proj2 Hb)).
  assert (HL' : hl (h_walk HLine b) <= hmax PQuad) by (rewrite Lb; exact HL). assert (H := @h_extrude_in PQuad _ rf V HL' Hr). rewrite <- (l_walk_cv Hb) in *. rewrite (q_extrude_eq V) by exact Hr.
  destruct (h_extrude_face PQuad (cv (l_walk b)) rf) as [e f]. destruct H as (H1 & H2 & -> & H3 & H4). assert (H1' := H1). apply hin_valid in H1. destruct H1 as (p & Hp & ->). assert (Hp' := proj2 (c_path_eq false p) Hp).
  exists p, rf. rewrite (c_walk_eq Hp'). cbn [cclass]. rewrite (@c_root_boundary_eq false) by (assumption). rewrite (h_walk_level (proj2 Hp)) in H2.
  assert (B : q_boundary_face (h_walk PQuad p) rf = l_walk b) by (apply cv_inj; rewrite <- H4; exact (q_boundary_eq H1' Hr)).
  exact (conj eq_refl (conj Hp' (conj (eq_trans H2 Lb) (conj Hr (conj H3 (conj eq_refl B)))))).
Qed.
Print Assumptions C13_quad_extrude_then_boundary.
(** whose vertices are, in order, the corners of the face, in the coordinates of the face *)
Theorem C13_quad_boundary_then_extrude : forall p f, c_path false p -> 0 <= f < 4 -> c_is_root_boundary false (c_walk false p) f = true ->
  exists b, l_path b /\ zlen b = zlen p /\ q_boundary_face (c_walk false p) f = l_walk b /\ q_extrude_face (l_walk b) (c_tree_face f) = Ok (c_walk false p, f) /\
  forall j, 0 <= j < 2 -> c_vertex false (c_walk false p) (c_face_corner false f j) = h_embed (c_tree_face f) (2 ^ 30) (l_coords (l_walk b) j, 0, 0).
Proof.
  intros p f Hp Hf HB. assert (V := c_walk_hin Hp). rewrite (@c_root_boundary_eq false) in HB by assumption. destruct (h_boundary_in V Hf) as [H1 H2]. assert (H3 := h_boundary_extrude V Hf HB).
  assert (H4 := fun j => @h_boundary_image (cclass false) _ f j V Hf HB). assert (H1' := H1). apply hin_valid in H1. destruct H1 as (b & Hb & E). change (h_face_class (cclass false)) with HLine in *. cbn [cclass] in *. assert (BE := q_boundary_eq V Hf). rewrite E in *. rewrite (h_walk_level (proj2 Hb)), (c_walk_level Hp) in H2.
  rewrite <- (l_walk_cv Hb) in *. apply cv_inj in BE. exists b. rewrite (q_extrude_eq H1') by exact Hf. unfold c_tree_face. rewrite H3.
  refine (conj Hb (conj H2 (conj BE (conj eq_refl _)))). intros j Hj. specialize (H4 j Hj). rewrite cv_vertex in H4 by exact Hj.
  assert (CR : 0 <= c_face_corner false f j < 4) by (apply (@c_corner_range false f _ Hf); unfold c_face_corners; apply in_map; apply in_zseq; cbn; lia).
  rewrite (@c_vertex_eq false) by (first [exact (proj1 (proj2 (proj1 V)))|exact CR]). rewrite (@c_corner_eq false f j Hf) by (cbn; lia).
  cbn [cclass]. change (2 ^ 30) with (2 ^ hbits HLine). rewrite <- H4. unfold h_scale. change (2 ^ (hbits HLine - hbits PQuad)) with 1. destruct (h_vertex PQuad (c_walk false p) (h_face_corner f j)) as [[x y] z]. cbn [ix iy iz fst snd]. rewrite !Z.mul_1_l. exact eq_refl.
Qed.
Print Assumptions C13_quad_boundary_then_extrude.
Example C13_quad_ex : q_boundary_face (c_walk false [1; 3; 3]) 1 = l_walk [0; 1; 1] /\ q_extrude_face (l_walk [0; 1; 1]) 1 = Ok (c_walk false [1; 3; 3], 1) /\
  c_is_root_boundary false (c_walk false [1; 3; 3]) 1 = true.
Proof. split; [|split]; vm_compute; reflexivity. Qed.
(** and that of a hexahedron is a quadrilateral *)
Theorem C13_hex_extrude_then_boundary : forall b rf, c_path false b -> zlen b <= c_maxlevel true -> 0 <= rf < 6 ->
  exists p f, o_extrude_face (c_walk false b) rf = Ok (c_walk true p, f) /\ c_path true p /\ zlen p = zlen b /\ 0 <= f < 6 /\
  c_is_root_boundary true (c_walk true p) f = true /\ c_tree_face f = rf /\ o_boundary_face (c_walk true p) f = c_walk false b.
Proof.
  intros b rf Hb HL Hr. assert (V := c_walk_hin Hb). assert (HL' : hl (c_walk false b) <= hmax PHex) by (rewrite (c_walk_level Hb); exact HL). assert (H := @h_extrude_in PHex _ rf V HL' Hr). rewrite (o_extrude_eq V) by exact Hr.
  destruct (h_extrude_face PHex (c_walk false b) rf) as [e f]. destruct H as (H1 & H2 & -> & H3 & H4). assert (H1' := H1). apply hin_valid in H1. destruct H1 as (p & Hp & ->). assert (Hp' := proj2 (c_path_eq true p) Hp).
  exists p, rf. rewrite (c_walk_eq Hp'). cbn [cclass]. rewrite (@c_root_boundary_eq true) by assumption. rewrite (h_walk_level (proj2 Hp)), (c_walk_level Hb) in H2. rewrite (o_boundary_eq H1' Hr).
  exact (conj eq_refl (conj Hp' (conj H2 (conj Hr (conj H3 (conj eq_refl H4)))))).
Qed.
Print Assumptions C13_hex_extrude_then_boundary.
Theorem C13_hex_boundary_then_extrude : forall p f, c_path true p -> 0 <= f < 6 -> c_is_root_boundary true (c_walk true p) f = true ->
  exists b, c_path false b /\ zlen b = zlen p /\ o_boundary_face (c_walk true p) f = c_walk false b /\ o_extrude_face (c_walk false b) (c_tree_face f) = Ok (c_walk true p, f) /\
  forall j, 0 <= j < 4 -> c_vertex true (c_walk true p) (c_face_corner true f j) = h_embed (c_tree_face f) (2 ^ 30) (c_vertex false (c_walk false b) j).
Proof.
  intros p f Hp Hf HB. assert (V := c_walk_hin Hp). rewrite (@c_root_boundary_eq true) in HB by assumption. destruct (h_boundary_in V Hf) as [H1 H2]. assert (H3 := h_boundary_extrude V Hf HB).
  assert (H4 := fun j => @h_boundary_image (cclass true) _ f j V Hf HB). change (h_face_class (cclass true)) with PQuad in *. assert (H1' := H1). apply hin_valid in H1. destruct H1 as (b & Hb & E). cbn [cclass] in *. assert (BE := o_boundary_eq V Hf). rewrite E in *. rewrite (h_walk_level (proj2 Hb)), (c_walk_level Hp) in H2.
  assert (Hb' := proj2 (c_path_eq false b) Hb). exists b. rewrite (c_walk_eq Hb'). cbn [cclass]. rewrite (o_extrude_eq H1') by exact Hf. unfold c_tree_face. rewrite H3.
  refine (conj Hb' (conj H2 (conj BE (conj eq_refl _)))). intros j Hj. specialize (H4 j Hj).
  assert (CR : 0 <= c_face_corner true f j < 8) by (apply (@c_corner_range true f _ Hf); unfold c_face_corners; apply in_map; apply in_zseq; cbn; lia).
  rewrite (@c_vertex_eq true) by (first [exact (proj1 (proj2 (proj1 V)))|exact CR]). rewrite (@c_vertex_eq false) by (first [exact (proj1 (proj2 (proj1 H1')))|exact Hj]). rewrite (@c_corner_eq true f j Hf) by exact Hj.
  cbn [cclass] in *. change (2 ^ 30) with (2 ^ hbits PQuad). rewrite <- H4. unfold h_scale. change (2 ^ (hbits PQuad - hbits PHex)) with 1. destruct (h_vertex PHex (c_walk true p) (h_face_corner f j)) as [[x y] z]. cbn [ix iy iz fst snd]. rewrite !Z.mul_1_l. exact eq_refl.
Qed.
Print Assumptions C13_hex_boundary_then_extrude.
Example C13_hex_ex : o_boundary_face (c_walk true [5; 7; 3]) 1 = c_walk false [2; 3; 1] /\ o_extrude_face (c_walk false [2; 3; 1]) 1 = Ok (c_walk true [5; 7; 3], 1) /\
  c_is_root_boundary true (c_walk true [5; 7; 3]) 1 = true.
Proof. split; [|split]; vm_compute; reflexivity. Qed.

(** C14: the output is the same element as the input *)
Theorem C14_quad_transform_face : forall p o sign smaller, c_path false p -> 0 <= o < 4 ->
  exists q, c_path false q /\ zlen q = zlen p /\ q_transform_face (c_walk false p) None o sign smaller = Ok (c_walk false q) /\
  q_transform_face (c_walk false q) None o sign (negb smaller) = Ok (c_walk false p) /\
  (forall v, In v (c_vertices false (c_walk false q)) <->
     exists w, In w (c_vertices false (c_walk false p)) /\ if smaller then v = c_symmetry o sign w else c_symmetry o sign v = w).
Proof. intros p o sign smaller. exact (@q_transform_walk p o sign smaller). Qed.
Print Assumptions C14_quad_transform_face.
Theorem C14_quad_orientation : forall o sign, 0 <= o < 4 -> c_symmetry o sign (c_vertex false (c_root false) 0) = c_vertex false (c_root false) o.
Proof. intros o sign Ho. assert (A : o = 0 \/ o = 1 \/ o = 2 \/ o = 3) by lia. destruct A as [-> | [-> | [-> | ->]]], sign; vm_compute; exact eq_refl. Qed.
Print Assumptions C14_quad_orientation.
(** with another element as output the result is the same without a sign *)
Theorem C14_quad_distinct_output_partial : forall p out o smaller, c_path false p -> q_transform_face (c_walk false p) (Some out) o false smaller = q_transform_face (c_walk false p) None o false smaller.
Proof. intros p out o smaller _. exact eq_refl. Qed.
Print Assumptions C14_quad_distinct_output_partial.
(** but with a sign the level of the output is not set, whatever it was before *)
Theorem C14_quad_distinct_output_refuted : forall p out o smaller, c_path false p -> 0 <= o < 4 ->
  exists r, q_transform_face (c_walk false p) (Some out) o true smaller = Ok r /\ hl r = hl out /\ (hl out <> zlen p -> forall s, q_transform_face (c_walk false p) None o true smaller = Ok s -> r <> s).
Proof.
  intros p out o smaller Hp Ho. destruct (q_transform_walk true smaller Hp Ho) as (q & Hq & L & T & _). unfold q_transform_face at 1. cbn [negb andb]. rewrite andb_false_r. set (h := p4_len (hl (c_walk false p))). clearbody h.
  assert (F : forall r : hcube, hl r = hl out -> hl out <> zlen p -> forall s, q_transform_face (c_walk false p) None o true smaller = Ok s -> r <> s).
  { intros r E N s HS ->. rewrite T in HS. assert (HS' : c_walk false q = s) by congruence. rewrite <- HS', (c_walk_level Hq) in E. congruence. }
  assert (A : o = 0 \/ o = 1 \/ o = 2 \/ o = 3) by lia. destruct A as [-> | [-> | [-> | ->]]]; cbn [Z.eqb Pos.eqb]; (eexists; split; [exact eq_refl|]); cbn [hl]; (split; [exact eq_refl|]); (apply F; exact eq_refl).
Qed.
Print Assumptions C14_quad_distinct_output_refuted.
Example C14_quad_ex : q_transform_face (c_walk false [2; 3; 1]) None 1 false true = Ok (c_walk false [0; 2; 3]) /\
  q_transform_face (c_walk false [0; 2; 3]) None 1 false false = Ok (c_walk false [2; 3; 1]) /\
  q_transform_face (c_walk false [2; 3; 1]) (Some (c_root false)) 1 true true = Ok (Cube 0 [536870912; 805306368]).
Proof. split; [|split]; vm_compute; reflexivity. Qed.

(** Properties C12 (descendants at a face) and C13 (boundary faces) for pyramids.  Vocabulary: PathSpec.v, GeoSpec.v, PyramidSpec.v, PyramidGeoSpec.v, BoundarySpec.v, PyramidBdySpec.v. *)
From Verif Require Import Prelude PathSpec GeoSpec SchemeModel SchemeSpec FaceModel FaceSpec SimplexModel SimplexSpec SimplexProofs SimplexPathProofs SimplexAncProofs SimplexTileProofs SimplexFaceProofs LineModel LineProofs
  HyperModel HyperSpec HyperProofs HyperCrossProofs CubeModel CubeSpec CubeScheme CubeProofs EclassModel BoundarySpec BdyModel HybridModel HybridProofs.
From Verif Require Import PyramidModel PyramidSpec PyramidProofs PyramidAncProofs PyramidIdProofs PyramidOrderProofs PyramidScheme PyramidGeoSpec PyramidGeoProofs PyramidFaceProofs PyramidNbProofs PyramidBdyModel PyramidFlaws HybridPyramid PyramidBdySpec PyramidBdyProofs PropertiesPyramid.

(** C12: on a level below that of the element the first and the last descendant at a face are reached by taking the first or the last child
    at the face again and again.  On the level of the element itself the functions do not set a result for some faces of tetrahedra *)
Theorem C12_pyramid_descendants_at_face : forall p f L, y_path p -> zlen p < L <= YMAX -> 0 <= f < y_num_faces (y_walk p) ->
  exists i j, 0 <= i < y_num_children (y_walk p) /\ 0 <= j < y_num_children (y_walk p) /\ hd (-1) (y_child_ids_at_face (y_walk p) f) = i /\ last (y_child_ids_at_face (y_walk p) f) (-1) = j /\
  y_first_descendant_face (y_walk p) f L = Ok (Some (y_walk (p ++ repeat i (Z.to_nat (L - zlen p))))) /\
  y_last_descendant_face (y_walk p) f L = Ok (Some (y_walk (p ++ repeat j (Z.to_nat (L - zlen p))))).
Proof.
  intros p f L Hp HL Hf. rewrite nf_num in Hf. rewrite nch_num. assert (Ht := yw_ty (proj1 (y_walk_wf Hp))). destruct (y_corner_facts Ht Hf) as (H1 & H2 & _).
  exists (y_hd (yty (y_walk p)) f), (y_lst (yty (y_walk p)) f). split; [exact H1|]. split; [exact H2|]. split; [reflexivity|]. split; [now apply y_ids_last|]. split; [now apply y_first_face_walk|now apply y_last_face_walk].
Qed.
Print Assumptions C12_pyramid_descendants_at_face.
Theorem C12_pyramid_descendants_at_face_refuted : ~ forall p f L, y_path p -> zlen p <= L <= YMAX -> 0 <= f < y_num_faces (y_walk p) ->
  exists q, y_path q /\ zlen q = L /\ prefix p q /\ y_first_descendant_face (y_walk p) f L = Ok (Some (y_walk q)).
Proof.
  intros H. assert (HP : y_path ex_pyr) by apply ex_pyr_path. destruct (H ex_pyr 0 5 HP) as (q & _ & _ & _ & E); [split; [apply Z.le_refl|discriminate]|split; [discriminate|reflexivity]|].
  assert (C : y_first_descendant_face (y_walk ex_pyr) 0 5 = Ok None) by (vm_compute; reflexivity). rewrite C in E. discriminate E.
Qed.
Print Assumptions C12_pyramid_descendants_at_face_refuted.
Example C12_pyramid_descendants_ex : y_first_descendant_face (y_walk ex_pyr2) 1 6 = Ok (Some (y_walk (ex_pyr2 ++ [0; 0]))) /\ y_last_descendant_face (y_walk ex_pyr2) 1 6 = Ok (Some (y_walk (ex_pyr2 ++ [6; 6]))).
Proof. split; vm_compute; reflexivity. Qed.

(** C13: the faces 0 to 3 of the root are triangles *)
Theorem C13_pyramid_extrude_triangle : forall b rf, tree_path false b -> zlen b <= YMAX -> 0 <= rf < 4 ->
  exists p f, y_extrude_face (BTri (walk false b)) rf = Ok (y_walk p, f) /\ y_path p /\ zlen p = zlen b /\ 0 <= f < y_num_faces (y_walk p) /\
  y_is_root_boundary (y_walk p) f = true /\ y_tree_face (y_walk p) f = rf /\ y_boundary_face (y_walk p) f = Ok (BTri (walk false b)).
Proof.
  intros b rf Hb HL Hr. destruct (walk_wf Hb) as [W E]. assert (A := wf_aligned W).
  assert (V : bvalid (eclass_face_types 7 rf) (BTri (walk false b)) (zlen b)) by (rewrite y_types by exact Hr; split; [reflexivity|split; [exact A|split; [exact (proj2 (is_inside_root_walk A) (ex_intro _ b (conj Hb eq_refl)))|exact E]]]).
  assert (Hr' : 0 <= rf < 5) by lia. destruct (y_all Hr' V HL) as (p & f & Hp & Zp & Hf & Pl & Eb). rewrite <- Eb. exists p, f. assert (Pl' := Pl). apply (y_root_face_iff Hp Hf Hr') in Pl'. destruct Pl' as [P1 P2].
  split; [now apply y_extrude_eq|]. split; [exact Hp|]. split; [exact Zp|]. split; [now rewrite nf_num|]. split; [exact P1|]. split; [now symmetry|now apply y_boundary_eq].
Qed.
Print Assumptions C13_pyramid_extrude_triangle.
Theorem C13_pyramid_boundary_triangle : forall p f, y_path p -> 0 <= f < y_num_faces (y_walk p) -> y_is_root_boundary (y_walk p) f = true -> y_tree_face (y_walk p) f <> 4 ->
  exists b, tree_path false b /\ zlen b = zlen p /\ y_boundary_face (y_walk p) f = Ok (BTri (walk false b)) /\
  y_extrude_face (BTri (walk false b)) (y_tree_face (y_walk p) f) = Ok (y_walk p, f) /\
  forall v, In v (y_face_vertices (y_walk p) f) <-> exists w, In w (vertices false (walk false b)) /\ mul3 256 v = emb_pyramid_tri (y_tree_face (y_walk p) f) w.
Proof.
  intros p f Hp Hf R N4. rewrite nf_num in Hf. destruct (y_rb_plane Hp Hf R) as [R1 R2]. set (rf := y_tree_face (y_walk p) f) in *. assert (Hr : 0 <= rf < 4) by lia. destruct (y_inv Hp Hf R1 R2) as [V _]. rewrite y_types in V by exact Hr.
  assert (EB : ybd rf (y_walk p) = BTri (ytri rf (y_walk p))) by (unfold ybd; destruct (Z.eqb_spec rf 4); [lia|reflexivity]). assert (IM := y_boundary_image_tri Hp Hf Hr R2). assert (B1 := y_boundary_eq Hp Hf R1 R2). assert (B2 := y_extrude_eq Hp Hf R1 R2). rewrite EB in *. destruct V as (_ & A & I & L).
  destruct (proj1 (is_inside_root_walk A) I) as (q & Hq & Q). rewrite Q in *. rewrite (proj2 (walk_wf Hq)), (proj2 (y_walk_wf Hp)) in L. exists q. auto 6.
Qed.
Print Assumptions C13_pyramid_boundary_triangle.
(** and the face 4 a quadrilateral *)
Theorem C13_pyramid_extrude_quadrilateral : forall b, c_path false b -> zlen b <= YMAX ->
  exists p f, y_extrude_face (BQuad (c_walk false b)) 4 = Ok (y_walk p, f) /\ y_path p /\ zlen p = zlen b /\ 0 <= f < y_num_faces (y_walk p) /\
  y_is_root_boundary (y_walk p) f = true /\ y_tree_face (y_walk p) f = 4 /\ y_boundary_face (y_walk p) f = Ok (BQuad (c_walk false b)).
Proof.
  intros b Hb HL. assert (V : bvalid (eclass_face_types 7 4) (BQuad (c_walk false b)) (zlen b)) by (change (eclass_face_types 7 4) with 2; split; [reflexivity|split; [exact (c_walk_hin Hb)|exact (c_walk_level Hb)]]).
  assert (Hr' : 0 <= 4 < 5) by lia. destruct (y_all Hr' V HL) as (p & f & Hp & Zp & Hf & Pl & Eb). rewrite <- Eb. exists p, f. assert (Pl' := Pl). apply (y_root_face_iff Hp Hf Hr') in Pl'. destruct Pl' as [P1 P2].
  split; [now apply y_extrude_eq|]. split; [exact Hp|]. split; [exact Zp|]. split; [now rewrite nf_num|]. split; [exact P1|]. split; [now symmetry|now apply y_boundary_eq].
Qed.
Print Assumptions C13_pyramid_extrude_quadrilateral.
Theorem C13_pyramid_boundary_quadrilateral : forall p f, y_path p -> 0 <= f < y_num_faces (y_walk p) -> y_is_root_boundary (y_walk p) f = true -> y_tree_face (y_walk p) f = 4 ->
  exists b, c_path false b /\ zlen b = zlen p /\ y_boundary_face (y_walk p) f = Ok (BQuad (c_walk false b)) /\
  y_extrude_face (BQuad (c_walk false b)) 4 = Ok (y_walk p, f) /\
  forall v, In v (y_face_vertices (y_walk p) f) <-> exists w, In w (c_vertices false (c_walk false b)) /\ mul3 512 v = emb_pyramid_quad w.
Proof.
  intros p f Hp Hf R E4. rewrite nf_num in Hf. destruct (y_rb_plane Hp Hf R) as [R1 R2]. rewrite E4 in *. destruct (st_of Hp Hf R1 R2) as [ST _]. destruct (st_facts R1 ST) as [[T6 ->]|[C _]]; [|lia].
  destruct (y_inv Hp Hf R1 R2) as [V _]. change (eclass_face_types 7 4) with 2 in V. assert (IM := y_boundary_image_quad Hp Hf R2). assert (B1 := y_boundary_eq Hp Hf R1 R2). assert (B2 := y_extrude_eq Hp Hf R1 R2).
  change (ybd 4 (y_walk p)) with (BQuad (Cube (ylv (y_walk p)) [512 * yx (y_walk p); 512 * yy (y_walk p)])) in *. set (q := Cube (ylv (y_walk p)) [512 * yx (y_walk p); 512 * yy (y_walk p)]) in *. destruct V as (_ & B4 & B5). clearbody q.
  apply hin_valid in B4. destruct B4 as (b & Hb & ->). assert (Hb' := proj2 (c_path_eq false b) Hb). change PQuad with (cclass false) in *. rewrite <- (c_walk_eq Hb') in *. rewrite (c_walk_level Hb'), (proj2 (y_walk_wf Hp)) in B5. exists b. auto 6.
Qed.
Print Assumptions C13_pyramid_boundary_quadrilateral.
Example C13_pyramid_ex : y_boundary_face (y_walk [6; 7; 7]) 0 = Ok (BTri (walk false [2; 3; 3])) /\ y_is_root_boundary (y_walk [6; 7; 7]) 0 = true /\ y_tree_face (y_walk [6; 7; 7]) 0 = 3 /\
  y_boundary_face (y_walk [4; 2; 0]) 4 = Ok (BQuad (c_walk false [2; 1; 0])) /\ y_is_root_boundary (y_walk [4; 2; 0]) 4 = true.
Proof. repeat split; vm_compute; reflexivity. Qed.

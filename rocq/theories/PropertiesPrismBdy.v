(** Properties C12 (descendants at a face) and C13 (boundary faces) for prisms.  Vocabulary: PathSpec.v, GeoSpec.v, PrismSpec.v, BoundarySpec.v, PrismBdySpec.v. *)
From Verif Require Import Prelude PathSpec LineProofs GeoSpec SchemeModel SchemeSpec SimplexModel SimplexSpec SimplexProofs SimplexPathProofs SimplexAncProofs SimplexTileProofs SimplexFaceProofs LineModel PrismModel PrismSpec PrismProofs PrismGeoProofs PrismMoreProofs PrismScheme PrismFlaws
  HyperModel HyperSpec HyperProofs HyperCrossProofs CubeModel CubeSpec CubeScheme CubeProofs EclassModel BoundarySpec BdyModel HybridModel HybridProofs HybridPrism PrismBdySpec PrismBdyProofs PropertiesPrism.

(** C12: the first and the last descendant at a face are reached by taking the first or the last child at the face again and again *)
Theorem C12_prism_descendants_at_face : forall p f L, p_path p -> zlen p <= L <= PMAX -> 0 <= f < 5 ->
  exists i j, 0 <= i < 8 /\ 0 <= j < 8 /\ hd (-1) (p_child_ids_at_face (p_walk p) f) = i /\ last (p_child_ids_at_face (p_walk p) f) (-1) = j /\
  p_first_face (p_walk p) f L = p_walk (p ++ repeat i (Z.to_nat (L - zlen p))) /\
  p_last_face (p_walk p) f L = p_walk (p ++ repeat j (Z.to_nat (L - zlen p))).
Proof. intros p f L. exact (@p_descendants_at_face p f L). Qed.
Print Assumptions C12_prism_descendants_at_face.
Example C12_prism_descendants_ex : p_first_face (p_walk ex_prism) 1 7 = p_walk (ex_prism ++ [0; 0; 0]) /\ p_last_face (p_walk ex_prism) 1 7 = p_walk (ex_prism ++ [7; 7; 7]) /\ p_last_face (p_walk ex_prism) 3 7 = p_walk (ex_prism ++ [3; 3; 3]).
Proof. split; [|split]; vm_compute; reflexivity. Qed.

(** C13: the faces 0, 1 and 2 are quadrilaterals *)
Theorem C13_prism_extrude_quadrilateral : forall b rf, c_path false b -> zlen b <= PMAX -> 0 <= rf < 3 ->
  exists p f, p_extrude_face (BQuad (c_walk false b)) rf = Ok (p_walk p, f) /\ p_path p /\ zlen p = zlen b /\ 0 <= f < 5 /\
  p_is_root_boundary (p_walk p) f = true /\ p_tree_face (p_walk p) f = rf /\ p_boundary_face (p_walk p) f = Ok (BQuad (c_walk false b)).
Proof.
  intros b rf Hb HL Hr. assert (V : bvalid (eclass_face_types 6 rf) (BQuad (c_walk false b)) (zlen b)) by (rewrite p_types by exact Hr; split; [reflexivity|split; [exact (c_walk_hin Hb)|exact (c_walk_level Hb)]]).
  assert (Hr' : 0 <= rf < eclass_num_faces (tt_eclass prism_type)) by (change (0 <= rf < 5); lia). assert (HL' : 0 <= zlen b <= s_maxlevel (tt_scheme prism_type)) by (change (0 <= zlen b <= PMAX); split; [apply zlen_nonneg|exact HL]).
  destruct (to_extrude prism_type_ok Hr' V HL') as (e & f & X1 & X2 & X3 & X4 & X5 & X6 & X7).
  apply prism_valid_walk in X2. destruct X2 as (p & Hp & ->). change (p_level (p_walk p) = zlen b) in X3. exists p, f. rewrite (p_walk_level Hp) in X3. auto 10.
Qed.
Print Assumptions C13_prism_extrude_quadrilateral.
Theorem C13_prism_boundary_quadrilateral : forall p f, p_path p -> 0 <= f < 3 -> p_is_root_boundary (p_walk p) f = true ->
  exists b, c_path false b /\ zlen b = zlen p /\ p_boundary_face (p_walk p) f = Ok (BQuad (c_walk false b)) /\
  p_extrude_face (BQuad (c_walk false b)) (p_tree_face (p_walk p) f) = Ok (p_walk p, f) /\
  forall v, In v (p_face_vertices (p_walk p) f) <-> exists w, In w (c_vertices false (c_walk false b)) /\ mul3 512 v = emb_prism_quad (p_tree_face (p_walk p) f) w.
Proof.
  intros p f Hp Hf R. assert (V := proj2 (prism_valid_walk _) (ex_intro _ p (conj Hp eq_refl))). assert (Hf' : FaceSpec.is_face (tt_faces prism_type) (p_walk p) f) by (change (0 <= f < 5); lia). destruct (to_boundary prism_type_ok V Hf' R) as (_ & b & B1 & B2 & B3).
  change (tt_tree_face prism_type (p_walk p) f) with f in *. rewrite p_types in B2 by exact Hf. destruct b as [l|l|t|q]; cbn [bvalid] in B2; destruct B2 as (B2 & B4); try discriminate B2. destruct B4 as (B4 & B5).
  apply hin_valid in B4. destruct B4 as (b & Hb & ->). assert (Hb' := proj2 (c_path_eq false b) Hb). change PQuad with (cclass false) in *. rewrite <- (c_walk_eq Hb') in *. rewrite (c_walk_level Hb') in B5. change (zlen b = p_level (p_walk p)) in B5. rewrite (p_walk_level Hp) in B5.
  exists b. split; [exact Hb'|]. split; [exact B5|]. split; [exact B1|]. split; [exact B3|]. exact (p_boundary_image_low Hp Hf R B1).
Qed.
Print Assumptions C13_prism_boundary_quadrilateral.
(** and the faces 3 and 4 triangles *)
Theorem C13_prism_extrude_triangle : forall b rf, tree_path false b -> zlen b <= PMAX -> 3 <= rf < 5 ->
  exists p f, p_extrude_face (BTri (walk false b)) rf = Ok (p_walk p, f) /\ p_path p /\ zlen p = zlen b /\ 0 <= f < 5 /\
  p_is_root_boundary (p_walk p) f = true /\ p_tree_face (p_walk p) f = rf /\ p_boundary_face (p_walk p) f = Ok (BTri (walk false b)).
Proof.
  intros b rf Hb HL Hr. destruct (walk_wf Hb) as [W E]. assert (A := wf_aligned W).
  assert (V : bvalid (eclass_face_types 6 rf) (BTri (walk false b)) (zlen b)) by (rewrite p_types_high by exact Hr; split; [reflexivity|split; [exact A|split; [exact (proj2 (is_inside_root_walk A) (ex_intro _ b (conj Hb eq_refl)))|exact E]]]).
  assert (Hr' : 0 <= rf < eclass_num_faces (tt_eclass prism_type)) by (change (0 <= rf < 5); lia). assert (HL' : 0 <= zlen b <= s_maxlevel (tt_scheme prism_type)) by (change (0 <= zlen b <= PMAX); split; [apply zlen_nonneg|exact HL]).
  destruct (to_extrude prism_type_ok Hr' V HL') as (e & f & X1 & X2 & X3 & X4 & X5 & X6 & X7).
  apply prism_valid_walk in X2. destruct X2 as (p & Hp & ->). change (p_level (p_walk p) = zlen b) in X3. exists p, f. rewrite (p_walk_level Hp) in X3. auto 10.
Qed.
Print Assumptions C13_prism_extrude_triangle.
Theorem C13_prism_boundary_triangle : forall p f, p_path p -> 3 <= f < 5 -> p_is_root_boundary (p_walk p) f = true ->
  exists b, tree_path false b /\ zlen b = zlen p /\ p_boundary_face (p_walk p) f = Ok (BTri (walk false b)) /\
  p_extrude_face (BTri (walk false b)) (p_tree_face (p_walk p) f) = Ok (p_walk p, f) /\
  forall v, In v (p_face_vertices (p_walk p) f) <-> exists w, In w (vertices false (walk false b)) /\ mul3 256 v = emb_prism_tri (p_tree_face (p_walk p) f) w.
Proof.
  intros p f Hp Hf R. assert (V := proj2 (prism_valid_walk _) (ex_intro _ p (conj Hp eq_refl))). assert (Hf' : FaceSpec.is_face (tt_faces prism_type) (p_walk p) f) by (change (0 <= f < 5); lia). destruct (to_boundary prism_type_ok V Hf' R) as (_ & b & B1 & B2 & B3).
  change (tt_tree_face prism_type (p_walk p) f) with f in *. change (tt_boundary prism_type (p_walk p) f) with (p_boundary_face (p_walk p) f) in B1. rewrite p_boundary_high in B1 by apply Hf. assert (b = BTri (ptri (p_walk p))) as -> by (symmetry; exact (f_equal (fun o => match o with Ok b => b | _ => b end) B1)).
  rewrite p_types_high in B2 by exact Hf. destruct B2 as (_ & A & I & L). destruct (proj1 (is_inside_root_walk A) I) as (q & Hq & Q). assert (IM := p_boundary_image_high Hp Hf R). change (p_boundary_face (p_walk p) f) with (tt_boundary prism_type (p_walk p) f) in B1 |- *.
  change (lv (ptri (p_walk p)) = p_level (p_walk p)) in L. rewrite Q, (proj2 (walk_wf Hq)), (p_walk_level Hp) in L. rewrite Q in *.
  exists q. split; [exact Hq|]. split; [exact L|]. split; [change (p_boundary_face (p_walk p) f = Ok (BTri (walk false q))); rewrite p_boundary_high by apply Hf; now rewrite Q|]. split; [exact B3|exact IM].
Qed.
Print Assumptions C13_prism_boundary_triangle.
Example C13_prism_ex : p_boundary_face (p_walk [3; 7; 1]) 0 = Ok (BQuad (c_walk false [1; 3; 0])) /\ p_is_root_boundary (p_walk [3; 7; 1]) 0 = true /\
  p_boundary_face (p_walk [6; 7; 5]) 4 = Ok (BTri (walk false [2; 3; 1])) /\ p_is_root_boundary (p_walk [6; 7; 5]) 4 = true.
Proof. split; [|split; [|split]]; vm_compute; reflexivity. Qed.

(** The faces of prisms at the boundary of a tree: prisms can be connected to trees of other classes. *)
From Verif Require Import Prelude PathSpec GeoSpec SchemeModel SchemeSpec FaceModel SchemeProofs SchemeOrderProofs SchemeInstances FaceSpec FaceProofs FaceInstances NeighborModel NeighborSpec NeighborProofs NeighborInstances EclassModel.
From Verif Require Import BitLemmas SimplexModel SimplexSpec SimplexProofs SimplexPathProofs SimplexGeoProofs SimplexAncProofs SimplexTileProofs SimplexFaceProofs SimplexFaceChildProofs LineModel LineSpec LineProofs BoundaryProofs TransformProofs.
From Verif Require Import HyperModel HyperSpec HyperProofs HyperScheme HyperFlaws HyperCrossProofs CubeModel TransferProofs CubeScheme.
From Verif Require Import PrismModel PrismSpec PrismProofs PrismGeoProofs PrismFaceProofs PrismMoreProofs PrismScheme PrismFlaws BdyModel HybridModel HybridSpec HybridProofs HybridInstances.

Notation tvalid := (valid (S := simplex_scheme false)).
Lemma prism_parts e : valid (S := prism_scheme) e <-> tvalid (ptri e) /\ lwf (pline e) /\ lv (ptri e) = ll (pline e) /\ ll (pline e) <= PMAX.
Proof.
  split.
  - intros V. apply prism_valid_walk in V. destruct V as (p & Hp & ->). destruct (p_walk_aligned Hp) as (A1 & A2 & A3 & A4). rewrite A3. split; [|split; [|lia]].
    + rewrite p_walk_eq. cbn [ptri]. exists (tpart p). split; [apply simplex_path; now apply p_t_path|reflexivity].
    + rewrite p_walk_eq. cbn [pline]. apply (l_walk_wf (p_l_path Hp)).
  - intros (V & W & E & M). apply simplex_valid in V. destruct V as [V1 V2]. apply prism_valid_walk. apply p_is_inside_root_iff.
    + split; [exact V1|]. destruct W as [W1 W2 W3]. split; [split; auto|]. lia.
    + unfold p_is_inside_root. rewrite V2. cbn [andb]. destruct W as [W1 W2 W3]. unfold l_is_inside_root. change (2 ^ LMAX) with LROOT in W3. lia.
Qed.
Lemma l_inside_wf l : lwf l -> l_is_inside_root l = true.
Proof. intros [W1 W2 W3]. unfold l_is_inside_root. change (2 ^ LMAX) with LROOT in W3. lia. Qed.
Lemma lwf_child l a : lwf l -> ll l < 30 -> 0 <= a < 2 -> lwf (l_child l a).
Proof. intros W H Ha. apply lwf_hin. rewrite l_child_cv by exact Ha. apply h_child_hin; [now apply lwf_hin|exact H|exact Ha]. Qed.
(** triangles and lines *)
Definition TX := tri_crossing_ok.
Definition LX := line_crossing_ok 1.
Lemma tri_fcf t f k : 0 <= t < 2 -> 0 <= f < 3 -> 0 <= k < 2 -> fcf false t f k = f.
Proof. intros Ht Hf Hk. split_range Ht; split_range Hf; split_range Hk; reflexivity. Qed.
Lemma tri_face_children (t : simp) f c g : wf false t -> lv t < 29 -> 0 <= f < 3 ->
  (In (c, g) (face_children (simplex_faces false) t f) <-> g = f /\ exists k, 0 <= k < 2 /\ c = child false t (znth (-1) (child_ids_at_face false t f) k)).
Proof.
  intros W HL Hf. rewrite (@in_face_children false t f c g W HL Hf). assert (Ht := wf_ty W). change (0 <= ty t < 2) in Ht. split.
  - intros (k & Hk & -> & ->). change (0 <= k < 2) in Hk. split; [rewrite fcf_eq; now apply tri_fcf|eauto].
  - intros (-> & k & Hk & ->). exists k. split; [exact Hk|]. split; [reflexivity|]. rewrite fcf_eq. symmetry. now apply tri_fcf.
Qed.
Lemma tri_ids_range t f k : wf false t -> 0 <= f < 3 -> 0 <= k < 2 -> 0 <= znth (-1) (child_ids_at_face false t f) k < 4.
Proof. intros W Hf Hk. destruct (children_at_face_ids W Hf) as (L & _ & RR). apply RR. apply znth_In. rewrite L. exact Hk. Qed.
Lemma p_faceids_tri t f : 0 <= t < 2 -> 0 <= f < 3 -> p_faceids t f = (let l := faceids false t f in [znth (-1) l 0; znth (-1) l 1; 4 + znth (-1) l 0; 4 + znth (-1) l 1]).
Proof. intros Ht Hf. split_range Ht; split_range Hf; vm_compute; reflexivity. Qed.
Lemma p_child_split e a j : 0 <= j < 4 -> p_child e (4 * a + j) = Prism (l_child (pline e) a) (child false (ptri e) j).
Proof. intros Hj. unfold p_child. replace ((4 * a + j) / 4) with a by (rewrite Z.mul_comm, Z.div_add_l, (Z.div_small j) by lia; lia). replace ((4 * a + j) mod 4) with j by (rewrite Z.add_comm, Z.mul_comm, Z.mod_add, Z.mod_small; lia). reflexivity. Qed.
Lemma p_fc_low e f c g : wf false (ptri e) -> 0 <= f < 3 ->
  (In (c, g) (face_children prism_faces e f) <-> g = f /\ exists a k, 0 <= a < 2 /\ 0 <= k < 2 /\ c = Prism (l_child (pline e) a) (child false (ptri e) (znth (-1) (child_ids_at_face false (ptri e) f) k))).
Proof.
  intros W Hf. assert (Ht := wf_ty W). change (0 <= ty (ptri e) < 2) in Ht. rewrite (@p_face_children e f c g) by lia. rewrite p_faceids_eq, p_faceids_tri by assumption. cbn zeta. rewrite faceids_eq.
  assert (R0 := @tri_ids_range (ptri e) f 0 W Hf ltac:(lia)). assert (R1 := @tri_ids_range (ptri e) f 1 W Hf ltac:(lia)). rewrite faceids_eq in R0, R1. set (i0 := znth (-1) (faceids false (ty (ptri e)) f) 0) in *. set (i1 := znth (-1) (faceids false (ty (ptri e)) f) 1) in *.
  split.
  - intros (i & Hi & -> & ->). split; [reflexivity|]. destruct Hi as [<-|[<-|[<-|[<-|[]]]]].
    + exists 0, 0. split; [lia|]. split; [lia|]. fold i0. rewrite <- p_child_split by lia. f_equal.
    + exists 0, 1. split; [lia|]. split; [lia|]. fold i1. rewrite <- p_child_split by lia. f_equal.
    + exists 1, 0. split; [lia|]. split; [lia|]. fold i0. rewrite <- p_child_split by lia. f_equal.
    + exists 1, 1. split; [lia|]. split; [lia|]. fold i1. rewrite <- p_child_split by lia. f_equal.
  - intros (-> & a & k & Ha & Hk & ->). assert (a = 0 \/ a = 1) as [-> | ->] by lia; assert (k = 0 \/ k = 1) as [-> | ->] by lia; fold i0 i1; rewrite <- p_child_split by lia; (eexists; split; [|split; reflexivity]); cbn [In]; auto.
Qed.
Lemma p_fc_high e f c g : 3 <= f < 5 ->
  (In (c, g) (face_children prism_faces e f) <-> g = f /\ exists j, 0 <= j < 4 /\ c = Prism (l_child (pline e) (f - 3)) (child false (ptri e) j)).
Proof.
  intros Hf. rewrite (@p_face_children e f c g) by lia. unfold p_child_ids_at_face. destruct (Z.ltb_spec f 3); [lia|]. replace (f mod 3) with (f - 3) by (assert (f = 3 \/ f = 4) as [-> | ->] by lia; reflexivity). split.
  - intros (i & Hi & -> & ->). split; [reflexivity|]. apply in_map_iff in Hi. destruct Hi as (j & <- & Hj). assert (0 <= j < 4) by (destruct Hj as [<-|[<-|[<-|[<-|[]]]]]; lia). exists j. split; [assumption|]. rewrite <- p_child_split by assumption. f_equal. lia.
  - intros (-> & j & Hj & ->). exists (4 * (f - 3) + j). split; [|split; [now rewrite p_child_split|reflexivity]]. apply in_map_iff. exists j. split; [lia|]. assert (j = 0 \/ j = 1 \/ j = 2 \/ j = 3) as [-> | [-> | [-> | ->]]] by lia; cbn; auto.
Qed.
(** the quadrilaterals at the faces 0, 1 and 2 *)
Lemma hin_quad_lines l x y : hin PQuad (Cube l [x; y]) <-> lwf (Line l x) /\ lwf (Line l y) /\ l <= 29.
Proof.
  split.
  - intros [(A1 & _ & A3) B]. cbn [hl hx] in *. change (hmax PQuad) with 29 in A1. change (hbits PQuad) with 30 in *. inversion A3 as [|? ? AX A4]. subst. inversion A4 as [|? ? AY _]. subst.
    assert (X := B 0 ltac:(change (Z.of_nat (hdim PQuad)) with 2; lia)). assert (Y := B 1 ltac:(change (Z.of_nat (hdim PQuad)) with 2; lia)). change (znth 0 [x; y] 0) with x in *. change (znth 0 [x; y] 1) with y in *.
    split; [|split; [|lia]]; constructor; cbn [ll lx]; change LMAX with 30; auto; lia.
  - intros ([X1 X2 X3] & [Y1 Y2 Y3] & L). cbn [ll lx] in *. change LMAX with 30 in *. split.
    + split; [cbn [hl]; change (hmax PQuad) with 29; lia|]. split; [reflexivity|]. cbn [hx hl]. change (hbits PQuad) with 30. auto.
    + intros k Hk. change (Z.of_nat (hdim PQuad)) with 2 in Hk. assert (k = 0 \/ k = 1) as [-> | ->] by lia; [exact X3|exact Y3].
Qed.

(** the boundary and the extrusion, in terms of those of the triangle and the line *)
Lemma p_boundary_low e f : tvalid (ptri e) -> lwf (pline e) -> 0 <= f < 3 -> is_root_boundary false (ptri e) f = true ->
  p_boundary_face e f = Ok (BQuad (Cube (lv (ptri e)) [lx (tri_boundary_face (ptri e) f); lx (pline e)])).
Proof.
  intros V W Hf R. assert (T0 : ty (ptri e) = 0). { unfold is_root_boundary in R. destruct (Z.eqb_spec (ty (ptri e)) 0); [assumption|discriminate]. }
  unfold p_boundary_face, tri_boundary_face. cbn zeta. cbn [lx]. rewrite T0. replace (lx (pline e) * P4_ROOT_LEN / LROOT) with (lx (pline e)) by (change P4_ROOT_LEN with LROOT; rewrite Z.div_mul by discriminate; reflexivity).
  change P4_ROOT_LEN with (2 * ROOT_LEN false). change DLINE_ROOT_BY_DTRI_ROOT with 2. rewrite !Z.mul_assoc, !Z.div_mul by discriminate.
  split_range Hf; reflexivity.
Qed.
Lemma p_boundary_high e f : 3 <= f -> p_boundary_face e f = Ok (BTri (ptri e)).
Proof. intros Hf. unfold p_boundary_face. cbn zeta. destruct (Z.leb_spec 3 f); [reflexivity|lia]. Qed.
Lemma p_extrude_low l x y rf : 0 <= rf < 3 -> p_extrude_face (BQuad (Cube l [x; y])) rf = Ok (Prism (Line l y) (fst (tri_extrude_face (Line l x) rf)), rf).
Proof.
  intros Hr. unfold p_extrude_face, tri_extrude_face. cbn zeta. cbn [hl ll lx fst]. change (cx (Cube l [x; y])) with x. change (cy (Cube l [x; y])) with y. change P4_ROOT_LEN with LROOT. rewrite (Z.div_mul y) by discriminate.
  split_range Hr; reflexivity.
Qed.
Lemma p_extrude_high t rf : sz t = 0 -> 3 <= rf < 5 -> p_extrude_face (BTri t) rf = Ok (Prism (fst (l_extrude_face (lv t) (rf - 3))) t, rf).
Proof.
  intros H Hr. destruct t as [l t x y z]. cbn [sz] in H. subst z. unfold p_extrude_face, l_extrude_face. cbn [lv ty sx sy fst]. assert (rf = 3 \/ rf = 4) as [-> | ->] by lia; reflexivity.
Qed.
Lemma tri_tree_face t f : 0 <= f < 3 -> tree_face false t f = f. Proof. reflexivity. Qed.
Lemma p_inside_low e f n g : lwf (pline e) -> 0 <= f < 3 ->
  p_neighbor_inside e f = Some (n, g) <-> is_inside_root false (fst (face_neighbour false (ptri e) f)) = true /\ n = Prism (pline e) (fst (face_neighbour false (ptri e) f)) /\ g = 2 - f.
Proof.
  intros W Hf. unfold p_neighbor_inside, p_face_neighbour, p_is_inside_root. cbn zeta. destruct (Z.ltb_spec f 3); [|lia]. cbn [fst ptri pline]. rewrite (l_inside_wf W), andb_true_r.
  destruct (is_inside_root false (fst (face_neighbour false (ptri e) f))); split.
  - intros E. injection E as <- <-. auto.
  - intros (_ & -> & ->). reflexivity.
  - discriminate.
  - intros (E & _). discriminate.
Qed.
Lemma p_inside_high e f n g : tvalid (ptri e) -> 3 <= f < 5 ->
  p_neighbor_inside e f = Some (n, g) <-> l_is_inside_root (fst (l_face_neighbour (pline e) (f - 3))) = true /\ n = Prism (fst (l_face_neighbour (pline e) (f - 3))) (ptri e) /\ g = 7 - f.
Proof.
  intros V Hf. apply simplex_valid in V. destruct V as [_ V]. unfold p_neighbor_inside, p_face_neighbour, p_is_inside_root. cbn zeta. destruct (Z.ltb_spec f 3); [lia|].
  assert (f = 3 \/ f = 4) as [-> | ->] by lia; cbn [Z.eqb Pos.eqb fst ptri pline]; rewrite V; cbn [andb].
  - change (3 - 3) with 0. change (7 - 3) with 4. destruct (l_is_inside_root _); split; [intros E; injection E as <- <-; auto|intros (_ & -> & ->); reflexivity|discriminate|intros (E & _); discriminate].
  - change (4 - 3) with 1. change (7 - 4) with 3. destruct (l_is_inside_root _); split; [intros E; injection E as <- <-; auto|intros (_ & -> & ->); reflexivity|discriminate|intros (E & _); discriminate].
Qed.
Lemma l_dual l f : snd (l_face_neighbour l f) = 1 - f. Proof. reflexivity. Qed.
Lemma t_dual t f : wf false t -> 0 <= f < 3 -> snd (face_neighbour false t f) = 2 - f.
Proof. intros W Hf. apply tri_dual; [apply (wf_ty W)|exact Hf]. Qed.
Lemma p_rb_low e f : 0 <= f < 3 -> p_is_root_boundary e f = is_root_boundary false (ptri e) f.
Proof. intros Hf. unfold p_is_root_boundary. destruct (Z.ltb_spec f 3); [reflexivity|lia]. Qed.
Lemma p_rb_high e f : 3 <= f < 5 -> p_is_root_boundary e f = l_is_root_boundary (pline e) (f - 3).
Proof. intros Hf. unfold p_is_root_boundary. assert (f = 3 \/ f = 4) as [-> | ->] by lia; reflexivity. Qed.
Lemma p_types f : 0 <= f < 3 -> eclass_face_types 6 f = 2. Proof. intros Hf. split_range Hf; reflexivity. Qed.
Lemma p_types_high f : 3 <= f < 5 -> eclass_face_types 6 f = 3. Proof. intros Hf. assert (f = 3 \/ f = 4) as [-> | ->] by lia; reflexivity. Qed.
Lemma tri_valid_z t : tvalid t -> sz t = 0.
Proof. intros V. apply simplex_valid in V. apply (ag_z0 (proj1 V) eq_refl). Qed.
Lemma tv_wf t : tvalid t -> wf false t. Proof. intros V. exact (simplex_valid_wf V). Qed.
Lemma c_child_quad l x y j : l < 29 -> hin PQuad (Cube l [x; y]) -> 0 <= j < 4 -> c_child false (Cube l [x; y]) j = Cube (l + 1) [lx (l_child (Line l x) (j mod 2)); lx (l_child (Line l y) (j / 2))].
Proof. intros HL H Hj. rewrite (@c_child_eq false _ j H HL). split_range Hj; reflexivity. Qed.
Lemma prism_type_ok : type_ok prism_type.
Proof.
  assert (LH : forall f, 0 <= f < 5 -> 0 <= f < 3 \/ 3 <= f < 5) by lia.
  assert (LV : forall l, lwf l -> valid (S := line_scheme) l) by (intros l W; now apply line_valid).
  assert (IN2 : forall t f, tvalid t -> 0 <= f < 3 -> (is_root_boundary false t f = true <-> is_inside_root false (fst (face_neighbour false t f)) = false)).
  { intros t f V Hf. assert (O := xo_outside TX V Hf). cbn [x_inside x_neighbor tri_crossing] in O. rewrite O. destruct (is_inside_root _ _); cbn [negb]; intuition congruence. }
  assert (IN1 : forall l f, lwf l -> 0 <= f < 2 -> (l_is_root_boundary l f = true <-> l_is_inside_root (fst (l_face_neighbour l f)) = false)).
  { intros l f V Hf. assert (O := xo_outside LX (LV l V) Hf). cbn [x_inside x_neighbor line_crossing] in O. rewrite O. destruct (l_is_inside_root _); cbn [negb]; intuition congruence. }
  constructor; cbn [prism_type tt_eclass tt_scheme tt_faces tt_inside tt_root_boundary tt_tree_face tt_boundary tt_extrude]; change (eclass_num_faces 6) with 5; change (s_maxlevel prism_scheme) with 21.
  - lia.
  - exact prism_laws.
  - exact prism_flaws.
  - intros r Hr. destruct (LH r Hr); [rewrite p_types by assumption|rewrite p_types_high by assumption]; change (21 <= 29); lia.
  - intros f. reflexivity.
  - intros f Hf. split; [|reflexivity]. split_range Hf; vm_compute; reflexivity.
  - intros e f V Hf. change (0 <= f < 5) in Hf. apply prism_valid_walk in V. destruct V as (p & Hp & ->). rewrite (p_root_boundary_neighbour Hp Hf). unfold p_neighbor_inside. cbn zeta. destruct (p_is_inside_root _); cbn [negb]; intuition congruence.
  - intros e f n g V Hf I. change (0 <= f < 5) in Hf. apply prism_parts in V. destruct V as (VT & VL & E & M). change (s_level (s := prism_scheme)) with p_level. unfold p_level. destruct (LH f Hf) as [F|F].
    + apply (p_inside_low n g VL F) in I. destruct I as (I & -> & ->). assert (R : is_root_boundary false (ptri e) f = false). { destruct (is_root_boundary false (ptri e) f) eqn:R; [|reflexivity]. apply (IN2 _ _ VT F) in R. congruence. }
      assert (XX := xo_inside TX VT F R). cbn [x_neighbor tri_crossing] in XX. assert (DU := t_dual (tv_wf VT) F). destruct (face_neighbour false (ptri e) f) as [m h]. cbn [fst snd] in *. subst h. destruct XX as (X1 & X2 & X3 & X4). change (lv m = lv (ptri e)) in X2.
      split; [apply prism_parts; cbn [ptri pline]; rewrite X2; auto|]. split; [reflexivity|]. split; [change (0 <= 2 - f < 5); lia|]. apply p_inside_low; [exact VL|lia|]. cbn [ptri pline]. rewrite X4. cbn [fst]. split; [apply simplex_valid in VT; apply VT|]. split; [now destruct e|lia].
    + apply (p_inside_high n g VT F) in I. destruct I as (I & -> & ->). assert (F' : 0 <= f - 3 < 2) by lia. assert (R : l_is_root_boundary (pline e) (f - 3) = false). { destruct (l_is_root_boundary (pline e) (f - 3)) eqn:R; [|reflexivity]. apply (IN1 _ _ VL F') in R. congruence. }
      assert (XX := xo_inside LX (LV _ VL) F' R). cbn [x_neighbor line_crossing] in XX. assert (DU := l_dual (pline e) (f - 3)). destruct (l_face_neighbour (pline e) (f - 3)) as [m h]. cbn [fst snd] in *. subst h. destruct XX as (X1 & X2 & X3 & X4). change (ll m = ll (pline e)) in X2. apply line_valid in X1.
      split; [apply prism_parts; cbn [ptri pline]; rewrite X2; auto|]. split; [exact X2|]. split; [change (0 <= 7 - f < 5); lia|]. apply p_inside_high; [exact VT|lia|]. cbn [ptri pline]. replace (7 - f - 3) with (1 - (f - 3)) by lia. rewrite X4. cbn [fst]. split; [now apply l_inside_wf|]. split; [now destruct e|lia].
  - intros e f n h c g V L Hf I Hc. change (0 <= f < 5) in Hf. apply prism_parts in V. destruct V as (VT & VL & E & M). change (p_level e < 21) in L. unfold p_level in L. assert (LT : s_level (s := simplex_scheme false) (ptri e) < s_maxlevel (simplex_scheme false)) by (change (lv (ptri e) < 29); lia). destruct (LH f Hf) as [F|F].
    + apply (p_inside_low n h VL F) in I. destruct I as (I & -> & ->). assert (R : is_root_boundary false (ptri e) f = false). { destruct (is_root_boundary false (ptri e) f) eqn:R; [|reflexivity]. apply (IN2 _ _ VT F) in R. congruence. }
      apply (p_fc_low c g (tv_wf VT) F) in Hc. destruct Hc as (-> & a & k & Ha & Hk & ->). set (tc := child false (ptri e) (znth (-1) (child_ids_at_face false (ptri e) f) k)) in *.
      assert (Hc : In (tc, f) (face_children (simplex_faces false) (ptri e) f)) by (apply tri_face_children; [now apply tv_wf|exact LT|exact F|eauto]).
      destruct (FaceProofs.face_child (simplex_laws false) (simplex_flaws false) VT LT F Hc) as (Vc & _). assert (RI := xo_refine TX VT LT F R Hc). assert (XX := xo_inside TX VT F R). cbn [x_neighbor tri_crossing] in RI, XX. assert (DU := t_dual (tv_wf VT) F). assert (DC := t_dual (tv_wf Vc) F).
      destruct (face_neighbour false (ptri e) f) as [m q]. cbn [fst snd] in *. subst q. destruct XX as (X1 & X2 & X3 & X4). change (lv m = lv (ptri e)) in X2. assert (Lm : lv m < 29) by lia. destruct (face_neighbour false tc f) as [mc q] eqn:EC. cbn [fst snd] in DC. subst q.
      assert (F2 : 0 <= 2 - f < 3) by lia. apply (tri_face_children mc (2 - f) (tv_wf X1) Lm F2) in RI. destruct RI as (_ & k' & Hk' & ->). exists (Prism (l_child (pline e) a) (child false m (znth (-1) (child_ids_at_face false m (2 - f)) k'))), (2 - f). split.
      * apply p_inside_low; [cbn [pline]; apply lwf_child; [exact VL|lia|exact Ha]|exact F|]. cbn [ptri pline]. rewrite EC. cbn [fst]. split; [|auto].
        assert (Vm : tvalid (child false m (znth (-1) (child_ids_at_face false m (2 - f)) k'))) by (apply (valid_child (simplex_laws false) X1 Lm (i := znth (-1) (child_ids_at_face false m (2 - f)) k')); apply tri_ids_range; [now apply tv_wf|lia|exact Hk']). apply simplex_valid in Vm. apply Vm.
      * apply p_fc_low; [cbn [ptri]; now apply tv_wf|lia|]. split; [reflexivity|]. exists a, k'. auto.
    + apply (p_inside_high n h VT F) in I. destruct I as (I & -> & ->). assert (F' : 0 <= f - 3 < 2) by lia. assert (R : l_is_root_boundary (pline e) (f - 3) = false). { destruct (l_is_root_boundary (pline e) (f - 3)) eqn:R; [|reflexivity]. apply (IN1 _ _ VL F') in R. congruence. }
      apply (p_fc_high e c g F) in Hc. destruct Hc as (-> & j & Hj & ->). assert (LL : s_level (s := line_scheme) (pline e) < s_maxlevel line_scheme) by (change (ll (pline e) < 30); lia).
      assert (Hc : In (l_child (pline e) (f - 3), f - 3) (face_children line_faces (pline e) (f - 3))) by (rewrite line_face_children; now left).
      assert (RI := xo_refine LX (LV _ VL) LL F' R Hc). assert (XX := xo_inside LX (LV _ VL) F' R). cbn [x_neighbor line_crossing] in RI, XX. destruct (l_face_neighbour (pline e) (f - 3)) as [m q] eqn:EM. cbn [fst snd] in *. destruct XX as (X1 & X2 & X3 & X4). apply line_valid in X1. change (ll m = ll (pline e)) in X2.
      assert (DU : q = 1 - (f - 3)) by (rewrite <- (l_dual (pline e) (f - 3)), EM; reflexivity). subst q. rewrite line_face_children in RI. destruct RI as [RI|[]].
      exists (Prism (l_child m (7 - f - 3)) (child false (ptri e) j)), (7 - f). split.
      * apply p_inside_high; [cbn [ptri]; apply (valid_child (simplex_laws false) VT LT Hj)|exact F|]. cbn [ptri pline]. rewrite <- RI. cbn [fst]. replace (7 - f - 3) with (1 - (f - 3)) by lia. split; [|auto]. apply l_inside_wf. apply lwf_child; [exact X1|lia|lia].
      * apply p_fc_high; [lia|]. split; [reflexivity|]. exists j. auto.
  - intros e f c g V L Hf R Hc. change (0 <= f < 5) in Hf. apply prism_parts in V. destruct V as (VT & VL & E & M). change (p_level e < 21) in L. unfold p_level in L. destruct (LH f Hf) as [F|F].
    + rewrite (p_rb_low e F) in R. apply (p_fc_low c g (tv_wf VT) F) in Hc. destruct Hc as (-> & a & k & Ha & Hk & ->). split; [|reflexivity]. rewrite p_rb_low by exact F. cbn [ptri].
      assert (LT : s_level (s := simplex_scheme false) (ptri e) < s_maxlevel (simplex_scheme false)) by (change (lv (ptri e) < 29); lia). refine (proj1 (xo_rb_child TX VT LT F R (c := child false (ptri e) (znth (-1) (child_ids_at_face false (ptri e) f) k)) (g := f) _)). apply tri_face_children; [now apply tv_wf|exact LT|exact F|eauto].
    + rewrite (p_rb_high e F) in R. apply (p_fc_high e c g F) in Hc. destruct Hc as (-> & j & Hj & ->). split; [|reflexivity]. rewrite p_rb_high by exact F. cbn [pline]. assert (F' : 0 <= f - 3 < 2) by lia.
      assert (LL : s_level (s := line_scheme) (pline e) < s_maxlevel line_scheme) by (change (ll (pline e) < 30); lia). refine (proj1 (xo_rb_child LX (LV _ VL) LL F' R (c := l_child (pline e) (f - 3)) (g := f - 3) _)). rewrite line_face_children. now left.
  - intros e i g V L Hi Hg P. change (0 <= i < 8) in Hi. change (0 <= g < 5) in Hg. apply prism_parts in V. destruct V as (VT & VL & E & M). change (p_level e < 21) in L. unfold p_level in L. change (p_face_parent_face (p_child e i) g = -1) in P. change (@s_child prism_scheme) with p_child.
    assert (LT : s_level (s := simplex_scheme false) (ptri e) < s_maxlevel (simplex_scheme false)) by (change (lv (ptri e) < 29); lia). assert (LL : s_level (s := line_scheme) (pline e) < s_maxlevel line_scheme) by (change (ll (pline e) < 30); lia).
    assert (exists a j, 0 <= a < 2 /\ 0 <= j < 4 /\ i = 4 * a + j) as (a & j & Ha & Hj & ->) by (exists (i / 4), (i mod 4); lia). rewrite p_child_split in P |- * by exact Hj. unfold p_face_parent_face in P. cbn [ptri pline] in P.
    assert (VC : tvalid (child false (ptri e) j)) by (apply (valid_child (simplex_laws false) VT LT Hj)). assert (VA : lwf (l_child (pline e) a)) by (apply lwf_child; [exact VL|lia|exact Ha]). destruct (LH g Hg) as [F|F].
    + assert (PT : face_parent_face false (child false (ptri e) j) g = -1). { destruct (Z.ltb_spec g 3); [|lia]. cbn [andb] in P. destruct (Z.eqb_spec (face_parent_face false (child false (ptri e) j) g) (-1)); [assumption|]. cbn [negb] in P. lia. }
      destruct (xo_inner TX VT LT Hj F PT) as (j' & g' & Hj' & EN). change (0 <= j' < 4) in Hj'. change (face_neighbour false (child false (ptri e) j) g = (child false (ptri e) j', g')) in EN. exists (4 * a + j'), (2 - g). split; [change (0 <= 4 * a + j' < 8); lia|].
      apply p_inside_low; [exact VA|exact F|]. cbn [ptri pline]. rewrite EN. cbn [fst]. rewrite p_child_split by exact Hj'. split; [|auto]. assert (VJ : tvalid (child false (ptri e) j')) by (apply (valid_child (simplex_laws false) VT LT Hj')). apply simplex_valid in VJ. apply VJ.
    + assert (F' : 0 <= g - 3 < 2) by lia. assert (PT : l_face_parent_face (l_child (pline e) a) (g - 3) = -1). { destruct (Z.ltb_spec g 3); [lia|]. destruct (Z.leb_spec 3 g); [|lia]. cbn [andb] in P. destruct (Z.eqb_spec (l_face_parent_face (l_child (pline e) a) (g - 3)) (-1)); [assumption|]. cbn [negb] in P. lia. }
      destruct (xo_inner LX (LV _ VL) LL Ha F' PT) as (a' & g' & Ha' & EN). change (0 <= a' < 2) in Ha'. change (l_face_neighbour (l_child (pline e) a) (g - 3) = (l_child (pline e) a', g')) in EN. exists (4 * a' + j), (7 - g). split; [change (0 <= 4 * a' + j < 8); lia|].
      apply p_inside_high; [exact VC|exact F|]. cbn [ptri pline]. rewrite EN. cbn [fst]. rewrite p_child_split by exact Hj. split; [|auto]. apply l_inside_wf. apply lwf_child; [exact VL|lia|exact Ha'].
  - intros e f V Hf R. change (0 <= f < 5) in Hf. unfold p_tree_face. split; [exact Hf|]. apply prism_parts in V. destruct V as (VT & VL & E & M). change (s_level (s := prism_scheme) e) with (ll (pline e)). destruct (LH f Hf) as [F|F].
    + rewrite (p_rb_low e F) in R. rewrite (p_boundary_low VT VL F R), p_types by exact F. destruct (xo_boundary TX VT F R) as (_ & b & B & [B1 B2] & XE). injection B as <-. change (s_level (s := simplex_scheme false) (ptri e)) with (lv (ptri e)) in B2. cbn [x_extrude x_tree_face tri_crossing] in XE. rewrite tri_tree_face in XE by exact F.
      set (b := tri_boundary_face (ptri e) f) in *. destruct b as [l x]. cbn [ll lx] in *. subst l. eexists. split; [reflexivity|]. split.
      * cbn [bvalid]. split; [reflexivity|]. split; [|exact E]. apply hin_quad_lines. split; [exact B1|]. rewrite E. split; [now destruct (pline e)|]. change PMAX with 21 in M. lia.
      * rewrite p_extrude_low by exact F. rewrite XE. cbn [fst]. do 2 f_equal. rewrite E. destruct e as [[k y] t]. reflexivity.
    + rewrite (p_rb_high e F) in R. rewrite p_boundary_high by lia. rewrite p_types_high by exact F. exists (BTri (ptri e)). split; [reflexivity|]. split; [cbn [bvalid]; assert (VT' := VT); apply simplex_valid in VT'; rewrite E; tauto|].
      assert (F' : 0 <= f - 3 < 2) by lia. destruct (xo_boundary LX (LV _ VL) F' R) as (_ & b & B & B1 & XE). injection B as <-. cbn [x_extrude x_tree_face line_crossing] in XE. unfold l_boundary_face in XE. rewrite p_extrude_high by (auto; now apply tri_valid_z). rewrite E, XE. cbn [fst]. now destruct e.
  - intros b L rf Hr V HL. destruct (LH rf Hr) as [F|F].
    + rewrite p_types in V by exact F. destruct b as [l|l|t|q]; cbn [bvalid] in V; destruct V as (V & V'); try discriminate V. destruct V' as (V' & <-). destruct (pquad_shape V') as (l & x & y & ->). cbn [hl] in *. apply hin_quad_lines in V'. destruct V' as (VX & VY & _).
      assert (HL' : 0 <= l <= s_maxlevel (simplex_scheme false)) by (change (0 <= l <= 29); lia). assert (XX := xo_extrude TX (conj VX eq_refl) HL' F). cbn [x_extrude tri_crossing] in XX. rewrite p_extrude_low by exact F. destruct (tri_extrude_face (Line l x) rf) as [t f]. cbn [fst]. destruct XX as (X1 & X2 & X3 & X4 & X5 & X6). change (lv t = l) in X2. cbn [x_tree_face tri_crossing] in X5. change (0 <= f < 3) in X3. rewrite tri_tree_face in X5 by exact X3. subst f.
      eexists _, _. split; [reflexivity|]. split; [apply prism_parts; cbn [ptri pline ll]; split; [exact X1|]; split; [exact VY|]; split; [exact X2|exact (proj2 HL)]|]. split; [reflexivity|]. split; [exact Hr|]. split; [rewrite p_rb_low by exact F; exact X4|]. split; [reflexivity|].
      rewrite p_boundary_low; [|exact X1|exact VY|exact F|exact X4]. cbn [ptri pline lx]. assert (X7 : tri_boundary_face t rf = Line l x) by (exact (f_equal (fun o => match o with Ok b => b | _ => Line l x end) X6)). rewrite X7, X2. reflexivity.
    + rewrite p_types_high in V by exact F. destruct b as [l|l|t|q]; cbn [bvalid] in V; destruct V as (V & V'); try discriminate V. destruct V' as (A & I & <-). assert (VT : tvalid t) by (now apply simplex_valid). assert (F' : 0 <= rf - 3 < 2) by lia.
      rewrite p_extrude_high by (auto; now apply tri_valid_z). assert (HL' : 0 <= lv t <= s_maxlevel line_scheme) by (change (0 <= lv t <= 30); lia). assert (XX := xo_extrude LX (eq_refl (lv t)) HL' F'). cbn [x_extrude line_crossing] in XX. unfold l_extrude_face in *. cbn [fst]. set (l := Line (lv t) (if rf - 3 =? 0 then 0 else LROOT - LLEN (lv t))) in *.
      destruct XX as (X1 & X2 & X3 & X4 & X5 & X6). apply line_valid in X1. eexists _, _. split; [reflexivity|]. split; [apply prism_parts; cbn [ptri pline]; change (ll l) with (lv t); split; [exact VT|]; split; [exact X1|]; split; [reflexivity|exact (proj2 HL)]|]. split; [reflexivity|]. split; [exact Hr|]. split; [rewrite p_rb_high by exact F; exact X4|]. split; [reflexivity|]. apply p_boundary_high. lia.
  - intros e f c g b V L Hf R Hc B. change (0 <= f < 5) in Hf. unfold p_tree_face. apply prism_parts in V. destruct V as (VT & VL & E & M). change (p_level e < 21) in L. unfold p_level in L.
    assert (LT : s_level (s := simplex_scheme false) (ptri e) < s_maxlevel (simplex_scheme false)) by (change (lv (ptri e) < 29); lia). destruct (LH f Hf) as [F|F].
    + rewrite p_types by exact F. change (bnc 2) with 4. rewrite (p_rb_low e F) in R. rewrite (p_boundary_low VT VL F R) in B. set (lb := tri_boundary_face (ptri e) f) in B. assert (ELB : lb = tri_boundary_face (ptri e) f) by reflexivity. clearbody lb. injection B as <-. subst lb. apply (p_fc_low c g (tv_wf VT) F) in Hc. destruct Hc as (-> & a & k & Ha & Hk & ->).
      set (tc := child false (ptri e) (znth (-1) (child_ids_at_face false (ptri e) f) k)) in *. assert (Hc : In (tc, f) (face_children (simplex_faces false) (ptri e) f)) by (apply tri_face_children; [now apply tv_wf|exact LT|exact F|eauto]). destruct (FaceProofs.face_child (simplex_laws false) (simplex_flaws false) VT LT F Hc) as (Vc & Lc & _). change (lv tc = lv (ptri e) + 1) in Lc.
      assert (Rc : is_root_boundary false tc f = true) by (exact (proj1 (xo_rb_child TX VT LT F R Hc))). destruct (xo_boundary TX VT F R) as (_ & b & B & [B1 B2] & _). injection B as <-. change (ll (tri_boundary_face (ptri e) f) = lv (ptri e)) in B2. destruct (xo_bchild TX VT LT F R Hc eq_refl) as (j & Hj & Bj). assert (Bj' : tri_boundary_face tc f = l_child (tri_boundary_face (ptri e) f) j) by (exact (f_equal (fun o => match o with Ok b => b | _ => pline e end) Bj)). clear Bj. rename Bj' into Bj. exists (j + 2 * a). split; [lia|].
      rewrite p_boundary_low; [|exact Vc|cbn [pline]; apply lwf_child; [exact VL|lia|exact Ha]|exact F|exact Rc]. cbn [ptri pline]. rewrite Bj, Lc. cbn [bchild]. rewrite c_child_quad; [|lia| |lia].
      * replace ((j + 2 * a) mod 2) with j by lia. replace ((j + 2 * a) / 2) with a by lia. rewrite <- B2. destruct (tri_boundary_face (ptri e) f) as [l x]. cbn [ll lx] in *. rewrite B2. rewrite E. destruct (pline e) as [l' y]. reflexivity.
      * apply hin_quad_lines. rewrite <- B2 at 1. split; [now destruct (tri_boundary_face (ptri e) f)|]. rewrite E. split; [now destruct (pline e)|lia].
    + rewrite p_types_high by exact F. change (bnc 3) with 4. rewrite p_boundary_high in B by lia. injection B as <-. apply (p_fc_high e c g F) in Hc. destruct Hc as (-> & j & Hj & ->). exists j. split; [exact Hj|]. rewrite p_boundary_high by lia. reflexivity.
  - intros e f b j V L Hf R B Hj. change (0 <= f < 5) in Hf. unfold p_tree_face in Hj. apply prism_parts in V. destruct V as (VT & VL & E & M). change (p_level e < 21) in L. unfold p_level in L.
    assert (LT : s_level (s := simplex_scheme false) (ptri e) < s_maxlevel (simplex_scheme false)) by (change (lv (ptri e) < 29); lia). destruct (LH f Hf) as [F|F].
    + rewrite p_types in Hj by exact F. change (bnc 2) with 4 in Hj. rewrite (p_rb_low e F) in R. rewrite (p_boundary_low VT VL F R) in B. set (lb := tri_boundary_face (ptri e) f) in B. assert (ELB : lb = tri_boundary_face (ptri e) f) by reflexivity. clearbody lb. injection B as <-. subst lb. destruct (xo_boundary TX VT F R) as (_ & b & B & [B1 B2] & _). injection B as <-. change (ll (tri_boundary_face (ptri e) f) = lv (ptri e)) in B2.
      assert (Hk : 0 <= j mod 2 < 2) by lia. assert (Ha : 0 <= j / 2 < 2) by lia. destruct (xo_bchild_onto TX VT LT F R eq_refl Hk) as (tc & g & Hc & Bc). assert (Bc' : tri_boundary_face tc g = l_child (tri_boundary_face (ptri e) f) (j mod 2)) by (exact (f_equal (fun o => match o with Ok b => b | _ => pline e end) Bc)). clear Bc. rename Bc' into Bc. destruct (FaceProofs.face_child (simplex_laws false) (simplex_flaws false) VT LT F Hc) as (Vc & Lc & _). change (lv tc = lv (ptri e) + 1) in Lc. assert (Rc : is_root_boundary false tc g = true) by (exact (proj1 (xo_rb_child TX VT LT F R Hc))).
      apply (tri_face_children tc g (tv_wf VT) LT F) in Hc. destruct Hc as (-> & k & Hk' & ->). set (tc := child false (ptri e) (znth (-1) (child_ids_at_face false (ptri e) f) k)) in *. exists (Prism (l_child (pline e) (j / 2)) tc), f. split; [apply p_fc_low; [now apply tv_wf|exact F|]; split; [reflexivity|]; exists (j / 2), k; auto|].
      rewrite p_boundary_low; [|exact Vc|cbn [pline]; apply lwf_child; [exact VL|lia|exact Ha]|exact F|exact Rc]. cbn [ptri pline]. rewrite Bc, Lc. cbn [bchild]. rewrite c_child_quad; [|lia| |exact Hj].
      * rewrite <- B2. destruct (tri_boundary_face (ptri e) f) as [l x]. cbn [ll lx] in *. rewrite B2. rewrite E. destruct (pline e) as [l' y]. reflexivity.
      * apply hin_quad_lines. rewrite <- B2 at 1. split; [now destruct (tri_boundary_face (ptri e) f)|]. rewrite E. split; [now destruct (pline e)|lia].
    + rewrite p_types_high in Hj by exact F. change (bnc 3) with 4 in Hj. rewrite p_boundary_high in B by lia. injection B as <-. exists (Prism (l_child (pline e) (f - 3)) (child false (ptri e) j)), f. split; [apply p_fc_high; [exact F|]; split; [reflexivity|]; exists j; auto|]. rewrite p_boundary_high by lia. reflexivity.
Qed.

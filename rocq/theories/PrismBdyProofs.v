(** The vertices of the boundary faces of prisms. *)
From Verif Require Import Prelude PathSpec GeoSpec SchemeModel SchemeSpec FaceModel SchemeProofs SchemeOrderProofs SchemeInstances FaceSpec FaceProofs FaceInstances NeighborModel NeighborSpec NeighborProofs NeighborInstances EclassModel.
From Verif Require Import BitLemmas SimplexModel SimplexSpec SimplexProofs SimplexPathProofs SimplexGeoProofs SimplexAncProofs SimplexTileProofs SimplexFaceProofs SimplexFaceChildProofs LineModel LineSpec LineProofs BoundaryProofs TransformProofs.
From Verif Require Import HyperModel HyperSpec HyperProofs HyperScheme HyperFlaws HyperCrossProofs CubeModel TransferProofs CubeScheme.
From Verif Require Import PrismModel PrismSpec PrismProofs PrismGeoProofs PrismFaceProofs PrismMoreProofs PrismScheme PrismFlaws BdyModel HybridModel HybridSpec HybridProofs HybridInstances.
From Verif Require Import BoundarySpec CubeSpec PrismBdySpec HybridPrism.

Lemma quad_vertices l x y w : In w (c_vertices false (Cube l [x; y])) <-> exists c d, 0 <= c < 2 /\ 0 <= d < 2 /\ w = (l_coords (Line l x) c, l_coords (Line l y) d, 0).
Proof.
  unfold c_vertices. change (zseq 0 (Z.to_nat (c_num_children false))) with [0; 1; 2; 3]. unfold c_vertex. cbn [c_coords map]. unfold q_coords, cx, cy. cbn [hl hx].
  assert (Q : forall u s : Z, forall b : bool, u + (if b then 0 else 1) * s = if b then u else u + s) by (intros u s [|]; lia). rewrite !Q.
  assert (L0 : forall u, l_coords (Line l u) 0 = u) by reflexivity. assert (L1 : forall u, l_coords (Line l u) 1 = u + p4_len l) by reflexivity.
  split.
  - intros H. cbn [In] in H. destruct H as [<-|[<-|[<-|[<-|[]]]]]; [exists 0, 0|exists 1, 0|exists 0, 1|exists 1, 1]; (split; [lia|split; [lia|]]); rewrite ?L0, ?L1; reflexivity.
  - intros (c & d & Hc & Hd & ->). split_range Hc; split_range Hd; rewrite ?L0, ?L1; cbn [In]; tauto.
Qed.
Lemma p_boundary_image_low p f b : p_path p -> 0 <= f < 3 -> p_is_root_boundary (p_walk p) f = true -> p_boundary_face (p_walk p) f = Ok (BQuad b) ->
  forall v, In v (p_face_vertices (p_walk p) f) <-> exists w, In w (c_vertices false b) /\ mul3 512 v = emb_prism_quad f w.
Proof.
  intros Hp Hf R B v. assert (A := p_walk_aligned Hp). assert (V := proj2 (prism_valid_walk _) (ex_intro _ p (conj Hp eq_refl))). apply prism_parts in V. destruct V as (VT & VL & E & M).
  rewrite p_rb_low in R by exact Hf. rewrite (p_boundary_low VT VL Hf R) in B. set (e := p_walk p) in *. assert (VT' := VT). apply simplex_valid in VT'. destruct (tri_boundary_ok (proj1 VT') (proj2 VT') Hf R) as (BW & BL & _ & BV).
  set (tb := tri_boundary_face (ptri e) f) in *. clearbody tb. destruct tb as [l x]. cbn [lx ll] in *. subst l. injection B as <-. rewrite p_face_vertices_iff by lia.
  assert (FL : forall z, In z (p_face_line e f) <-> exists d, 0 <= d < 2 /\ z = l_coords (Line (lv (ptri e)) (lx (pline e))) d).
  { intros z. unfold p_face_line. destruct (Z.ltb_spec f 3); [|lia]. rewrite E. destruct (pline e) as [k y]. cbn [ll lx In]. split; [intros [<-|[<-|[]]]; [exists 0|exists 1]; split; auto; lia|intros (d & Hd & ->); split_range Hd; auto]. }
  assert (FT : p_face_tri e f = face_vertices false (ptri e) f) by (unfold p_face_tri; destruct (Z.ltb_spec f 3); [reflexivity|lia]).
  assert (EM : forall a z c, In a (p_face_tri e f) -> In z (p_face_line e f) -> mul3 2 a = emb_tri (tree_face false (ptri e) f) c -> mul3 512 (pv a z) = emb_prism_quad f (c, z, 0)).
  { intros a z c Ha Hz H. destruct (@face_tri_256 e f a A Ha) as (X & Y & _). assert (Z := proj1 (FL z) Hz). destruct Z as (d & _ & Z). assert (Z5 := pline_512 d A). replace (l_coords (pline e) d) with z in Z5 by (rewrite Z, E; now destruct (pline e)).
    rewrite tri_tree_face in H by exact Hf. unfold mul3, pv, emb_tri, emb_prism_quad in H |- *. cbn [ix iy iz fst snd] in *. change (2 ^ 30) with 1073741824. change LROOT with 1073741824 in H. rewrite <- Z5. set (x1 := ix a / 256) in *. set (y1 := iy a / 256) in *. clearbody x1 y1. rewrite X, Y in H.
    split_range Hf; cbn [Z.eqb Pos.eqb] in *; assert (H1 := f_equal ix H); assert (H2 := f_equal iy H); cbn [ix iy fst snd] in H1, H2; (apply f_equal2; [apply f_equal2|]; lia). }
  split.
  - intros (a & z & Ha & Hz & ->). assert (Ha' := Ha). rewrite FT in Ha'. apply BV in Ha'. destruct Ha' as (c & Hc & H). exists (l_coords (Line (lv (ptri e)) x) c, z, 0). split; [|now apply EM]. apply quad_vertices. apply FL in Hz. destruct Hz as (d & Hd & ->). exists c, d. auto.
  - intros (w & Hw & H). apply quad_vertices in Hw. destruct Hw as (c & d & Hc & Hd & ->). set (z := l_coords (Line (lv (ptri e)) (lx (pline e))) d) in *.
    assert (Hz : In z (p_face_line e f)) by (apply FL; eauto).
    assert (exists a, In a (p_face_tri e f) /\ mul3 2 a = emb_tri (tree_face false (ptri e) f) (l_coords (Line (lv (ptri e)) x) c)) as (a & Ha & Ha2).
    { exists (let u := l_coords (Line (lv (ptri e)) x) c in (ix (emb_tri f u) / 2, iy (emb_tri f u) / 2, 0)). cbn zeta.
      assert (EV : exists k, l_coords (Line (lv (ptri e)) x) c = k * 2).
      { destruct BW as [W0 [k W] _]. cbn [ll lx] in W, W0. change LMAX with 30 in W, W0. unfold l_coords. cbn [ll lx]. rewrite LLEN_pow by (change LMAX with 30; lia). change LMAX with 30. change PMAX with 21 in M. rewrite W.
        replace (30 - lv (ptri e)) with (30 - lv (ptri e) - 1 + 1) by lia. rewrite Z.pow_add_r by lia. set (m := 2 ^ (30 - lv (ptri e) - 1)). destruct (c =? 0); [exists (k * m)|exists (k * m + m)]; lia. }
      destruct EV as [k EV]. assert (EQ : mul3 2 (ix (emb_tri f (l_coords (Line (lv (ptri e)) x) c)) / 2, iy (emb_tri f (l_coords (Line (lv (ptri e)) x) c)) / 2, 0) = emb_tri (tree_face false (ptri e) f) (l_coords (Line (lv (ptri e)) x) c)).
      { rewrite tri_tree_face by exact Hf. rewrite EV. unfold mul3, emb_tri. change LROOT with (536870912 * 2). split_range Hf; cbn [Z.eqb Pos.eqb ix iy iz fst snd]; rewrite ?Z.div_mul by lia; (apply f_equal2; [apply f_equal2|]; lia). }
      split; [rewrite FT; apply BV; eauto|exact EQ]. }
    exists a, z. split; [exact Ha|]. split; [exact Hz|]. assert (EQ := EM _ _ _ Ha Hz Ha2). rewrite <- H in EQ. destruct v as [[v1 v2] v3], (pv a z) as [[u1 u2] u3]. unfold mul3 in EQ. cbn [ix iy iz fst snd] in EQ. assert (E1 := f_equal ix EQ). assert (E2 := f_equal iy EQ). assert (E3 := f_equal iz EQ). cbn [ix iy iz fst snd] in E1, E2, E3. apply f_equal2; [apply f_equal2|]; lia.
Qed.

Lemma p_boundary_image_high p f : p_path p -> 3 <= f < 5 -> p_is_root_boundary (p_walk p) f = true ->
  forall v, In v (p_face_vertices (p_walk p) f) <-> exists w, In w (vertices false (ptri (p_walk p))) /\ mul3 256 v = emb_prism_tri f w.
Proof.
  intros Hp Hf R v. assert (A := p_walk_aligned Hp). rewrite p_rb_high in R by exact Hf. set (e := p_walk p) in *. rewrite p_face_vertices_iff by lia.
  assert (FT : p_face_tri e f = vertices false (ptri e)) by (unfold p_face_tri; destruct (Z.ltb_spec f 3); [lia|reflexivity]). assert (FL : p_face_line e f = [l_coords (pline e) (f - 3)]) by (unfold p_face_line; destruct (Z.ltb_spec f 3); [lia|reflexivity]).
  assert (LC : l_coords (pline e) (f - 3) = (f - 3) * LROOT).
  { unfold l_is_root_boundary in R. unfold l_coords. clear -R Hf. destruct (Z.eqb_spec (f - 3) 0) as [E0|E0]; apply Z.eqb_eq in R; [replace (f - 3) with 0 by lia|replace (f - 3) with 1 by lia]; lia. }
  assert (EM : forall a, In a (p_face_tri e f) -> mul3 256 (pv a (l_coords (pline e) (f - 3))) = emb_prism_tri f a).
  { intros a Ha. destruct (@face_tri_256 e f a A Ha) as (X & Y & _). rewrite LC. unfold mul3, pv, emb_prism_tri. cbn [ix iy iz fst snd]. rewrite <- X, <- Y. apply f_equal2; [reflexivity|]. assert (f = 3 \/ f = 4) as [-> | ->] by lia; vm_compute; reflexivity. }
  rewrite FL, FT in *. split.
  - intros (a & z & Ha & [<-|[]] & ->). exists a. split; [exact Ha|now apply EM].
  - intros (w & Hw & H). exists w, (l_coords (pline e) (f - 3)). split; [exact Hw|]. split; [now left|]. assert (EQ := EM _ Hw). rewrite <- H in EQ. destruct v as [[v1 v2] v3], (pv w (l_coords (pline e) (f - 3))) as [[u1 u2] u3]. unfold mul3 in EQ. cbn [ix iy iz fst snd] in EQ. assert (E1 := f_equal ix EQ). assert (E2 := f_equal iy EQ). assert (E3 := f_equal iz EQ). cbn [ix iy iz fst snd] in E1, E2, E3. apply f_equal2; [apply f_equal2|]; lia.
Qed.

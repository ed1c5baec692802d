(** The vertices of the boundary faces of pyramids. *)
From Verif Require Import Prelude PathSpec GeoSpec SchemeModel SchemeSpec FaceModel SchemeProofs SchemeOrderProofs SchemeInstances FaceSpec FaceProofs EclassModel.
From Verif Require Import BitLemmas SimplexModel SimplexSpec SimplexProofs SimplexPathProofs SimplexOrderProofs SimplexGeoProofs SimplexAncProofs SimplexTileProofs SimplexFaceProofs LineModel LineSpec LineProofs.
From Verif Require Import HyperModel HyperSpec HyperProofs HyperScheme HyperCrossProofs CubeModel TransferProofs CubeScheme BoundarySpec CubeSpec CubeProofs BdyModel HybridModel HybridProofs PrismBdyProofs.
From Verif Require Import PyramidModel PyramidSpec PyramidProofs PyramidAncProofs PyramidIdProofs PyramidOrderProofs PyramidScheme PyramidGeoSpec PyramidGeoProofs PyramidFaceProofs PyramidNbProofs PyramidBdyModel PyramidFlaws HybridPyramid PyramidBdySpec.

Lemma len_256 l : l <= 21 -> LEN false l = 256 * YLEN l.
Proof. intros H. rewrite YLEN_pow by lia. rewrite LEN_pow by (change (l <= 29); lia). change (MAXLEVEL false) with 29. change 256 with (2 ^ 8). rewrite <- Z.pow_add_r by lia. f_equal. lia. Qed.
Lemma len_512 l : 0 <= l <= 21 -> p4_len l = 512 * YLEN l.
Proof. intros H. rewrite p4_len_pow, YLEN_pow by lia. change 512 with (2 ^ 9). rewrite <- Z.pow_add_r by lia. f_equal. lia. Qed.
(** unit vectors *)
Definition uemb (rf : Z) (w : ipt) : ipt := if rf =? 0 then (iy w, ix w, iy w) else if rf =? 1 then (1, ix w, iy w) else if rf =? 2 then (ix w, iy w, iy w) else (ix w, 1, iy w).
Definition uset (rf t f : Z) : bool :=
  let l := map (yucoord t) (fcn t f) in let m := map (fun v => uemb rf (ucoord false (tau t) v)) (corner_numbers false) in negb (st rf t f) || (inclb l m && inclb m l).
Lemma tab_uset rf t f : 0 <= rf < 4 -> 0 <= t < 8 -> 0 <= f < nf t -> st rf t f = true -> let l := map (yucoord t) (fcn t f) in let m := map (fun v => uemb rf (ucoord false (tau t) v)) (corner_numbers false) in forall u, In u l <-> In u m.
Proof.
  intros Hr Ht Hf ST l m u. assert (A : all_tf (fun t f => forallb (fun rf => uset rf t f) r4) = true) by (vm_compute; reflexivity). assert (B := all_tf_spec A Ht Hf). cbv beta in B. rewrite forallb_forall in B. specialize (B rf ltac:(split_range Hr; cbn; auto 6)).
  unfold uset in B. rewrite ST in B. cbn [negb orb] in B. apply andb_prop in B. destruct B as [B1 B2]. split; [now apply inclb_incl|now apply inclb_incl].
Qed.
Definition ytri (rf : Z) (e : pyr) : simp := Simp (ylv e) (tau (yty e)) (256 * yX rf e) (256 * yz e) 0.
Lemma y_boundary_image_tri p f rf : y_path p -> 0 <= f < nf (yty (y_walk p)) -> 0 <= rf < 4 -> on_plane (y_walk p) f rf ->
  forall v, In v (y_face_vertices (y_walk p) f) <-> exists w, In w (vertices false (ytri rf (y_walk p))) /\ mul3 256 v = emb_pyramid_tri rf w.
Proof.
  intros Hp Hf Hr Pl v. destruct (y_walk_wf Hp) as [W L]. assert (Ht := yw_ty W). assert (Hr5 : 0 <= rf < 5) by lia; destruct (st_of Hp Hf Hr5 Pl) as [ST C]. assert (HL : ylv (y_walk p) <= 21) by (rewrite L; apply (y_path_len Hp)).
  rewrite y_face_vertices_unit by assumption. rewrite vertices_unit by (cbn [ytri ty]; change (NUM_TYPES false) with 2; apply tau_range). cbn [ytri lv sx sy sz ty]. rewrite (len_256 HL). assert (T := tab_uset Hr Ht Hf ST). cbv zeta in T.
  set (h := YLEN (ylv (y_walk p))) in *. set (e := y_walk p) in *.
  assert (EM : forall u c, u = uemb rf c -> iz c = 0 -> mul3 256 (scale h (yanc e) u) = emb_pyramid_tri rf (scale (256 * h) (256 * yX rf e, 256 * yz e, 0) c)).
  { intros u c -> _. unfold crd in C. fold h in C. clear T Pl ST W Ht. unfold mul3, emb_pyramid_tri, uemb, scale, yX, yanc. destruct c as [[c1 c2] c3]. change YROOT with (2 ^ 21) in C. change (2 ^ 29) with (256 * 2 ^ 21). set (R := 2 ^ 21) in *. clearbody R h.
    split_range Hr; cbn [Z.eqb Pos.eqb Z.ltb Z.compare Pos.compare Pos.compare_cont ix iy iz fst snd] in *; (apply f_equal2; [apply f_equal2|]; nia). }
  assert (Z2 : forall k, In k (corner_numbers false) -> iz (ucoord false (tau (yty e)) k) = 0).
  { intros k Hk. cbn in Hk. unfold tau. destruct (_ || _); repeat destruct Hk as [<-|Hk]; try destruct Hk; reflexivity. }
  split.
  - intros Hv. apply in_map_iff in Hv. destruct Hv as (k & <- & Hk). assert (Q := proj1 (T _) (in_map (yucoord (yty e)) _ _ Hk)). apply in_map_iff in Q. destruct Q as (j & Ej & Hj). exists (scale (256 * h) (256 * yX rf e, 256 * yz e, 0) (ucoord false (tau (yty e)) j)).
    split; [apply in_map_iff; now exists j|]. apply EM; auto.
  - intros (w & Hw & E). apply in_map_iff in Hw. destruct Hw as (j & <- & Hj). assert (Q := proj2 (T _) (in_map (fun v => uemb rf (ucoord false (tau (yty e)) v)) _ _ Hj)). cbv beta in Q. apply in_map_iff in Q. destruct Q as (k & Ek & Hk). apply in_map_iff. exists k. split; [|exact Hk].
    rewrite <- (EM _ _ Ek (Z2 _ Hj)) in E. set (u := scale h (yanc e) (yucoord (yty e) k)) in *. clearbody u. destruct v as [[v1 v2] v3], u as [[u1 u2] u3]. unfold mul3 in E. cbn [ix iy iz fst snd] in E. assert (E1 := f_equal ix E). assert (E2 := f_equal iy E). assert (E3 := f_equal iz E). cbn [ix iy iz fst snd] in E1, E2, E3. apply f_equal2; [apply f_equal2|]; lia.
Qed.
Lemma y_boundary_image_quad p : y_path p -> 0 <= 4 < nf (yty (y_walk p)) -> on_plane (y_walk p) 4 4 ->
  forall v, In v (y_face_vertices (y_walk p) 4) <-> exists w, In w (c_vertices false (Cube (ylv (y_walk p)) [512 * yx (y_walk p); 512 * yy (y_walk p)])) /\ mul3 512 v = emb_pyramid_quad w.
Proof.
  intros Hp Hf Pl v. destruct (y_walk_wf Hp) as [W L]. assert (Ht := yw_ty W). destruct (@st_of p 4 4 Hp Hf ltac:(lia) Pl) as [ST C]. assert (HL : 0 <= ylv (y_walk p) <= 21) by (rewrite L; split; [apply zlen_nonneg|apply (y_path_len Hp)]).
  rewrite y_face_vertices_unit by assumption. assert (T6 : yty (y_walk p) = 6) by (unfold st in ST; cbn in ST; apply andb_prop in ST; destruct ST as [S1 _]; now apply Z.eqb_eq). rewrite T6. change (crd 4 (y_walk p)) with (yz (y_walk p) = 0) in C.
  setoid_rewrite quad_vertices. unfold l_coords. cbn [ll lx]. assert (LL : LLEN (ylv (y_walk p)) = 512 * YLEN (ylv (y_walk p))) by (rewrite <- len_512 by exact HL; reflexivity). rewrite LL. set (h := YLEN (ylv (y_walk p))) in *.
  change (fcn 6 4) with [0; 1; 2; 3]. unfold yanc. rewrite C. set (x := yx (y_walk p)). set (y := yy (y_walk p)). clearbody h x y.
  change (yucoord 6) with (yucoord 6). cbn [map In]. change (yucoord 6 0) with (0, 0, 0). change (yucoord 6 1) with (1, 0, 0). change (yucoord 6 2) with (0, 1, 0). change (yucoord 6 3) with (1, 1, 0). unfold scale, emb_pyramid_quad, mul3. cbn [ix iy iz fst snd].
  split.
  - intros H. assert (Q : exists c d, 0 <= c < 2 /\ 0 <= d < 2 /\ v = (x + h * c, y + h * d, 0)) by (destruct H as [<-|[<-|[<-|[<-|[]]]]]; [exists 0, 0|exists 1, 0|exists 0, 1|exists 1, 1]; (split; [lia|split; [lia|]]); apply f_equal2; [apply f_equal2| |apply f_equal2| |apply f_equal2| |apply f_equal2|]; lia).
    destruct Q as (c & d & Hc & Hd & ->). cbn [ix iy iz fst snd]. eexists. split; [exists c, d; split; [exact Hc|split; [exact Hd|reflexivity]]|]. cbn [ix iy iz fst snd]. split_range Hc; split_range Hd; cbn [Z.eqb Pos.eqb]; (apply f_equal2; [apply f_equal2|]; lia).
  - intros (w & (c & d & Hc & Hd & ->) & E). cbn [ix iy iz fst snd] in E. destruct v as [[v1 v2] v3]. cbn [ix iy iz fst snd] in E. assert (E1 := f_equal ix E). assert (E2 := f_equal iy E). assert (E3 := f_equal iz E). cbn [ix iy iz fst snd] in E1, E2, E3. clear E.
    split_range Hc; split_range Hd; cbn [Z.eqb Pos.eqb] in *; [left|right; right; left|right; left|right; right; right; left]; (apply f_equal2; [apply f_equal2|]; lia).
Qed.
Lemma y_ids_hd p f : hd (-1) (y_child_ids_at_face (y_walk p) f) = y_hd (yty (y_walk p)) f. Proof. reflexivity. Qed.
Lemma y_ids_last p f : y_path p -> 0 <= f < nf (yty (y_walk p)) -> last (y_child_ids_at_face (y_walk p) f) (-1) = y_lst (yty (y_walk p)) f.
Proof.
  intros Hp Hf. destruct (y_ids_facts Hp Hf) as (F & _). unfold y_lst. rewrite <- y_faceids_eq. destruct (y_child_ids_at_face (y_walk p) f) as [|a [|b [|c [|d [|]]]]]; try discriminate F; [reflexivity|]. unfold zlen in F. cbn [length] in F. lia.
Qed.
Lemma y_rb_plane p f : y_path p -> 0 <= f < nf (yty (y_walk p)) -> y_is_root_boundary (y_walk p) f = true -> 0 <= y_tree_face (y_walk p) f < 5 /\ on_plane (y_walk p) f (y_tree_face (y_walk p) f).
Proof.
  intros Hp Hf E.
  assert (TF : 0 <= y_tree_face (y_walk p) f < 5).
  { unfold y_tree_face. rewrite E. unfold nf in Hf. unfold is_pyra. change FIRST_TYPE with 6. assert (Ht := yw_ty (proj1 (y_walk_wf Hp))). destruct (Z.ltb_spec (yty (y_walk p)) 6); cbn [negb]; [|lia].
    unfold y_is_root_boundary in E. rewrite (y_walk_inside Hp) in E. cbn [negb] in E.
    assert (C : yty (y_walk p) = 0 \/ yty (y_walk p) = 1 \/ yty (y_walk p) = 2 \/ yty (y_walk p) = 3 \/ yty (y_walk p) = 4 \/ yty (y_walk p) = 5) by lia.
    destruct C as [C|[C|[C|[C|[C|C]]]]]; rewrite C in *; split_range Hf; cbn [Z.eqb Pos.eqb andb orb] in *; try discriminate E; lia. }
  split; [exact TF|]. apply y_root_face_iff; auto.
Qed.

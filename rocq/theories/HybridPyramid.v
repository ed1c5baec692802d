(** The faces of pyramids at the boundary of a tree: pyramids can be connected to trees of other classes. *)
From Verif Require Import Prelude PathSpec GeoSpec SchemeModel SchemeSpec FaceModel SchemeProofs SchemeOrderProofs SchemeInstances FaceSpec FaceProofs FaceInstances NeighborModel NeighborSpec NeighborProofs NeighborInstances EclassModel.
From Verif Require Import BitLemmas SimplexModel SimplexSpec SimplexProofs SimplexPathProofs SimplexOrderProofs SimplexGeoProofs SimplexAncProofs SimplexTileProofs SimplexFaceProofs SimplexFaceChildProofs LineModel LineSpec LineProofs BoundaryProofs TransformProofs.
From Verif Require Import HyperModel HyperSpec HyperProofs HyperScheme HyperFlaws HyperCrossProofs CubeModel TransferProofs CubeScheme BdyModel HybridModel HybridSpec HybridProofs HybridInstances HybridPrism.
From Verif Require Import PyramidModel PyramidSpec PyramidProofs PyramidAncProofs PyramidIdProofs PyramidOrderProofs PyramidScheme PyramidGeoSpec PyramidGeoProofs PyramidFaceProofs PyramidNbProofs PyramidBdyModel PyramidFlaws.

(** ** neighbours inside of the tree *)
Lemma inside_of p f q o t' g : y_path p -> y_path q -> 0 <= f < nf (yty (y_walk p)) -> zlen q = zlen p -> nbt (yty (y_walk p)) (y_tet_boundary (y_walk p) f) f = (o, t', g) ->
  yty (y_walk q) = t' -> yanc (y_walk q) = scale (YLEN (ylv (y_walk p))) (yanc (y_walk p)) o -> y_neighbor_inside (y_walk p) f = Some (y_walk q, g).
Proof.
  intros Hp Hq Hf Lq EN Tq Aq. destruct (y_walk_wf Hp) as [W L]. destruct (y_walk_wf Hq) as [Wq Lvq]. assert (EL : ylv (y_walk q) = ylv (y_walk p)) by lia. unfold y_neighbor_inside, y_face_neighbor_inside. rewrite (y_nb (yw_ty W) Hf), EN.
  assert (EM : mksimp (ylv (y_walk p)) t' (scale (YLEN (ylv (y_walk p))) (yanc (y_walk p)) o) = yt (y_walk q)) by (rewrite <- EL at 1; rewrite <- Tq; now apply mk_walk).
  rewrite EM, (y_walk_inside Hq), (@y_set_switch_walk q (Pyr (yt (y_walk q)) 0) Hq eq_refl). reflexivity.
Qed.
Lemma inside_has p f n g : y_path p -> 0 <= f < nf (yty (y_walk p)) -> y_neighbor_inside (y_walk p) f = Some (n, g) ->
  exists q o, nbt (yty (y_walk p)) (y_tet_boundary (y_walk p) f) f = (o, yty (y_walk q), g) /\ n = y_walk q /\ y_path q /\ zlen q = zlen p /\ yanc (y_walk q) = scale (YLEN (ylv (y_walk p))) (yanc (y_walk p)) o /\
    nbt (yty (y_walk q)) (y_tet_boundary (y_walk q) g) g = (ineg o, yty (y_walk p), f) /\ 0 <= g < nf (yty (y_walk q)).
Proof.
  intros Hp Hf I. assert (M := y_nb_main Hp Hf). assert (OUT := fun rf => @nb_outside p f rf Hp Hf). assert (Ht := yw_ty (proj1 (y_walk_wf Hp))). assert (NE := y_nb Ht Hf). assert (SH := @tab_share (y_tet_boundary (y_walk p) f) _ _ Ht Hf). unfold share_ok in SH.
  destruct (nbt (yty (y_walk p)) (y_tet_boundary (y_walk p) f) f) as [[o t'] h] eqn:EN. destruct M as [(q & Hq & Lq & Tq & Aq & Nq)|[(rf & Hrf & Pl) Fl]].
  - rewrite (inside_of Hp Hq Hf Lq EN Tq Aq) in I. assert (I1 := f_equal (fun o => match o with Some (m, _) => m | None => n end) I). assert (I2 := f_equal (fun o => match o with Some (_, k) => k | None => g end) I). cbn iota beta in I1, I2. subst n g. exists q, o. rewrite Tq. repeat split; auto; lia.
  - specialize (OUT rf Hrf Pl Fl). unfold y_neighbor_inside, y_face_neighbor_inside in I. rewrite NE in *. cbn [fst] in OUT. rewrite OUT in I. discriminate I.
Qed.
(** faces of children at the boundary of the root belong to faces of the parent there *)
Lemma plane_up p i g rf : y_path (p ++ [i]) -> 0 <= g < nf (YT (yty (y_walk p)) i) -> 0 <= rf < 5 -> on_plane (y_walk (p ++ [i])) g rf ->
  exists F, 0 <= F < nf (yty (y_walk p)) /\ subt (yty (y_walk p)) i g F = true /\ on_plane (y_walk p) F rf.
Proof.
  intros Hp Hg Hrf Pl. assert (Hp' := y_path_app Hp). destruct (y_child_unit Hp) as (Ht & Hi & L & Hl & Lc & Tc & Ac & HL & HP). assert (Hg' : 0 <= g < nf (yty (y_walk (p ++ [i])))) by now rewrite Tc.
  assert (RB := proj1 (@y_root_face_iff _ g rf Hp Hg' Hrf) Pl). destruct RB as [RB1 RB2].
  assert (NN : y_neighbor_inside (y_walk (p ++ [i])) g = None).
  { assert (SP := @y_neighbour_spec _ g Hp Hg'). cbv zeta in SP. destruct (y_face_neighbour (y_walk (p ++ [i])) g) as [n h]. unfold y_neighbor_inside. destruct (y_face_neighbor_inside (y_walk (p ++ [i])) g) as [[[m|] g']| | |]; try destruct SP; [|reflexivity]. destruct H0 as (_ & E & _). congruence. }
  assert (NB := @nbt_child p i g Hp Hg). cbv zeta in NB. set (t := yty (y_walk p)) in *.
  destruct (Z.eqb_spec (pft t i g) (-1)) as [EF|NF].
  - exfalso. assert (T := tab_inner Ht Hi Hg). unfold inner_ok in T. rewrite EF, Z.eqb_refl in T. destruct (nbt (YT t i) (cf t i false g) g) as [[o t'] h] eqn:EN.
    apply existsb_exists in T. destruct T as (j & Hj & T). apply in_zseq in Hj. rewrite !andb_true_iff in T. destruct T as (((((T1 & T2) & T3) & T4) & T5) & T6). apply Z.eqb_eq in T1. apply ieqb_eq in T2.
    assert (Hj' : 0 <= j < nch t) by (unfold nch in *; destruct (t <? 6); lia). assert (Hq : y_path (p ++ [j])) by now apply y_path_child. destruct (y_child_unit Hq) as (_ & _ & _ & _ & Lj & Tj & Aj & _). fold t in Tj, Aj. rewrite <- Tc in NB.
    rewrite (@inside_of (p ++ [i]) g (p ++ [j]) o t' h) in NN; [discriminate NN|exact Hp|exact Hq|exact Hg'|now rewrite !zlen_app|exact NB|congruence|]. rewrite Aj, Ac, scale_scale, T2. now rewrite Lj, Lc.
  - destruct (pft_range t i g) as [|[RF SF]]; [lia|]. exists (pft t i g). split; [exact RF|]. split; [exact SF|]. assert (M := y_nb_main Hp' RF). fold t in M. assert (T := @tab_outer (y_tet_boundary (y_walk p) (pft t i g))).
    destruct (nbt t (y_tet_boundary (y_walk p) (pft t i g)) (pft t i g)) as [[D s] G] eqn:ED. destruct M as [(q & Hq & Lq & Tq & Aq & Nq)|[(rf' & Hrf' & Pl') Fl]].
    + exfalso. fold t in Nq. specialize (T (y_tet_boundary (y_walk q) G) t i g Ht Hi Hg). unfold outer_ok in T. destruct (Z.eqb_spec (pft t i g) (-1)); [lia|]. rewrite ED, Nq in T. rewrite (proj2 (nb_eqb_eq _ _) eq_refl) in T.
      destruct (nbt (YT t i) (cf t i (y_tet_boundary (y_walk p) (pft t i g)) g) g) as [[o t'] h] eqn:EN. apply existsb_exists in T. destruct T as (k & Hk & T). apply in_zseq in Hk. rewrite !andb_true_iff in T. destruct T as (((((T1 & T2) & T3) & T4) & T5) & T6).
      apply Z.eqb_eq in T1. apply ieqb_eq in T2. assert (Hk' : 0 <= k < nch s) by (unfold nch in *; destruct (s <? 6); lia). assert (Hqk : y_path (q ++ [k])) by (apply y_path_child; [exact Hq|lia|now rewrite Tq]).
      destruct (y_child_unit Hqk) as (_ & _ & Lqq & _ & Lk & Tk & Ak & _). rewrite Tq in Tk, Ak. assert (EL : ylv (y_walk (q ++ [k])) = ylv (y_walk (p ++ [i]))) by lia. rewrite <- Tc in NB.
      rewrite (@inside_of (p ++ [i]) g (q ++ [k]) o t' h) in NN; [discriminate NN|exact Hp|exact Hqk|exact Hg'|rewrite !zlen_app, Lq; reflexivity|exact NB|congruence|]. rewrite Ak, Aq, EL, HL, scale_dbl, <- T2, Ac, scale_scale. reflexivity.
    + assert (Pl2 := subt_plane Hp SF Pl'). apply (y_root_face_iff Hp Hg' Hrf') in Pl2. replace rf with rf' by (destruct Pl2; congruence). exact Pl'.
Qed.

(** ** the triangles and the square at the faces of the root *)
Definition st (rf t f : Z) : bool :=
  if rf =? 0 then ((t =? 6) && (f =? 0)) || ((t =? 2) && (f =? 2)) || ((t =? 0) && (f =? 1))
  else if rf =? 1 then ((t =? 6) && (f =? 1)) || ((t =? 1) && (f =? 0)) || ((t =? 0) && (f =? 0))
  else if rf =? 2 then ((t =? 6) && (f =? 2)) || ((t =? 1) && (f =? 2)) || ((t =? 3) && (f =? 1))
  else if rf =? 3 then ((t =? 6) && (f =? 3)) || ((t =? 2) && (f =? 0)) || ((t =? 3) && (f =? 0))
  else (t =? 6) && (f =? 4).
Definition tau (t : Z) : Z := if (t =? 0) || (t =? 3) then 1 else 0.
Lemma tau_range t : 0 <= tau t < 2. Proof. unfold tau. destruct (_ || _); split; reflexivity || discriminate. Qed.
Definition bX (rf c : Z) : bool := Z.testbit c (if rf <? 2 then 1 else 0).
Definition yX (rf : Z) (e : pyr) : Z := if rf <? 2 then yy e else yx e.
(** the element at the face rf of the root, of an element with a face there *)
Definition ybd (rf : Z) (e : pyr) : bdy :=
  if rf =? 4 then BQuad (Cube (ylv e) [512 * yx e; 512 * yy e]) else BTri (Simp (ylv e) (tau (yty e)) (256 * yX rf e) (256 * yz e) 0).
(** the child i of an element of type t yields the child j of the element at the face *)
Definition jrel (rf t i j : Z) : bool :=
  let c := YC t i in
  if rf =? 4 then (negb (Z.testbit c 2)) && Bool.eqb (Z.testbit j 0) (Z.testbit c 0) && Bool.eqb (Z.testbit j 1) (Z.testbit c 1)
  else (Tt false (tau t) j =? tau (YT t i)) && Bool.eqb (Z.testbit (Tc false (tau t) j) 0) (bX rf c) && Bool.eqb (Z.testbit (Tc false (tau t) j) 1) (Z.testbit c 2) &&
    (if YT t i =? 6 then (t =? 6) && (negb (Z.testbit c 2) || bX rf c) else true) &&
    (if (YT t i =? 1) || (YT t i =? 2) then ((t =? 1) || (t =? 2)) || (Z.testbit c 2 && negb (bX rf c)) else true).
Definition r4 : list Z := [0;1;2;3].
Definition r5 : list Z := [0;1;2;3;4].
Definition down_ok (rf t i g F : Z) : bool := negb (st rf t F && subt t i g F) || (st rf (YT t i) g && existsb (jrel rf t i) r4).
Definition onto_ok (rf t F j : Z) : bool := negb (st rf t F) || existsb (fun i => existsb (fun g => subt t i g F && jrel rf t i j) (zseq 0 (Z.to_nat (nf (YT t i))))) (zseq 0 (Z.to_nat (nch t))).
Lemma tab_down rf t i g F : 0 <= rf < 5 -> 0 <= t < 8 -> 0 <= i < nch t -> 0 <= g < nf (YT t i) -> 0 <= F < nf t -> down_ok rf t i g F = true.
Proof.
  intros Hr Ht Hi Hg HF. assert (A : all_tif (fun t i g => forallb (fun rf => forallb (down_ok rf t i g) (zseq 0 (Z.to_nat (nf t)))) r5) = true) by (vm_compute; reflexivity).
  assert (B := all_tif_spec A Ht Hi Hg). cbv beta in B. rewrite forallb_forall in B. specialize (B rf ltac:(split_range Hr; cbn; auto 6)). rewrite forallb_forall in B. apply B. apply in_zseq. lia.
Qed.
Lemma tab_onto rf t F j : 0 <= rf < 5 -> 0 <= t < 8 -> 0 <= F < nf t -> 0 <= j < 4 -> onto_ok rf t F j = true.
Proof.
  intros Hr Ht HF Hj. assert (A : all_tf (fun t F => forallb (fun rf => forallb (onto_ok rf t F) r4) r5) = true) by (vm_compute; reflexivity).
  assert (B := all_tf_spec A Ht HF). cbv beta in B. rewrite forallb_forall in B. specialize (B rf ltac:(split_range Hr; cbn; auto 6)). rewrite forallb_forall in B. apply B. split_range Hj; cbn; auto 6.
Qed.
Definition crd (rf : Z) (e : pyr) : Prop :=
  if rf =? 0 then yx e = yz e else if rf =? 1 then yx e = YROOT - YLEN (ylv e) else if rf =? 2 then yy e = yz e else if rf =? 3 then yy e = YROOT - YLEN (ylv e) else yz e = 0.
Lemma st_of p f rf : y_path p -> 0 <= f < nf (yty (y_walk p)) -> 0 <= rf < 5 -> on_plane (y_walk p) f rf -> st rf (yty (y_walk p)) f = true /\ crd rf (y_walk p).
Proof.
  intros Hp Hf Hrf Pl. apply (y_root_face_iff Hp Hf Hrf) in Pl. destruct Pl as [E TF]. unfold y_tree_face in TF. rewrite E in TF. unfold y_is_root_boundary in E. rewrite (y_walk_inside Hp) in E. cbn [negb] in E. assert (Ht := yw_ty (proj1 (y_walk_wf Hp))).
  unfold is_pyra in TF. change FIRST_TYPE with 6 in TF. unfold nf in Hf. unfold crd. set (touch := YROOT - YLEN (ylv (y_walk p))) in *. clearbody touch.
  set (t := yty (y_walk p)) in *. set (x := yx (y_walk p)) in *. set (y := yy (y_walk p)) in *. set (z := yz (y_walk p)) in *. clearbody t x y z. clear Hp.
  split_range Ht; cbn [Z.ltb Z.compare Pos.compare Pos.compare_cont Z.eqb Pos.eqb negb orb andb] in *; split_range Hf; cbn [Z.eqb Pos.eqb andb orb negb] in *; subst rf; cbn [Z.eqb Pos.eqb andb orb negb] in *; try discriminate E; try lia; (split; [reflexivity|lia]).
Qed.

Lemma land_sub_step a b k (u v : bool) : 0 <= k -> al (k + 1) a -> al (k + 1) b ->
  (Z.land (a + Z.b2z u * 2 ^ k) (b + Z.b2z v * 2 ^ k) = b + Z.b2z v * 2 ^ k <-> Z.land a b = b /\ (v = true -> u = true)).
Proof.
  intros Hk Ha Hb.
  assert (T : forall w (c : bool) n, al (k + 1) w -> 0 <= n -> Z.testbit (w + Z.b2z c * 2 ^ k) n = if n =? k then c else Z.testbit w n).
  { intros w c n Hw Hn. destruct (Z.eqb_spec n k) as [->|N]; [now apply tb_add_same|]. destruct (Z.lt_ge_cases n k); [|apply tb_add_hi; [lia|exact Hw]].
    rewrite (@tb_al_low (k + 1) n w) by (auto; lia). apply (@tb_al_low k); [lia|]. apply al_add; [apply (@al_weaken k (k + 1)); [lia|exact Hw]|apply al_mul, al_pow; lia]. }
  assert (B : forall w n, al (k + 1) w -> 0 <= n -> n <= k -> Z.testbit w n = false) by (intros w n Hw H0 Hn; apply (@tb_al_low (k + 1)); [lia|exact Hw]).
  split.
  - intros E. split.
    + apply Z.bits_inj'. intros n Hn. assert (Q := f_equal (fun w => Z.testbit w n) E). cbv beta in Q. rewrite Z.land_spec, !T in Q by assumption. rewrite Z.land_spec. destruct (Z.eqb_spec n k) as [->|N]; [rewrite !(B _ k) by (auto; lia); reflexivity|exact Q].
    + intros Hv. assert (Q := f_equal (fun w => Z.testbit w k) E). cbv beta in Q. rewrite Z.land_spec, !T, Z.eqb_refl, Hv in Q by assumption. now rewrite andb_true_r in Q.
  - intros [E I]. apply Z.bits_inj'. intros n Hn. rewrite Z.land_spec, !T by assumption. destruct (Z.eqb_spec n k) as [->|N]; [destruct v; [rewrite I by reflexivity; reflexivity|apply andb_false_r]|].
    assert (Q := f_equal (fun w => Z.testbit w n) E). cbv beta in Q. now rewrite Z.land_spec in Q.
Qed.
Lemma land_256 a b : Z.land (256 * a) (256 * b) = 256 * Z.land a b.
Proof. rewrite !(Z.mul_comm 256). change 256 with (2 ^ 8). rewrite <- !Z.shiftl_mul_pow2 by lia. symmetry. apply Z.shiftl_land. Qed.

(** the element at the face of the root of a child is a child *)
Lemma ybd_child p i j rf : y_path (p ++ [i]) -> 0 <= rf < 5 -> 0 <= j < 4 -> (rf = 4 -> hin PQuad (Cube (ylv (y_walk p)) [512 * yx (y_walk p); 512 * yy (y_walk p)])) -> jrel rf (yty (y_walk p)) i j = true ->
  ybd rf (y_walk (p ++ [i])) = bchild (ybd rf (y_walk p)) j.
Proof.
  intros Hp Hrf Hj HQ J. destruct (y_child_unit Hp) as (Ht & Hi & L & Hl & Lc & Tc & Ac & HL & HP). unfold ybd, jrel in *. pose proof (zlen_nonneg p). rewrite YLEN_pow in HL, HP, Ac by lia.
  assert (A1 := f_equal ix Ac). assert (A2 := f_equal iy Ac). assert (A3 := f_equal iz Ac). unfold yanc, scale, uC, ubits, ix, iy, iz in A1, A2, A3. cbn [fst snd] in A1, A2, A3. rewrite Lc in *. rewrite L in *.
  destruct (Z.eqb_spec rf 4) as [->|N4]; cbn [bchild].
  - f_equal. rewrite c_child_quad; [|lia|exact (HQ eq_refl)|exact Hj]. unfold l_child. cbn [ll lx]. rewrite !andb_true_iff in J. destruct J as ((J1 & J2) & J3). apply eqb_prop in J2, J3. unfold LLEN. rewrite Z.shiftl_mul_pow2 by (change LMAX with 30; lia). change LMAX with 30. rewrite Z.mul_1_l.
    replace (30 - (zlen p + 1)) with (9 + (21 - (zlen p + 1))) by lia. rewrite Z.pow_add_r by lia. change (2 ^ 9) with 512. rewrite A1, A2, <- J2, <- J3. f_equal. f_equal; [|f_equal]; split_range Hj; vm_compute Z.testbit; cbn [Z.b2z]; try change (0 mod 2 =? 0) with true; try change (1 mod 2 =? 0) with false; try change (2 mod 2 =? 0) with true; try change (3 mod 2 =? 0) with false; try change (0 / 2 =? 0) with true; try change (1 / 2 =? 0) with true; try change (2 / 2 =? 0) with false; try change (3 / 2 =? 0) with false; cbn iota; lia.
  - assert (HT := tau_range (yty (y_walk p))). rewrite child_step; [|exact HT|exact Hj|cbn [lv]; change (MAXLEVEL false) with 29; lia]. cbn [ty lv]. unfold step. cbn [lv sx sy sz]. change (MAXLEVEL false) with 29.
    rewrite !andb_true_iff in J. destruct J as ((((J1 & J2) & J3) & _) & _). apply Z.eqb_eq in J1. apply eqb_prop in J2, J3. rewrite J1, J2, J3, Tc. replace (29 - zlen p - 1) with (8 + (21 - (zlen p + 1))) by lia. rewrite Z.pow_add_r by lia. change (2 ^ 8) with 256. f_equal. f_equal; [|lia].
    unfold yX, bX. destruct (rf <? 2); lia.
Qed.
(** what is known of an element with a face at the face rf of the root *)
Definition yinv (rf : Z) (e : pyr) : Prop := bvalid (eclass_face_types 7 rf) (ybd rf e) (ylv e) /\ (rf < 4 -> (yty e = 6 -> Z.land (yX rf e) (yz e) = yz e) /\ (yty e = 1 \/ yty e = 2 -> Z.land (yX rf e) (yz e) <> yz e)).
Lemma y_types rf : 0 <= rf < 4 -> eclass_face_types 7 rf = 3. Proof. intros H. split_range H; reflexivity. Qed.
Lemma y_inv p : y_path p -> forall f rf, 0 <= f < nf (yty (y_walk p)) -> 0 <= rf < 5 -> on_plane (y_walk p) f rf -> yinv rf (y_walk p).
Proof.
  induction p as [|i p IH] using rev_ind; intros Hp f rf Hf Hrf Pl.
  - split; [|intros H4; split; [intros _; unfold yX; destruct (rf <? 2); reflexivity|intros [E|E]; discriminate E]]. destruct (Z.eq_dec rf 4) as [->|N4].
    + change (bvalid 2 (BQuad (h_root PQuad)) 0). split; [reflexivity|]. split; [|reflexivity]. apply hin_valid. exists []. split; [|reflexivity]. split; [constructor|vm_compute; discriminate].
    + rewrite y_types by lia. unfold ybd. destruct (Z.eqb_spec rf 4); [lia|]. replace (yX rf (y_walk [])) with 0 by (unfold yX; destruct (rf <? 2); reflexivity). change (bvalid 3 (BTri init_root) 0). split; [reflexivity|]. assert (V : valid (S := simplex_scheme false) init_root) by (exists []; split; [constructor|reflexivity]). apply simplex_valid in V. split; [apply V|]. split; [apply V|reflexivity].
  - assert (Hp' := y_path_app Hp). destruct (y_child_unit Hp) as (Ht & Hi & L & Hl & Lc & Tc & Ac & HL & HP). assert (Hf' := Hf). rewrite Tc in Hf'. destruct (plane_up Hp Hf' Hrf Pl) as (F & HF & SF & PF). destruct (IH Hp' F rf HF Hrf PF) as [V0 V1]. destruct (st_of Hp' HF Hrf PF) as [ST _].
    assert (T := tab_down Hrf Ht Hi Hf' HF). unfold down_ok in T. rewrite ST, SF in T. cbn [andb negb orb] in T. apply andb_prop in T. destruct T as [_ T]. apply existsb_exists in T. destruct T as (j & Hj & J). assert (Hj' : 0 <= j < 4) by (destruct Hj as [<-|[<-|[<-|[<-|[]]]]]; lia).
    split.
    + rewrite (@ybd_child p i j rf Hp Hrf Hj'); [|intros ->; unfold ybd in V0; cbn [Z.eqb Pos.eqb] in V0; apply V0|exact J]. rewrite Lc. apply bchild_valid; [exact V0| |].
      * destruct (Z.eq_dec rf 4) as [->|N4]; [change (ylv (y_walk p) < 29); lia|rewrite y_types by lia; change (ylv (y_walk p) < 29); lia].
      * destruct (Z.eq_dec rf 4) as [->|N4]; [exact Hj'|rewrite y_types by lia; exact Hj'].
    + intros H4. specialize (V1 H4). destruct V1 as [V1 V2]. unfold jrel in J. cbv zeta in J. destruct (Z.eqb_spec rf 4); [lia|]. rewrite !andb_true_iff in J. destruct J as (((_ & _) & J6) & J12).
      pose proof (zlen_nonneg p). destruct (y_walk_wf Hp') as [W _]. destruct (yw_cb W) as [_ _ AX AY AZ _ _ _ _]. cbn [cb lv sx sy sz] in AX, AY, AZ. change (MAXLEVEL true) with 21 in *. rewrite Lc, L, YLEN_pow in Ac by lia. rewrite L in AX, AY, AZ.
      assert (A1 := f_equal ix Ac). assert (A2 := f_equal iy Ac). assert (A3 := f_equal iz Ac). unfold yanc, scale, uC, ubits, ix, iy, iz in A1, A2, A3. cbn [fst snd] in A1, A2, A3. set (k := 21 - (zlen p + 1)) in *.
      assert (SS := @land_sub_step (yX rf (y_walk p)) (yz (y_walk p)) k (bX rf (YC (yty (y_walk p)) i)) (Z.testbit (YC (yty (y_walk p)) i) 2) ltac:(lia)). replace (k + 1) with (21 - zlen p) in SS by lia.
      assert (EX : yX rf (y_walk (p ++ [i])) = yX rf (y_walk p) + Z.b2z (bX rf (YC (yty (y_walk p)) i)) * 2 ^ k) by (unfold yX, bX; destruct (rf <? 2); lia).
      assert (EZ : yz (y_walk (p ++ [i])) = yz (y_walk p) + Z.b2z (Z.testbit (YC (yty (y_walk p)) i) 2) * 2 ^ k) by lia.
      rewrite EX, EZ. rewrite SS by (auto; unfold yX; destruct (rf <? 2); auto). rewrite Tc. split.
      * intros E6. rewrite E6 in J6. cbn [Z.eqb Pos.eqb] in J6. apply andb_prop in J6. destruct J6 as [J6 J7]. split; [apply V1; lia|]. intros B. rewrite B in J7. exact J7.
      * intros E12. replace ((YT (yty (y_walk p)) i =? 1) || (YT (yty (y_walk p)) i =? 2)) with true in J12 by lia. intros [Q1 Q2]. apply orb_prop in J12. destruct J12 as [J|J].
        -- apply V2; [lia|exact Q1].
        -- apply andb_prop in J. destruct J as [J1 J2]. rewrite (Q2 J1) in J2. discriminate J2.
Qed.
Lemma st_facts rf t f : 0 <= rf < 5 -> st rf t f = true -> (t = 6 /\ f = rf) \/ (rf < 4 /\ (t = 0 \/ t = 1 \/ t = 2 \/ t = 3) /\ y_tritype_rootface_to_tettype (tau t) rf = t /\ y_tritype_rootface_to_face (tau t) rf = f).
Proof.
  intros Hrf H. unfold st in H. split_range Hrf; cbn [Z.eqb Pos.eqb] in H.
  5: left; lia.
  all: rewrite !orb_true_iff, !andb_true_iff, !Z.eqb_eq in H; destruct H as [[[-> ->]|[-> ->]]|[-> ->]]; [left; auto|right..]; (split; [reflexivity|]; split; [auto|]; split; reflexivity).
Qed.
(** the boundary face of an element, and the element of a boundary face *)
Lemma y_boundary_eq p f rf : y_path p -> 0 <= f < nf (yty (y_walk p)) -> 0 <= rf < 5 -> on_plane (y_walk p) f rf -> y_boundary_face (y_walk p) f = Ok (ybd rf (y_walk p)).
Proof.
  intros Hp Hf Hrf Pl. destruct (st_of Hp Hf Hrf Pl) as [ST _]. destruct (st_facts Hrf ST) as [[T6 ->]|(H4 & TT & _)].
  - unfold y_boundary_face, ybd. replace (is_pyra (y_walk p)) with true by (symmetry; apply is_pyra_iff; lia). change DTRI_ROOT_BY_DPYRAMID_ROOT with 256. change P4_ROOT_LEN with (512 * YROOT). rewrite !Z.mul_assoc, !Z.div_mul by discriminate.
    rewrite T6. change (tau 6) with 0. unfold yX. split_range Hrf; cbn [Z.eqb Pos.eqb Z.ltb Z.compare Pos.compare Pos.compare_cont]; rewrite ?(Z.mul_comm 256), ?(Z.mul_comm 512); reflexivity.
  - unfold y_boundary_face, ybd. replace (is_pyra (y_walk p)) with false by (symmetry; apply is_tet_iff; lia). change DTRI_ROOT_BY_DPYRAMID_ROOT with 256. unfold st in ST. unfold yX. destruct (Z.eqb_spec rf 4); [lia|].
    set (t := yty (y_walk p)) in *. rewrite !(Z.mul_comm 256). assert (Hr4 : 0 <= rf < 4) by lia. clear - ST TT Hr4.
    split_range Hr4; cbn [Z.eqb Pos.eqb Z.ltb Z.compare Pos.compare Pos.compare_cont] in *; rewrite !orb_true_iff, !andb_true_iff, !Z.eqb_eq in ST; destruct ST as [[[E ->]|[E ->]]|[E ->]]; try (exfalso; lia); rewrite E; reflexivity.
Qed.
Lemma y_extrude_eq p f rf : y_path p -> 0 <= f < nf (yty (y_walk p)) -> 0 <= rf < 5 -> on_plane (y_walk p) f rf -> y_extrude_face (ybd rf (y_walk p)) rf = Ok (y_walk p, f).
Proof.
  intros Hp Hf Hrf Pl. destruct (st_of Hp Hf Hrf Pl) as [ST CR]. destruct (y_inv Hp Hf Hrf Pl) as [_ IV]. assert (SF := st_facts Hrf ST). unfold ybd, y_extrude_face.
  assert (P6 : yty (y_walk p) = 6 -> forall a b c, yx (y_walk p) = a -> yy (y_walk p) = b -> yz (y_walk p) = c -> Pyr (Simp (ylv (y_walk p)) 6 a b c) (-1) = y_walk p).
  { intros T6 a b c <- <- <-. rewrite <- (@y_sw_pyra p Hp) by (apply is_pyra_iff; lia). destruct (y_walk p) as [[l1 t1 x1 y1 z1] s1]. unfold ylv, yty, yx, yy, yz in *. cbn [yt ysw lv ty sx sy sz] in *. now subst t1. }
  destruct (Z.eqb_spec rf 4) as [->|N4].
  - destruct SF as [[T6 ->]|[? _]]; [|lia]. cbn [hl]. change (cx (Cube (ylv (y_walk p)) [512 * yx (y_walk p); 512 * yy (y_walk p)])) with (512 * yx (y_walk p)). change (cy (Cube (ylv (y_walk p)) [512 * yx (y_walk p); 512 * yy (y_walk p)])) with (512 * yy (y_walk p)).
    change P4_ROOT_LEN with (512 * YROOT). change ROOT_TYPE with 6. replace (512 * yx (y_walk p) * YROOT) with (yx (y_walk p) * (512 * YROOT)) by ring. replace (512 * yy (y_walk p) * YROOT) with (yy (y_walk p) * (512 * YROOT)) by ring. rewrite !Z.div_mul by discriminate. rewrite P6; auto.
  - cbn [sx sy lv ty]. assert (D : forall v, 256 * v * YROOT / ROOT_LEN false = v) by (intros v; change (ROOT_LEN false) with (256 * YROOT); replace (256 * v * YROOT) with (v * (256 * YROOT)) by ring; apply Z.div_mul; discriminate). rewrite !D.
    assert (XY : (if rf =? 0 then Ok (yz (y_walk p), yX rf (y_walk p)) else if rf =? 1 then Ok (YROOT - YLEN (ylv (y_walk p)), yX rf (y_walk p)) else if rf =? 2 then Ok (yX rf (y_walk p), yz (y_walk p)) else if rf =? 3 then Ok (yX rf (y_walk p), YROOT - YLEN (ylv (y_walk p))) else AssertFail) = Ok (yx (y_walk p), yy (y_walk p))).
    { unfold crd in CR. unfold yX. split_range Hrf; cbn [Z.eqb Pos.eqb Z.ltb Z.compare Pos.compare Pos.compare_cont] in *; try congruence. }
    rewrite XY. cbn [obind fst snd]. rewrite land_256. specialize (IV ltac:(lia)). destruct IV as [I6 I12]. destruct SF as [[T6 ->]|(_ & TT & E1 & E2)].
    + rewrite T6. change (tau 6) with 0. rewrite (I6 T6), !Z.eqb_refl. cbn [andb]. change FIRST_TYPE with 6. rewrite P6; auto.
    + assert (TE : (256 * yz (y_walk p) =? 256 * Z.land (yX rf (y_walk p)) (yz (y_walk p))) && (tau (yty (y_walk p)) =? 0) = false).
      { destruct TT as [T|[T|[T|T]]]; rewrite T; cbn [tau]; try (apply andb_false_r). all: apply andb_false_iff; left; apply Z.eqb_neq; intros Q; apply I12; [auto|lia]. }
      rewrite TE, E1, E2. rewrite (@y_set_switch_walk p _ Hp); [reflexivity|]. cbn [yt]. destruct (y_walk p) as [[l1 t1 x1 y1 z1] s1]. reflexivity.
Qed.
Lemma y_onto p F rf j : y_path p -> zlen p < 21 -> 0 <= F < nf (yty (y_walk p)) -> 0 <= rf < 5 -> on_plane (y_walk p) F rf -> 0 <= j < 4 ->
  exists i g, 0 <= i < nch (yty (y_walk p)) /\ 0 <= g < nf (YT (yty (y_walk p)) i) /\ subt (yty (y_walk p)) i g F = true /\ ybd rf (y_walk (p ++ [i])) = bchild (ybd rf (y_walk p)) j.
Proof.
  intros Hp HL HF Hrf PF Hj. assert (Ht := yw_ty (proj1 (y_walk_wf Hp))). destruct (st_of Hp HF Hrf PF) as [ST _]. assert (T := tab_onto Hrf Ht HF Hj). unfold onto_ok in T. rewrite ST in T. cbn [negb orb] in T.
  apply existsb_exists in T. destruct T as (i & Hi & T). apply existsb_exists in T. destruct T as (g & Hg & T). apply andb_prop in T. destruct T as [SF J]. apply in_zseq in Hi, Hg.
  assert (N1 : 0 <= nch (yty (y_walk p))) by (unfold nch; destruct (_ <? 6); lia). assert (N2 : 0 <= nf (YT (yty (y_walk p)) i)) by (unfold nf; destruct (_ <? 6); lia).
  exists i, g. assert (Hi' : 0 <= i < nch (yty (y_walk p))) by lia. split; [exact Hi'|]. split; [lia|]. split; [exact SF|]. apply ybd_child; [now apply y_path_child|exact Hrf|exact Hj| |exact J].
  intros ->. destruct (y_inv Hp HF Hrf PF) as [V _]. apply V.
Qed.
Lemma root_planes rf : 0 <= rf < 5 -> on_plane (y_walk []) rf rf.
Proof. intros Hf v Hv. change (yty (y_walk [])) with 6 in *. split_range Hf; vm_compute in Hv; repeat destruct Hv as [<-|Hv]; try destruct Hv; vm_compute; reflexivity. Qed.
(** every element of the face rf is the boundary of an element *)
Lemma y_all rf b L : 0 <= rf < 5 -> bvalid (eclass_face_types 7 rf) b L -> L <= 21 -> exists p f, y_path p /\ zlen p = L /\ 0 <= f < nf (yty (y_walk p)) /\ on_plane (y_walk p) f rf /\ ybd rf (y_walk p) = b.
Proof.
  intros Hrf V HL.
  assert (Q : forall r, Forall (fun j => 0 <= j < 4) r -> zlen r <= 21 -> exists p f, y_path p /\ zlen p = zlen r /\ 0 <= f < nf (yty (y_walk p)) /\ on_plane (y_walk p) f rf /\ ybd rf (y_walk p) = fold_left bchild r (ybd rf (y_walk []))).
  { induction r as [|j r IH] using rev_ind; intros HR HZ.
    - exists [], rf. split; [constructor|]. split; [reflexivity|]. split; [exact Hrf|]. split; [now apply root_planes|reflexivity].
    - apply Forall_app in HR. destruct HR as [HR Hj]. apply Forall_inv in Hj. rewrite zlen_app in HZ. change (zlen [j]) with 1 in HZ. destruct (IH HR ltac:(lia)) as (p & F & Hp & Zp & HF & PF & E).
      destruct (@y_onto p F rf j Hp ltac:(lia) HF Hrf PF Hj) as (i & g & Hi & Hg & SF & Eb). assert (Hpi : y_path (p ++ [i])) by (apply y_path_child; [exact Hp|lia|exact Hi]). destruct (y_child_unit Hpi) as (_ & _ & _ & _ & _ & Tc & _).
      exists (p ++ [i]), g. split; [exact Hpi|]. split; [rewrite !zlen_app, Zp; reflexivity|]. split; [now rewrite Tc|]. split; [exact (subt_plane Hpi SF PF)|]. rewrite fold_left_app. cbn [fold_left]. now rewrite <- E. }
  assert (QZ : forall r, valid_path 4 r -> Forall (fun j => 0 <= j < 4) r) by (intros r Hr; exact Hr).
  destruct (Z.eq_dec rf 4) as [->|N4].
  - change (eclass_face_types 7 4) with 2 in V. destruct b as [l|l|t|q]; cbn [bvalid] in V; destruct V as [V0 V]; try discriminate V0. destruct V as [V <-]. assert (V' := V). apply hin_valid in V'. destruct V' as (r & Hr & ->).
    assert (LR : hl (h_walk PQuad r) = zlen r) by (apply h_walk_level, Hr). rewrite LR in *. destruct (Q r) as (p & f & Hp & Zp & Hf & Pl & E); [apply QZ, Hr|exact HL|]. exists p, f. do 4 (split; [assumption|]). rewrite E. clear -Hr LR.
    change (ybd 4 (y_walk [])) with (BQuad (h_root PQuad)). revert Hr LR. induction r as [|j r IH] using rev_ind; intros Hr _; [reflexivity|]. apply h_path_snoc in Hr. destruct Hr as (Hr & Hj & HL). assert (LR : hl (h_walk PQuad r) = zlen r) by (apply h_walk_level, Hr).
    rewrite fold_left_app. cbn [fold_left]. rewrite (IH Hr LR). cbn [bchild]. f_equal. rewrite h_walk_snoc. apply (@c_child_eq false); [apply hin_valid; now exists r|change (hl (h_walk PQuad r) < 29); rewrite LR; exact HL].
  - rewrite y_types in V by lia. destruct b as [l|l|t|q]; cbn [bvalid] in V; destruct V as [V0 V]; try discriminate V0. destruct V as (A & I & <-). assert (VT : tvalid t) by (now apply simplex_valid). destruct VT as (r & Hr & ->). apply simplex_path in Hr.
    change (gwalk (simplex_scheme false) r) with (walk false r) in *. destruct (walk_wf Hr) as [_ LR]. rewrite LR in *. destruct (Q r) as (p & f & Hp & Zp & Hf & Pl & E); [apply QZ, Hr|exact HL|]. exists p, f. do 4 (split; [assumption|]). rewrite E.
    replace (ybd rf (y_walk [])) with (BTri init_root) by (unfold ybd; destruct (Z.eqb_spec rf 4); [lia|]; unfold yX; destruct (rf <? 2); reflexivity).
    clear. induction r as [|j r IH] using rev_ind; [reflexivity|]. rewrite fold_left_app, walk_snoc. cbn [fold_left]. now rewrite IH.
Qed.

Lemma pyramid_type_ok : type_ok pyramid_type.
Proof.
  assert (FA : forall e f, is_face pyramid_faces e f <-> 0 <= f < nf (yty e)) by (intros e f; unfold is_face; change (f_num pyramid_faces e) with (y_num_faces e); now rewrite nf_num).
  assert (LT : forall p, y_path p -> s_level (s := pyramid_scheme) (y_walk p) < 21 -> zlen p < 21) by (intros p Hp H; change (ylv (y_walk p) < 21) in H; now rewrite (proj2 (y_walk_wf Hp)) in H).
  assert (RB : forall p f, y_path p -> 0 <= f < nf (yty (y_walk p)) -> y_is_root_boundary (y_walk p) f = true -> 0 <= y_tree_face (y_walk p) f < 5 /\ on_plane (y_walk p) f (y_tree_face (y_walk p) f)).
  { intros p f Hp Hf E.
    assert (TF : 0 <= y_tree_face (y_walk p) f < 5).
    { unfold y_tree_face. rewrite E. unfold nf in Hf. unfold is_pyra. change FIRST_TYPE with 6. assert (Ht := yw_ty (proj1 (y_walk_wf Hp))). destruct (Z.ltb_spec (yty (y_walk p)) 6); cbn [negb]; [|lia].
      unfold y_is_root_boundary in E. rewrite (y_walk_inside Hp) in E. cbn [negb] in E.
      assert (C : yty (y_walk p) = 0 \/ yty (y_walk p) = 1 \/ yty (y_walk p) = 2 \/ yty (y_walk p) = 3 \/ yty (y_walk p) = 4 \/ yty (y_walk p) = 5) by lia.
      destruct C as [C|[C|[C|[C|[C|C]]]]]; rewrite C in *; split_range Hf; cbn [Z.eqb Pos.eqb andb orb] in *; try discriminate E; lia. }
    split; [exact TF|]. apply y_root_face_iff; auto. }
  assert (SPEC : forall p f, y_path p -> 0 <= f < nf (yty (y_walk p)) -> (y_is_root_boundary (y_walk p) f = true <-> y_neighbor_inside (y_walk p) f = None)).
  { intros p f Hp Hf. assert (SP := y_neighbour_spec Hp Hf). cbv zeta in SP. unfold y_neighbor_inside. destruct (y_face_neighbour (y_walk p) f) as [n h]. destruct (y_face_neighbor_inside (y_walk p) f) as [[[m|] g']| | |]; try destruct SP; [destruct H0 as (_ & -> & _)|destruct H0 as (-> & _)]; intuition congruence. }
  constructor; cbn [pyramid_type tt_eclass tt_scheme tt_faces tt_inside tt_root_boundary tt_tree_face tt_boundary tt_extrude]; change (eclass_num_faces 7) with 5; change (s_maxlevel pyramid_scheme) with 21.
  - lia.
  - exact pyramid_laws.
  - exact pyramid_flaws.
  - intros r Hr. split_range Hr; vm_compute; discriminate.
  - intros f. reflexivity.
  - intros f Hf. split; split_range Hf; vm_compute; reflexivity.
  - intros e f V Hf. apply FA in Hf. apply pyramid_valid_walk in V. destruct V as (p & Hp & ->). now apply SPEC.
  - intros e f n g V Hf I. apply FA in Hf. apply pyramid_valid_walk in V. destruct V as (p & Hp & ->). destruct (inside_has Hp Hf I) as (q & o & EN & -> & Hq & Lq & Aq & Nq & Hg). change (s_level (s := pyramid_scheme)) with ylv. destruct (y_walk_wf Hp) as [_ L1]. destruct (y_walk_wf Hq) as [_ L2].
    split; [apply pyramid_valid_walk; eauto|]. split; [lia|]. split; [apply FA; exact Hg|]. apply (@inside_of q g p (ineg o) (yty (y_walk p)) f); auto. replace (ylv (y_walk q)) with (ylv (y_walk p)) by lia. rewrite Aq. symmetry. apply iadd_neg.
  - intros e f n h c g V HL Hf I Hc. apply FA in Hf. apply pyramid_valid_walk in V. destruct V as (p & Hp & ->). apply (LT p Hp) in HL. destruct (inside_has Hp Hf I) as (q & D & ED & -> & Hq & Lq & Aq & Nq & Hh).
    destruct (y_face_children_inv Hp HL Hf Hc) as (i & Hi & -> & Hg & SF). assert (Hpi := y_path_child Hp HL Hi). destruct (y_child_unit Hpi) as (Ht & _ & L & _ & Lc & Tc & Ac & HLn & HPo). assert (NB := @nbt_child p i g Hpi Hg). cbv zeta in NB. set (t := yty (y_walk p)) in *.
    assert (PF : pft t i g = f).
    { assert (A : all_tif (fun t i g => forallb (fun f => negb (subt t i g f) || (pft t i g =? f)) (zseq 0 (Z.to_nat (nf t)))) = true) by (vm_compute; reflexivity). assert (B := all_tif_spec A Ht Hi Hg). cbv beta in B. rewrite forallb_forall in B. specialize (B f ltac:(apply in_zseq; lia)). rewrite SF in B. cbn [negb orb] in B. now apply Z.eqb_eq. }
    rewrite PF in NB. destruct (Z.eqb_spec f (-1)); [lia|]. assert (T := @tab_outer (y_tet_boundary (y_walk p) f) (y_tet_boundary (y_walk q) h) t i g Ht Hi Hg). unfold outer_ok in T. rewrite PF in T. destruct (Z.eqb_spec f (-1)); [lia|]. rewrite ED, Nq in T. rewrite (proj2 (nb_eqb_eq _ _) eq_refl) in T.
    destruct (nbt (YT t i) (cf t i (y_tet_boundary (y_walk p) f) g) g) as [[o t'] h'] eqn:EN. apply existsb_exists in T. destruct T as (k & Hk & T). apply in_zseq in Hk. rewrite !andb_true_iff in T. destruct T as (((((T1 & T2) & T3) & T4) & T5) & T6).
    apply Z.eqb_eq in T1, T5. apply ieqb_eq in T2. set (s := yty (y_walk q)) in *. assert (Hk' : 0 <= k < nch s) by (unfold nch in *; destruct (s <? 6); lia). assert (Hqk : y_path (q ++ [k])) by (apply y_path_child; [exact Hq|lia|exact Hk']).
    destruct (y_child_unit Hqk) as (_ & _ & Lqq & _ & Lk & Tk & Ak & _). fold s in Tk, Ak. assert (EL : ylv (y_walk (q ++ [k])) = ylv (y_walk (p ++ [i]))) by (assert (L1 := proj2 (y_walk_wf Hp)); assert (L2 := proj2 (y_walk_wf Hq)); lia). rewrite <- Tc in NB.
    exists (y_walk (q ++ [k])), h'. split.
    + apply (@inside_of (p ++ [i]) g (q ++ [k]) o t' h'); [exact Hpi|exact Hqk|now rewrite Tc|rewrite !zlen_app, Lq; reflexivity|exact NB|congruence|]. rewrite Ak, Aq, EL, HLn, scale_dbl, <- T2, Ac, scale_scale. reflexivity.
    + rewrite y_walk_snoc. apply (@y_face_children_sub q h k h' Hq ltac:(lia) Hh Hk'); fold s; [rewrite T1; lia|]. destruct (pft_range s k h') as [Q|[_ Q]]; [lia|]. now rewrite T5 in Q.
  - intros e f c g V HL Hf R Hc. apply FA in Hf. apply pyramid_valid_walk in V. destruct V as (p & Hp & ->). apply (LT p Hp) in HL. destruct (y_face_children_inv Hp HL Hf Hc) as (i & Hi & -> & Hg & SF). assert (Hpi := y_path_child Hp HL Hi). destruct (y_child_unit Hpi) as (_ & _ & _ & _ & _ & Tc & _).
    destruct (RB p f Hp Hf R) as [R1 R2]. assert (Pl := subt_plane Hpi SF R2). apply (y_root_face_iff Hpi) in Pl; [|now rewrite Tc|exact R1]. destruct Pl as [P1 P2]. auto.
  - intros e i g V HL Hi Hg P. apply pyramid_valid_walk in V. destruct V as (p & Hp & ->). apply (LT p Hp) in HL. change (0 <= i < y_num_children (y_walk p)) in Hi. rewrite nch_num in Hi. apply FA in Hg. change (@s_child pyramid_scheme (y_walk p)) with (y_child (y_walk p)) in *. change (f_parent_face pyramid_faces) with y_face_parent_face in P.
    rewrite <- y_walk_snoc in *. assert (Hpi := y_path_child Hp HL Hi). destruct (y_child_unit Hpi) as (Ht & _ & L & _ & Lc & Tc & Ac & HLn & HPo). rewrite Tc in Hg. rewrite (y_pfc _ Hpi) in P. assert (NB := @nbt_child p i g Hpi Hg). cbv zeta in NB. set (t := yty (y_walk p)) in *.
    assert (EF : pft t i g = -1).
    { assert (PC := tab_pfc Ht Hi Hg). unfold pfc_ok in PC. apply andb_prop in PC. destruct PC as [_ PC]. rewrite forallb_forall in PC. destruct (pft_range t i g) as [Q|[Q1 Q2]]; [exact Q|]. specialize (PC _ (proj2 (in_range _ _) Q1)). rewrite Q2, P in PC. apply eqb_prop in PC. lia. }
    rewrite EF, Z.eqb_refl in NB. assert (T := tab_inner Ht Hi Hg). unfold inner_ok in T. rewrite EF, Z.eqb_refl in T. destruct (nbt (YT t i) (cf t i false g) g) as [[o t'] h] eqn:EN.
    apply existsb_exists in T. destruct T as (j & Hj & T). apply in_zseq in Hj. rewrite !andb_true_iff in T. destruct T as (((((T1 & T2) & T3) & T4) & T5) & T6). apply Z.eqb_eq in T1. apply ieqb_eq in T2.
    assert (Hj' : 0 <= j < nch t) by (unfold nch in *; destruct (t <? 6); lia). assert (Hq : y_path (p ++ [j])) by now apply y_path_child. destruct (y_child_unit Hq) as (_ & _ & _ & _ & Lj & Tj & Aj & _). fold t in Tj, Aj. rewrite <- Tc in NB.
    exists j, h. split; [change (0 <= j < y_num_children (y_walk p)); now rewrite nch_num|]. rewrite <- y_walk_snoc. apply (@inside_of (p ++ [i]) g (p ++ [j]) o t' h); [exact Hpi|exact Hq|now rewrite Tc|now rewrite !zlen_app|exact NB|congruence|]. rewrite Aj, Ac, scale_scale, T2. now rewrite Lj, Lc.
  - intros e f V Hf R. apply FA in Hf. apply pyramid_valid_walk in V. destruct V as (p & Hp & ->). destruct (RB p f Hp Hf R) as [R1 R2]. split; [exact R1|]. exists (ybd (y_tree_face (y_walk p) f) (y_walk p)). split; [now apply y_boundary_eq|]. split; [apply (y_inv Hp Hf R1 R2)|now apply y_extrude_eq].
  - intros b L rf Hr V HL. destruct (y_all Hr V ltac:(lia)) as (p & f & Hp & Zp & Hf & Pl & <-). exists (y_walk p), f. split; [now apply y_extrude_eq|]. split; [apply pyramid_valid_walk; eauto|]. split; [change (ylv (y_walk p) = L); now rewrite (proj2 (y_walk_wf Hp))|]. split; [now apply FA|].
    assert (Pl' := Pl). apply (y_root_face_iff Hp Hf Hr) in Pl'. destruct Pl' as [P1 P2]. split; [exact P1|]. split; [now symmetry|]. now apply y_boundary_eq.
  - intros e f c g b V HL Hf R Hc B. apply FA in Hf. apply pyramid_valid_walk in V. destruct V as (p & Hp & ->). apply (LT p Hp) in HL. destruct (RB p f Hp Hf R) as [R1 R2]. set (rf := y_tree_face (y_walk p) f) in *. rewrite (y_boundary_eq Hp Hf R1 R2) in B.
    assert (B' : b = ybd rf (y_walk p)) by (exact (f_equal (fun o => match o with Ok b => b | _ => b end) (eq_sym B))). subst b. destruct (y_face_children_inv Hp HL Hf Hc) as (i & Hi & -> & Hg & SF). assert (Hpi := y_path_child Hp HL Hi). destruct (y_child_unit Hpi) as (Ht & _ & _ & _ & _ & Tc & _).
    destruct (st_of Hp Hf R1 R2) as [ST _]. assert (T := tab_down R1 Ht Hi Hg Hf). unfold down_ok in T. rewrite ST, SF in T. cbn [andb negb orb] in T. apply andb_prop in T. destruct T as [_ T]. apply existsb_exists in T. destruct T as (j & Hj & J). assert (Hj' : 0 <= j < 4) by (destruct Hj as [<-|[<-|[<-|[<-|[]]]]]; lia).
    exists j. split; [clearbody rf; clear -Hj' R1; split_range R1; exact Hj'|]. assert (Pl := subt_plane Hpi SF R2). rewrite (@y_boundary_eq (p ++ [i]) g rf Hpi) by (auto; now rewrite Tc). f_equal. apply ybd_child; auto. intros E4. destruct (y_inv Hp Hf R1 R2) as [VV _]. rewrite E4 in VV. apply VV.
  - intros e f b j V HL Hf R B Hj. apply FA in Hf. apply pyramid_valid_walk in V. destruct V as (p & Hp & ->). apply (LT p Hp) in HL. destruct (RB p f Hp Hf R) as [R1 R2]. set (rf := y_tree_face (y_walk p) f) in *. rewrite (y_boundary_eq Hp Hf R1 R2) in B.
    assert (B' : b = ybd rf (y_walk p)) by (exact (f_equal (fun o => match o with Ok b => b | _ => b end) (eq_sym B))). subst b. assert (Hj' : 0 <= j < 4) by (clearbody rf; clear -Hj R1; split_range R1; exact Hj).
    destruct (@y_onto p f rf j Hp HL Hf R1 R2 Hj') as (i & g & Hi & Hg & SF & Eb). assert (Hpi := y_path_child Hp HL Hi). destruct (y_child_unit Hpi) as (_ & _ & _ & _ & _ & Tc & _). exists (y_child (y_walk p) i), g. split; [now apply y_face_children_sub|].
    rewrite <- y_walk_snoc. rewrite (@y_boundary_eq (p ++ [i]) g rf Hpi); [now rewrite Eb|now rewrite Tc|exact R1|exact (subt_plane Hpi SF R2)].
Qed.

(** The face neighbours of the elements of pyramid trees, and the faces of their children. *)
From Verif Require Import Prelude PathSpec GeoSpec BitLemmas SimplexModel SimplexSpec SimplexProofs SimplexPathProofs SimplexOrderProofs SimplexAncProofs SimplexTileProofs SimplexFaceProofs SimplexFaceChildProofs.
From Verif Require Import PyramidModel PyramidSpec PyramidProofs PyramidAncProofs PyramidGeoSpec PyramidGeoProofs PyramidFaceProofs.
Open Scope Z_scope.

Lemma nb_outside p f rf : y_path p -> 0 <= f < nf (yty (y_walk p)) -> 0 <= rf < 5 -> on_plane (y_walk p) f rf ->
  (yty (y_walk p) = 0 \/ yty (y_walk p) = 3 -> y_tet_boundary (y_walk p) f = false) -> y_is_inside_root (fst (y_face_neighbour (y_walk p) f)) = false.
Proof.
  intros Hp Hf Hrf Pl Fl. apply y_root_face_iff in Pl; auto. destruct Pl as [Pl _]. destruct (y_walk_wf Hp) as [W L]. assert (Ht := yw_ty W). assert (LE := y_path_len Hp).
  rewrite y_nb by assumption. unfold y_is_root_boundary in Pl. rewrite y_walk_inside in Pl by exact Hp. cbn [negb] in Pl. assert (HP : 0 < YLEN (ylv (y_walk p))) by (rewrite YLEN_pow by lia; apply pow2_pos; lia).
  destruct (Z.eq_dec (ylv (y_walk p)) 0) as [E0|N0].
  { assert (p = []) as -> by (destruct p as [|a p]; [reflexivity|]; unfold zlen in L; cbn [length] in L; lia). change (yty (y_walk [])) with 6 in *. change (nf 6) with 5 in Hf. split_range Hf; vm_compute; reflexivity. }
  unfold nbt. set (b := y_tet_boundary (y_walk p) f) in *. clearbody b.
  set (t := yty (y_walk p)) in *. set (h := YLEN (ylv (y_walk p))) in *. 
  assert (C : t = 0 \/ t = 1 \/ t = 2 \/ t = 3 \/ t = 6 \/ (t = 4 \/ t = 5 \/ t = 7)) by lia.
  assert (IN : forall s a, y_is_inside_root (mksimp (ylv (y_walk p)) s a) = 
    if (0 <=? iz a) && (iz a <? YROOT) && (iz a <=? ix a) && (ix a <? YROOT) && (iz a <=? iy a) && (iy a <? YROOT) then
      if ((ix a =? iz a) && ((s =? 3) || (s =? 5))) || ((iy a =? iz a) && ((s =? 0) || (s =? 4))) then false else true else false).
  { intros s a. unfold y_is_inside_root, mksimp; cbn [lv ty sx sy sz]. destruct (Z.eqb_spec (ylv (y_walk p)) 0); [lia|reflexivity]. }
  unfold yanc. set (x := yx (y_walk p)) in *. set (y := yy (y_walk p)) in *. set (z := yz (y_walk p)) in *. clearbody x y z h. clearbody t. unfold nf in Hf.
  assert (FF : forall c d : bool, (c = true -> d = true) -> (if c then if d then false else true else false) = false) by (intros [|] [|]; auto; intros K; discriminate (K eq_refl)).
  destruct C as [->|[->|[->|[->|[->|C]]]]]; cbn [Z.eqb Pos.eqb Z.leb Z.ltb Z.compare Pos.compare Pos.compare_cont orb andb] in *.
  1,4: rewrite Fl by auto; split_range Hf; cbn [Z.eqb Pos.eqb andb orb] in *; try discriminate Pl;
    match goal with |- context [nb_tab true ?a ?c] => let v := eval vm_compute in (nb_tab true a c) in change (nb_tab true a c) with v end; cbv beta iota; cbn [fst]; rewrite IN; unfold scale, ix, iy, iz; cbn [fst snd]; apply FF; lia.
  1,2: split_range Hf; cbn [Z.eqb Pos.eqb andb orb] in *; try discriminate Pl;
    match goal with |- context [nb_tab true ?a ?c] => let v := eval vm_compute in (nb_tab true a c) in change (nb_tab true a c) with v end; cbv beta iota; cbn [fst]; rewrite IN; unfold scale, ix, iy, iz; cbn [fst snd]; apply FF; lia.
  - split_range Hf; cbn [Z.eqb Pos.eqb andb orb] in *; cbv beta iota; cbn [fst]; rewrite IN; unfold scale, ix, iy, iz; cbn [fst snd Z.eqb Pos.eqb orb]; apply FF; lia.
  - destruct C as [->|[->| ->]]; discriminate Pl.
Qed.
Lemma mk_walk q a : y_path q -> yanc (y_walk q) = a -> mksimp (ylv (y_walk q)) (yty (y_walk q)) a = yt (y_walk q).
Proof. intros Hq <-. unfold mksimp, yanc, ix, iy, iz, ylv, yty, yx, yy, yz; cbn [fst snd]. now destruct (yt (y_walk q)). Qed.
Lemma iadd_neg h a o : scale h (scale h a o) (ineg o) = a.
Proof. destruct a as [[a1 a2] a3]. unfold scale, ineg, ix, iy, iz; cbn [fst snd]. f_equal; [f_equal|]; lia. Qed.
Lemma y_face_vertices_yt e e' f : yt e = yt e' -> y_face_vertices e f = y_face_vertices e' f.
Proof. destruct e as [s w], e' as [s' w']. cbn [yt]. intros ->. reflexivity. Qed.
(** the neighbour shares the vertices of the face *)
Lemma y_nb_share p f s : y_path p -> 0 <= f < nf (yty (y_walk p)) -> let '(n, g) := y_face_neighbour (y_walk p) f in
  0 <= ty n < 8 /\ lv n = ylv (y_walk p) /\ 0 <= g < nf (ty n) /\ forall v, In v (y_face_vertices (y_walk p) f) <-> In v (y_face_vertices (Pyr n s) g).
Proof.
  intros Hp Hf. destruct (y_walk_wf Hp) as [W L]. assert (Ht := yw_ty W). rewrite y_nb by assumption. set (e := y_walk p) in *.
  assert (T := @tab_share (y_tet_boundary e f) _ _ Ht Hf). unfold share_ok in T. destruct (nbt (yty e) (y_tet_boundary e f) f) as [[o t'] g].
  rewrite !andb_true_iff in T. destruct T as ((((T1 & T2) & T3) & T4) & T5 & T6). apply inclb_incl in T5, T6.
  split; [cbn; lia|]. split; [reflexivity|]. split; [change (0 <= g < nf t'); lia|]. intros v.
  rewrite !y_face_vertices_unit; [|change (0 <= t' < 8); lia|change (0 <= g < nf t'); lia|assumption|assumption].
  assert (E : map (fun v => scale (YLEN (ylv (Pyr (mksimp (ylv e) t' (scale (YLEN (ylv e)) (yanc e) o)) s))) (yanc (Pyr (mksimp (ylv e) t' (scale (YLEN (ylv e)) (yanc e) o)) s)) (yucoord t' v)) (fcn t' g) =
    map (scale (YLEN (ylv e)) (yanc e)) (map (fun v => iadd o (yucoord t' v)) (fcn t' g))).
  { rewrite map_map. apply map_ext. intros u. rewrite <- scale_scale. reflexivity. }
  change (yty (Pyr (mksimp (ylv e) t' (scale (YLEN (ylv e)) (yanc e) o)) s)) with t'. rewrite E. rewrite <- (map_map (yucoord (yty e)) (scale (YLEN (ylv e)) (yanc e))).
  rewrite !in_map_iff. split; intros (u & Eu & Hu); exists u; split; auto.
Qed.
Theorem y_neighbour_spec p f : y_path p -> 0 <= f < nf (yty (y_walk p)) ->
  let e := y_walk p in let '(n, g) := y_face_neighbour e f in
  match y_face_neighbor_inside e f with
  | Ok (Some m, g') => g' = g /\ yt m = n /\ y_is_root_boundary e f = false /\ y_is_inside_root n = true /\
      exists q, y_path q /\ zlen q = zlen p /\ m = y_walk q /\ q <> p /\ y_face_neighbour m g = (yt e, f) /\ y_face_neighbor_inside m g = Ok (Some e, f)
  | Ok (None, g') => g' = g /\ y_is_root_boundary e f = true /\ y_is_inside_root n = false /\ forall q, y_path q -> yt (y_walk q) <> n
  | _ => False
  end.
Proof.
  intros Hp Hf. cbv zeta. assert (M := y_nb_main Hp Hf). destruct (y_walk_wf Hp) as [W L]. assert (Ht := yw_ty W). assert (SH := @y_nb_share p f 0 Hp Hf).
  assert (OUT := fun rf => @nb_outside p f rf Hp Hf). assert (NE := y_nb Ht Hf).
  unfold y_face_neighbor_inside. rewrite NE in *. destruct (nbt (yty (y_walk p)) (y_tet_boundary (y_walk p) f) f) as [[o t'] g] eqn:EN.
  destruct SH as (R1 & R2 & R3 & _). cbn [mksimp ty lv] in R1, R3.
  destruct M as [(q & Hq & Lq & Tq & Aq & Nq)|[(rf & Hrf & Pl) Fl]].
  - destruct (y_walk_wf Hq) as [Wq Lvq]. assert (EL : ylv (y_walk q) = ylv (y_walk p)) by lia.
    assert (EM : mksimp (ylv (y_walk p)) t' (scale (YLEN (ylv (y_walk p))) (yanc (y_walk p)) o) = yt (y_walk q)) by (rewrite <- EL at 1; rewrite <- Tq; now apply mk_walk).
    rewrite EM. rewrite (y_walk_inside Hq). rewrite (@y_set_switch_walk q (Pyr (yt (y_walk q)) 0) Hq eq_refl). cbn [obind].
    assert (OFF : forall rf, 0 <= rf < 5 -> ~ on_plane (y_walk p) f rf) by (intros rf Hrf; eapply nb_off_plane; eauto; rewrite Tq; exact EN).
    assert (RB : y_is_root_boundary (y_walk p) f = false).
    { destruct (y_is_root_boundary (y_walk p) f) eqn:E; [|reflexivity]. exfalso.
      assert (TF : 0 <= y_tree_face (y_walk p) f < 5).
      { unfold y_tree_face. rewrite E. unfold nf in Hf. unfold is_pyra. change FIRST_TYPE with 6. destruct (Z.ltb_spec (yty (y_walk p)) 6); cbn [negb]; [|lia].
        unfold y_is_root_boundary in E. rewrite (y_walk_inside Hp) in E. cbn [negb] in E.
        assert (C : yty (y_walk p) = 0 \/ yty (y_walk p) = 1 \/ yty (y_walk p) = 2 \/ yty (y_walk p) = 3 \/ yty (y_walk p) = 4 \/ yty (y_walk p) = 5) by lia.
        destruct C as [C|[C|[C|[C|[C|C]]]]]; rewrite C in *; split_range Hf; cbn [Z.eqb Pos.eqb andb orb] in *; try discriminate E; lia. }
      apply (OFF _ TF). apply y_root_face_iff; auto. }
    assert (BK : y_face_neighbour (y_walk q) g = (yt (y_walk p), f)).
    { rewrite y_nb; [|rewrite Tq; lia|rewrite Tq; lia]. rewrite Tq, Nq, EL, Aq, iadd_neg. f_equal. now apply mk_walk. }
    split; [reflexivity|]. split; [reflexivity|]. split; [exact RB|]. split; [reflexivity|]. exists q. split; [exact Hq|]. split; [exact Lq|]. split; [reflexivity|]. split; [|split; [exact BK|]].
    + intros ->.
      assert (A : forall b, all_tf (fun t f => negb (nb_eqb (nbt t b f) (nbt t b f) && ((snd (fst (nbt t b f)) =? t) && ieqb (fst (fst (nbt t b f))) (0, 0, 0)))) = true) by (intros [|]; vm_compute; reflexivity).
      assert (B := all_tf_spec (A (y_tet_boundary (y_walk p) f)) Ht Hf). cbv beta in B. rewrite EN in B. cbn [fst snd] in B. rewrite (proj2 (nb_eqb_eq _ _) eq_refl) in B. rewrite Tq, Z.eqb_refl in B. cbn [andb] in B.
      assert (O0 : o = (0, 0, 0)).
      { assert (HP : 0 < YLEN (ylv (y_walk p))) by (assert (LE := y_path_len Hp); rewrite YLEN_pow by lia; apply pow2_pos; lia).
        destruct (yanc (y_walk p)) as [[a1 a2] a3]. destruct o as [[o1 o2] o3]. unfold scale, ix, iy, iz in Aq; cbn [fst snd] in Aq.
        assert (Q1 := f_equal (fun x => fst (fst x)) Aq). assert (Q2 := f_equal (fun x => snd (fst x)) Aq). assert (Q3 := f_equal snd Aq). cbn [fst snd] in *. f_equal; [f_equal|]; nia. }
      rewrite O0 in B. discriminate B.
    + rewrite BK. rewrite (y_walk_inside Hp). rewrite (@y_set_switch_walk p (Pyr (yt (y_walk p)) 0) Hp eq_refl). reflexivity.
  - specialize (OUT rf Hrf Pl Fl). cbn [fst] in OUT. rewrite OUT. split; [reflexivity|]. split; [|split; [reflexivity|]].
    + apply y_root_face_iff in Pl; auto. apply Pl.
    + intros q Hq E. rewrite <- E, (y_walk_inside Hq) in OUT. discriminate.
Qed.

(** ** faces of children *)
Lemma y_subface_subt p i f g : y_path (p ++ [i]) -> 0 <= f < nf (yty (y_walk p)) -> 0 <= g < nf (YT (yty (y_walk p)) i) ->
  (y_subface (y_walk p) f (y_child (y_walk p) i) g <-> subt (yty (y_walk p)) i g f = true).
Proof.
  intros Hp Hf Hg. destruct (y_child_unit Hp) as (Ht & Hi & L & Hl & Lc & Tc & Ac & HL & HP). rewrite <- y_walk_snoc. destruct (tabT Ht Hi) as (HT & _).
  unfold y_subface. rewrite !y_face_vertices_unit by (rewrite ?Tc; assumption). rewrite Tc, Ac, HL.
  set (h := YLEN (ylv (y_walk (p ++ [i])))) in *. set (a := yanc (y_walk p)). set (t := yty (y_walk p)). clearbody h a t. clear -HP.
  assert (M : forall v x y, midpoint (scale h (scale h a (uC t i)) (yucoord (YT t i) v)) (scale (2 * h) a (yucoord t x)) (scale (2 * h) a (yucoord t y)) <->
      iadd (uC t i) (yucoord (YT t i) v) = iadd (yucoord t x) (yucoord t y)).
  { intros v x y. rewrite scale_scale. set (u1 := iadd (uC _ _) _). set (ua := yucoord t x). set (ub := yucoord t y).
    clearbody u1 ua ub. destruct u1 as [[x1 y1] z1], ua as [[x2 y2] z2], ub as [[x3 y3] z3]. unfold midpoint, scale, iadd. cbn [ix iy iz fst snd].
    split.
    - intros (E1 & E2 & E3). assert (x1 = x2 + x3) by nia. assert (y1 = y2 + y3) by nia. assert (z1 = z2 + z3) by nia. congruence.
    - intros E. inversion E. subst. repeat split; ring. }
  unfold subt. rewrite forallb_forall. split.
  - intros H v Hv. specialize (H _ (in_map _ _ _ Hv)). destruct H as (x & y & Ha & Hb & Hm).
    apply in_map_iff in Ha, Hb. destruct Ha as (ka & <- & Ha), Hb as (kb & <- & Hb). apply M in Hm.
    apply existsb_exists. exists ka. split; auto. apply existsb_exists. exists kb. split; auto. now apply ieqb_eq.
  - intros H m Hm. apply in_map_iff in Hm. destruct Hm as (v & <- & Hv). specialize (H v Hv). apply existsb_exists in H.
    destruct H as (ka & Ha & H). apply existsb_exists in H. destruct H as (kb & Hb & H). apply ieqb_eq in H. apply M in H.
    eexists _, _. split; [|split; [|exact H]]; apply (in_map (fun v => scale (2 * h) a (yucoord t v))); auto.
Qed.
Definition y_faceids (t f : Z) : list Z := y_child_ids_at_face (Pyr (Simp 0 t 0 0 0) 0) f.
Definition y_fcf (t f k : Z) : Z := y_face_child_face (Pyr (Simp 0 t 0 0 0) 0) f k.
Definition y_faces_ok (t f : Z) : bool :=
  let l := y_faceids t f in
  (Z.of_nat (length l) =? 4) && increasing l && forallb (fun i => (0 <=? i) && (i <? nch t)) l &&
  forallb (fun i => Bool.eqb (zmem i l) (existsb (fun g => subt t i g f) (range (nf (YT t i))))) (range (nch t)) &&
  forallb (fun k => let i := znth (-1) l k in (0 <=? y_fcf t f k) && (y_fcf t f k <? nf (YT t i)) && forallb (fun g => Bool.eqb (subt t i g f) (g =? y_fcf t f k)) (range (nf (YT t i)))) (range 4).
Lemma y_tab_faces t f : 0 <= t < 8 -> 0 <= f < nf t -> y_faces_ok t f = true.
Proof. apply all_tf_spec. vm_compute. reflexivity. Qed.
Lemma y_faceids_eq e f : y_child_ids_at_face e f = y_faceids (yty e) f. Proof. reflexivity. Qed.
Lemma y_fcf_eq e f k : y_face_child_face e f k = y_fcf (yty e) f k. Proof. reflexivity. Qed.
Lemma y_path_child p i : y_path p -> zlen p < 21 -> 0 <= i < nch (yty (y_walk p)) -> y_path (p ++ [i]).
Proof. intros. apply y_path_snoc. rewrite nch_num. auto. Qed.
Lemma y_children_at_face_exact p f : y_path p -> zlen p < 21 -> 0 <= f < nf (yty (y_walk p)) -> let e := y_walk p in
  zlen (y_child_ids_at_face e f) = 4 /\ increasing (y_child_ids_at_face e f) = true /\ y_children_at_face e f = map (y_child e) (y_child_ids_at_face e f) /\
  forall i, 0 <= i < nch (yty e) -> (In i (y_child_ids_at_face e f) <-> exists g, 0 <= g < y_num_faces (y_child e i) /\ y_subface e f (y_child e i) g).
Proof.
  intros Hp Hl Hf. cbv zeta. destruct (y_walk_wf Hp) as [W L]. assert (Ht := yw_ty W). assert (T := y_tab_faces Ht Hf). unfold y_faces_ok in T. rewrite !andb_true_iff in T. rewrite y_faceids_eq.
  destruct T as ((((T1 & T2) & T3) & T4) & _). split; [unfold zlen; lia|]. split; [exact T2|]. split.
  - unfold y_children_at_face, y_faceids, y_child_ids_at_face. change (is_pyra (Pyr (Simp 0 (yty (y_walk p)) 0 0 0) 0)) with (is_pyra (y_walk p)). destruct (is_pyra (y_walk p)) eqn:E; [reflexivity|].
    unfold children_at_face. rewrite map_map. apply map_ext. intros i. unfold y_child. now rewrite E.
  - intros i Hi. assert (Hpi := y_path_child Hp Hl Hi). rewrite forallb_forall in T4. specialize (T4 i (proj2 (in_range _ _) Hi)).
    destruct (y_child_unit Hpi) as (_ & _ & _ & _ & _ & Tc & _). rewrite nf_num, <- y_walk_snoc, Tc.
    apply eqb_prop in T4. rewrite <- zmem_In, T4, existsb_exists. split; intros (g & Hg & Hs); exists g; rewrite in_range in *; (split; [exact Hg|]).
    + rewrite y_walk_snoc. now apply y_subface_subt.
    + rewrite y_walk_snoc in Hs. now apply y_subface_subt in Hs.
Qed.
Lemma y_face_child_face_exact p f k g : y_path p -> zlen p < 21 -> 0 <= f < nf (yty (y_walk p)) -> 0 <= k < 4 ->
  let e := y_walk p in let c := y_child e (znth (-1) (y_child_ids_at_face e f) k) in
  0 <= g < y_num_faces c -> 0 <= y_face_child_face e f k < y_num_faces c /\ (y_subface e f c g <-> g = y_face_child_face e f k).
Proof.
  intros Hp Hl Hf Hk. cbv zeta. destruct (y_walk_wf Hp) as [W L]. assert (Ht := yw_ty W). assert (T := y_tab_faces Ht Hf). unfold y_faces_ok in T. rewrite !andb_true_iff in T. rewrite y_faceids_eq, y_fcf_eq.
  destruct T as ((((T1 & T2) & T3) & T4) & T5). rewrite forallb_forall in T5. specialize (T5 k (proj2 (in_range _ _) Hk)). set (i := znth (-1) (y_faceids (yty (y_walk p)) f) k) in *. cbv zeta in T5.
  assert (Hi : 0 <= i < nch (yty (y_walk p))).
  { rewrite forallb_forall in T3. assert (I : In i (y_faceids (yty (y_walk p)) f)) by (apply znth_In; unfold zlen; lia). specialize (T3 i I). lia. }
  assert (Hpi := y_path_child Hp Hl Hi). destruct (y_child_unit Hpi) as (_ & _ & _ & _ & _ & Tc & _). rewrite nf_num, <- y_walk_snoc, Tc. intros Hg.
  rewrite !andb_true_iff in T5. destruct T5 as ((R1 & R2) & T5). split; [lia|]. rewrite forallb_forall in T5. specialize (T5 g (proj2 (in_range _ _) Hg)). apply eqb_prop in T5.
  rewrite y_walk_snoc, y_subface_subt by assumption. rewrite T5. apply Z.eqb_eq.
Qed.
(** what face_parent_face computes for the child i of an element of type t *)
Definition pfc (t i g : Z) : Z :=
  let s := YT t i in
  if 6 <=? s then (if existsb (fun k => y_children_at_face_ids (t - 6) g k =? i) [0;1;2;3] then g else -1)
  else if t <? 6 then
    let bey := type_cid_to_beyid true s (YC t i) in
    if (t =? s) && negb (g =? bey) then g else if parent_type_type_to_face t s =? g then (if (g =? 1) || (g =? 2) then Z.lxor g 3 else g) else -1
  else
    if (s =? 0) && (t =? FIRST_TYPE) then
      if (i =? 3) && (g =? 1) then 0 else if (i =? 5) && (g =? 0) then 1 else -1
    else if (s =? 3) && (t =? FIRST_TYPE) then
      if (i =? 1) && (g =? 1) then 2 else if (i =? 6) && (g =? 0) then 3 else -1
    else if (s =? 0) && (t =? SECOND_TYPE) then
      if (i =? 1) && (g =? 3) then 1 else if (i =? 7) && (g =? 2) then 0 else -1
    else if (s =? 3) && (t =? SECOND_TYPE) then
      if (i =? 2) && (g =? 3) then 3 else if (i =? 5) && (g =? 2) then 2 else -1
    else -1.
Definition pfc_ok (t i g : Z) : bool := ((pfc t i g =? -1) || ((0 <=? pfc t i g) && (pfc t i g <? nf t))) && forallb (fun f => Bool.eqb (subt t i g f) (f =? pfc t i g)) (range (nf t)).
Lemma tab_pfc t i g : 0 <= t < 8 -> 0 <= i < nch t -> 0 <= g < nf (YT t i) -> pfc_ok t i g = true.
Proof. apply all_tif_spec. vm_compute. reflexivity. Qed.
Lemma y_pfc p i g : y_path (p ++ [i]) -> y_face_parent_face (y_walk (p ++ [i])) g = pfc (yty (y_walk p)) i g.
Proof.
  intros Hp. destruct (y_child_unit Hp) as (Ht & Hi & L & Hl & Lc & Tc & Ac & HL & HPo). assert (Hp' := y_path_app Hp). destruct (y_walk_wf Hp') as [W _].
  assert (Hi' : 0 <= i < y_num_children (y_walk p)) by now rewrite nch_num.
  assert (CI := @y_child_id_child _ i W ltac:(lia) Hi'). assert (PA := @y_parent_child _ i W ltac:(lia) Hi'). rewrite <- y_walk_snoc in CI, PA. destruct CI as [CI _].
  assert (SW := f_equal ysw (@y_child_step (y_walk p) i Ht ltac:(lia) Hi')). rewrite <- y_walk_snoc in SW. cbn [ysw] in SW. unfold child_sw in SW.
  unfold y_face_parent_face, pfc. rewrite CI, PA, Tc. assert (0 <= ylv (y_walk p)) by (rewrite L; unfold zlen; lia). destruct (Z.eqb_spec (ylv (y_walk (p ++ [i]))) 0); [lia|].
  destruct (tabT Ht Hi) as (HT & HT6 & HC).
  destruct (is_pyra (y_walk (p ++ [i]))) eqn:EP.
  - apply is_pyra_iff in EP. rewrite Tc in EP. destruct (Z.leb_spec 6 (YT (yty (y_walk p)) i)); [|lia]. reflexivity.
  - apply is_tet_iff in EP. rewrite Tc in EP. destruct (Z.leb_spec 6 (YT (yty (y_walk p)) i)); [lia|]. destruct (is_pyra (y_walk p)) eqn:EQ.
    + apply is_pyra_iff in EQ. destruct (Z.ltb_spec (YT (yty (y_walk p)) i) 6); [|lia]. rewrite SW, Lc. destruct (Z.ltb_spec (ylv (y_walk p) + 1) (ylv (y_walk p) + 1)); [lia|].
      destruct (Z.ltb_spec (yty (y_walk p)) 6); [lia|].
      assert (TP : y_tetparent_type (y_walk (p ++ [i])) = yty (y_walk p)); [|now rewrite TP].
      assert (QP := f_equal yty PA). unfold y_parent in QP. replace (is_pyra (y_walk (p ++ [i]))) with false in QP by (symmetry; apply is_tet_iff; rewrite Tc; lia). rewrite SW, Lc, Z.eqb_refl in QP. exact QP.
    + assert (EQ' := EQ). apply is_tet_iff in EQ. destruct (Z.ltb_spec (yty (y_walk p)) 6); [|lia]. destruct (@y_sw_spec p Hp' EQ') as (S1 & _). rewrite SW, Lc. destruct (Z.ltb_spec (ysw (y_walk p)) (ylv (y_walk p) + 1)); [|lia].
      unfold face_parent_face. change (lv (yt (y_walk (p ++ [i])))) with (ylv (y_walk (p ++ [i]))). destruct (Z.eqb_spec (ylv (y_walk (p ++ [i]))) 0); [lia|].
      assert (HLn : (length p < length (p ++ [i]))%nat) by (rewrite app_length; cbn [length]; lia).
      assert (HCu := y_cubeid_walk Hp HLn). rewrite firstn_app, firstn_all, Nat.sub_diag in HCu. cbn [firstn] in HCu. rewrite app_nil_r, nth_middle in HCu.
      rewrite <- y_cubeid_yt. rewrite Lc, L. replace (zlen p + 1) with (Z.of_nat (S (length p))) by (unfold zlen; lia). rewrite HCu. change (ty (yt (y_walk (p ++ [i])))) with (yty (y_walk (p ++ [i]))). rewrite Tc.
      assert (PT : cid_type_to_parenttype true (YC (yty (y_walk p)) i) (YT (yty (y_walk p)) i) = yty (y_walk p)); [|now rewrite PT].
      assert (A : all_ti (fun t i => (6 <=? t) || (cid_type_to_parenttype true (YC t i) (YT t i) =? t)) = true) by (vm_compute; reflexivity).
      assert (B := all_ti_spec A Ht Hi). cbv beta in B. lia.
Qed.
Lemma y_face_parent_face_exact p i g : y_path p -> zlen p < 21 -> 0 <= i < nch (yty (y_walk p)) -> let e := y_walk p in let c := y_child e i in 0 <= g < y_num_faces c ->
  let pf := y_face_parent_face c g in
  (forall f, 0 <= f < y_num_faces e -> y_subface e f c g <-> f = pf) /\ (pf = -1 \/ 0 <= pf < y_num_faces e).
Proof.
  intros Hp Hl Hi. cbv zeta. assert (Hpi := y_path_child Hp Hl Hi). destruct (y_child_unit Hpi) as (Ht & _ & _ & _ & _ & Tc & _). rewrite !nf_num, <- y_walk_snoc, Tc. intros Hg.
  rewrite (y_pfc _ Hpi). assert (T := tab_pfc Ht Hi Hg). unfold pfc_ok in T. apply andb_prop in T. destruct T as [T1 T2]. split; [|lia].
  intros f Hf. rewrite y_walk_snoc, y_subface_subt by assumption. rewrite forallb_forall in T2. specialize (T2 f (proj2 (in_range _ _) Hf)). apply eqb_prop in T2. rewrite T2. apply Z.eqb_eq.
Qed.
(** the corners of a face are distinct, and all other corners of the element lie on one side of the plane of the face *)
Definition dot (n u : ipt) : Z := ix n * ix u + iy n * iy u + iz n * iz u.
Definition units3 : list ipt := flat_map (fun x => flat_map (fun y => map (fun z => (x, y, z)) [-1;0;1]) [-1;0;1]) [-1;0;1].
Fixpoint distinct (l : list Z) : bool := match l with [] => true | a :: r => negb (zmem a r) && distinct r end.
Lemma distinct_NoDup l : distinct l = true -> NoDup l.
Proof. induction l as [|a l IH]; intros H; [constructor|]. cbn [distinct] in H. apply andb_prop in H. destruct H as [H1 H2]. constructor; [|auto]. rewrite <- zmem_In. now destruct (zmem a l). Qed.
Definition face_ok (t f : Z) : bool :=
  distinct (fcn t f) && existsb (fun n => let c := dot n (yucoord t (hd 0 (fcn t f))) in forallb (fun v => (c <=? dot n (yucoord t v)) && Bool.eqb (dot n (yucoord t v) =? c) (zmem v (fcn t f))) (range (nc t))) units3.
Lemma tab_face t f : 0 <= t < 8 -> 0 <= f < nf t -> face_ok t f = true.
Proof. apply all_tf_spec. vm_compute. reflexivity. Qed.
Lemma y_face_supported p f : y_path p -> 0 <= f < nf (yty (y_walk p)) -> let e := y_walk p in
  NoDup (y_face_corners e f) /\ (forall v, In v (y_face_corners e f) -> 0 <= v < y_num_corners e) /\
  exists n d, forall v, 0 <= v < y_num_corners e -> 0 <= yform n d (y_integer_coords e v) /\ (yform n d (y_integer_coords e v) = 0 <-> In v (y_face_corners e f)).
Proof.
  intros Hp Hf. cbv zeta. destruct (y_walk_wf Hp) as [W L]. assert (Ht := yw_ty W). assert (LE := y_path_len Hp). assert (T := tab_face Ht Hf). unfold face_ok in T. apply andb_prop in T. destruct T as [T1 T2].
  rewrite fcn_eq, nc_num. split; [now apply distinct_NoDup|]. split; [intros v; now apply fcn_range|]. apply existsb_exists in T2. destruct T2 as (n & _ & T2). cbv zeta in T2. rewrite forallb_forall in T2.
  assert (HP : 0 < YLEN (ylv (y_walk p))) by (rewrite YLEN_pow by lia; apply pow2_pos; lia). set (h := YLEN (ylv (y_walk p))) in *.
  set (c := dot n (yucoord (yty (y_walk p)) (hd 0 (fcn (yty (y_walk p)) f)))) in *. exists n, (- dot n (yanc (y_walk p)) - h * c). intros v Hv. specialize (T2 v (proj2 (in_range _ _) Hv)).
  rewrite y_coords_unit by (rewrite ?nc_num; assumption). fold (yanc (y_walk p)). fold h.
  assert (E : yform n (- dot n (yanc (y_walk p)) - h * c) (scale h (yanc (y_walk p)) (yucoord (yty (y_walk p)) v)) = h * (dot n (yucoord (yty (y_walk p)) v) - c)).
  { unfold yform, dot, scale. cbn [ix iy iz fst snd]. ring. }
  rewrite E. apply andb_prop in T2. destruct T2 as [T2 T3]. apply eqb_prop in T3. rewrite <- zmem_In, <- T3, Z.eqb_eq. split; [nia|]. split; intros; nia.
Qed.
(** the anchor *)
Lemma y_anchor p : y_path p -> let e := y_walk p in
  In (y_get_anchor e) (y_vertices e) /\ (yty e <> 7 -> y_get_anchor e = y_integer_coords e 0) /\
  forall v, In v (y_vertices e) -> ix (y_get_anchor e) <= ix v <= YROOT /\ iy (y_get_anchor e) <= iy v <= YROOT /\ iz (y_get_anchor e) <= iz v <= YROOT.
Proof.
  intros Hp. cbv zeta. destruct (y_walk_wf Hp) as [W L]. assert (Ht := yw_ty W). assert (LE := y_path_len Hp). assert (HN := y_nonneg Hp). unfold nonneg in HN.
  change (y_get_anchor (y_walk p)) with (yanc (y_walk p)). rewrite y_vertices_unit by assumption. rewrite nc_num. fold (yanc (y_walk p)). set (t := yty (y_walk p)) in *. set (h := YLEN (ylv (y_walk p))) in *.
  assert (HP : 0 < h) by (subst h; rewrite YLEN_pow by lia; apply pow2_pos; lia).
  assert (A : forallb (fun t => forallb (fun v => let u := yucoord t v in (0 <=? ix u) && (0 <=? iy u) && (0 <=? iz u)) (range (nc t)) && ieqb (yucoord t (if t =? 7 then 4 else 0)) (0, 0, 0)) (zseq 0 8) = true) by (vm_compute; reflexivity).
  rewrite forallb_forall in A. specialize (A t ltac:(apply in_zseq; lia)). apply andb_prop in A. destruct A as [A1 A2]. rewrite forallb_forall in A1. apply ieqb_eq in A2.
  assert (S0 : forall a, scale h a (0, 0, 0) = a) by (intros [[a1 a2] a3]; unfold scale, ix, iy, iz; cbn [fst snd]; f_equal; [f_equal|]; lia).
  split; [|split].
  - apply in_map_iff. exists (if t =? 7 then 4 else 0). rewrite A2, S0. split; [reflexivity|]. apply in_zseq. unfold nc. destruct (Z.eqb_spec t 7), (Z.ltb_spec t 6); lia.
  - intros N7. rewrite y_coords_unit; [|assumption|rewrite nc_num; fold t; unfold nc; destruct (t <? 6); lia]. fold (yanc (y_walk p)). fold t h. destruct (Z.eqb_spec t 7); [lia|]. now rewrite A2, S0.
  - intros v Hv. apply in_map_iff in Hv. destruct Hv as (u & <- & Hu). apply in_zseq in Hu. assert (nc0 : 0 <= nc t) by (unfold nc; destruct (_ <? 6); lia).
    assert (Hu' : 0 <= u < nc t) by lia. specialize (A1 u (proj2 (in_range _ _) Hu')). cbv zeta in A1. rewrite !andb_true_iff, !Z.leb_le in A1. destruct A1 as ((A3 & A4) & A5). assert (N0 := HN u 0 ltac:(lia)). assert (N1 := HN u 1 ltac:(lia)). assert (N3 := HN u 3 ltac:(lia)). unfold lin, cst in *. cbn [Z.eqb Pos.eqb] in *.
    unfold scale in *; cbn [ix iy iz fst snd] in *. clear -N0 N1 N3 A3 A4 A5 HP. repeat split; nia.
Qed.

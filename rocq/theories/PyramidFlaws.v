(** The face functions of the elements of pyramid trees satisfy the laws. *)
From Coq Require Import Sorting.Sorted.
From Verif Require Import Prelude PathSpec SchemeModel SchemeSpec SchemeProofs SchemeOrderProofs SchemeUniformProofs SchemeInstances FaceModel FaceSpec FaceProofs FaceInstances EclassModel.
From Verif Require Import GeoSpec BitLemmas SimplexModel SimplexSpec SimplexProofs SimplexPathProofs SimplexOrderProofs SimplexGeoProofs SimplexAncProofs SimplexTileProofs SimplexFaceProofs SimplexFaceChildProofs LineProofs.
From Verif Require Import PyramidModel PyramidSpec PyramidProofs PyramidAncProofs PyramidIdProofs PyramidOrderProofs PyramidScheme PyramidGeoSpec PyramidGeoProofs PyramidFaceProofs PyramidNbProofs PyramidBdyModel.

Lemma pyramid_valid_walk e : valid (S := pyramid_scheme) e <-> exists p, y_path p /\ e = y_walk p.
Proof. split; intros (p & Hp & ->); exists p; (split; [now apply pyramid_path|reflexivity]). Qed.
Lemma y_sw_pyra p : y_path p -> is_pyra (y_walk p) = true -> ysw (y_walk p) = -1.
Proof.
  destruct p as [|i p _] using rev_ind; [reflexivity|]. intros Hp E. assert (PS := Hp). apply y_path_snoc in PS. destruct PS as (Hp' & Hl & Hi). destruct (y_walk_wf Hp') as [W L].
  apply is_pyra_iff in E. assert (SW := @y_child_step (y_walk p) i (yw_ty W) ltac:(lia) Hi). rewrite <- y_walk_snoc in SW. destruct (y_child_unit Hp) as (Ht & Hi' & _ & _ & _ & Tc & _). rewrite Tc in E.
  destruct (tabT Ht Hi') as (_ & H6 & _). rewrite SW. cbn [ysw]. unfold child_sw. replace (is_pyra (y_walk p)) with true by (symmetry; apply is_pyra_iff; lia). destruct (Z.ltb_spec (YT (yty (y_walk p)) i) 6); [lia|reflexivity].
Qed.
(** the descendant that is reached by taking the child i, of the same type, again and again *)
Lemma y_path_same p i n : y_path p -> 0 <= i < nch (yty (y_walk p)) -> YT (yty (y_walk p)) i = yty (y_walk p) -> zlen p + Z.of_nat n <= 21 ->
  y_path (p ++ repeat i n) /\ yty (y_walk (p ++ repeat i n)) = yty (y_walk p) /\ zlen (p ++ repeat i n) = zlen p + Z.of_nat n.
Proof.
  intros Hp Hi HT. induction n as [|n IH]; intros Hn.
  - cbn [repeat]. rewrite app_nil_r. auto with zarith.
  - destruct IH as (P & T & L); [lia|]. replace (repeat i (S n)) with (repeat i n ++ [i]) by (clear; induction n as [|m J]; [reflexivity|cbn [repeat app]; now rewrite J]). rewrite app_assoc. assert (P' : y_path ((p ++ repeat i n) ++ [i])) by (apply y_path_child; [exact P|lia|now rewrite T]).
    split; [exact P'|]. destruct (y_child_unit P') as (_ & _ & _ & _ & _ & Tc & _). rewrite Tc, T, HT. split; [reflexivity|]. rewrite zlen_app, L. change (zlen [i]) with 1. lia.
Qed.
Lemma y_walk_same p i n : y_path p -> 0 <= i < nch (yty (y_walk p)) -> YT (yty (y_walk p)) i = yty (y_walk p) -> zlen p + Z.of_nat n <= 21 ->
  y_walk (p ++ repeat i n) = Pyr (mksimp (zlen p + Z.of_nat n) (yty (y_walk p)) (scale (YLEN (zlen p) - YLEN (zlen p + Z.of_nat n)) (yanc (y_walk p)) (uC (yty (y_walk p)) i))) (ysw (y_walk p)).
Proof.
  intros Hp Hi HT. induction n as [|n IH]; intros Hn.
  - cbn [repeat]. rewrite app_nil_r. replace (zlen p + Z.of_nat 0) with (zlen p) by lia. rewrite Z.sub_diag. destruct (y_walk_wf Hp) as [_ L]. rewrite <- L at 1. destruct (y_walk p) as [[l1 t1 x1 y1 z1] s1]. unfold mksimp, scale, yanc, ix, iy, iz, yx, yy, yz, ylv, yty; cbn [fst snd yt ysw lv ty sx sy sz]. do 2 f_equal; lia.
  - destruct (@y_path_same p i n Hp Hi HT ltac:(lia)) as (P & T & L). specialize (IH ltac:(lia)). replace (repeat i (S n)) with (repeat i n ++ [i]) by (clear; induction n as [|m J]; [reflexivity|cbn [repeat app]; now rewrite J]). rewrite app_assoc, y_walk_snoc. destruct (y_walk_wf P) as [W LW].
    assert (Hi' : 0 <= i < y_num_children (y_walk (p ++ repeat i n))) by (rewrite nch_num, T; exact Hi). rewrite y_child_step; [|apply W|lia|exact Hi']. rewrite T, HT.
    assert (SW : child_sw (y_walk (p ++ repeat i n)) (yty (y_walk p)) = ysw (y_walk p)).
    { unfold child_sw. destruct (is_pyra (y_walk (p ++ repeat i n))) eqn:E.
      - apply is_pyra_iff in E. rewrite T in E. destruct (Z.ltb_spec (yty (y_walk p)) 6); [lia|]. symmetry. apply y_sw_pyra; [exact Hp|now apply is_pyra_iff].
      - rewrite IH. reflexivity. }
    rewrite SW. f_equal. unfold step. change (lv (yt (y_walk (p ++ repeat i n)))) with (ylv (y_walk (p ++ repeat i n))). rewrite LW, L. rewrite IH. change (MAXLEVEL true) with 21.
    assert (E1 : 2 ^ (21 - (zlen p + Z.of_nat n) - 1) = YLEN (zlen p + Z.of_nat (S n))) by (rewrite YLEN_pow by lia; f_equal; lia). assert (E2 : YLEN (zlen p + Z.of_nat n) = 2 * YLEN (zlen p + Z.of_nat (S n))) by (rewrite YLEN_half by lia; do 2 f_equal; lia).
    rewrite E1, E2. cbn [yt]. unfold mksimp, scale, uC, ubits, ix, iy, iz; cbn [fst snd sx sy sz]. set (h := YLEN (zlen p + Z.of_nat (S n))). f_equal; lia.
Qed.
Lemma y_chain_walk n p i : y_child_chain n (y_walk p) i = y_walk (p ++ repeat i n).
Proof.
  revert p. induction n as [|n IH]; intros p; cbn [y_child_chain repeat]; [now rewrite app_nil_r|]. rewrite <- y_walk_snoc, IH, <- app_assoc. reflexivity.
Qed.
(** the first and the last child at a face *)
Definition y_hd (t f : Z) : Z := hd (-1) (y_faceids t f).
Definition y_lst (t f : Z) : Z := znth (-1) (y_faceids t f) 3.
Definition y_corner_ok (t f : Z) : bool :=
  let a := y_hd t f in let b := y_lst t f in
  (0 <=? a) && (a <? nch t) && (0 <=? b) && (b <? nch t) && (YT t a =? t) && (YT t b =? t) && (y_fcf t f 0 =? f) && (y_fcf t f 3 =? f) &&
  if t <? 6 then
    let c := tet_face_corner f 0 in let d := Z.max (tet_face_corner f 1) (tet_face_corner f 2) in
    (((c =? 0) && (a =? 0)) || (((c =? 1) || (c =? 2)) && (a =? parenttype_beyid_to_Iloc true t c))) &&
    (((d =? 3) && (b =? lastc t)) || (((d =? 1) || (d =? 2)) && (b =? parenttype_beyid_to_Iloc true t d)))
  else true.
Lemma y_tab_corner t f : 0 <= t < 8 -> 0 <= f < nf t -> y_corner_ok t f = true.
Proof. apply all_tf_spec. vm_compute. reflexivity. Qed.
Lemma y_corner_facts t f : 0 <= t < 8 -> 0 <= f < nf t -> 0 <= y_hd t f < nch t /\ 0 <= y_lst t f < nch t /\ YT t (y_hd t f) = t /\ YT t (y_lst t f) = t /\ y_fcf t f 0 = f /\ y_fcf t f 3 = f.
Proof. intros Ht Hf. assert (T := y_tab_corner Ht Hf). unfold y_corner_ok in T. cbn zeta in T. rewrite !andb_true_iff in T. destruct T as ((((((((T1 & T2) & T3) & T4) & T5) & T6) & T7) & T8) & _). repeat split; lia. Qed.
Lemma y_coords_lor p L (b0 b1 b2 : bool) : y_path p -> zlen p <= L <= 21 -> let e := y_walk p in let o := YLEN (ylv e) - YLEN L in
  (if b0 then Z.lor (yx e) o else yx e) = yx e + o * Z.b2z b0 /\ (if b1 then Z.lor (yy e) o else yy e) = yy e + o * Z.b2z b1 /\ (if b2 then Z.lor (yz e) o else yz e) = yz e + o * Z.b2z b2.
Proof.
  intros Hp HL. cbv zeta. destruct (y_walk_wf Hp) as [Wp V]. rewrite V, !YLEN_pow by lia.
  assert (P1 : 2 ^ (21 - L) <= 2 ^ (21 - zlen p)) by (apply Z.pow_le_mono_r; lia). pose proof (@pow2_pos (21 - L) ltac:(lia)).
  destruct (yw_cb Wp) as [_ _ Ax Ay Az _ _ _ _]. cbn [cb lv sx sy sz] in Ax, Ay, Az. change (MAXLEVEL true) with 21 in *. rewrite V in Ax, Ay, Az.
  rewrite !(@lor_high_low _ _ (21 - zlen p)) by (auto; lia). destruct b0, b1, b2; cbn [Z.b2z]; lia.
Qed.
Lemma y_first_face_walk p f L : y_path p -> zlen p < L <= 21 -> 0 <= f < nf (yty (y_walk p)) ->
  y_first_descendant_face (y_walk p) f L = Ok (Some (y_walk (p ++ repeat (y_hd (yty (y_walk p)) f) (Z.to_nat (L - zlen p))))).
Proof.
  intros Hp HL Hf. destruct (y_walk_wf Hp) as [W V]. assert (Ht := yw_ty W). assert (T := y_tab_corner Ht Hf). destruct (y_corner_facts Ht Hf) as (R1 & _ & T1 & _). unfold y_corner_ok in T. cbn zeta in T. apply andb_prop in T. destruct T as [_ T].
  unfold y_first_descendant_face. destruct (is_pyra (y_walk p)) eqn:E; cbn [negb].
  - rewrite V. change YMAX with 21. destruct (Z.eqb_spec (zlen p) 21); [lia|]. assert (SW := @y_walk_same p _ (Z.to_nat (L - zlen p)) Hp R1 T1 ltac:(lia)). rewrite SW. clear SW. replace (zlen p + Z.of_nat (Z.to_nat (L - zlen p))) with L by lia.
    apply is_pyra_iff in E. unfold nf in Hf. destruct (Z.ltb_spec (yty (y_walk p)) 6); [lia|]. change FIRST_TYPE with 6. change SECOND_TYPE with 7.
    assert (CL := fun b0 b1 b2 => @y_coords_lor p L b0 b1 b2 Hp ltac:(lia)). cbv zeta in CL. rewrite V in CL.
    assert (C0 : set_lv (y_child (y_walk p) 0) L = Pyr (Simp L (yty (y_walk p)) (yx (y_walk p)) (yy (y_walk p)) (yz (y_walk p))) (ysw (y_walk p))).
    { destruct (tab_first Ht) as (F1 & F2 & _). assert (CP : y_path (p ++ [0])) by (apply y_path_child; [exact Hp|lia|unfold nch; destruct (_ <? 6); lia]). rewrite <- y_walk_snoc. destruct (y_child_unit CP) as (_ & _ & _ & _ & _ & Tc & Ac & _). rewrite F1 in Tc.
      assert (S1 : ysw (y_walk (p ++ [0])) = -1) by (apply y_sw_pyra; [exact CP|apply is_pyra_iff; lia]). assert (S2 : ysw (y_walk p) = -1) by (apply y_sw_pyra; [exact Hp|now apply is_pyra_iff]).
      unfold set_lv. rewrite S1, S2, Tc. unfold uC in Ac. rewrite F2 in Ac. assert (A1 := f_equal ix Ac). assert (A2 := f_equal iy Ac). assert (A3 := f_equal iz Ac). unfold yanc, scale, ix, iy, iz in A1, A2, A3; cbn [fst snd ubits] in A1, A2, A3. change (Z.b2z (Z.testbit 0 0)) with 0 in A1. change (Z.b2z (Z.testbit 0 1)) with 0 in A2. change (Z.b2z (Z.testbit 0 2)) with 0 in A3.
      do 2 f_equal; lia. }
    assert (K : forall t, yty (y_walk p) = t -> forall b0 b1 b2, uC t (y_hd t f) = (Z.b2z b0, Z.b2z b1, Z.b2z b2) ->
       mksimp L t (scale (YLEN (zlen p) - YLEN L) (yanc (y_walk p)) (uC t (y_hd t f))) = Simp L t (if b0 : bool then Z.lor (yx (y_walk p)) (YLEN (zlen p) - YLEN L) else yx (y_walk p)) (if b1 : bool then Z.lor (yy (y_walk p)) (YLEN (zlen p) - YLEN L) else yy (y_walk p)) (if b2 : bool then Z.lor (yz (y_walk p)) (YLEN (zlen p) - YLEN L) else yz (y_walk p))).
    { intros t _ b0 b1 b2 ->. destruct (CL b0 b1 b2) as (-> & -> & ->). unfold mksimp, scale, yanc, ix, iy, iz; cbn [fst snd]. reflexivity. }
    assert (CT : yty (y_walk p) = 6 \/ yty (y_walk p) = 7) by lia. destruct CT as [CT|CT]; rewrite CT in *; cbn [Z.eqb Pos.eqb]; split_range Hf; cbn [Z.eqb Pos.eqb andb orb negb]; rewrite ?C0; do 3 f_equal;
      first [now rewrite (K _ eq_refl false false false eq_refl)|now rewrite (K _ eq_refl true false false eq_refl)|now rewrite (K _ eq_refl false true false eq_refl)|now rewrite (K _ eq_refl false false true eq_refl)].
  - apply is_tet_iff in E. destruct (Z.ltb_spec (yty (y_walk p)) 6); [|lia]. apply andb_prop in T. destruct T as [T _]. unfold y_corner_descendant. 
    apply orb_prop in T. destruct T as [T|T]; apply andb_prop in T; destruct T as [Ta Tb]; apply Z.eqb_eq in Tb; rewrite Tb.
    + rewrite Ta. rewrite y_first_descendant_walk by (auto; lia). reflexivity.
    + destruct (Z.eqb_spec (tet_face_corner f 0) 0); [lia|]. rewrite Ta. rewrite V. destruct (Z.to_nat (L - zlen p)) as [|n'] eqn:EN; [lia|]. now rewrite <- y_chain_walk.
Qed.
Lemma y_last_face_walk p f L : y_path p -> zlen p < L <= 21 -> 0 <= f < nf (yty (y_walk p)) ->
  y_last_descendant_face (y_walk p) f L = Ok (Some (y_walk (p ++ repeat (y_lst (yty (y_walk p)) f) (Z.to_nat (L - zlen p))))).
Proof.
  intros Hp HL Hf. destruct (y_walk_wf Hp) as [W V]. assert (Ht := yw_ty W). assert (T := y_tab_corner Ht Hf). destruct (y_corner_facts Ht Hf) as (_ & R1 & _ & T1 & _). unfold y_corner_ok in T. cbn zeta in T. apply andb_prop in T. destruct T as [_ T].
  unfold y_last_descendant_face. destruct (is_pyra (y_walk p)) eqn:E; cbn [negb].
  - rewrite V. assert (SW := @y_walk_same p _ (Z.to_nat (L - zlen p)) Hp R1 T1 ltac:(lia)). 
    assert (LD := @y_last_descendant_walk p L Hp ltac:(lia)). rewrite (y_walk_tend Hp) in *. rewrite LD. cbn [obind].
    replace (zlen p + Z.of_nat (Z.to_nat (L - zlen p))) with L in SW by lia.
    apply is_pyra_iff in E. rewrite (y_walk_tend Hp) in *. unfold nf in Hf. destruct (Z.ltb_spec (tend 6 p) 6); [lia|]. change FIRST_TYPE with 6. change SECOND_TYPE with 7.
    assert (CL := fun b0 b1 b2 => @y_coords_lor p L b0 b1 b2 Hp ltac:(lia)). cbv zeta in CL. rewrite V in CL.
    assert (K : forall t b0 b1 b2, uC t (y_lst t f) = (Z.b2z b0, Z.b2z b1, Z.b2z b2) ->
       mksimp L t (scale (YLEN (zlen p) - YLEN L) (yanc (y_walk p)) (uC t (y_lst t f))) = Simp L t (if b0 : bool then Z.lor (yx (y_walk p)) (YLEN (zlen p) - YLEN L) else yx (y_walk p)) (if b1 : bool then Z.lor (yy (y_walk p)) (YLEN (zlen p) - YLEN L) else yy (y_walk p)) (if b2 : bool then Z.lor (yz (y_walk p)) (YLEN (zlen p) - YLEN L) else yz (y_walk p))).
    { intros t b0 b1 b2 ->. destruct (CL b0 b1 b2) as (-> & -> & ->). unfold mksimp, scale, yanc, ix, iy, iz; cbn [fst snd]. reflexivity. }
    assert (CT : tend 6 p = 6 \/ tend 6 p = 7) by lia. destruct CT as [CT|CT]; rewrite CT in *; cbn [Z.eqb Pos.eqb]; split_range Hf; cbn [Z.eqb Pos.eqb andb orb negb]; try reflexivity;
      rewrite SW; do 3 f_equal; rewrite ?(y_walk_tend Hp), ?CT;
      first [now rewrite (K 7 true false true eq_refl)|now rewrite (K 7 false true true eq_refl)|now rewrite (K 6 true true false eq_refl)].
  - apply is_tet_iff in E. destruct (Z.ltb_spec (yty (y_walk p)) 6); [|lia]. apply andb_prop in T. destruct T as [_ T]. unfold y_corner_descendant. set (d := Z.max (tet_face_corner f 1) (tet_face_corner f 2)) in *.
    apply orb_prop in T. destruct T as [T|T]; apply andb_prop in T; destruct T as [Ta Tb]; apply Z.eqb_eq in Tb; rewrite Tb.
    + apply Z.eqb_eq in Ta. rewrite Ta. cbn [Z.eqb Pos.eqb orb]. rewrite y_last_descendant_walk by (auto; lia). rewrite (y_walk_tend Hp). reflexivity.
    + destruct (Z.eqb_spec d 0); [lia|]. rewrite Ta. rewrite V. destruct (Z.to_nat (L - zlen p)) as [|n'] eqn:EN; [lia|]. now rewrite <- y_chain_walk.
Qed.
Lemma y_child_inj p i j : y_path p -> zlen p < 21 -> 0 <= i < nch (yty (y_walk p)) -> 0 <= j < nch (yty (y_walk p)) -> y_child (y_walk p) i = y_child (y_walk p) j -> i = j.
Proof.
  intros Hp HL Hi Hj E. destruct (y_walk_wf Hp) as [W V]. rewrite <- nch_num in Hi, Hj. destruct (@y_child_id_child _ i W ltac:(lia) Hi) as [C1 _]. destruct (@y_child_id_child _ j W ltac:(lia) Hj) as [C2 _]. rewrite E in C1. congruence.
Qed.
Lemma y_ids_facts p f : y_path p -> 0 <= f < nf (yty (y_walk p)) -> let e := y_walk p in
  zlen (y_child_ids_at_face e f) = 4 /\ increasing (y_child_ids_at_face e f) = true /\ forall i, In i (y_child_ids_at_face e f) -> 0 <= i < nch (yty e).
Proof.
  intros Hp Hf. cbv zeta. destruct (y_walk_wf Hp) as [W L]. assert (Ht := yw_ty W). assert (T := y_tab_faces Ht Hf). unfold y_faces_ok in T. rewrite !andb_true_iff in T. rewrite y_faceids_eq.
  destruct T as ((((T1 & T2) & T3) & T4) & _). split; [unfold zlen; lia|]. split; [exact T2|]. intros i Hi. rewrite forallb_forall in T3. specialize (T3 i Hi). lia.
Qed.
(** the children at a face, with their faces there *)
Lemma y_face_children_at p f x g : y_path p -> 0 <= f < nf (yty (y_walk p)) ->
  (In (x, g) (face_children pyramid_faces (y_walk p) f) <-> exists k, 0 <= k < 4 /\ x = y_child (y_walk p) (znth (-1) (y_child_ids_at_face (y_walk p) f) k) /\ g = y_face_child_face (y_walk p) f k).
Proof.
  intros Hp Hf. destruct (y_ids_facts Hp Hf) as (L & _ & _). unfold face_children. change (f_children pyramid_faces (y_walk p) f) with (map (y_child (y_walk p)) (y_child_ids_at_face (y_walk p) f)). rewrite map_length. rewrite in_map_iff. unfold zlen in L.
  set (l := y_child_ids_at_face (y_walk p) f) in *. change (f_child_face pyramid_faces) with y_face_child_face.
  assert (N : forall k, (k < length l)%nat -> nth k (map (y_child (y_walk p)) l) (y_walk p) = y_child (y_walk p) (nth k l (-1))).
  { intros k Hk. rewrite nth_indep with (d' := y_child (y_walk p) (-1)) by (rewrite map_length; lia). apply map_nth. }
  split.
  - intros (k & E & Hk). apply in_seq in Hk. exists (Z.of_nat k). split; [lia|]. assert (E1 := f_equal fst E). assert (E2 := f_equal snd E). cbn [fst snd] in E1, E2. split; [|now symmetry]. rewrite <- E1, N by lia. unfold znth. now rewrite Nat2Z.id.
  - intros (k & Hk & -> & ->). exists (Z.to_nat k). split; [|apply in_seq; lia]. rewrite N by lia. rewrite Z2Nat.id by lia. reflexivity.
Qed.
(** a child at a face, in terms of its face *)
Lemma y_face_children_sub p f i g : y_path p -> zlen p < 21 -> 0 <= f < nf (yty (y_walk p)) -> 0 <= i < nch (yty (y_walk p)) -> 0 <= g < nf (YT (yty (y_walk p)) i) ->
  (In (y_child (y_walk p) i, g) (face_children pyramid_faces (y_walk p) f) <-> subt (yty (y_walk p)) i g f = true).
Proof.
  intros Hp HL Hf Hi Hg. assert (Hpi := y_path_child Hp HL Hi). rewrite <- (y_subface_subt Hpi Hf Hg). rewrite y_face_children_at by assumption. destruct (y_ids_facts Hp Hf) as (LE & _ & R).
  destruct (y_child_unit Hpi) as (_ & _ & _ & _ & _ & Tc & _). rewrite y_walk_snoc in Tc.
  assert (K : forall k, 0 <= k < 4 -> znth (-1) (y_child_ids_at_face (y_walk p) f) k = i -> (y_subface (y_walk p) f (y_child (y_walk p) i) g <-> g = y_face_child_face (y_walk p) f k)).
  { intros k Hk E. rewrite <- E. apply (@y_face_child_face_exact p f k g Hp HL Hf Hk). rewrite E, nf_num, Tc. exact Hg. }
  assert (I : In i (y_child_ids_at_face (y_walk p) f) -> exists k, 0 <= k < 4 /\ znth (-1) (y_child_ids_at_face (y_walk p) f) k = i).
  { intros I. apply In_nth with (d := -1) in I. destruct I as (k & Hk & E). exists (Z.of_nat k). unfold zlen in LE. split; [lia|]. unfold znth. now rewrite Nat2Z.id. }
  split.
  - intros (k & Hk & E & ->). assert (Hj : In (znth (-1) (y_child_ids_at_face (y_walk p) f) k) (y_child_ids_at_face (y_walk p) f)) by (apply znth_In; lia). apply (@y_child_inj p i _ Hp HL Hi (R _ Hj)) in E. now apply (K k Hk (eq_sym E)).
  - intros Sb. assert (Ii : In i (y_child_ids_at_face (y_walk p) f)) by (apply (y_children_at_face_exact Hp HL Hf); [exact Hi|]; exists g; split; [rewrite nf_num, Tc; exact Hg|exact Sb]). destruct (I Ii) as (k & Hk & E). exists k. split; [exact Hk|]. split; [now rewrite E|]. now apply (K k Hk E).
Qed.
Lemma y_face_children_inv p f x g : y_path p -> zlen p < 21 -> 0 <= f < nf (yty (y_walk p)) -> In (x, g) (face_children pyramid_faces (y_walk p) f) ->
  exists i, 0 <= i < nch (yty (y_walk p)) /\ x = y_walk (p ++ [i]) /\ 0 <= g < nf (YT (yty (y_walk p)) i) /\ subt (yty (y_walk p)) i g f = true.
Proof.
  intros Hp HL Hf H. assert (H' := H). apply (y_face_children_at _ _ Hp Hf) in H'. destruct H' as (k & Hk & -> & ->). destruct (y_ids_facts Hp Hf) as (LE & _ & R). set (i := znth (-1) (y_child_ids_at_face (y_walk p) f) k) in *.
  assert (Hi : 0 <= i < nch (yty (y_walk p))) by (apply R; apply znth_In; lia). exists i. split; [exact Hi|]. split; [now rewrite y_walk_snoc|]. assert (Hpi := y_path_child Hp HL Hi). destruct (y_child_unit Hpi) as (Ht & _ & _ & _ & _ & Tc & _). rewrite y_walk_snoc in Tc.
  assert (Hg : 0 <= y_face_child_face (y_walk p) f k < nf (YT (yty (y_walk p)) i)).
  { assert (Q := @y_face_child_face_exact p f k 0 Hp HL Hf Hk). cbv zeta in Q. fold i in Q. rewrite nf_num, Tc in Q. apply Q. unfold nf; destruct (_ <? _); lia. }
  split; [exact Hg|]. now apply (y_face_children_sub Hp HL Hf Hi Hg).
Qed.
Theorem pyramid_flaws : flaws pyramid_faces.
Proof.
  assert (LT : forall p, y_path p -> s_level (s := pyramid_scheme) (y_walk p) < s_maxlevel pyramid_scheme -> zlen p < 21) by (intros p Hp H; change (ylv (y_walk p) < 21) in H; now rewrite (proj2 (y_walk_wf Hp)) in H).
  assert (FA : forall e f, is_face pyramid_faces e f <-> 0 <= f < nf (yty e)) by (intros e f; unfold is_face; change (f_num pyramid_faces e) with (y_num_faces e); now rewrite nf_num).
  constructor.
  - intros a e (p & r & Hp & -> & ->). apply pyramid_path in Hp. change (gwalk pyramid_scheme) with y_walk. change (f_num pyramid_faces) with y_num_faces. change (f_max pyramid_faces) with y_num_faces. rewrite !nf_num.
    assert (Hp' := y_path_app Hp). unfold nf. destruct (Z.ltb_spec (yty (y_walk p)) 6) as [H6|H6]; [|destruct (_ <? 6); lia]. assert (ET : is_pyra (y_walk p) = false) by now apply is_tet_iff.
    assert (V1 := proj1 (y_path_iff _) Hp). destruct V1 as [V1 _]. rewrite (y_walk_tend Hp). rewrite tend_app. rewrite (y_walk_tend Hp') in H6. apply vpath_app in V1. destruct V1 as [V0 V1]. assert (R := @tend_type 6 p ltac:(lia) V0).
    assert (Q : forall r t, 0 <= t < 6 -> vpath t r -> 0 <= tend t r < 6). { clear. induction r as [|i r IH]; intros t Ht V; [exact Ht|]. cbn [vpath] in V. destruct V as [Hi V]. destruct (@tabT t i ltac:(lia) Hi) as (A1 & A2 & _). unfold tend. cbn [fold_left]. apply IH; [lia|exact V]. }
    specialize (Q r (tend 6 p) ltac:(lia) V1). destruct (Z.ltb_spec (tend (tend 6 p) r) 6); lia.
  - intros e f V HL Hf. apply FA in Hf. apply pyramid_valid_walk in V. destruct V as (p & Hp & ->). destruct (y_ids_facts Hp Hf) as (L & I & R). change (f_child_ids pyramid_faces (y_walk p) f) with (y_child_ids_at_face (y_walk p) f). split; [|split].
    + intros E. rewrite E in L. discriminate L.
    + now apply increasing_sorted.
    + apply Forall_forall. intros i Hi. change (0 <= i < y_num_children (y_walk p)). rewrite nch_num. now apply R.
  - intros e f c g V HL Hf H. apply FA in Hf. apply pyramid_valid_walk in V. destruct V as (p & Hp & ->). apply (LT p Hp) in HL. destruct (y_face_children_inv Hp HL Hf H) as (i & Hi & -> & Hg & _). apply FA.
    destruct (y_child_unit (y_path_child Hp HL Hi)) as (_ & _ & _ & _ & _ & Tc & _). now rewrite Tc.
  - intros e i g V HL Hi Hg. apply FA in Hg. apply pyramid_valid_walk in V. destruct V as (p & Hp & ->). apply (LT p Hp) in HL. change (0 <= i < y_num_children (y_walk p)) in Hi. rewrite nch_num in Hi. change (@s_child pyramid_scheme (y_walk p) i) with (y_child (y_walk p) i) in *.
    rewrite <- nf_num in Hg. destruct (y_face_parent_face_exact Hp HL Hi Hg) as [A B]. cbn zeta in A, B. change (f_parent_face pyramid_faces) with y_face_parent_face. split; [exact B|].
    intros f Hf. rewrite <- (A f Hf). apply FA in Hf. assert (Hpi := y_path_child Hp HL Hi). destruct (y_child_unit Hpi) as (_ & _ & _ & _ & _ & Tc & _). rewrite y_walk_snoc in Tc. rewrite nf_num, Tc in Hg. rewrite (y_subface_subt Hpi Hf Hg). exact (y_face_children_sub Hp HL Hf Hi Hg).
  - intros e g V Hg. apply FA in Hg. apply pyramid_valid_walk in V. destruct V as (p & Hp & ->). change (f_parent_face pyramid_faces) with y_face_parent_face. change (f_max pyramid_faces) with y_num_faces. rewrite nf_num. destruct p as [|i p _] using rev_ind.
    + change (y_face_parent_face (y_walk []) g) with g. lia.
    + rewrite (y_pfc _ Hp). destruct (y_child_unit Hp) as (Ht & Hi & _ & _ & _ & Tc & _). rewrite Tc in *.
      assert (A : all_tif (fun t i g => (-1 <=? pfc t i g) && (pfc t i g <=? nf (YT t i))) = true) by (vm_compute; reflexivity). assert (B := all_tif_spec A Ht Hi Hg). cbv beta in B. lia.
  - intros e f L (p & Hp & ->) HL Hf. assert (LL := law_level pyramid_laws Hp). apply FA in Hf.
    destruct (@first_corner pyramid_scheme pyramid_laws pyramid_faces (fun e f => y_hd (yty e) f)) with (n := Z.to_nat (L - s_level (gwalk pyramid_scheme p))) (p := p) (f := f) as (rest & R).
    + intros e' f' V' HL' Hf'. apply FA in Hf'. apply pyramid_valid_walk in V'. destruct V' as (q & Hq & ->). apply (LT q Hq) in HL'. destruct (y_ids_facts Hq Hf') as (LC & _ & _). destruct (y_corner_facts (yw_ty (proj1 (y_walk_wf Hq))) Hf') as (R1 & _ & T1 & _ & F1 & _).
      change (f_child_ids pyramid_faces (y_walk q) f') with (y_child_ids_at_face (y_walk q) f'). rewrite y_faceids_eq in *. destruct (y_child_unit (y_path_child Hq HL' R1)) as (_ & _ & _ & _ & _ & Tc & _). rewrite T1, y_walk_snoc in Tc.
      change (@s_child pyramid_scheme (y_walk q)) with (y_child (y_walk q)). rewrite Tc. assert (E : exists r, y_faceids (yty (y_walk q)) f' = y_hd (yty (y_walk q)) f' :: r) by (unfold y_hd; destruct (y_faceids (yty (y_walk q)) f'); [discriminate LC|eexists; reflexivity]).
      destruct E as (r & E). exists r. split; [exact E|]. split; [exact F1|]. split; [change (0 <= y_hd (yty (y_walk q)) f' < y_num_children (y_walk q)); now rewrite nch_num|]. split; [apply FA; now rewrite Tc|reflexivity].
    + exact Hp.
    + lia.
    + apply FA, Hf.
    + exists f, rest. rewrite R. do 2 f_equal. apply pyramid_path in Hp. change (gwalk pyramid_scheme) with y_walk in *. rewrite LL in *. symmetry. change (f_first pyramid_faces (y_walk p) f L) with (if ylv (y_walk p) =? L then y_walk p else match y_first_descendant_face (y_walk p) f L with Ok (Some d) => d | _ => y_walk p end).
      rewrite (proj2 (y_walk_wf Hp)). destruct (Z.eqb_spec (zlen p) L) as [->|N]; [replace (L - L) with 0 by lia; cbn [Z.to_nat repeat]; now rewrite app_nil_r|]. rewrite y_first_face_walk by (auto; change (s_maxlevel pyramid_scheme) with 21 in HL; lia). reflexivity.
  - intros e f L (p & Hp & ->) HL Hf. assert (LL := law_level pyramid_laws Hp). apply FA in Hf.
    destruct (@last_corner pyramid_scheme pyramid_laws pyramid_faces (fun e f => y_lst (yty e) f)) with (n := Z.to_nat (L - s_level (gwalk pyramid_scheme p))) (p := p) (f := f) as (pre & R).
    + intros e' f' V' HL' Hf'. apply FA in Hf'. apply pyramid_valid_walk in V'. destruct V' as (q & Hq & ->). apply (LT q Hq) in HL'. destruct (y_ids_facts Hq Hf') as (LC & _ & _). destruct (y_corner_facts (yw_ty (proj1 (y_walk_wf Hq))) Hf') as (_ & R1 & _ & T1 & _ & F1).
      change (f_child_ids pyramid_faces (y_walk q) f') with (y_child_ids_at_face (y_walk q) f'). rewrite y_faceids_eq in *. destruct (y_child_unit (y_path_child Hq HL' R1)) as (_ & _ & _ & _ & _ & Tc & _). rewrite T1, y_walk_snoc in Tc.
      change (@s_child pyramid_scheme (y_walk q)) with (y_child (y_walk q)). rewrite Tc.
      assert (E : exists r, y_faceids (yty (y_walk q)) f' = r ++ [y_lst (yty (y_walk q)) f'] /\ zlen r = 3).
      { unfold y_lst. destruct (y_faceids (yty (y_walk q)) f') as [|a0 [|a1 [|a2 [|a3 [|a4 l]]]]]; try discriminate LC; [|unfold zlen in LC; cbn [length] in LC; lia]. exists [a0; a1; a2]. split; reflexivity. }
      destruct E as (r & E & LR). exists r. split; [exact E|]. rewrite LR. split; [exact F1|]. split; [change (0 <= y_lst (yty (y_walk q)) f' < y_num_children (y_walk q)); now rewrite nch_num|]. split; [apply FA; now rewrite Tc|reflexivity].
    + exact Hp.
    + lia.
    + apply FA, Hf.
    + exists pre, f. rewrite R. do 3 f_equal. apply pyramid_path in Hp. change (gwalk pyramid_scheme) with y_walk in *. rewrite LL in *. symmetry. change (f_last pyramid_faces (y_walk p) f L) with (if ylv (y_walk p) =? L then y_walk p else match y_last_descendant_face (y_walk p) f L with Ok (Some d) => d | _ => y_walk p end).
      rewrite (proj2 (y_walk_wf Hp)). destruct (Z.eqb_spec (zlen p) L) as [->|N]; [replace (L - L) with 0 by lia; cbn [Z.to_nat repeat]; now rewrite app_nil_r|]. rewrite y_last_face_walk by (auto; change (s_maxlevel pyramid_scheme) with 21 in HL; lia). reflexivity.
Qed.

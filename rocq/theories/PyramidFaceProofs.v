(** Faces of the elements of pyramid trees. *)
From Verif Require Import Prelude PathSpec GeoSpec BitLemmas SimplexModel SimplexSpec SimplexProofs SimplexPathProofs SimplexOrderProofs SimplexAncProofs SimplexTileProofs SimplexFaceProofs SimplexFaceChildProofs.
From Verif Require Import PyramidModel PyramidSpec PyramidProofs PyramidAncProofs PyramidGeoSpec PyramidGeoProofs.
Open Scope Z_scope.

Definition nf (t : Z) : Z := if t <? 6 then 4 else 5.
Lemma nf_num p : y_num_faces p = nf (yty p).
Proof. unfold y_num_faces, is_pyra, nf. change FIRST_TYPE with 6. now destruct (yty p <? 6). Qed.
Definition nc (t : Z) : Z := if t <? 6 then 4 else 5.
Lemma nc_num p : y_num_corners p = nc (yty p).
Proof. unfold y_num_corners, is_pyra, nc. change FIRST_TYPE with 6. now destruct (yty p <? 6). Qed.
(** the corners of the face f of an element of type t *)
Definition fcn (t f : Z) : list Z := y_face_corners (Pyr (Simp 0 t 0 0 0) 0) f.
Lemma fcn_eq e f : y_face_corners e f = fcn (yty e) f.
Proof. reflexivity. Qed.

Definition all_tf (f : Z -> Z -> bool) : bool := forallb (fun t => forallb (f t) (zseq 0 (Z.to_nat (nf t)))) (zseq 0 8).
Lemma all_tf_spec f : all_tf f = true -> forall t i, 0 <= t < 8 -> 0 <= i < nf t -> f t i = true.
Proof.
  intros H t i Ht Hi. unfold all_tf in H. rewrite forallb_forall in H. specialize (H t). rewrite forallb_forall in H. apply H; apply in_zseq; lia.
Qed.
Definition all_tif (f : Z -> Z -> Z -> bool) : bool := all_ti (fun t i => forallb (f t i) (zseq 0 (Z.to_nat (nf (YT t i))))).
Lemma all_tif_spec f : all_tif f = true -> forall t i g, 0 <= t < 8 -> 0 <= i < nch t -> 0 <= g < nf (YT t i) -> f t i g = true.
Proof.
  intros H t i g Ht Hi Hg. unfold all_tif in H. assert (B := all_ti_spec H Ht Hi). cbv beta in B. rewrite forallb_forall in B. apply B. apply in_zseq. lia.
Qed.
Lemma fcn_range t f v : 0 <= t < 8 -> 0 <= f < nf t -> In v (fcn t f) -> 0 <= v < nc t.
Proof.
  intros Ht Hf Hv. assert (A : all_tf (fun t f => forallb (fun v => (0 <=? v) && (v <? nc t)) (fcn t f)) = true) by (vm_compute; reflexivity).
  assert (B := all_tf_spec A Ht Hf). cbv beta in B. rewrite forallb_forall in B. specialize (B v Hv). lia.
Qed.
Definition yanc (e : pyr) : ipt := (yx e, yy e, yz e).
Lemma y_face_vertices_unit e f : 0 <= yty e < 8 -> 0 <= f < nf (yty e) ->
  y_face_vertices e f = map (fun v => scale (YLEN (ylv e)) (yanc e) (yucoord (yty e) v)) (fcn (yty e) f).
Proof.
  intros Ht Hf. unfold y_face_vertices. rewrite fcn_eq. apply map_ext_in. intros v Hv. apply y_coords_unit; auto. rewrite nc_num. eapply fcn_range; eauto.
Qed.

(** ** the neighbour in units: offset, type and dual face; b tells whether a tetrahedron of type 0 or 3 touches a pyramid *)
Definition nbt (t : Z) (b : bool) (f : Z) : ipt * Z * Z :=
  if 6 <=? t then
    let first := t =? 6 in
    ((if f =? 1 then (if first then 1 else 0) else if f =? 3 then (if first then 0 else -1) else 0,
      if f =? 1 then (if first then 0 else -1) else if f =? 3 then (if first then 1 else 0) else 0,
      if f =? 4 then (if first then -1 else 1) else 0),
     if (f =? 0) || (f =? 1) then 3 else if (f =? 2) || (f =? 3) then 0 else if first then 7 else 6,
     y_type_face_to_nface (t - 6) f)
  else if ((t =? 0) || (t =? 3)) && b then
    if t =? 0 then
      if f =? 0 then ((1, 0, 0), 7, 3) else if f =? 1 then ((0, 0, 0), 7, 2) else if f =? 2 then ((0, 0, 0), 6, 2) else ((0, -1, 0), 6, 3)
    else if f =? 0 then ((0, 1, 0), 7, 1) else if f =? 1 then ((0, 0, 0), 7, 0) else if f =? 2 then ((0, 0, 0), 6, 0) else ((-1, 0, 0), 6, 1)
  else nb_tab true t f.
Definition mksimp (l t : Z) (a : ipt) : simp := Simp l t (ix a) (iy a) (iz a).
Lemma simp4 l t x y z x' y' z' : x = x' -> y = y' -> z = z' -> Simp l t x y z = Simp l t x' y' z'. Proof. congruence. Qed.
Lemma y_nb e f : 0 <= yty e < 8 -> 0 <= f < nf (yty e) ->
  y_face_neighbour e f = let '(o, t', g) := nbt (yty e) (y_tet_boundary e f) f in (mksimp (ylv e) t' (scale (YLEN (ylv e)) (yanc e) o), g).
Proof.
  intros Ht Hf. unfold y_face_neighbour, nbt, nf in *. set (b := y_tet_boundary e f). clearbody b.
  assert (FT : yty e < 6 -> face_neighbour true (yt e) f = let '(o, t', g) := nb_tab true (yty e) f in (mksimp (ylv e) t' (scale (YLEN (ylv e)) (yanc e) o), g)).
  { intros H6. destruct (Z.ltb_spec (yty e) 6); [|lia]. rewrite nb_unit; [|change (NUM_TYPES true) with 6; unfold yty in *; lia|change (FACES true) with 4; lia].
    fold (yty e). destruct (nb_tab true (yty e) f) as [[o t'] g]. rewrite <- YLEN_LEN. fold (ylv e) (yx e) (yy e) (yz e) (yanc e). destruct (scale (YLEN (ylv e)) (yanc e) o) as [[a1 a2] a3]. reflexivity. }
  destruct (is_pyra e) eqn:E.
  - apply is_pyra_iff in E. destruct (Z.ltb_spec (yty e) 6); [lia|]. destruct (Z.leb_spec 6 (yty e)); [|lia].
    change FIRST_TYPE with 6. change SECOND_TYPE with 7. unfold mksimp, scale, yanc, ix, iy, iz; cbn [fst snd]. f_equal. 
    destruct (Z.eqb_spec f 0); [subst f|destruct (Z.eqb_spec f 1); [subst f|destruct (Z.eqb_spec f 2); [subst f|destruct (Z.eqb_spec f 3); [subst f|]]]]; cbn [orb Z.eqb Pos.eqb]; destruct (yty e =? 6); try destruct (f =? 4); apply simp4; lia.
  - apply is_tet_iff in E. destruct (Z.ltb_spec (yty e) 6); [|lia]. destruct (Z.leb_spec 6 (yty e)); [lia|]. specialize (FT E).
    destruct (Z.eqb_spec (yty e) 0) as [E0|N0]; [|destruct (Z.eqb_spec (yty e) 3) as [E3|N3]]; cbn [negb andb orb]; auto; destruct b; auto.
    + destruct (f =? 0); [|destruct (f =? 1); [|destruct (f =? 2)]]; unfold mksimp, scale, yanc, ix, iy, iz; cbn [fst snd]; f_equal; apply simp4; lia.
    + destruct (f =? 0); [|destruct (f =? 1); [|destruct (f =? 2)]]; unfold mksimp, scale, yanc, ix, iy, iz; cbn [fst snd]; f_equal; apply simp4; lia.
Qed.

(** ** whether a tetrahedron touches a pyramid, from parent to child *)
Definition conn (cid t f : Z) : bool :=
  if ((cid =? 2) && negb (f =? 1)) || ((cid =? 6) && negb (f =? 2)) then t =? 0
  else if ((cid =? 1) && negb (f =? 1)) || ((cid =? 5) && negb (f =? 2)) then t =? 3
  else if cid =? 3 then negb (f =? 0)
  else if cid =? 4 then negb (f =? 3)
  else false.
Definition cf (t i : Z) (B : bool) (f : Z) : bool :=
  if 6 <=? t then conn (YC t i) (YT t i) f
  else B && negb (y_face_childid_to_is_inside f (type_cid_to_beyid true (YT t i) (YC t i)) =? -1).
Lemma y_corner_loop_walk p i f n k t : y_path (p ++ [i]) -> (k <= length p)%nat -> (n <= k)%nat ->
  y_corner_loop (y_walk (p ++ [i])) f n (Z.of_nat k) t = y_corner_loop (y_walk p) f n (Z.of_nat k) t.
Proof.
  revert k t. induction n as [|n IH]; intros k t Hp Hk Hn; [reflexivity|]. cbn [y_corner_loop]. destruct k as [|k]; [lia|].
  assert (Hp' := y_path_app Hp). assert (E : y_cubeid (y_walk (p ++ [i])) (Z.of_nat (S k)) = y_cubeid (y_walk p) (Z.of_nat (S k))).
  { assert (H1 := @y_cubeid_walk (p ++ [i]) k Hp ltac:(rewrite app_length; cbn [length]; lia)). assert (H2 := @y_cubeid_walk p k Hp' ltac:(lia)).
    rewrite H1, H2. rewrite firstn_app. replace (k - length p)%nat with 0%nat by lia. cbn [firstn]. rewrite app_nil_r, app_nth1 by lia. reflexivity. }
  rewrite E. destruct (_ =? -1); [reflexivity|]. replace (Z.of_nat (S k) - 1) with (Z.of_nat k) by lia. apply IH; auto; lia.
Qed.
Lemma flag_child p i f : y_path (p ++ [i]) -> is_pyra (y_walk (p ++ [i])) = false ->
  y_tet_boundary (y_walk (p ++ [i])) f = cf (yty (y_walk p)) i (y_tet_boundary (y_walk p) f) f.
Proof.
  intros Hp Ht. assert (Hp' := y_path_app Hp). destruct (y_walk_wf Hp) as [W L]. destruct (y_walk_wf Hp') as [W' L'].
  assert (HZ : zlen (p ++ [i]) = zlen p + 1) by (rewrite zlen_app; reflexivity).
  assert (HL : (length p < length (p ++ [i]))%nat) by (rewrite app_length; cbn [length]; lia).
  assert (HC := y_cubeid_walk Hp HL). rewrite firstn_app, firstn_all, Nat.sub_diag in HC. cbn [firstn] in HC. rewrite app_nil_r, nth_middle in HC.
  assert (PS := Hp). apply y_path_snoc in PS. destruct PS as (_ & Hl & Hi). destruct (@ywf_child _ i W' ltac:(lia) Hi) as (_ & _ & TC). rewrite <- y_walk_snoc in TC.
  assert (SW := @y_child_step (y_walk p) i (yw_ty W') ltac:(lia) Hi). rewrite <- y_walk_snoc in SW. assert (SW' := f_equal ysw SW). cbn [ysw] in SW'. unfold child_sw in SW'.
  replace (Z.of_nat (S (length p))) with (zlen p + 1) in HC by (unfold zlen; lia).
  unfold y_tet_boundary at 1, cf. apply is_tet_iff in Ht.
  assert (HK : forall e, y_tet_pyra_face_connection e f = conn (y_cubeid e (ylv e)) (yty e) f) by reflexivity.
  destruct (is_pyra (y_walk p)) eqn:EP.
  - apply is_pyra_iff in EP. destruct (Z.leb_spec 6 (yty (y_walk p))); [|lia]. rewrite <- TC in SW'. destruct (Z.ltb_spec (yty (y_walk (p ++ [i]))) 6); [|lia].
    rewrite L, SW', L', HZ, Z.eqb_refl, HK, L, HZ, HC, TC. reflexivity.
  - assert (EPb := EP). apply is_tet_iff in EP. destruct (Z.leb_spec 6 (yty (y_walk p))); [lia|]. rewrite SW', L, HZ.
    destruct (@y_sw_spec p Hp' EPb) as (S1 & S2). destruct (Z.eqb_spec (zlen p + 1) (ysw (y_walk p))); [lia|].
    replace (ysw (y_walk p)) with (Z.of_nat (Z.to_nat (ysw (y_walk p)))) by lia. set (s := Z.to_nat (ysw (y_walk p))) in *.
    assert (Hs : (s <= length p)%nat) by (subst s; unfold zlen in *; lia).
    rewrite !y_ancestor_walk by (auto; lia). rewrite firstn_app. replace (s - length p)%nat with 0%nat by lia. cbn [firstn]. rewrite app_nil_r.
    assert (Hf := @y_path_firstn _ s Hp'). destruct (y_walk_wf Hf) as [Wf Lf]. rewrite zlen_firstn_le in Lf by lia. rewrite Lf.
    replace (Z.to_nat (zlen p + 1 - Z.of_nat s)) with (S (length p - s)) by (unfold zlen in *; lia). cbn [y_corner_loop]. rewrite HC.
    assert (PT : cid_type_to_parenttype true (YC (yty (y_walk p)) i) (yty (y_walk (p ++ [i]))) = yty (y_walk p)).
    { rewrite TC. assert (Hi' := Hi). rewrite nch_num in Hi'. unfold nch in Hi'. destruct (Z.ltb_spec (yty (y_walk p)) 6); [|lia]. assert (YR := yw_ty W').
      destruct (@tab_tet (yty (y_walk p)) i ltac:(lia) Hi') as [-> ->].
      assert (A : all2 6 8 (fun t i => cid_type_to_parenttype true (Tc true t i) (Tt true t i) =? t) = true) by (vm_compute; reflexivity).
      assert (B := @all2_spec _ _ _ A (yty (y_walk p)) i ltac:(lia) Hi'). cbv beta in B. lia. }
    rewrite PT. rewrite TC. replace (zlen p + 1 - 1) with (Z.of_nat (length p)) by (unfold zlen; lia). rewrite y_corner_loop_walk by (auto; lia).
    unfold y_tet_boundary. rewrite L'. replace (ysw (y_walk p)) with (Z.of_nat s) by (subst s; lia). rewrite y_ancestor_walk by (auto; lia). rewrite Lf.
    replace (Z.to_nat (zlen p - Z.of_nat s)) with (length p - s)%nat by (unfold zlen in *; lia).
    destruct (Z.eqb_spec (zlen p) (Z.of_nat s)) as [ES|NS].
    + replace (length p - s)%nat with 0%nat by (unfold zlen in *; lia). cbn [y_corner_loop]. rewrite firstn_all2 by (unfold zlen in *; lia).
      destruct (y_tet_pyra_face_connection (y_walk p) f), (_ =? -1); reflexivity.
    + fold (zlen p). destruct (y_tet_pyra_face_connection (y_walk (firstn s p)) f), (_ =? -1); cbn [andb negb]; try reflexivity; rewrite ?andb_true_r, ?andb_false_r; reflexivity.
Qed.

(** ** tables of faces of children *)
Definition uC (t i : Z) : ipt := ubits true (YC t i).
(** every corner of the face f of the child i is the midpoint of two corners of the face F of the parent, in units of the child's length *)
Definition subt (t i f F : Z) : bool :=
  forallb (fun v => existsb (fun a => existsb (fun b => ieqb (iadd (uC t i) (yucoord (YT t i) v)) (iadd (yucoord t a) (yucoord t b))) (fcn t F)) (fcn t F)) (fcn (YT t i) f).
(** the face of the parent that contains the face f of the child i, or -1 *)
Definition pft (t i f : Z) : Z := match filter (subt t i f) (zseq 0 (Z.to_nat (nf t))) with F :: _ => F | [] => -1 end.
Lemma pft_range t i f : pft t i f = -1 \/ (0 <= pft t i f < nf t /\ subt t i f (pft t i f) = true).
Proof.
  unfold pft. destruct (filter _ _) as [|F l] eqn:E; [now left|]. right. assert (H : In F (filter (subt t i f) (zseq 0 (Z.to_nat (nf t))))) by (rewrite E; now left).
  apply filter_In in H. destruct H as [H1 H2]. apply in_zseq in H1. assert (0 <= nf t) by (unfold nf; destruct (t <? 6); lia). split; [lia|exact H2].
Qed.
Definition ineg (a : ipt) : ipt := (- ix a, - iy a, - iz a).
Definition idbl (a : ipt) : ipt := (2 * ix a, 2 * iy a, 2 * iz a).
Definition nb_eqb (a b : ipt * Z * Z) : bool := ieqb (fst (fst a)) (fst (fst b)) && (snd (fst a) =? snd (fst b)) && (snd a =? snd b).
Lemma nb_eqb_eq a b : nb_eqb a b = true <-> a = b.
Proof.
  destruct a as [[o t] g], b as [[o' t'] g']. unfold nb_eqb; cbn [fst snd]. rewrite !andb_true_iff, ieqb_eq, !Z.eqb_eq. split; [intros [[-> ->] ->]; reflexivity|].
  intros H. assert (H1 := f_equal (fun x => fst (fst x)) H). assert (H2 := f_equal (fun x => snd (fst x)) H). assert (H3 := f_equal snd H). cbn [fst snd] in *. auto.
Qed.
Definition inner_ok (t i f : Z) : bool :=
  if pft t i f =? -1 then
    let '(o, t', g) := nbt (YT t i) (cf t i false f) f in
    existsb (fun j => (YT t j =? t') && ieqb (iadd (uC t i) o) (uC t j) && (0 <=? g) && (g <? nf t') && (pft t j g =? -1) && nb_eqb (nbt t' (cf t j false g) g) (ineg o, YT t i, f))
      (zseq 0 (Z.to_nat (nch t)))
  else true.
Definition outer_ok (B B' : bool) (t i f : Z) : bool :=
  let F := pft t i f in
  if F =? -1 then true else
  let '(D, t', G) := nbt t B F in
  if nb_eqb (nbt t' B' G) (ineg D, t, F) then
    let '(o, s, g) := nbt (YT t i) (cf t i B f) f in
    existsb (fun k => (YT t' k =? s) && ieqb (iadd (uC t i) o) (iadd (idbl D) (uC t' k)) && (0 <=? g) && (g <? nf s) && (pft t' k g =? G) && nb_eqb (nbt s (cf t' k B' g) g) (ineg o, YT t i, f))
      (zseq 0 (Z.to_nat (nch t')))
  else true.
(** a face of a child that touches a pyramid because the parent does is part of the face of the same number *)
Definition same_ok (t i f : Z) : bool :=
  if (6 <=? t) || (YT t i =? 0) || (YT t i =? 3) then
    if 6 <=? t then (if (pft t i f =? -1) || (6 <=? YT t i) then true else negb (conn (YC t i) (YT t i) f))
    else if cf t i true f then (pft t i f =? f) && (YT t i =? t) else true
  else true.
Definition vert_ok (t i : Z) : bool :=
  forallb (fun v => existsb (fun a => existsb (fun b => ieqb (iadd (uC t i) (yucoord (YT t i) v)) (iadd (yucoord t a) (yucoord t b))) (zseq 0 (Z.to_nat (nc t)))) (zseq 0 (Z.to_nat (nc t)))) (zseq 0 (Z.to_nat (nc (YT t i)))).
Definition share_ok (b : bool) (t f : Z) : bool :=
  let '(o, t', g) := nbt t b f in
  (0 <=? t') && (t' <? 8) && (0 <=? g) && (g <? nf t') &&
  let m := map (fun v => iadd o (yucoord t' v)) (fcn t' g) in let l := map (yucoord t) (fcn t f) in inclb l m && inclb m l.
(** the linear part of the (nonnegative) distance to the plane of the root face rf *)
Definition lin (rf : Z) (u : ipt) : Z :=
  if rf =? 0 then ix u - iz u else if rf =? 1 then - ix u else if rf =? 2 then iy u - iz u else if rf =? 3 then - iy u else iz u.
Definition cst (rf : Z) : Z := if rf =? 1 then YROOT else if rf =? 3 then YROOT else 0.
Definition excl_ok (b : bool) (rf t f : Z) : bool :=
  let '(o, t', g) := nbt t b f in
  let c := lin rf (yucoord t (hd 0 (fcn t f))) in
  negb (forallb (fun v => lin rf (yucoord t v) =? c) (fcn t f)) || existsb (fun v => lin rf (yucoord t v) <? c) (zseq 0 (Z.to_nat (nc t))) ||
  existsb (fun v => lin rf (iadd o (yucoord t' v)) <? c) (zseq 0 (Z.to_nat (nc t'))).
Lemma tab_inner t i f : 0 <= t < 8 -> 0 <= i < nch t -> 0 <= f < nf (YT t i) -> inner_ok t i f = true.
Proof. apply all_tif_spec. vm_compute. reflexivity. Qed.
Lemma tab_outer B B' t i f : 0 <= t < 8 -> 0 <= i < nch t -> 0 <= f < nf (YT t i) -> outer_ok B B' t i f = true.
Proof. destruct B, B'; apply all_tif_spec; vm_compute; reflexivity. Qed.
Lemma tab_same t i f : 0 <= t < 8 -> 0 <= i < nch t -> 0 <= f < nf (YT t i) -> same_ok t i f = true.
Proof. apply all_tif_spec. vm_compute. reflexivity. Qed.
Lemma tab_vert t i : 0 <= t < 8 -> 0 <= i < nch t -> vert_ok t i = true.
Proof. apply all_ti_spec. vm_compute. reflexivity. Qed.
Lemma tab_share b t f : 0 <= t < 8 -> 0 <= f < nf t -> share_ok b t f = true.
Proof. destruct b; apply all_tf_spec; vm_compute; reflexivity. Qed.
Lemma tab_excl b rf t f : 0 <= rf < 5 -> 0 <= t < 8 -> 0 <= f < nf t -> excl_ok b rf t f = true.
Proof. intros H. split_range H; destruct b; apply all_tf_spec; vm_compute; reflexivity. Qed.

(** ** children in units *)
Lemma y_child_unit p i : y_path (p ++ [i]) -> let e := y_walk p in let c := y_walk (p ++ [i]) in
  0 <= yty e < 8 /\ 0 <= i < nch (yty e) /\ ylv e = zlen p /\ zlen p < 21 /\ ylv c = ylv e + 1 /\ yty c = YT (yty e) i /\
  yanc c = scale (YLEN (ylv c)) (yanc e) (uC (yty e) i) /\ YLEN (ylv e) = 2 * YLEN (ylv c) /\ 0 < YLEN (ylv c).
Proof.
  intros Hp. cbv zeta. assert (PS := Hp). apply y_path_snoc in PS. destruct PS as (Hp' & Hl & Hi). destruct (y_walk_wf Hp') as [W L]. rewrite y_walk_snoc.
  destruct (@ywf_child _ i W ltac:(lia) Hi) as (Wc & Lc & Tc). split; [apply W|]. split; [now rewrite <- nch_num|]. split; [exact L|]. split; [exact Hl|]. split; [exact Lc|]. split; [exact Tc|].
  rewrite Lc. split; [|split; [apply YLEN_half; lia|rewrite YLEN_pow by lia; apply pow2_pos; lia]].
  assert (EP : 2 ^ (MAXLEVEL true - lv (yt (y_walk p)) - 1) = YLEN (ylv (y_walk p) + 1)) by (rewrite YLEN_pow by lia; change (MAXLEVEL true) with 21; unfold ylv; f_equal; lia).
  unfold yanc, yx, yy, yz. rewrite y_child_step by (auto; try apply W; lia). unfold scale, uC, ubits, ix, iy, iz; cbn [yt step sx sy sz fst snd]. rewrite EP. f_equal; [f_equal|]; lia.
Qed.
Lemma nbt_flag t b b' f : t <> 0 -> t <> 3 -> nbt t b f = nbt t b' f.
Proof. intros H0 H3. unfold nbt. destruct (Z.eqb_spec t 0); [lia|]. destruct (Z.eqb_spec t 3); [lia|]. reflexivity. Qed.
Lemma nbt_child p i f : y_path (p ++ [i]) -> let t := yty (y_walk p) in 0 <= f < nf (YT t i) ->
  nbt (YT t i) (y_tet_boundary (y_walk (p ++ [i])) f) f = nbt (YT t i) (cf t i (if pft t i f =? -1 then false else y_tet_boundary (y_walk p) (pft t i f)) f) f.
Proof.
  intros Hp t Hf. destruct (y_child_unit Hp) as (Ht & Hi & _ & _ & _ & Tc & _). fold t in Ht, Hi, Tc.
  destruct (Z.eq_dec (YT t i) 0) as [E0|N0]; [|destruct (Z.eq_dec (YT t i) 3) as [E3|N3]; [|now apply nbt_flag]].
  1,2: rewrite flag_child by (auto; apply is_tet_iff; lia); fold t; f_equal; assert (S := tab_same Ht Hi Hf); unfold same_ok in S; unfold cf at 1 2;
    destruct (Z.leb_spec 6 t); [reflexivity|]; cbn [orb] in S; rewrite ?E0, ?E3 in S; cbn [Z.eqb orb] in S;
    assert (CT : cf t i true f = negb (y_face_childid_to_is_inside f (type_cid_to_beyid true (YT t i) (YC t i)) =? -1)) by (unfold cf; destruct (Z.leb_spec 6 t); [lia|reflexivity]);
    rewrite <- CT; destruct (cf t i true f); [|now rewrite !andb_false_r];
    apply andb_prop in S; destruct S as [S _]; apply Z.eqb_eq in S; rewrite S; destruct (Z.eqb_spec f (-1)); [lia|reflexivity].
Qed.
Lemma lin_scale rf h a u : lin rf (scale h a u) = lin rf a + h * lin rf u.
Proof. unfold lin, scale, ix, iy, iz; cbn [fst snd]. destruct (rf =? 0), (rf =? 1), (rf =? 2), (rf =? 3); lia. Qed.
Lemma lin_add rf u v : lin rf (iadd u v) = lin rf u + lin rf v.
Proof. unfold lin, iadd, ix, iy, iz; cbn [fst snd]. destruct (rf =? 0), (rf =? 1), (rf =? 2), (rf =? 3); lia. Qed.
(** the element is on the inner side of the planes of the root *)
Definition nonneg (e : pyr) : Prop := forall v rf, 0 <= v < nc (yty e) -> 0 <= lin rf (scale (YLEN (ylv e)) (yanc e) (yucoord (yty e) v)) + cst rf.
Lemma y_nonneg p : y_path p -> nonneg (y_walk p).
Proof.
  induction p as [|i p IH] using rev_ind; intros Hp v rf Hv.
  - assert (H5 : 0 <= v < 5) by exact Hv. unfold lin, cst. change (yty (y_walk [])) with 6. change (YLEN (ylv (y_walk []))) with 2097152. change (yanc (y_walk [])) with (0, 0, 0). change YROOT with 2097152.
    split_range H5; unfold yucoord, scale, ix, iy, iz; cbn [fst snd Z.ltb Z.compare Pos.compare Pos.compare_cont Z.eqb Pos.eqb]; eval_uy;
      destruct (Z.eqb_spec rf 0), (Z.eqb_spec rf 1), (Z.eqb_spec rf 2), (Z.eqb_spec rf 3); try (exfalso; lia); vm_compute; discriminate.
  - assert (Hp' := y_path_app Hp). specialize (IH Hp'). destruct (y_child_unit Hp) as (Ht & Hi & _ & _ & Lc & Tc & Ac & HL & HP).
    assert (V := tab_vert Ht Hi). unfold vert_ok in V. rewrite forallb_forall in V. rewrite Tc in *. specialize (V v ltac:(apply in_zseq; lia)).
    apply existsb_exists in V. destruct V as (a & Ha & V). apply existsb_exists in V. destruct V as (b & Hb & V). apply ieqb_eq in V.
    assert (nc0 : 0 <= nc (yty (y_walk p))) by (unfold nc; destruct (_ <? 6); lia). apply in_zseq in Ha, Hb.
    assert (A := IH a rf ltac:(lia)). assert (B := IH b rf ltac:(lia)). rewrite Ac, scale_scale, V, lin_scale, lin_add. rewrite lin_scale, HL in A, B. nia.
Qed.
Definition on_plane (e : pyr) (f rf : Z) : Prop := forall v, In v (fcn (yty e) f) -> lin rf (scale (YLEN (ylv e)) (yanc e) (yucoord (yty e) v)) + cst rf = 0.
Lemma subt_plane p i f F rf : y_path (p ++ [i]) -> subt (yty (y_walk p)) i f F = true -> on_plane (y_walk p) F rf -> on_plane (y_walk (p ++ [i])) f rf.
Proof.
  intros Hp HS HP v Hv. destruct (y_child_unit Hp) as (Ht & Hi & _ & _ & Lc & Tc & Ac & HL & HPo). rewrite Tc in *. unfold subt in HS. rewrite forallb_forall in HS. specialize (HS v Hv).
  apply existsb_exists in HS. destruct HS as (a & Ha & HS). apply existsb_exists in HS. destruct HS as (b & Hb & HS). apply ieqb_eq in HS.
  assert (A := HP a Ha). assert (B := HP b Hb). rewrite Ac, scale_scale, HS, lin_scale, lin_add. rewrite lin_scale, HL in A, B. nia.
Qed.
Lemma scale_dbl g a d c : scale g (scale (2 * g) a d) c = scale g a (iadd (idbl d) c).
Proof. unfold scale, iadd, idbl, ix, iy, iz; cbn [fst snd]. f_equal; [f_equal|]; lia. Qed.
Definition has_nb (p : list Z) (f : Z) (o : ipt) (t' g : Z) : Prop :=
  exists q, y_path q /\ zlen q = zlen p /\ yty (y_walk q) = t' /\ yanc (y_walk q) = scale (YLEN (ylv (y_walk p))) (yanc (y_walk p)) o /\
    nbt t' (y_tet_boundary (y_walk q) g) g = (ineg o, yty (y_walk p), f).
Lemma y_nb_main p : y_path p -> forall f, 0 <= f < nf (yty (y_walk p)) ->
  let '(o, t', g) := nbt (yty (y_walk p)) (y_tet_boundary (y_walk p) f) f in
  has_nb p f o t' g \/
  ((exists rf, 0 <= rf < 5 /\ on_plane (y_walk p) f rf) /\ (yty (y_walk p) = 0 \/ yty (y_walk p) = 3 -> y_tet_boundary (y_walk p) f = false)).
Proof.
  induction p as [|i p IH] using rev_ind; intros Hp f Hf.
  - destruct (nbt _ _ f) as [[o t'] g]. right. change (yty (y_walk [])) with 6 in *. change (nf 6) with 5 in Hf. split; [|intros [|]; lia]. exists f. split; [exact Hf|].
    intros v Hv. change (yty (y_walk [])) with 6 in *. split_range Hf; vm_compute in Hv; repeat destruct Hv as [<-|Hv]; try destruct Hv; vm_compute; reflexivity.
  - assert (Hp' := y_path_app Hp). specialize (IH Hp'). destruct (y_child_unit Hp) as (Ht & Hi & L & Hl & Lc & Tc & Ac & HL & HP).
    assert (NB := @nbt_child p i f Hp). cbv zeta in NB. rewrite Tc in *. specialize (NB Hf). set (t := yty (y_walk p)) in *. set (c := y_walk (p ++ [i])) in *. set (g' := YLEN (ylv c)) in *.
    assert (HZ : zlen (p ++ [i]) = zlen p + 1) by (rewrite zlen_app; reflexivity).
    destruct (Z.eqb_spec (pft t i f) (-1)) as [EF|NF].
    + rewrite NB. assert (T := tab_inner Ht Hi Hf). unfold inner_ok in T. rewrite EF, Z.eqb_refl in T. destruct (nbt (YT t i) (cf t i false f) f) as [[o t'] g] eqn:EN. left.
      apply existsb_exists in T. destruct T as (j & Hj & T). apply in_zseq in Hj. rewrite !andb_true_iff in T. destruct T as (((((T1 & T2) & T3) & T4) & T5) & T6).
      apply Z.eqb_eq in T1, T5. apply ieqb_eq in T2. apply nb_eqb_eq in T6. assert (Hj' : 0 <= j < nch t) by (unfold nch in *; destruct (t <? 6); lia).
      assert (Hq : y_path (p ++ [j])) by (apply y_path_snoc; split; [exact Hp'|]; split; [exact Hl|]; now rewrite nch_num).
      destruct (y_child_unit Hq) as (_ & _ & _ & _ & Lj & Tj & Aj & _). fold t in Tj, Aj. exists (p ++ [j]). split; [exact Hq|]. split; [now rewrite !zlen_app|]. split; [congruence|]. split.
      * fold c. fold g'. rewrite Aj, Ac, scale_scale, T2. subst g'. now rewrite Lj, Lc.
      * fold c. rewrite Tc. rewrite <- T1. assert (NBj := @nbt_child p j g Hq). cbv zeta in NBj. fold t in NBj. rewrite T5 in NBj. cbn [Z.eqb Pos.eqb] in NBj. rewrite NBj by (rewrite T1; lia). rewrite T1. exact T6.
    + destruct (pft_range t i f) as [|[RF SF]]; [lia|]. specialize (IH (pft t i f) RF). rewrite NB. assert (T := @tab_outer (y_tet_boundary (y_walk p) (pft t i f))).
      destruct (nbt t (y_tet_boundary (y_walk p) (pft t i f)) (pft t i f)) as [[D s] G] eqn:ED.
      destruct (nbt (YT t i) (cf t i (y_tet_boundary (y_walk p) (pft t i f)) f) f) as [[o t'] g] eqn:EN.
      destruct IH as [(q & Hq & Lq & Tq & Aq & Nq)|[(rf & Hrf & Pl) Fl]].
      * left. fold t in Nq. specialize (T (y_tet_boundary (y_walk q) G) t i f Ht Hi Hf). unfold outer_ok in T. destruct (Z.eqb_spec (pft t i f) (-1)); [lia|]. rewrite ED, Nq in T.
        rewrite (proj2 (nb_eqb_eq _ _) eq_refl) in T. rewrite EN in T. apply existsb_exists in T. destruct T as (k & Hk & T). apply in_zseq in Hk. rewrite !andb_true_iff in T. destruct T as (((((T1 & T2) & T3) & T4) & T5) & T6).
        apply Z.eqb_eq in T1, T5. apply ieqb_eq in T2. apply nb_eqb_eq in T6. assert (Hk' : 0 <= k < nch s) by (unfold nch in *; destruct (s <? 6); lia).
        assert (Hqk : y_path (q ++ [k])) by (apply y_path_snoc; split; [exact Hq|]; split; [lia|]; now rewrite nch_num, Tq).
        destruct (y_child_unit Hqk) as (_ & _ & Lqq & _ & Lk & Tk & Ak & _). rewrite Tq in Tk, Ak. exists (q ++ [k]). split; [exact Hqk|]. split; [rewrite !zlen_app, Lq; reflexivity|]. split; [congruence|].
        assert (EL : ylv (y_walk (q ++ [k])) = ylv c) by lia. split.
        -- fold c. fold g'. rewrite Ak, Aq, EL, HL. fold g'. rewrite scale_dbl, <- T2, Ac, scale_scale. reflexivity.
        -- fold c. rewrite Tc. rewrite <- T1. assert (NBk := @nbt_child q k g Hqk). cbv zeta in NBk. rewrite Tq in NBk. rewrite NBk by (rewrite T1; lia). rewrite T5.
           destruct (Z.eqb_spec G (-1)) as [EG|_]; [|rewrite T1; exact T6]. exfalso. destruct (pft_range s k g) as [H|[H _]]; [|lia].
           assert (SH := @tab_share (y_tet_boundary (y_walk p) (pft t i f)) t (pft t i f) Ht RF). unfold share_ok in SH. rewrite ED in SH. lia.
      * right. split; [exists rf; split; [exact Hrf|]; exact (subt_plane Hp SF Pl)|]. intros H03. subst c. rewrite flag_child by (auto; apply is_tet_iff; rewrite Tc; lia). fold t.
        assert (SM := tab_same Ht Hi Hf). unfold same_ok in SM. destruct (Z.leb_spec 6 t).
        -- cbn [orb] in SM. destruct (Z.eqb_spec (pft t i f) (-1)); [lia|]. destruct (Z.leb_spec 6 (YT t i)); [lia|]. cbn [orb] in SM. unfold cf. destruct (Z.leb_spec 6 t); [|lia]. now apply negb_true_iff.
        -- cbn [orb] in SM. replace ((YT t i =? 0) || (YT t i =? 3)) with true in SM by lia. destruct (cf t i true f) eqn:C1.
           ++ apply andb_prop in SM. destruct SM as [S1 S2]. apply Z.eqb_eq in S1, S2. rewrite S1 in Fl. rewrite S2 in H03. specialize (Fl H03). unfold cf. destruct (Z.leb_spec 6 t); [lia|]. rewrite Fl. reflexivity.
           ++ unfold cf in *. destruct (Z.leb_spec 6 t); [lia|]. cbn [andb] in C1. rewrite C1. apply andb_false_r.
Qed.

(** ** the boundary of the root *)
Lemma on_plane_iff e f rf : 0 <= yty e < 8 -> 0 <= f < nf (yty e) -> 0 <= rf < 5 -> (on_plane e f rf <-> forall v, In v (y_face_vertices e f) -> y_on_root_plane rf v).
Proof.
  intros Ht Hf Hrf. rewrite y_face_vertices_unit by assumption. unfold on_plane.
  assert (E : forall v, y_on_root_plane rf v <-> lin rf v + cst rf = 0).
  { intros v. unfold y_on_root_plane, lin, cst. split_range Hrf; cbn [Z.eqb Pos.eqb]; lia. }
  split.
  - intros H v Hv. apply in_map_iff in Hv. destruct Hv as (u & <- & Hu). apply E. now apply H.
  - intros H v Hv. apply E. apply H. apply in_map_iff. eauto.
Qed.
Lemma nb_off_plane p q f rf b o g : y_path p -> y_path q -> 0 <= f < nf (yty (y_walk p)) -> 0 <= rf < 5 -> ylv (y_walk q) = ylv (y_walk p) ->
  nbt (yty (y_walk p)) b f = (o, yty (y_walk q), g) -> yanc (y_walk q) = scale (YLEN (ylv (y_walk p))) (yanc (y_walk p)) o -> ~ on_plane (y_walk p) f rf.
Proof.
  intros Hp Hq Hf Hrf EL EN EA Pl. assert (N1 := y_nonneg Hp). assert (N2 := y_nonneg Hq). destruct (y_walk_wf Hp) as [W L]. assert (Ht := yw_ty W). assert (LE := y_path_len Hp).
  assert (T := @tab_excl b rf _ _ Hrf Ht Hf). unfold excl_ok in T. rewrite EN in T. unfold nonneg in *. rewrite EL, EA in N2.
  set (t := yty (y_walk p)) in *. set (t' := yty (y_walk q)) in *. set (h := YLEN (ylv (y_walk p))) in *. set (a := yanc (y_walk p)) in *. unfold on_plane in Pl. fold t h a in Pl.
  assert (HP : 0 < h) by (subst h; rewrite YLEN_pow by lia; apply pow2_pos; lia).
  assert (nc0 : forall t, 0 <= nc t) by (intros; unfold nc; destruct (_ <? 6); lia).
  assert (HD : In (hd 0 (fcn t f)) (fcn t f)).
  { assert (A : all_tf (fun t f => match fcn t f with [] => false | _ => true end) = true) by (vm_compute; reflexivity). assert (B := all_tf_spec A Ht Hf). cbv beta in B. destruct (fcn t f); [discriminate|now left]. }
  assert (P0 := Pl _ HD). rewrite lin_scale in P0. set (c := lin rf (yucoord t (hd 0 (fcn t f)))) in *.
  rewrite !orb_true_iff in T. destruct T as [[T|T]|T].
  - apply negb_true_iff in T. assert (F : forallb (fun v => lin rf (yucoord t v) =? c) (fcn t f) = true); [|congruence].
    apply forallb_forall. intros v Hv. apply Z.eqb_eq. assert (P1 := Pl _ Hv). rewrite lin_scale in P1. nia.
  - apply existsb_exists in T. destruct T as (v & Hv & T). apply in_zseq in Hv. specialize (nc0 t). assert (P1 := N1 v rf ltac:(lia)). rewrite lin_scale in P1. apply Z.ltb_lt in T. nia.
  - apply existsb_exists in T. destruct T as (v & Hv & T). apply in_zseq in Hv. specialize (nc0 t'). assert (P1 := N2 v rf ltac:(lia)). rewrite scale_scale, lin_scale in P1. apply Z.ltb_lt in T. nia.
Qed.
Ltac lin_lits := repeat match goal with
  | |- context [lin ?r (yucoord ?t ?v)] => let k := eval vm_compute in (lin r (yucoord t v)) in is_lit k; change (lin r (yucoord t v)) with k
  | H : context [lin ?r (yucoord ?t ?v)] |- _ => let k := eval vm_compute in (lin r (yucoord t v)) in is_lit k; change (lin r (yucoord t v)) with k in H
  end.
(** the inequalities of an element inside of the root, with its coordinates x, y, z and its length h *)
Lemma nonneg_list e : nonneg e -> 0 <= yty e < 8 ->
  Forall (fun v => Forall (fun rf => 0 <= lin rf (yanc e) + YLEN (ylv e) * lin rf (yucoord (yty e) v) + cst rf) [0;1;2;3;4]) (zseq 0 (Z.to_nat (nc (yty e)))).
Proof.
  intros H Ht. apply Forall_forall. intros v Hv. apply in_zseq in Hv. assert (0 <= nc (yty e)) by (unfold nc; destruct (_ <? 6); lia). apply Forall_forall. intros rf _.
  specialize (H v rf ltac:(lia)). now rewrite lin_scale in H.
Qed.
Lemma y_inside_nonneg e : nonneg e -> 0 <= yty e < 8 -> 0 < ylv e <= 21 -> y_is_inside_root (yt e) = true.
Proof.
  intros HN Ht Hl. apply nonneg_list in HN; [|exact Ht]. assert (HP : 0 < YLEN (ylv e)) by (rewrite YLEN_pow by lia; apply pow2_pos; lia).
  unfold y_is_inside_root. fold (ylv e) (yty e) (yx e) (yy e) (yz e). destruct (Z.eqb_spec (ylv e) 0); [lia|].
  unfold yanc in HN. set (h := YLEN (ylv e)) in *. set (x := yx e) in *. set (y := yy e) in *. set (z := yz e) in *. clearbody h x y z. clear Hl. set (t := yty e) in *. clearbody t.
  assert (K : (0 <= z /\ z < YROOT /\ z <= x /\ x < YROOT /\ z <= y /\ y < YROOT) /\ ((x = z -> t <> 3 /\ t <> 5) /\ (y = z -> t <> 0 /\ t <> 4))).
  { unfold cst in HN. remember YROOT as R eqn:ER. clear ER.
    split_range Ht; [change (nc 0) with 4 in HN|change (nc 1) with 4 in HN|change (nc 2) with 4 in HN|change (nc 3) with 4 in HN|change (nc 4) with 4 in HN|change (nc 5) with 4 in HN|change (nc 6) with 5 in HN|change (nc 7) with 5 in HN];
    match type of HN with context [zseq 0 ?n] => let l := eval vm_compute in (zseq 0 n) in change (zseq 0 n) with l in HN end;
    repeat match goal with H : Forall _ (_ :: _) |- _ => inversion_clear H end; repeat match goal with H : Forall _ [] |- _ => clear H end; lin_lits;
    unfold lin, ix, iy, iz in *; cbn [fst snd Z.eqb Pos.eqb] in *; lia. }
  destruct K as ((K1 & K2 & K3 & K4 & K5 & K6) & K7 & K8).
  replace ((0 <=? z) && (z <? YROOT) && (z <=? x) && (x <? YROOT) && (z <=? y) && (y <? YROOT)) with true by (clear K7 K8 HN; lia).
  destruct (Z.eqb_spec x z) as [E1|_], (Z.eqb_spec y z) as [E2|_]; cbn [andb orb]; try (destruct (K7 E1); destruct (Z.eqb_spec t 3); [lia|]; destruct (Z.eqb_spec t 5); [lia|]);
    try (destruct (K8 E2); destruct (Z.eqb_spec t 0); [lia|]; destruct (Z.eqb_spec t 4); [lia|]); reflexivity.
Qed.
Lemma y_walk_inside p : y_path p -> y_is_inside_root (yt (y_walk p)) = true.
Proof.
  intros Hp. destruct p as [|i p]; [reflexivity|]. destruct (y_walk_wf Hp) as [W L]. assert (LE := y_path_len Hp). apply y_inside_nonneg; [now apply y_nonneg|apply W|]. rewrite L in *. unfold zlen in *. cbn [length] in *. lia.
Qed.
Lemma on_plane_list e f rf : on_plane e f rf <-> Forall (fun v => lin rf (yanc e) + YLEN (ylv e) * lin rf (yucoord (yty e) v) + cst rf = 0) (fcn (yty e) f).
Proof. rewrite Forall_forall. unfold on_plane. split; intros H v Hv; specialize (H v Hv); rewrite lin_scale in *; exact H. Qed.
Lemma fa_nil {A} (P : A -> Prop) : Forall P [] <-> True. Proof. split; auto. Qed.
Lemma fa_cons {A} (P : A -> Prop) a l : Forall P (a :: l) <-> P a /\ Forall P l.
Proof. split; [intros H; inversion H; auto|intros [? ?]; auto]. Qed.
(** no tetrahedron of type 1 or 2 touches the bottom *)
Lemma y_bottom p : y_path p -> 0 <= yz (y_walk p) /\ (yz (y_walk p) = 0 -> yty (y_walk p) <> 1 /\ yty (y_walk p) <> 2).
Proof.
  induction p as [|i p IH] using rev_ind; intros Hp.
  - split; [vm_compute; discriminate|]. intros _. split; vm_compute; discriminate.
  - destruct (IH (y_path_app Hp)) as [Z0 Z1]. destruct (y_child_unit Hp) as (Ht & Hi & _ & _ & Lc & Tc & Ac & HL & HP). apply (f_equal iz) in Ac. unfold scale, yanc, uC, ubits, iz in Ac; cbn [fst snd] in Ac.
    rewrite Tc, Ac. set (t := yty (y_walk p)) in *. destruct (Z.testbit (YC t i) 2) eqn:EB; cbn [Z.b2z]; [split; nia|]. split; [lia|]. intros H. specialize (Z1 ltac:(lia)).
    assert (A : all_ti (fun t i => (t =? 1) || (t =? 2) || Z.testbit (YC t i) 2 || (negb (YT t i =? 1) && negb (YT t i =? 2))) = true) by (vm_compute; reflexivity).
    assert (B := all_ti_spec A Ht Hi). cbv beta in B. rewrite EB in B. lia.
Qed.
Lemma y_root_face_iff p f rf : y_path p -> 0 <= f < nf (yty (y_walk p)) -> 0 <= rf < 5 ->
  (on_plane (y_walk p) f rf <-> (y_is_root_boundary (y_walk p) f = true /\ rf = y_tree_face (y_walk p) f)).
Proof.
  intros Hp Hf Hrf. assert (HN := y_nonneg Hp). destruct (y_walk_wf Hp) as [W L]. assert (Ht := yw_ty W). assert (LE := y_path_len Hp). apply nonneg_list in HN; [|exact Ht].
  assert (HP : 0 < YLEN (ylv (y_walk p))) by (rewrite YLEN_pow by lia; apply pow2_pos; lia). assert (IR := y_walk_inside Hp). destruct (y_bottom Hp) as [_ YB].
  rewrite on_plane_list. unfold y_tree_face, y_is_root_boundary, is_pyra. rewrite IR. cbn [negb]. change FIRST_TYPE with 6. unfold yanc in *. unfold cst in *.
  set (h := YLEN (ylv (y_walk p))) in *. set (x := yx (y_walk p)) in *. set (y := yy (y_walk p)) in *. set (z := yz (y_walk p)) in *. set (t := yty (y_walk p)) in *. clearbody h x y z t.
  remember YROOT as R eqn:ER. clear ER Hp W IR L LE p.
  split_range Ht; [change (nc 0) with 4 in HN|change (nc 1) with 4 in HN|change (nc 2) with 4 in HN|change (nc 3) with 4 in HN|change (nc 4) with 4 in HN|change (nc 5) with 4 in HN|change (nc 6) with 5 in HN|change (nc 7) with 5 in HN];
    match type of HN with context [zseq 0 ?n] => let l := eval vm_compute in (zseq 0 n) in change (zseq 0 n) with l in HN end;
    [change (nf 0) with 4 in Hf|change (nf 1) with 4 in Hf|change (nf 2) with 4 in Hf|change (nf 3) with 4 in Hf|change (nf 4) with 4 in Hf|change (nf 5) with 4 in Hf|change (nf 6) with 5 in Hf|change (nf 7) with 5 in Hf];
    repeat match goal with H : Forall _ (_ :: _) |- _ => inversion_clear H end; repeat match goal with H : Forall _ [] |- _ => clear H end; lin_lits;
    unfold lin, ix, iy, iz in *; cbn [fst snd Z.eqb Pos.eqb orb andb negb Z.ltb Z.compare Pos.compare Pos.compare_cont] in *;
    split_range Hf; match goal with |- context [fcn ?a ?b] => let l := eval vm_compute in (fcn a b) in change (fcn a b) with l end;
    split_range Hrf; rewrite ?fa_cons, ?fa_nil; 
    repeat match goal with |- context [yucoord ?t ?v] => let k := eval vm_compute in (yucoord t v) in change (yucoord t v) with k end;
    cbn [fst snd Z.eqb Pos.eqb orb andb negb Z.ltb Z.compare Pos.compare Pos.compare_cont]; rewrite ?orb_false_r;
    repeat match goal with |- context [?a =? ?b] => destruct (Z.eqb_spec a b) end; cbn [orb]; (split; [intros; split; lia|intros [? ?]; first [discriminate|lia]]).
Qed.

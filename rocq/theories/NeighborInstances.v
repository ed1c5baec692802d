(** The neighbours at the faces of meshes of lines, of triangles and of tetrahedra. *)
From Verif Require Import Prelude PathSpec GeoSpec SchemeModel SchemeSpec SchemeProofs SchemeInstances FaceModel FaceSpec FaceProofs FaceInstances NeighborModel NeighborSpec NeighborProofs.
From Verif Require Import BitLemmas SimplexModel SimplexSpec SimplexProofs SimplexPathProofs SimplexGeoProofs SimplexAncProofs SimplexTileProofs SimplexFaceProofs SimplexFaceChildProofs LineModel LineSpec LineProofs BoundaryProofs TransformProofs EclassModel.

(** ** lines *)
Lemma line_crossing_ok NO : @crossing_ok line_scheme line_faces line_crossing 2 NO l_is_root_boundary (fun b L => b = L) (fun b _ => b + 1) 1.
Proof.
  assert (AL : forall e, lwf e -> laligned e) by (intros e [W1 W2 W3]; split; auto).
  assert (IN : forall e, lwf e -> l_is_inside_root e = true) by (intros e W; apply (l_is_inside_root_iff (AL e W)); now apply l_wf_walk).
  assert (OUT : forall e f, lwf e -> 0 <= f < 2 -> l_is_root_boundary e f = negb (l_is_inside_root (fst (l_face_neighbour e f)))).
  { intros e f W Hf. destruct (l_wf_walk W) as (p & Hp & ->). assert (H := l_root_boundary_neighbour Hp Hf). destruct H as [H1 H2]. destruct (l_is_root_boundary _ f), (l_is_inside_root _); try reflexivity; [discriminate (H1 eq_refl)|discriminate (H2 eq_refl)]. }
  assert (HALF : forall l, l < LMAX -> LLEN l = 2 * LLEN (l + 1)). { intros l H. rewrite !LLEN_pow by lia. rewrite <- pow2_S by lia. f_equal. lia. }
  constructor; cbn [x_neighbor x_inside x_tree_face x_boundary x_transform x_extrude line_crossing].
  - intros e V. apply line_valid in V. now apply IN.
  - intros e f V Hf. apply line_valid in V. now apply OUT.
  - intros e f V Hf R. change (0 <= f < 2) in Hf. apply line_valid in V. rewrite (OUT e f V Hf) in R. assert (N := l_face_neighbour_spec (AL e V) Hf). destruct (l_face_neighbour e f) as [n g]. cbn [fst] in R. destruct N as (N1 & N2 & N3 & _ & _ & N6).
    split; [|split; [exact N2|split; [exact N3|exact N6]]]. apply line_valid. destruct (l_is_inside_root n) eqn:I; [|discriminate]. apply (l_is_inside_root_iff N1) in I. destruct I as (p & Hp & ->). apply (l_walk_wf Hp).
  - intros e f c g V HL Hf R Hc. change (0 <= f < 2) in Hf. apply line_valid in V. rewrite line_face_children in Hc |- *. destruct Hc as [Hc|[]]. injection Hc as <- <-. left. unfold l_face_neighbour, l_child. cbn [fst snd ll lx]. change (ll e < LMAX) in HL. rewrite (HALF _ HL). set (h := LLEN (ll e + 1)). clearbody h.
    assert (f = 0 \/ f = 1) as [-> | ->] by lia; cbn [Z.eqb Z.sub Z.opp Z.add Z.pos_sub]; do 2 f_equal; lia.
  - intros e f c g V HL Hf R Hc. change (0 <= f < 2) in Hf. apply line_valid in V. rewrite line_face_children in Hc. destruct Hc as [Hc|[]]. injection Hc as <- <-. split; [|reflexivity]. unfold l_is_root_boundary, l_child in *. cbn [ll lx]. change (ll e < LMAX) in HL. rewrite (HALF _ HL) in R. set (h := LLEN (ll e + 1)) in *. clearbody h.
    destruct (Z.eqb_spec f 0); lia.
  - intros e i g V HL Hi Hg P. change (0 <= i < 2) in Hi. change (0 <= g < 2) in Hg. apply line_valid in V. change (ll e < LMAX) in HL. change (l_face_parent_face (l_child e i) g = -1) in P. rewrite (l_face_parent_face_child V HL Hi Hg) in P. exists (1 - i), (1 - g).
    split; [change (0 <= 1 - i < 2); lia|]. change (l_face_neighbour (l_child e i) g = (l_child e (1 - i), 1 - g)). unfold l_face_neighbour, l_child. cbn [ll lx]. set (h := LLEN (ll e + 1)). clearbody h.
    assert (i = 0 \/ i = 1) as [-> | ->] by lia; assert (g = 0 \/ g = 1) as [-> | ->] by lia; cbn [Z.eqb Pos.eqb Z.sub Z.opp Z.add Z.pos_sub] in *; try lia; do 2 f_equal; lia.
  - intros e f V Hf R. change (0 <= f < 2) in Hf. split; [exact Hf|]. exists (ll e). split; [reflexivity|]. split; [reflexivity|]. apply line_valid in V. destruct (l_wf_walk V) as (p & Hp & ->). exact (l_boundary_extrude Hp Hf R).
  - intros b L rf -> HL Hr. assert (E := l_extrude_spec HL Hr). unfold l_extrude_face in *. destruct E as (E1 & E2 & E3 & E4 & E5). split; [now apply line_valid|]. split; [reflexivity|]. split; [exact E3|]. split; [exact E4|]. split; reflexivity.
  - intros e f c g b V HL Hf R Hc B. rewrite line_face_children in Hc. destruct Hc as [Hc|[]]. injection Hc as <- <-. exists 0. split; [lia|]. injection B as <-. reflexivity.
  - intros e f b j V HL Hf R B Hj. exists (l_child e f), f. split; [now left|]. injection B as <-. reflexivity.
  - intros b L o f f' B _ _ _. split; [exact B|reflexivity].
  - intros b L o f f' j B _ _ _ _ Hj. exists j. split; [exact Hj|reflexivity].
Qed.

(** ** triangles and tetrahedra *)
Lemma simplex_valid tet e : valid (S := simplex_scheme tet) e <-> aligned tet e /\ is_inside_root tet e = true.
Proof.
  split.
  - intros V. assert (W := simplex_valid_wf V). destruct V as (p & Hp & ->). apply simplex_path in Hp. assert (A := wf_aligned W). split; [exact A|]. apply (is_inside_root_walk A). now exists p.
  - intros [A I]. apply (is_inside_root_walk A) in I. destruct I as (p & Hp & ->). exists p. split; [now apply simplex_path|reflexivity].
Qed.
Lemma simp_eq a b : lv a = lv b -> ty a = ty b -> (sx a, sy a, sz a) = (sx b, sy b, sz b) -> a = b.
Proof. destruct a, b. cbn. intros -> -> E. now inversion E. Qed.

(** the offsets of the children, in units of the length of the children *)
Definition refine_ok (tet : bool) (t f : Z) : bool :=
  let '(o, t', g) := nb_tab tet t f in
  forallb (fun k => let i := znth (-1) (faceids tet t f) k in
     let '(o', t'', g'') := nb_tab tet (Tt tet t i) (fcf tet t f k) in
     existsb (fun k' => let i' := znth (-1) (faceids tet t' g) k' in
        ieqb (iadd (ubits tet (Tc tet t i)) o') (iadd (iadd o o) (ubits tet (Tc tet t' i'))) && (t'' =? Tt tet t' i') && (g'' =? fcf tet t' g k'))
       (range (FACE_CHILDREN tet))) (range (FACE_CHILDREN tet)).
Lemma tab_refine tet t f : 0 <= t < NUM_TYPES tet -> 0 <= f < FACES tet -> refine_ok tet t f = true.
Proof.
  intros Ht Hf. assert (all2 (NUM_TYPES tet) (FACES tet) (refine_ok tet) = true) as A by (destruct tet; vm_compute; reflexivity).
  exact (all2_spec A Ht Hf).
Qed.
Definition inner_ok (tet : bool) (t i : Z) : bool :=
  forallb (fun g => existsb (fun f => sub_ok tet t f i g) (range (FACES tet)) ||
     let '(o, t', g') := nb_tab tet (Tt tet t i) g in
     existsb (fun j => ieqb (iadd (ubits tet (Tc tet t i)) o) (ubits tet (Tc tet t j)) && (t' =? Tt tet t j)) (range (CHILDREN tet))) (range (FACES tet)).
Lemma tab_inner tet t i : 0 <= t < NUM_TYPES tet -> 0 <= i < CHILDREN tet -> inner_ok tet t i = true.
Proof.
  intros Ht Hf. assert (all2 (NUM_TYPES tet) (CHILDREN tet) (inner_ok tet) = true) as A by (destruct tet; vm_compute; reflexivity).
  exact (all2_spec A Ht Hf).
Qed.
Section simplex.
Variable tet : bool.
Notation SS := (simplex_scheme tet).
Notation FF := (simplex_faces tet).
Implicit Types e c n : simp.
Lemma child_nb e i g o t' g' : wf tet e -> lv e < MAXLEVEL tet -> 0 <= i < CHILDREN tet -> 0 <= g < FACES tet -> nb_tab tet (Tt tet (ty e) i) g = (o, t', g') ->
  exists n, face_neighbour tet (child tet e i) g = (n, g') /\ lv n = lv e + 1 /\ ty n = t' /\
    (sx n, sy n, sz n) = scale (LEN tet (lv e + 1)) (sx e, sy e, sz e) (iadd (ubits tet (Tc tet (ty e) i)) o).
Proof.
  intros W HL Hi Hg E. destruct (child_anchor W HL Hi) as (C1 & C2 & C3). cbn zeta in *. assert (Ht := wf_ty W). assert (Ht' := tab_Tt_range Ht Hi).
  rewrite (@nb_unit tet (child tet e i) g) by (rewrite ?C2; auto). rewrite C1, C2, C3, E, scale_scale. destruct (scale _ _ _) as [[a b] c] eqn:S.
  eexists. split; [reflexivity|]. cbn [lv ty sx sy sz]. split; [reflexivity|]. split; [reflexivity|]. reflexivity.
Qed.
Lemma simplex_outside e f : aligned tet e /\ is_inside_root tet e = true -> 0 <= f < FACES tet -> is_root_boundary tet e f = negb (is_inside_root tet (fst (face_neighbour tet e f))).
Proof. intros [A I] Hf. exact (root_boundary_iff A I Hf). Qed.
Lemma simplex_inside e f : aligned tet e /\ is_inside_root tet e = true -> 0 <= f < FACES tet -> is_root_boundary tet e f = false -> let (n, g) := face_neighbour tet e f in
  (aligned tet n /\ is_inside_root tet n = true) /\ lv n = lv e /\ 0 <= g < FACES tet /\ face_neighbour tet n g = (e, f).
Proof.
  intros [A I] Hf R. rewrite (root_boundary_iff A I Hf) in R. assert (N := face_neighbour_spec A Hf). destruct (face_neighbour tet e f) as [n g]. cbn [fst] in R.
  destruct N as (N1 & N2 & N3 & _ & N5 & _). destruct (is_inside_root tet n) eqn:IN; [|discriminate]. auto.
Qed.
Lemma simplex_refine e f (c : elt SS) g : valid (S := SS) e -> lv e < MAXLEVEL tet -> 0 <= f < FACES tet -> is_root_boundary tet e f = false -> In (c, g) (face_children FF e f) ->
  In (face_neighbour tet c g) (face_children FF (fst (face_neighbour tet e f)) (snd (face_neighbour tet e f))).
Proof.
  intros V HL Hf R Hc. assert (W := simplex_valid_wf V). assert (Ht := wf_ty W). apply (in_face_children _ _ W HL Hf) in Hc. destruct Hc as (k & Hk & -> & ->).
  assert (V' := V). apply simplex_valid in V'. assert (N := simplex_inside V' Hf R). assert (U := @nb_unit tet e f Ht Hf). assert (T := tab_refine Ht Hf). unfold refine_ok in T. destruct (nb_tab tet (ty e) f) as [[o t'] h] eqn:E1.
  destruct (face_neighbour tet e f) as [n h'] eqn:EN. destruct N as (Vn & Ln & Hh & _). cbn [fst snd]. destruct (scale _ _ o) as [[x y] z] eqn:ES. injection U as En Eh. subst h'.
  rewrite forallb_forall in T. specialize (T k (proj2 (in_range _ _) Hk)). rewrite <- faceids_eq, <- fcf_eq in T. set (i := znth (-1) (child_ids_at_face tet e f) k) in *. cbv zeta in T.
  assert (Hi : 0 <= i < CHILDREN tet). { destruct (children_at_face_ids W Hf) as (L & _ & RR). apply RR. apply znth_In. rewrite L. exact Hk. }
  assert (Hg : 0 <= face_child_face tet e f k < FACES tet) by (exact (proj1 (@face_child_face_exact tet e f k f W HL Hf Hk Hf))).
  destruct (nb_tab tet (Tt tet (ty e) i) (face_child_face tet e f k)) as [[o' t''] g''] eqn:E2. apply existsb_exists in T. destruct T as (k' & Hk' & T). apply in_range in Hk'. rewrite !andb_true_iff in T. destruct T as ((T1 & T2) & T3). apply ieqb_eq in T1. apply Z.eqb_eq in T2, T3.
  destruct (child_nb W HL Hi Hg E2) as (m & Em & M1 & M2 & M3). rewrite Em. apply simplex_valid in Vn. assert (Wn := simplex_valid_wf Vn). assert (Hln : lv n < MAXLEVEL tet) by lia. assert (Htn : ty n = t') by (rewrite En; reflexivity).
  apply (in_face_children _ _ Wn Hln Hh). exists k'. split; [exact Hk'|]. rewrite faceids_eq, fcf_eq, Htn. split; [|exact T3]. set (i' := znth (-1) (faceids tet t' h) k') in *.
  assert (Hi' : 0 <= i' < CHILDREN tet). { destruct (children_at_face_ids Wn Hh) as (L & _ & RR). apply RR. rewrite faceids_eq, Htn. apply znth_In. rewrite faceids_eq, Htn in L. rewrite L. exact Hk'. }
  destruct (child_anchor Wn Hln Hi') as (C1 & C2 & C3). cbn zeta in *. apply simp_eq; [rewrite M1, C1; lia|rewrite M2, C2, Htn; exact T2|]. rewrite M3, C3, T1, Ln, Htn.
  assert (SN : (sx n, sy n, sz n) = scale (LEN tet (lv e)) (sx e, sy e, sz e) o) by (rewrite En, ES; reflexivity). rewrite SN. rewrite (LEN_half HL). unfold scale, iadd. cbn [ix iy iz fst snd]. f_equal; [f_equal|]; ring.
Qed.
Lemma simplex_tree_face e f : aligned tet e -> is_root_boundary tet e f = true -> 0 <= f < FACES tet -> 0 <= tree_face tet e f < FACES tet.
Proof.
  intros A R Hf. assert (Ht := ag_ty A). destruct e as [l t x y z]. unfold is_root_boundary, tree_face in *. cbn [ty sx sy sz lv] in *. destruct tet; [|exact Hf]. cbn [NUM_TYPES FACES] in *.
    split_range Ht; cbn [Z.eqb Pos.eqb] in R; try discriminate R; split_range Hf; vm_compute; split; congruence.
Qed.
Lemma simplex_rb_child e f (c : elt SS) g : valid (S := SS) e -> lv e < MAXLEVEL tet -> 0 <= f < FACES tet -> is_root_boundary tet e f = true -> In (c, g) (face_children FF e f) ->
  is_root_boundary tet c g = true /\ tree_face tet c g = tree_face tet e f.
Proof.
  intros V HL Hf R Hc. assert (W := simplex_valid_wf V). assert (FC := face_child (simplex_laws tet) (simplex_flaws tet) V HL Hf Hc). destruct FC as (Vc & _ & _ & Hg & (i & Hi & Ei)). change (0 <= g < FACES tet) in Hg.
  assert (SF : subface tet e f c g). { subst c. apply (in_face_children_sub W HL Hf Hi Hg). exact Hc. }
  apply simplex_valid in V, Vc. destruct V as [A I], Vc as [Ac Ic].
  assert (TF := simplex_tree_face A R Hf).
  assert (P := proj2 (root_face_iff A I Hf TF) (conj R eq_refl)). assert (Q : forall v, In v (face_vertices tet c g) -> on_root_plane tet (tree_face tet e f) v).
  { intros v Hv. destruct (SF v Hv) as (a & b & Ha & Hb & (M1 & M2 & M3)). apply P in Ha, Hb. unfold on_root_plane in *. destruct (tree_face tet e f =? 0); [lia|]. destruct tet; [destruct (_ =? 1); [lia|destruct (_ =? 2); lia]|destruct (_ =? 1); lia]. }
  apply (root_face_iff Ac Ic Hg TF) in Q. destruct Q as [Q1 Q2]. auto.
Qed.
Lemma simplex_inner e i g : valid (S := SS) e -> lv e < MAXLEVEL tet -> 0 <= i < CHILDREN tet -> 0 <= g < FACES tet -> face_parent_face tet (child tet e i) g = -1 ->
  exists j g', 0 <= j < CHILDREN tet /\ face_neighbour tet (child tet e i) g = (child tet e j, g').
Proof.
  intros V HL Hi Hg P. assert (W := simplex_valid_wf V). assert (Ht := wf_ty W). assert (T := tab_inner Ht Hi). unfold inner_ok in T. rewrite forallb_forall in T. specialize (T g (proj2 (in_range _ _) Hg)).
  destruct (existsb _ _) eqn:E in T.
  - exfalso. apply existsb_exists in E. destruct E as (f & Hf & S). apply in_range in Hf. apply (subface_sub_ok f g W HL Hi) in S. destruct (face_parent_face_exact W HL Hi Hg) as (F1 & _). apply (F1 f Hf) in S. lia.
  - cbn [orb] in T. destruct (nb_tab tet (Tt tet (ty e) i) g) as [[o t'] g'] eqn:E2. apply existsb_exists in T. destruct T as (j & Hj & T). apply in_range in Hj. apply andb_prop in T. destruct T as [T1 T2]. apply ieqb_eq in T1. apply Z.eqb_eq in T2.
    destruct (child_nb W HL Hi Hg E2) as (m & Em & M1 & M2 & M3). exists j, g'. split; [exact Hj|]. rewrite Em. f_equal. destruct (child_anchor W HL Hj) as (C1 & C2 & C3). cbn zeta in *. apply simp_eq; [now rewrite M1, C1|now rewrite M2, C2|]. now rewrite M3, C3, T1.
Qed.
End simplex.

(** ** triangles *)
Lemma tri_half l : l <= 29 -> LLEN l = 2 * LEN false l.
Proof. intros H. rewrite LLEN_pow by (unfold LMAX; lia). rewrite LEN_pow by (cbn [MAXLEVEL]; lia). cbn [MAXLEVEL]. rewrite <- pow2_S by lia. f_equal. unfold LMAX. lia. Qed.
Lemma tri_bchild e f k : wf false e -> lv e < MAXLEVEL false -> 0 <= f < 3 -> is_root_boundary false e f = true -> 0 <= k < 2 ->
  tri_boundary_face (child false e (znth (-1) (child_ids_at_face false e f) k)) (face_child_face false e f k) = l_child (tri_boundary_face e f) k.
Proof.
  intros W HL Hf R Hk. assert (Ht := wf_ty W). assert (T0 : ty e = 0). { unfold is_root_boundary in R. destruct (Z.eqb_spec (ty e) 0); [assumption|discriminate]. } 
  assert (LL : LLEN (lv e + 1) = 2 * LEN false (lv e + 1)) by (apply tri_half; change (MAXLEVEL false) with 29 in HL; lia).
  assert (C : forall i, 0 <= i < 4 -> child false e i = _) by (intros i Hi; exact (tri_child_explicit Ht HL Hi)).
  unfold l_child, tri_boundary_face. cbn [ll lx]. rewrite LL, faceids_eq, fcf_eq, T0. change DLINE_ROOT_BY_DTRI_ROOT with 2. set (h := LEN false (lv e + 1)) in *. clearbody h.
  split_range Hf; split_range Hk; 
    match goal with |- context [znth ?d (faceids ?a ?b ?c) ?k] => let v := eval vm_compute in (znth d (faceids a b c) k) in change (znth d (faceids a b c) k) with v end;
    match goal with |- context [fcf ?a ?b ?c ?k] => let v := eval vm_compute in (fcf a b c k) in change (fcf a b c k) with v end;
    rewrite C by lia; rewrite T0; cbn [Z.eqb Pos.eqb andb orb lv ty sx sy sz]; f_equal; lia.
Qed.
Lemma tri_crossing_ok : @crossing_ok (simplex_scheme false) (simplex_faces false) tri_crossing 3 2 (is_root_boundary false) (fun l L => lwf l /\ ll l = L) l_child 2.
Proof.
  constructor; cbn [x_neighbor x_inside x_tree_face x_boundary x_transform x_extrude tri_crossing].
  - intros e V. apply simplex_valid in V. apply V.
  - intros e f V Hf. apply simplex_valid in V. exact (simplex_outside V Hf).
  - intros e f V Hf R. apply simplex_valid in V. assert (N := simplex_inside V Hf R). destruct (face_neighbour false e f) as [n g]. destruct N as (N1 & N2). split; [now apply simplex_valid|exact N2].
  - intros e f c g. exact (@simplex_refine false e f c g).
  - intros e f c g. exact (@simplex_rb_child false e f c g).
  - intros e i g. exact (@simplex_inner false e i g).
  - intros e f V Hf R. split; [exact Hf|]. exists (tri_boundary_face e f). apply simplex_valid in V. destruct V as [A I]. destruct (tri_boundary_ok A I Hf R) as (B1 & B2 & B3 & _). split; [reflexivity|]. split; [split; [exact B1|exact B2]|exact B3].
  - intros b L rf [B1 <-] HL Hr. assert (E := tri_extrude_ok B1 (proj2 HL) Hr). destruct (tri_extrude_face b rf) as [e f]. destruct E as (E1 & E2 & E3 & E4 & E5 & E6 & E7). split; [now apply simplex_valid|]. split; [exact E3|]. split; [exact E4|]. split; [exact E5|]. split; [exact E6|]. now rewrite E7.
  - intros e f c g b V HL Hf R Hc B. assert (W := simplex_valid_wf V). injection B as <-. apply (in_face_children _ _ W HL Hf) in Hc. destruct Hc as (k & Hk & -> & ->). exists k. split; [exact Hk|]. exact (f_equal (@Ok dline) (tri_bchild W HL Hf R Hk)).
  - intros e f b j V HL Hf R B Hj. assert (W := simplex_valid_wf V). injection B as <-. eexists _, _. split; [apply (in_face_children _ _ W HL Hf); exists j; split; [exact Hj|split; reflexivity]|]. exact (f_equal (@Ok dline) (tri_bchild W HL Hf R Hj)).
  - intros b L o f f' [B1 B2] Ho _ _. unfold tr. cbn [x_transform tri_crossing]. split; [split; [now apply l_transform_face_wf|exact B2]|apply l_transform_face_invol].
  - intros b L o f f' j [B1 B2] HL Ho _ _ Hj. unfold tr. cbn [x_transform tri_crossing]. assert (HL' : ll b < LMAX) by (rewrite B2; cbn [s_maxlevel simplex_scheme MAXLEVEL] in HL; unfold LMAX; lia).
    eexists. split; [|exact (l_transform_face_child B1 HL' Ho Hj)]. destruct (o =? 0); lia.
Qed.

(** ** tetrahedra *)
(** the children at a face that can be at the boundary of a tree and the children of the triangle there *)
Definition bproj (cat : Z) (u : ipt) : ipt := if cat =? 1 then (iz u, iy u, 0) else (ix u, iz u, 0).
Definition bch (t f k j : Z) : bool := 
  let cat := type_face_to_boundary t f 0 in let bt := type_face_to_boundary t f 1 in
  let i := znth (-1) (faceids true t f) k in let g := fcf true t f k in
  (type_face_to_boundary (Tt true t i) g 0 =? cat) && (type_face_to_boundary (Tt true t i) g 1 =? Tt false bt j) && ieqb (bproj cat (ubits true (Tc true t i))) (ubits false (Tc false bt j)).
Definition bch_ok (t f : Z) : bool :=
  let cat := type_face_to_boundary t f 0 in let bt := type_face_to_boundary t f 1 in
  negb ((cat =? 1) || (cat =? 2)) ||
  (0 <=? bt) && (bt <? 2) && forallb (fun k => existsb (bch t f k) (range 4)) (range 4) && forallb (fun j => existsb (fun k => bch t f k j) (range 4)) (range 4).
Lemma tab_bch t f : 0 <= t < 6 -> 0 <= f < 4 -> bch_ok t f = true.
Proof.
  intros Ht Hf. assert (all2 6 4 bch_ok = true) as A by (vm_compute; reflexivity).
  exact (all2_spec A Ht Hf).
Qed.
Lemma tet_len l : l <= 21 -> LEN false l = LEN true l * 256.
Proof. intros H. rewrite !LEN_pow by (cbn [MAXLEVEL]; lia). cbn [MAXLEVEL]. change 256 with (2 ^ 8). rewrite <- Z.pow_add_r by lia. f_equal. lia. Qed.
Lemma tet_bchild e f k j b : wf true e -> lv e < 21 -> 0 <= f < 4 -> 0 <= k < 4 -> 0 <= j < 4 -> tet_boundary_face e f = Ok b -> wf false b -> bch (ty e) f k j = true ->
  tet_boundary_face (child true e (znth (-1) (child_ids_at_face true e f) k)) (face_child_face true e f k) = Ok (child false b j).
Proof.
  intros W HL Hf Hk Hj B Wb H. unfold bch in H. rewrite !andb_true_iff in H. destruct H as ((H1 & H2) & H3). apply Z.eqb_eq in H1, H2. apply ieqb_eq in H3.
  rewrite <- faceids_eq, <- fcf_eq in *. set (i := znth (-1) (child_ids_at_face true e f) k) in *.
  assert (Hi : 0 <= i < CHILDREN true). { destruct (children_at_face_ids W Hf) as (L & _ & RR). apply RR. apply znth_In. rewrite L. exact Hk. }
  destruct (child_anchor W HL Hi) as (C1 & C2 & C3). cbn zeta in *. unfold tet_boundary_face in B. unfold tet_boundary_face. set (r := DTRI_ROOT_BY_DTET_ROOT) in *. assert (ER : r = 256) by reflexivity. clearbody r.
  rewrite C2, H1, H2, C1. set (cat := type_face_to_boundary (ty e) f 0) in *. set (bt := type_face_to_boundary (ty e) f 1) in *.
  assert (EC := f_equal ix C3). assert (EC2 := f_equal iy C3). assert (EC3 := f_equal iz C3). unfold scale in EC, EC2, EC3. cbn [ix iy iz fst snd] in EC, EC2, EC3.
  assert (LB : lv b = lv e /\ ty b = bt). { destruct (cat =? 1); [injection B as <-; split; reflexivity|]. destruct (cat =? 2); [injection B as <-; split; reflexivity|discriminate]. } destruct LB as [LB TB].
  assert (HLb : lv b < MAXLEVEL false) by (rewrite LB; cbn [MAXLEVEL]; lia). destruct (child_anchor Wb HLb Hj) as (D1 & D2 & D3). cbn zeta in *. rewrite TB in D2, D3. rewrite LB in D1, D3. rewrite <- H3 in D3.
  assert (LE : LEN false (lv e + 1) = LEN true (lv e + 1) * r) by (rewrite ER; apply tet_len; lia). rewrite LE in D3. set (h := LEN true (lv e + 1)) in *. clearbody h.
  unfold bproj in D3. destruct (cat =? 1); [|destruct (cat =? 2); [|discriminate]]; injection B as <-; f_equal; apply simp_eq; cbn [lv ty sx sy sz] in *; try (symmetry; assumption); rewrite D3; unfold scale; cbn [ix iy iz fst snd]; rewrite ?EC, ?EC2, ?EC3; f_equal; [f_equal| |f_equal|]; ring.
Qed.
Lemma tet_crossing_ok : @crossing_ok (simplex_scheme true) (simplex_faces true) tet_crossing 4 3 (is_root_boundary true)
  (fun b L => aligned false b /\ is_inside_root false b = true /\ lv b = L) (child false) 4.
Proof.
  assert (WB : forall b, aligned false b -> is_inside_root false b = true -> wf false b) by (intros b A I; now apply (is_inside_root_iff A)).
  assert (CAT : forall e f b, tet_boundary_face e f = Ok b -> (type_face_to_boundary (ty e) f 0 =? 1) || (type_face_to_boundary (ty e) f 0 =? 2) = true).
  { intros e f b. unfold tet_boundary_face. destruct (_ =? 1); [reflexivity|]. destruct (_ =? 2); [reflexivity|discriminate]. }
  constructor; cbn [x_neighbor x_inside x_tree_face x_boundary x_transform x_extrude tet_crossing].
  - intros e V. apply simplex_valid in V. apply V.
  - intros e f V Hf. apply simplex_valid in V. exact (simplex_outside V Hf).
  - intros e f V Hf R. apply simplex_valid in V. assert (N := simplex_inside V Hf R). destruct (face_neighbour true e f) as [n g]. destruct N as (N1 & N2). split; [now apply simplex_valid|exact N2].
  - intros e f c g. exact (@simplex_refine true e f c g).
  - intros e f c g. exact (@simplex_rb_child true e f c g).
  - intros e i g. exact (@simplex_inner true e i g).
  - intros e f V Hf R. apply simplex_valid in V. destruct V as [A I]. change (0 <= f < FACES true) in Hf. split; [exact (simplex_tree_face A R Hf)|]. destruct (tet_boundary_ok A I Hf R) as (b & B1 & B2 & B3 & B4 & B5 & _). exists b. split; [exact B1|]. split; [split; [exact B2|split; [exact B3|exact B4]]|exact B5].
  - intros b L rf (B1 & B2 & <-) HL Hr. assert (E := tet_extrude_ok B1 B2 (proj2 HL) Hr). destruct (tet_extrude_face b rf) as [e f]. destruct E as (E1 & E2 & E3 & E4 & E5 & E6 & E7). split; [now apply simplex_valid|]. split; [exact E3|]. split; [exact E4|]. split; [exact E5|]. split; [exact E6|]. exact E7.
  - intros e f c g b V HL Hf R Hc B. assert (W := simplex_valid_wf V). apply (in_face_children _ _ W HL Hf) in Hc. destruct Hc as (k & Hk & -> & ->). assert (T := @tab_bch (ty e) f (wf_ty W) Hf). unfold bch_ok in T. cbv zeta in T. rewrite (CAT _ _ _ B) in T. cbn [negb orb] in T. rewrite !andb_true_iff in T. destruct T as (((T1 & T2) & T3) & T4).
    apply simplex_valid in V. destruct V as [A I]. destruct (tet_boundary_ok A I Hf R) as (b' & B1 & B2 & B3 & _). rewrite B in B1. injection B1 as <-. rewrite forallb_forall in T3. specialize (T3 k (proj2 (in_range _ _) Hk)). apply existsb_exists in T3. destruct T3 as (j & Hj & T3). apply in_range in Hj.
    exists j. split; [exact Hj|]. apply (tet_bchild W HL Hf Hk Hj B); auto.
  - intros e f b j V HL Hf R B Hj. assert (W := simplex_valid_wf V). assert (T := @tab_bch (ty e) f (wf_ty W) Hf). unfold bch_ok in T. cbv zeta in T. rewrite (CAT _ _ _ B) in T. cbn [negb orb] in T. rewrite !andb_true_iff in T. destruct T as (((T1 & T2) & T3) & T4).
    apply simplex_valid in V. destruct V as [A I]. destruct (tet_boundary_ok A I Hf R) as (b' & B1 & B2 & B3 & _). rewrite B in B1. injection B1 as <-. rewrite forallb_forall in T4. specialize (T4 j (proj2 (in_range _ _) Hj)). apply existsb_exists in T4. destruct T4 as (k & Hk & T4). apply in_range in Hk.
    eexists _, _. split; [apply (in_face_children _ _ W HL Hf); exists k; split; [exact Hk|split; reflexivity]|]. apply (tet_bchild W HL Hf Hk Hj B); auto.
  - intros b L o f f' (B1 & B2 & B3) Ho Hf Hf'. unfold tr. cbn [x_transform x_eclass tet_crossing]. set (sg := eclass_face_orientation 5 f =? eclass_face_orientation 5 f'). rewrite (Z.eqb_sym (eclass_face_orientation 5 f')). fold sg.
    destruct (transform_face_ok sg (f <=? f') B1 B2 Ho) as (T1 & T2 & T3 & _). split; [split; [exact T1|split; [exact T2|congruence]]|].
    destruct (Z.eq_dec f f') as [<-|NE].
    + assert (SG : sg = true) by (unfold sg; apply Z.eqb_refl). rewrite SG. rewrite Z.leb_refl. rewrite <- (@transform_face_inv b o true true (ag_ty B1) Ho) at 2. assert (TS := @transform_face_ok b o true true B1 B2 Ho). destruct TS as (TA & _). 
      rewrite !(@transform_face_split (transform_face b o true true)) by (auto; exact (ag_ty TA)). cbn zeta. rewrite !andb_false_r. reflexivity.
    + replace (f' <=? f) with (negb (f <=? f')) by (destruct (Z.leb_spec f f'), (Z.leb_spec f' f); cbn; auto; lia). apply transform_face_inv; [exact (ag_ty B1)|exact Ho].
  - intros b L o f f' j (B1 & B2 & B3) HL Ho _ _ Hj. unfold tr. cbn [x_transform tet_crossing]. apply transform_face_child; [exact (ag_ty B1)|exact Ho| |exact Hj]. cbn [s_maxlevel simplex_scheme MAXLEVEL] in *. lia.
Qed.

(** ** the meshes *)
Theorem line_mesh K ml conn NO : connected 2 NO K conn -> 0 <= ml <= LMAX -> mesh_ok (fun _ => line_faces) (neighbor line_crossing conn) K ml.
Proof. intros C H. exact (mesh_of_connection line_laws line_flaws (line_crossing_ok NO) C H). Qed.
Theorem tri_mesh K ml conn : connected 3 2 K conn -> 0 <= ml <= MAXLEVEL false -> mesh_ok (fun _ => simplex_faces false) (neighbor tri_crossing conn) K ml.
Proof. intros C H. exact (mesh_of_connection (simplex_laws false) (simplex_flaws false) tri_crossing_ok C H). Qed.
Theorem tet_mesh K ml conn : connected 4 3 K conn -> 0 <= ml <= MAXLEVEL true -> mesh_ok (fun _ => simplex_faces true) (neighbor tet_crossing conn) K ml.
Proof. intros C H. exact (mesh_of_connection (simplex_laws true) (simplex_flaws true) tet_crossing_ok C H). Qed.

(** The face functions of vertices, lines, triangles and tetrahedra satisfy the laws. *)
From Coq Require Import Sorting.Sorted.
From Verif Require Import Prelude PathSpec SchemeModel SchemeSpec SchemeProofs SchemeOrderProofs SchemeInstances FaceModel FaceSpec FaceProofs.
From Verif Require Import BitLemmas SimplexModel SimplexSpec SimplexProofs SimplexPathProofs SimplexFaceProofs SimplexFaceChildProofs LineModel LineSpec LineProofs VertexModel EclassModel.

Section corner.
Variable S : scheme.
Hypothesis LW : laws S.
Variable F : faces S.
Variable c : elt S -> Z -> Z.
Lemma repeat_cons (i : Z) n : repeat i (Datatypes.S n) = [i] ++ repeat i n. Proof. reflexivity. Qed.
Lemma first_corner : (forall e f, valid e -> s_level e < s_maxlevel S -> is_face F e f -> exists r, f_child_ids F e f = c e f :: r /\ f_child_face F e f 0 = f /\
    0 <= c e f < s_num_children e /\ is_face F (s_child e (c e f)) f /\ c (s_child e (c e f)) f = c e f) ->
  forall n p f, gpath S p -> zlen p + Z.of_nat n <= s_maxlevel S -> is_face F (gwalk S p) f ->
  exists rest, face_descend F n (gwalk S p) f = (gwalk S (p ++ repeat (c (gwalk S p) f) n), f) :: rest.
Proof.
  intros H. induction n as [|n IH]; intros p f Hp Hn Hf.
  - cbn [repeat face_descend]. rewrite app_nil_r. eexists. reflexivity.
  - assert (V : valid (gwalk S p)) by (now exists p). assert (LL := law_level LW Hp). destruct (H _ f V) as (r & E1 & E2 & E3 & E4 & E5); [lia|exact Hf|].
    set (i := c (gwalk S p) f) in *. assert (Hp' : gpath S (p ++ [i])) by (constructor; [exact Hp|lia|exact E3]). assert (W : gwalk S (p ++ [i]) = s_child (gwalk S p) i) by (unfold gwalk; now rewrite fold_left_app).
    destruct (IH (p ++ [i]) f Hp') as (rest & R); [rewrite zlen_app; cbn [zlen length]; unfold zlen in *; cbn [length]; lia|rewrite W; exact E4|].
    cbn [face_descend]. unfold face_children, f_children. rewrite E1. cbn [map length seq flat_map fst snd nth]. change (Z.of_nat 0) with 0. rewrite E2. rewrite W in R. rewrite R, E5, <- app_assoc. rewrite repeat_cons. eexists. reflexivity.
Qed.
Lemma last_corner : (forall e f, valid e -> s_level e < s_maxlevel S -> is_face F e f -> exists r, f_child_ids F e f = r ++ [c e f] /\ f_child_face F e f (zlen r) = f /\
    0 <= c e f < s_num_children e /\ is_face F (s_child e (c e f)) f /\ c (s_child e (c e f)) f = c e f) ->
  forall n p f, gpath S p -> zlen p + Z.of_nat n <= s_maxlevel S -> is_face F (gwalk S p) f ->
  exists pre, face_descend F n (gwalk S p) f = pre ++ [(gwalk S (p ++ repeat (c (gwalk S p) f) n), f)].
Proof.
  intros H. induction n as [|n IH]; intros p f Hp Hn Hf.
  - cbn [repeat face_descend]. rewrite app_nil_r. exists []. reflexivity.
  - assert (V : valid (gwalk S p)) by (now exists p). assert (LL := law_level LW Hp). destruct (H _ f V) as (r & E1 & E2 & E3 & E4 & E5); [lia|exact Hf|].
    set (i := c (gwalk S p) f) in *. assert (Hp' : gpath S (p ++ [i])) by (constructor; [exact Hp|lia|exact E3]). assert (W : gwalk S (p ++ [i]) = s_child (gwalk S p) i) by (unfold gwalk; now rewrite fold_left_app).
    destruct (IH (p ++ [i]) f Hp') as (pre & R); [rewrite zlen_app; unfold zlen in *; cbn [length]; lia|rewrite W; exact E4|].
    cbn [face_descend]. unfold face_children at 1. unfold f_children. rewrite E1, map_app. cbn [map]. rewrite app_length, map_length. cbn [length]. rewrite Nat.add_1_r, seq_S, map_app, flat_map_app. cbn [map flat_map fst snd Nat.add]. rewrite app_nil_r.
    rewrite app_nth2 by (rewrite map_length; lia). rewrite map_length, Nat.sub_diag. cbn [nth]. fold (zlen r). rewrite E2. rewrite W in R. rewrite R, E5, <- app_assoc. rewrite repeat_cons. rewrite app_assoc. eexists. reflexivity.
Qed.
End corner.

(** ** vertices *)
Theorem vertex_flaws : flaws vertex_faces.
Proof.
  assert (N : forall (e : Z) f, ~ is_face vertex_faces e f) by (intros e f; unfold is_face; cbn; lia).
  constructor; try (intros; exfalso; eapply N; eassumption).
  - intros a e _. cbn. lia.
Qed.

(** ** lines *)
Lemma line_valid e : valid (S := line_scheme) e <-> lwf e.
Proof. split; [intros (p & Hp & ->); apply line_path in Hp; apply (l_walk_wf Hp)|]. intros W. destruct (l_wf_walk W) as (p & Hp & ->). exists p. split; [now apply line_path|reflexivity]. Qed.
Lemma line_face_children (e : elt line_scheme) f : face_children line_faces e f = [(l_child e f, f)].
Proof. reflexivity. Qed.
Theorem line_flaws : flaws line_faces.
Proof.
  constructor.
  - intros a e _. change (0 <= 2 <= 2). lia.
  - intros e f _ _ Hf. change (0 <= f < 2) in Hf. change (f_child_ids line_faces e f) with [f]. change (s_num_children e) with 2. split; [discriminate|]. split; [repeat constructor|repeat constructor; lia].
  - intros e f c g _ _ Hf H. rewrite line_face_children in H. destruct H as [H|[]]. injection H as <- <-. exact Hf.
  - intros e i g V HL Hi Hg. change (0 <= i < 2) in Hi. change (0 <= g < 2) in Hg. apply line_valid in V. change (f_parent_face line_faces (s_child e i) g) with (l_face_parent_face (l_child e i) g). rewrite (l_face_parent_face_child V HL Hi Hg). split.
    + destruct (i =? g); [right; exact Hg|now left].
    + intros f Hf. change (0 <= f < 2) in Hf. rewrite line_face_children. cbn [In]. change (@s_child line_scheme e i) with (l_child e i). assert (INJ : l_child e f = l_child e i -> f = i).
      { intros E. assert (A := proj1 (proj2 (proj2 (l_parent_child V HL Hf)))). assert (B := proj1 (proj2 (proj2 (l_parent_child V HL Hi)))). rewrite E in A. congruence. }
      split.
      * intros [E|[]]. injection E as E1 E2. assert (f = i). { apply INJ. unfold l_child. congruence. } subst. rewrite Z.eqb_refl. reflexivity.
      * intros E. left. destruct (Z.eqb_spec i g) as [Q|Q]; [rewrite E, Q; reflexivity|lia].
  - intros e g V Hg. change (0 <= g < 2) in Hg. change (f_parent_face line_faces e g) with (l_face_parent_face e g). change (f_max line_faces e) with 2. unfold l_face_parent_face. destruct (ll e =? 0); [lia|]. destruct (l_child_id e =? g); lia.
  - intros e f L (p & Hp & ->) HL Hf. assert (LL := law_level line_laws Hp). change (0 <= f < 2) in Hf.
    destruct (@first_corner line_scheme line_laws line_faces (fun _ f => f)) with (n := Z.to_nat (L - s_level (gwalk line_scheme p))) (p := p) (f := f) as (rest & R).
    + intros e' f' _ _ Hf'. change (0 <= f' < 2) in Hf'. exists []. split; [reflexivity|]. split; [reflexivity|]. split; [exact Hf'|]. split; [exact Hf'|reflexivity].
    + exact Hp.
    + lia.
    + exact Hf.
    + exists f, rest. rewrite R. do 2 f_equal. change (f_first line_faces) with l_first_descendant_face. unfold l_first_descendant_face. change (gwalk line_scheme) with l_walk in *. apply line_path in Hp. rewrite LL in *. destruct (Z.eqb_spec f 0) as [->|N].
      * symmetry. now apply l_first_descendant_walk.
      * replace f with 1 by lia. symmetry. now apply l_last_descendant_walk.
  - intros e f L (p & Hp & ->) HL Hf. assert (LL := law_level line_laws Hp). change (0 <= f < 2) in Hf.
    destruct (@last_corner line_scheme line_laws line_faces (fun _ f => f)) with (n := Z.to_nat (L - s_level (gwalk line_scheme p))) (p := p) (f := f) as (pre & R).
    + intros e' f' _ _ Hf'. change (0 <= f' < 2) in Hf'. exists []. split; [reflexivity|]. split; [reflexivity|]. split; [exact Hf'|]. split; [exact Hf'|reflexivity].
    + exact Hp.
    + lia.
    + exact Hf.
    + exists pre, f. rewrite R. do 3 f_equal. change (f_last line_faces) with l_first_descendant_face. unfold l_first_descendant_face. change (gwalk line_scheme) with l_walk in *. apply line_path in Hp. rewrite LL in *. destruct (Z.eqb_spec f 0) as [->|N].
      * symmetry. now apply l_first_descendant_walk.
      * replace f with 1 by lia. symmetry. now apply l_last_descendant_walk.
Qed.

(** ** triangles and tetrahedra *)
Definition fv_first (tet : bool) (f : Z) : Z := face_vertex_to_tree_vertex (simplex_eclass tet) f 0.
Definition fv_last (tet : bool) (f : Z) : Z := if tet then Z.max (face_vertex_to_tree_vertex 5 f 1) (face_vertex_to_tree_vertex 5 f 2) else face_vertex_to_tree_vertex 3 f 1.
Definition corner_faces_ok (tet : bool) (t f : Z) : bool :=
  let l := faceids tet t f in let a := parenttype_beyid_to_Iloc tet t (fv_first tet f) in let b := parenttype_beyid_to_Iloc tet t (fv_last tet f) in
  (0 <=? fv_first tet f) && (fv_first tet f <? CORNERS tet) && (0 <=? fv_last tet f) && (fv_last tet f <? CORNERS tet) &&
  (hd (-1) l =? a) && (last l (-1) =? b) && (fcf tet t f 0 =? f) && (fcf tet t f (FACE_CHILDREN tet - 1) =? f) &&
  (Tt tet t a =? t) && (Tt tet t b =? t) && (0 <=? a) && (a <? CHILDREN tet) && (0 <=? b) && (b <? CHILDREN tet).
Lemma tab_corner_faces tet t f : 0 <= t < NUM_TYPES tet -> 0 <= f < FACES tet -> corner_faces_ok tet t f = true.
Proof.
  intros Ht Hf. assert (all2 (NUM_TYPES tet) (FACES tet) (corner_faces_ok tet) = true) as A by (destruct tet; vm_compute; reflexivity).
  exact (all2_spec A Ht Hf).
Qed.
Lemma increasing_sorted l : increasing l = true -> StronglySorted Z.lt l.
Proof.
  intros H. apply Sorted_StronglySorted; [intros x y z; lia|]. induction l as [|a l IH]; [constructor|]. destruct l as [|b l]; [repeat constructor|]. cbn [increasing] in H. apply andb_prop in H. destruct H as [H1 H2].
  constructor; [now apply IH|]. constructor. lia.
Qed.
Lemma simplex_face_children tet (e : elt (simplex_scheme tet)) f : face_children (simplex_faces tet) e f =
  map (fun k => (child tet e (nth k (child_ids_at_face tet e f) 0), face_child_face tet e f (Z.of_nat k))) (seq 0 (length (child_ids_at_face tet e f))).
Proof.
  unfold face_children. change (f_children (simplex_faces tet) e f) with (map (child tet e) (child_ids_at_face tet e f)). change (f_child_face (simplex_faces tet)) with (face_child_face tet). rewrite map_length.
  apply map_ext_in. intros k Hk. apply in_seq in Hk. f_equal. rewrite nth_indep with (d' := child tet e 0) by (rewrite map_length; lia). apply map_nth.
Qed.
Lemma in_face_children tet (e : elt (simplex_scheme tet)) f c g : wf tet e -> lv e < MAXLEVEL tet -> 0 <= f < FACES tet ->
  (In (c, g) (face_children (simplex_faces tet) e f) <-> exists k, 0 <= k < FACE_CHILDREN tet /\ c = child tet e (znth (-1) (child_ids_at_face tet e f) k) /\ g = face_child_face tet e f k).
Proof.
  intros W HL Hf. destruct (children_at_face_ids W Hf) as (L & _ & _). rewrite simplex_face_children. rewrite in_map_iff. split.
  - intros (k & E & Hk). apply in_seq in Hk. injection E as <- <-. exists (Z.of_nat k). unfold zlen in L. split; [lia|]. split; [|reflexivity]. unfold znth. rewrite Nat2Z.id. f_equal. apply nth_indep. lia.
  - intros (k & Hk & -> & ->). exists (Z.to_nat k). unfold zlen in L. rewrite Z2Nat.id by lia. split; [|apply in_seq; lia]. unfold znth. now rewrite nth_indep with (d' := -1) by lia.
Qed.
(** the children at a face are those with a face that is a part of it *)
Lemma in_face_children_sub tet (e : elt (simplex_scheme tet)) f i g : wf tet e -> lv e < MAXLEVEL tet -> 0 <= f < FACES tet -> 0 <= i < CHILDREN tet -> 0 <= g < FACES tet ->
  (In (child tet e i, g) (face_children (simplex_faces tet) e f) <-> subface tet e f (child tet e i) g).
Proof.
  intros W HL Hf Hi Hg. destruct (children_at_face_ids W Hf) as (L & _ & R). rewrite (in_face_children _ _ W HL Hf). split.
  - intros (k & Hk & E & ->). destruct (face_child_face_exact W HL Hf Hk Hg) as [B S]. rewrite E. now apply S.
  - intros S. assert (I : In i (child_ids_at_face tet e f)) by (apply (children_at_face_exact W HL Hf Hi); eauto). apply In_nth with (d := -1) in I. destruct I as (k & Hk & E). exists (Z.of_nat k).
    assert (Hk' : 0 <= Z.of_nat k < FACE_CHILDREN tet) by (unfold zlen in L; lia). assert (EZ : znth (-1) (child_ids_at_face tet e f) (Z.of_nat k) = i) by (unfold znth; now rewrite Nat2Z.id). split; [exact Hk'|]. rewrite EZ. split; [reflexivity|].
    destruct (face_child_face_exact W HL Hf Hk' Hg) as [_ [S2 _]]. apply S2. now rewrite EZ.
Qed.
Lemma child_lv tet e i : wf tet e -> lv e < MAXLEVEL tet -> 0 <= i < CHILDREN tet -> child_id tet (child tet e i) = i.
Proof. intros W HL Hi. now apply child_id_child. Qed.
Lemma last_nth (l : list Z) k d : zlen l = k + 1 -> 0 <= k -> l = removelast l ++ [last l d] /\ zlen (removelast l) = k.
Proof.
  intros H Hk. assert (NE : l <> []) by (intros ->; cbn in H; lia). assert (E := app_removelast_last d NE). split; [exact E|]. apply (f_equal zlen) in E. rewrite zlen_app in E. unfold zlen in *. cbn [length] in E. lia.
Qed.
Theorem simplex_flaws tet : flaws (simplex_faces tet).
Proof.
  assert (CP := CHILDREN_pos tet). assert (FP : 0 < FACES tet) by (destruct tet; vm_compute; reflexivity). assert (FCP : 1 <= FACE_CHILDREN tet) by (destruct tet; vm_compute; discriminate).
  constructor.
  - intros a e _. change (0 <= FACES tet <= FACES tet). lia.
  - intros e f V HL Hf. change (0 <= f < FACES tet) in Hf. apply simplex_valid_wf in V. destruct (children_at_face_ids V Hf) as (L & I & R). change (f_child_ids (simplex_faces tet) e f) with (child_ids_at_face tet e f). split; [|split].
    + intros E. rewrite E in L. change (zlen []) with 0 in L. lia.
    + now apply increasing_sorted.
    + now apply Forall_forall.
  - intros e f c g V HL Hf H. change (0 <= f < FACES tet) in Hf. change (0 <= g < FACES tet). apply simplex_valid_wf in V. apply (in_face_children _ _ V HL Hf) in H. destruct H as (k & Hk & -> & ->). apply (@face_child_face_exact tet e f k 0 V HL Hf Hk). lia.
  - intros e i g V HL Hi Hg. change (0 <= g < FACES tet) in Hg. change (0 <= i < CHILDREN tet) in Hi. apply simplex_valid_wf in V. destruct (face_parent_face_exact V HL Hi Hg) as (A & B & C). cbn zeta in A, B, C. split; [exact C|].
    intros f Hf. change (0 <= f < FACES tet) in Hf. rewrite <- (A f Hf). apply (@in_face_children_sub tet e f i g); auto.
  - intros e g (p & Hp & ->) Hg. change (0 <= g < FACES tet) in Hg. change (f_max (simplex_faces tet) (gwalk (simplex_scheme tet) p)) with (FACES tet). change (f_parent_face (simplex_faces tet)) with (face_parent_face tet). destruct p as [|i p _] using rev_ind.
    + change (face_parent_face tet (gwalk (simplex_scheme tet) []) g) with g. lia.
    + inversion Hp as [E|q j Hq HL Hj E]; [destruct p; discriminate|]. apply app_inj_tail in E. destruct E as [-> ->]. unfold gwalk. rewrite fold_left_app. change (fold_left (@s_child (simplex_scheme tet)) [i] (fold_left (@s_child (simplex_scheme tet)) p (s_root (simplex_scheme tet)))) with (child tet (walk tet p) i).
      apply simplex_path in Hq. destruct (walk_wf Hq) as [W LV]. change (zlen p < MAXLEVEL tet) in HL. destruct (@face_parent_face_exact tet (walk tet p) i g W ltac:(lia) Hj Hg) as (_ & _ & [C|C]); cbn zeta in C; lia.
  - intros e f L (p & Hp & ->) HL Hf. assert (LL := law_level (simplex_laws tet) Hp).
    destruct (@first_corner (simplex_scheme tet) (simplex_laws tet) (simplex_faces tet) (fun e f => parenttype_beyid_to_Iloc tet (ty e) (fv_first tet f))) with (n := Z.to_nat (L - s_level (gwalk (simplex_scheme tet) p))) (p := p) (f := f) as (rest & R).
    + intros e' f' V' HL' Hf'. change (0 <= f' < FACES tet) in Hf'. apply simplex_valid_wf in V'. assert (T := tab_corner_faces (wf_ty V') Hf'). unfold corner_faces_ok in T. cbn zeta in T. rewrite !andb_true_iff in T. destruct T as (((((((((((((T1 & T2) & T3) & T4) & T5) & T6) & T7) & T8) & T9) & T10) & T11) & T12) & T13) & T14).
      set (a := parenttype_beyid_to_Iloc tet (ty e') (fv_first tet f')) in *. assert (Ha : 0 <= a < CHILDREN tet) by lia. destruct (children_at_face_ids V' Hf') as (LC & _ & _).
      change (f_child_ids (simplex_faces tet) e' f') with (child_ids_at_face tet e' f'). rewrite faceids_eq in *. destruct (faceids tet (ty e') f') as [|x r]; [change (zlen []) with 0 in LC; lia|]. cbn [hd] in T5. exists r. assert (x = a) by lia. subst x. split; [reflexivity|].
      split. { change (f_child_face (simplex_faces tet) e' f' 0) with (face_child_face tet e' f' 0). rewrite fcf_eq. lia. }
      split; [exact Ha|]. split; [exact Hf'|]. destruct (child_anchor V' HL' Ha) as (_ & C2 & _). cbn zeta in C2. change (ty (s_child e' a)) with (ty (child tet e' a)). rewrite C2. replace (Tt tet (ty e') a) with (ty e') by lia. reflexivity.
    + exact Hp.
    + lia.
    + exact Hf.
    + exists f, rest. rewrite R. do 2 f_equal. change (f_first (simplex_faces tet)) with (first_descendant_face tet). unfold first_descendant_face. fold (fv_first tet f). change (gwalk (simplex_scheme tet)) with (walk tet) in *. apply simplex_path in Hp. change (0 <= f < FACES tet) in Hf. rewrite LL in *. assert (T := tab_corner_faces (wf_ty (proj1 (walk_wf Hp))) Hf). unfold corner_faces_ok in T. cbn zeta in T. rewrite !andb_true_iff in T. symmetry. apply corner_descendant_walk; auto. destruct T as (((((((((((((T1 & T2) & T3) & T4) & T5) & T6) & T7) & T8) & T9) & T10) & T11) & T12) & T13) & T14). lia.
  - intros e f L (p & Hp & ->) HL Hf. assert (LL := law_level (simplex_laws tet) Hp).
    destruct (@last_corner (simplex_scheme tet) (simplex_laws tet) (simplex_faces tet) (fun e f => parenttype_beyid_to_Iloc tet (ty e) (fv_last tet f))) with (n := Z.to_nat (L - s_level (gwalk (simplex_scheme tet) p))) (p := p) (f := f) as (pre & R).
    + intros e' f' V' HL' Hf'. change (0 <= f' < FACES tet) in Hf'. apply simplex_valid_wf in V'. assert (T := tab_corner_faces (wf_ty V') Hf'). unfold corner_faces_ok in T. cbn zeta in T. rewrite !andb_true_iff in T. destruct T as (((((((((((((T1 & T2) & T3) & T4) & T5) & T6) & T7) & T8) & T9) & T10) & T11) & T12) & T13) & T14).
      set (a := parenttype_beyid_to_Iloc tet (ty e') (fv_last tet f')) in *. assert (Ha : 0 <= a < CHILDREN tet) by lia. destruct (children_at_face_ids V' Hf') as (LC & _ & _).
      change (f_child_ids (simplex_faces tet) e' f') with (child_ids_at_face tet e' f'). rewrite faceids_eq in *. destruct (@last_nth (faceids tet (ty e') f') (FACE_CHILDREN tet - 1) (-1)) as [E1 E2]; [lia|lia|]. exists (removelast (faceids tet (ty e') f')). rewrite E2. split; [rewrite E1 at 1; do 2 f_equal; lia|].
      split. { change (f_child_face (simplex_faces tet) e' f') with (face_child_face tet e' f'). rewrite fcf_eq. lia. }
      split; [exact Ha|]. split; [exact Hf'|]. destruct (child_anchor V' HL' Ha) as (_ & C2 & _). cbn zeta in C2. change (ty (s_child e' a)) with (ty (child tet e' a)). rewrite C2. replace (Tt tet (ty e') a) with (ty e') by lia. reflexivity.
    + exact Hp.
    + lia.
    + exact Hf.
    + exists pre, f. rewrite R. do 3 f_equal. change (f_last (simplex_faces tet)) with (last_descendant_face tet). unfold last_descendant_face. fold (fv_last tet f). change (gwalk (simplex_scheme tet)) with (walk tet) in *. apply simplex_path in Hp. change (0 <= f < FACES tet) in Hf. rewrite LL in *. assert (T := tab_corner_faces (wf_ty (proj1 (walk_wf Hp))) Hf). unfold corner_faces_ok in T. cbn zeta in T. rewrite !andb_true_iff in T. symmetry. apply corner_descendant_walk; auto. destruct T as (((((((((((((T1 & T2) & T3) & T4) & T5) & T6) & T7) & T8) & T9) & T10) & T11) & T12) & T13) & T14). lia.
Qed.

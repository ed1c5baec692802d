(** The face functions of prisms satisfy the laws. *)
From Coq Require Import Sorting.Sorted.
From Verif Require Import Prelude PathSpec SchemeModel SchemeSpec SchemeProofs SchemeOrderProofs SchemeUniformProofs SchemeInstances FaceModel FaceSpec FaceProofs FaceInstances EclassModel.
From Verif Require Import GeoSpec BitLemmas SimplexModel SimplexSpec SimplexProofs SimplexPathProofs SimplexOrderProofs SimplexGeoProofs SimplexFaceProofs SimplexFaceChildProofs LineModel LineSpec LineProofs.
From Verif Require Import PrismModel PrismSpec PrismProofs PrismGeoProofs PrismFaceProofs PrismMoreProofs PrismScheme.

(** t8_default_prism.cxx; element_get_num_faces and element_get_max_num_faces are T8_DPRISM_FACES *)
Definition prism_faces : faces prism_scheme := @Faces prism_scheme
  (fun _ => PFACES) (fun _ => PFACES) p_child_ids_at_face p_face_child_face p_face_parent_face p_first_face p_last_face.

Lemma prism_valid_walk e : valid (S := prism_scheme) e <-> exists p, p_path p /\ e = p_walk p.
Proof. split; intros (p & Hp & ->); exists p; (split; [now apply prism_path|reflexivity]). Qed.

(** the first and last corner of a face, and the children there *)
Definition pc_first (f : Z) : Z := p_face_corner f 0.
Definition pc_last (f : Z) : Z := p_face_corner f (if f <? 3 then 3 else 2).
Definition pc_child (t c : Z) : Z := 4 * (c / 3) + parenttype_beyid_to_Iloc false t (c mod 3).
Definition p_corner_faces_ok (t f : Z) : bool :=
  let l := p_faceids t f in let a := pc_child t (pc_first f) in let b := pc_child t (pc_last f) in
  (0 <=? pc_first f) && (pc_first f <? 6) && (0 <=? pc_last f) && (pc_last f <? 6) &&
  (hd (-1) l =? a) && (last l (-1) =? b) &&
  (Tt false t (a mod 4) =? t) && (Tt false t (b mod 4) =? t) && (0 <=? a) && (a <? 8) && (0 <=? b) && (b <? 8).
Lemma p_tab_corner_faces t f : 0 <= t < 2 -> 0 <= f < 5 ->
  (0 <= pc_first f < 6 /\ 0 <= pc_last f < 6) /\ hd (-1) (p_faceids t f) = pc_child t (pc_first f) /\ last (p_faceids t f) (-1) = pc_child t (pc_last f) /\
  Tt false t (pc_child t (pc_first f) mod 4) = t /\ Tt false t (pc_child t (pc_last f) mod 4) = t /\ 0 <= pc_child t (pc_first f) < 8 /\ 0 <= pc_child t (pc_last f) < 8.
Proof.
  intros Ht Hf. assert (all2 2 5 p_corner_faces_ok = true) as A by (vm_compute; reflexivity). assert (T := all2_spec A Ht Hf). unfold p_corner_faces_ok in T. cbn zeta in T. rewrite !andb_true_iff in T.
  destruct T as (((((((((((T1 & T2) & T3) & T4) & T5) & T6) & T7) & T8) & T9) & T10) & T11) & T12). repeat split; lia.
Qed.
Lemma p_child_ty p i : p_path p -> zlen p < PMAX -> 0 <= i < 8 -> ty (ptri (p_child (p_walk p) i)) = Tt false (ty (ptri (p_walk p))) (i mod 4).
Proof.
  intros Hp HL Hi. unfold p_child. cbn [ptri]. destruct (walk_wf (p_t_path Hp)) as [W LT]. rewrite tpart_len in LT. rewrite p_walk_eq. cbn [ptri].
  apply (child_anchor W); [change (MAXLEVEL false) with 29; change PMAX with 21 in *; lia|change (CHILDREN false) with 4; lia].
Qed.
(** the first and the last descendant at a face are in the first and in the last child at the face, at each level *)
Lemma p_descendants_at_face p f L : p_path p -> zlen p <= L <= PMAX -> 0 <= f < 5 ->
  exists i j, 0 <= i < 8 /\ 0 <= j < 8 /\ hd (-1) (p_child_ids_at_face (p_walk p) f) = i /\ last (p_child_ids_at_face (p_walk p) f) (-1) = j /\
  p_first_face (p_walk p) f L = p_walk (p ++ repeat i (Z.to_nat (L - zlen p))) /\
  p_last_face (p_walk p) f L = p_walk (p ++ repeat j (Z.to_nat (L - zlen p))).
Proof.
  intros Hp HL Hf. destruct (p_tab_corner_faces (p_walk_ty Hp) Hf) as ((C1 & C2) & H1 & H2 & _ & _ & R1 & R2). exists (pc_child (ty (ptri (p_walk p))) (pc_first f)), (pc_child (ty (ptri (p_walk p))) (pc_last f)).
  rewrite p_faceids_eq. split; [exact R1|]. split; [exact R2|]. split; [exact H1|]. split; [exact H2|]. split.
  - exact (proj2 (p_corner_walk Hp HL C1)).
  - exact (proj2 (p_corner_walk Hp HL C2)).
Qed.
Lemma p_face_children (e : prism) f x g : 0 <= f < 5 ->
  (In (x, g) (face_children prism_faces e f) <-> exists i, In i (p_child_ids_at_face e f) /\ x = p_child e i /\ g = f).
Proof.
  intros Hf. unfold face_children. change (f_children prism_faces e f) with (map (p_child e) (p_child_ids_at_face e f)). rewrite map_length. rewrite in_map_iff. split.
  - intros (k & E & Hk). apply in_seq in Hk. injection E as <- <-. exists (nth k (p_child_ids_at_face e f) 0). split; [apply nth_In; lia|]. split; [|reflexivity].
    rewrite nth_indep with (d' := p_child e 0) by (rewrite map_length; lia). apply map_nth.
  - intros (i & Hi & -> & ->). destruct (In_nth _ _ 0 Hi) as (k & Hk & E). exists k. split; [|apply in_seq; lia]. rewrite nth_indep with (d' := p_child e 0) by (rewrite map_length; lia). rewrite map_nth, E. reflexivity.
Qed.
Lemma p_child_inj p i j : p_path p -> zlen p < PMAX -> 0 <= i < 8 -> 0 <= j < 8 -> p_child (p_walk p) i = p_child (p_walk p) j -> i = j.
Proof.
  intros Hp HL Hi Hj E. assert (V : valid (S := prism_scheme) (p_walk p)) by (apply prism_valid_walk; eauto). assert (LV : s_level (s := prism_scheme) (p_walk p) < s_maxlevel prism_scheme) by (change (p_level (p_walk p) < PMAX); rewrite (p_walk_level Hp); exact HL).
  destruct (valid_child prism_laws V LV (i := i)) as (_ & _ & _ & C1 & _); [exact Hi|]. destruct (valid_child prism_laws V LV (i := j)) as (_ & _ & _ & C2 & _); [exact Hj|].
  change (@s_child prism_scheme) with p_child in *. rewrite E in C1. congruence.
Qed.
(** a child at a face, in terms of its face *)
Lemma p_face_children_sub p f i g : p_path p -> zlen p < PMAX -> 0 <= f < 5 -> 0 <= i < 8 -> 0 <= g < 5 ->
  (In (p_child (p_walk p) i, g) (face_children prism_faces (p_walk p) f) <-> p_subface (p_walk p) f (p_child (p_walk p) i) g).
Proof.
  intros Hp HL Hf Hi Hg. rewrite p_face_children by exact Hf. destruct (p_children_at_face_ids Hp Hf) as (LE & _ & R).
  assert (K : forall k, 0 <= k < p_num_face_children f -> znth (-1) (p_child_ids_at_face (p_walk p) f) k = i -> (p_subface (p_walk p) f (p_child (p_walk p) i) g <-> g = f)).
  { intros k Hk E. rewrite <- E. exact (@p_face_child_face_exact p f k g Hp HL Hf Hk Hg). }
  assert (I : In i (p_child_ids_at_face (p_walk p) f) -> exists k, 0 <= k < p_num_face_children f /\ znth (-1) (p_child_ids_at_face (p_walk p) f) k = i).
  { intros I. apply In_nth with (d := -1) in I. destruct I as (k & Hk & E). exists (Z.of_nat k). unfold zlen in LE. split; [lia|]. unfold znth. now rewrite Nat2Z.id. }
  split.
  - intros (j & Hj & E & ->). apply (@p_child_inj p i j Hp HL Hi (R _ Hj)) in E. subst j. destruct (I Hj) as (k & Hk & E). now apply (K k Hk E).
  - intros S. assert (Ii : In i (p_child_ids_at_face (p_walk p) f)) by (apply (p_children_at_face_exact Hp HL Hf Hi); eauto). exists i. split; [exact Ii|]. split; [reflexivity|]. destruct (I Ii) as (k & Hk & E). now apply (K k Hk E).
Qed.

Theorem prism_flaws : flaws prism_faces.
Proof.
  assert (LT : forall p, p_path p -> s_level (s := prism_scheme) (p_walk p) < s_maxlevel prism_scheme -> zlen p < PMAX) by (intros p Hp H; change (p_level (p_walk p) < PMAX) in H; now rewrite (p_walk_level Hp) in H).
  constructor.
  - intros a e _. change (0 <= 5 <= 5). lia.
  - intros e f V HL Hf. change (0 <= f < 5) in Hf. apply prism_valid_walk in V. destruct V as (p & Hp & ->). destruct (p_children_at_face_ids Hp Hf) as (L & I & R). change (f_child_ids prism_faces (p_walk p) f) with (p_child_ids_at_face (p_walk p) f). split; [|split].
    + intros E. rewrite E in L. change (zlen []) with 0 in L. unfold p_num_face_children in L. destruct (3 <=? f); lia.
    + now apply increasing_sorted.
    + now apply Forall_forall.
  - intros e f c g V HL Hf H. change (0 <= f < 5) in Hf. apply (p_face_children _ _ _ Hf) in H. destruct H as (i & _ & -> & ->). exact Hf.
  - intros e i g V HL Hi Hg. change (0 <= g < 5) in Hg. change (0 <= i < 8) in Hi. apply prism_valid_walk in V. destruct V as (p & Hp & ->). apply (LT p Hp) in HL. destruct (p_face_parent_face_exact Hp HL Hi Hg) as [A B]. cbn zeta in A, B. split; [exact B|].
    intros f Hf. change (0 <= f < 5) in Hf. rewrite <- (A f Hf). exact (p_face_children_sub Hp HL Hf Hi Hg).
  - intros e g V Hg. change (0 <= g < 5) in Hg. change (f_max prism_faces e) with 5. change (f_parent_face prism_faces e g) with (p_face_parent_face e g). unfold p_face_parent_face. destruct (_ && _); [lia|]. destruct (_ && _); lia.
  - intros e f L (p & Hp & ->) HL Hf. assert (LL := law_level prism_laws Hp). change (0 <= f < 5) in Hf.
    destruct (@first_corner prism_scheme prism_laws prism_faces (fun e f => pc_child (ty (ptri e)) (pc_first f))) with (n := Z.to_nat (L - s_level (gwalk prism_scheme p))) (p := p) (f := f) as (rest & R).
    + intros e' f' V' HL' Hf'. change (0 <= f' < 5) in Hf'. apply prism_valid_walk in V'. destruct V' as (q & Hq & ->). destruct (p_tab_corner_faces (p_walk_ty Hq) Hf') as (_ & T1 & _ & T2 & _ & T3 & _).
      set (a := pc_child (ty (ptri (p_walk q))) (pc_first f')) in *. change (f_child_ids prism_faces (p_walk q) f') with (p_child_ids_at_face (p_walk q) f'). destruct (p_children_at_face_ids Hq Hf') as (LC & _ & _). rewrite p_faceids_eq in *.
      destruct (p_faceids (ty (ptri (p_walk q))) f') as [|x r]; [change (zlen []) with 0 in LC; unfold p_num_face_children in LC; destruct (3 <=? f'); lia|]. cbn [hd] in T1. subst x. exists r. split; [reflexivity|]. split; [reflexivity|]. split; [exact T3|]. split; [exact Hf'|].
      change (@s_child prism_scheme (p_walk q) a) with (p_child (p_walk q) a). rewrite (p_child_ty Hq (LT q Hq HL') T3), T2. reflexivity.
    + exact Hp.
    + lia.
    + exact Hf.
    + exists f, rest. rewrite R. do 2 f_equal. change (f_first prism_faces) with p_first_face. apply prism_path in Hp. change (gwalk prism_scheme) with p_walk in *. rewrite LL in *. symmetry. destruct (p_tab_corner_faces (p_walk_ty Hp) Hf) as ((C1 & _) & _). exact (proj2 (p_corner_walk Hp HL C1)).
  - intros e f L (p & Hp & ->) HL Hf. assert (LL := law_level prism_laws Hp). change (0 <= f < 5) in Hf.
    destruct (@last_corner prism_scheme prism_laws prism_faces (fun e f => pc_child (ty (ptri e)) (pc_last f))) with (n := Z.to_nat (L - s_level (gwalk prism_scheme p))) (p := p) (f := f) as (pre & R).
    + intros e' f' V' HL' Hf'. change (0 <= f' < 5) in Hf'. apply prism_valid_walk in V'. destruct V' as (q & Hq & ->). destruct (p_tab_corner_faces (p_walk_ty Hq) Hf') as (_ & _ & T1 & _ & T2 & _ & T3).
      set (b := pc_child (ty (ptri (p_walk q))) (pc_last f')) in *. change (f_child_ids prism_faces (p_walk q) f') with (p_child_ids_at_face (p_walk q) f'). destruct (p_children_at_face_ids Hq Hf') as (LC & _ & _). rewrite p_faceids_eq in *.
      assert (LC' : zlen (p_faceids (ty (ptri (p_walk q))) f') = 3 + 1) by (rewrite LC; unfold p_num_face_children; destruct (3 <=? f'); reflexivity).
      destruct (last_nth (-1) LC' ltac:(lia)) as [E1 E2]. exists (removelast (p_faceids (ty (ptri (p_walk q))) f')). split; [rewrite E1 at 1; now rewrite T1|]. split; [reflexivity|]. split; [exact T3|]. split; [exact Hf'|].
      change (@s_child prism_scheme (p_walk q) b) with (p_child (p_walk q) b). rewrite (p_child_ty Hq (LT q Hq HL') T3), T2. reflexivity.
    + exact Hp.
    + lia.
    + exact Hf.
    + exists pre, f. rewrite R. do 3 f_equal. change (f_last prism_faces) with p_last_face. apply prism_path in Hp. change (gwalk prism_scheme) with p_walk in *. rewrite LL in *. symmetry. destruct (p_tab_corner_faces (p_walk_ty Hp) Hf) as ((_ & C1) & _). exact (proj2 (p_corner_walk Hp HL C1)).
Qed.

(** More about the faces of hypercubes: the corners of faces, children at faces, and the root. *)
From Coq Require Import QArith.
From Verif Require Import Prelude PathSpec GeoSpec BitLemmas SimplexModel SimplexSpec SimplexPathProofs SimplexProofs SimplexFaceChildProofs SchemeModel SchemeSpec SchemeProofs SchemeInstances LineModel LineSpec LineProofs PrismModel PyramidModel.
From Verif Require Import HyperModel HyperSpec HyperProofs HyperOrderProofs HyperScheme HyperGeoProofs HyperFaceProofs HyperNbProofs FaceModel FaceSpec FaceInstances HyperFlaws HyperCrossProofs.
Open Scope Z_scope.

Fixpoint distinct (l : list Z) : bool := match l with [] => true | x :: l' => negb (existsb (Z.eqb x) l') && distinct l' end.
Lemma distinct_nodup l : distinct l = true -> NoDup l.
Proof.
  induction l as [|x l IH]; intros H; constructor; cbn [distinct] in H; apply andb_true_iff in H; destruct H as [H1 H2]; [|now apply IH].
  intros I. apply negb_true_iff in H1. assert (E : existsb (Z.eqb x) l = true) by (apply existsb_exists; exists x; split; [exact I|apply Z.eqb_refl]). congruence.
Qed.
Definition h_face_corners_ok (c : hclass) (f : Z) : bool :=
  distinct (h_face_corners c f) && forallb (fun v => Bool.eqb (existsb (Z.eqb v) (h_face_corners c f)) (Z.b2z (Z.testbit v (f / 2)) =? f mod 2) &&
    forallb (fun k => Bool.eqb (f =? h_corner_face v k) ((f / 2 =? k) && existsb (Z.eqb v) (h_face_corners c f))) (zseq 0 (hdim c))) (zseq 0 (Z.to_nat (hcorners c))).
Lemma tab_face_corners c f : 0 <= f < hfaces c -> h_face_corners_ok c f = true.
Proof.
  intros Hf. assert (T : forallb (h_face_corners_ok c) (zseq 0 (Z.to_nat (hfaces c))) = true) by (destruct c; vm_compute; reflexivity).
  rewrite forallb_forall in T. apply T. apply in_zseq. lia.
Qed.
Lemma existsb_In v l : existsb (Z.eqb v) l = true <-> In v l.
Proof. rewrite existsb_exists. split; [intros (x & I & E); apply Z.eqb_eq in E; now subst|intros I; exists v; split; [exact I|apply Z.eqb_refl]]. Qed.
Lemma h_face_corners_spec c f v : h_face_corners_ok c f = true -> 0 <= v < hcorners c ->
  (In v (h_face_corners c f) <-> Z.b2z (Z.testbit v (f / 2)) = f mod 2) /\ NoDup (h_face_corners c f).
Proof.
  intros T Hv. apply andb_true_iff in T. destruct T as [T1 T2]. split; [|now apply distinct_nodup]. rewrite forallb_forall in T2. specialize (T2 v). rewrite in_zseq in T2. specialize (T2 ltac:(lia)).
  apply andb_true_iff in T2. destruct T2 as [T2 _]. apply Bool.eqb_prop in T2. rewrite <- existsb_In, T2. apply Z.eqb_eq.
Qed.
Lemma h_corner_face_spec c v k f : 0 <= v < hcorners c -> 0 <= k < Z.of_nat (hdim c) -> 0 <= f < hfaces c -> (f = h_corner_face v k <-> f / 2 = k /\ In v (h_face_corners c f)).
Proof.
  intros Hv Hk Hf. assert (T := tab_face_corners Hf). apply andb_true_iff in T. destruct T as [_ T2]. rewrite forallb_forall in T2. specialize (T2 v). rewrite in_zseq in T2. specialize (T2 ltac:(lia)).
  apply andb_true_iff in T2. destruct T2 as [_ T2]. rewrite forallb_forall in T2. specialize (T2 k). rewrite in_zseq in T2. specialize (T2 ltac:(lia)). apply Bool.eqb_prop in T2.
  rewrite <- existsb_In, <- Z.eqb_eq, T2, andb_true_iff, Z.eqb_eq. reflexivity.
Qed.
Lemma h_children_at_face_exact c e f i : h_aligned c e -> hl e < hmax c -> 0 <= f < hfaces c -> 0 <= i < hchildren c ->
  (In i (h_child_ids_at_face c f) <-> exists g, 0 <= g < hfaces c /\ h_subface c e f (h_child c e i) g).
Proof.
  intros A HL Hf Hi. rewrite (h_child_ids_iff Hf Hi). split.
  - intros B. exists f. split; [exact Hf|]. apply h_subface_iff; auto.
  - intros (g & Hg & S). now apply h_subface_iff in S.
Qed.
Lemma h_face_child_face_exact c e f k g : h_aligned c e -> hl e < hmax c -> 0 <= f < hfaces c -> 0 <= k < h_num_face_children c -> 0 <= g < hfaces c ->
  (h_subface c e f (h_child c e (znth (-1) (h_child_ids_at_face c f) k)) g <-> g = h_face_child_face f k).
Proof.
  intros A HL Hf Hk Hg. destruct (ids_facts Hf) as (L & _ & _ & R & _). set (i := znth (-1) (h_child_ids_at_face c f) k).
  assert (I : In i (h_child_ids_at_face c f)) by (apply znth_In; lia). assert (Hi : 0 <= i < hchildren c) by (rewrite Forall_forall in R; now apply R).
  rewrite (h_subface_iff A HL Hi Hf Hg). apply (h_child_ids_iff Hf Hi) in I. unfold h_face_child_face. tauto.
Qed.
Lemma h_face_parent_face_exact c p i g : h_path c p -> zlen p < hmax c -> 0 <= i < hchildren c -> 0 <= g < hfaces c ->
  let e := h_walk c p in let pf := h_face_parent_face c (h_child c e i) g in
  (forall f, 0 <= f < hfaces c -> h_subface c e f (h_child c e i) g <-> f = pf) /\ (pf = -1 \/ 0 <= pf < hfaces c).
Proof.
  intros Hp HL Hi Hg e pf. assert (Hq := proj2 (h_path_snoc c p i) (conj Hp (conj Hi HL))). assert (E := h_parent_face_child Hq Hg). rewrite h_walk_snoc in E. fold e in E. fold pf in E.
  assert (HL' : hl e < hmax c) by (unfold e; rewrite (h_walk_level (proj2 Hp)); exact HL). assert (A : h_aligned c e) by exact (h_walk_aligned Hp). split.
  - intros f Hf. rewrite (h_subface_iff A HL' Hi Hf Hg), E. destruct (Z.eqb_spec (bitk (g / 2) i) (g mod 2)) as [B|B].
    + split; [intros [-> _]; reflexivity|intros ->; split; [reflexivity|exact B]].
    + split; [intros [-> B']; contradiction|lia].
  - rewrite E. destruct (_ =? _); lia.
Qed.
Lemma default_root_parent_face :
  (forall f, 0 <= f < 2 -> l_face_parent_face (l_walk []) f = f) /\ (forall tet f, 0 <= f < FACES tet -> face_parent_face tet (walk tet []) f = f) /\
  (forall f, 0 <= f < 5 -> p_face_parent_face p_root f = f) /\ (forall f, 0 <= f < 5 -> y_face_parent_face y_root f = f).
Proof.
  split; [reflexivity|]. split; [reflexivity|]. split; [|reflexivity]. intros f Hf. assert (C : f = 0 \/ f = 1 \/ f = 2 \/ f = 3 \/ f = 4) by lia. destruct C as [->|[->|[->|[->| ->]]]]; vm_compute; reflexivity.
Qed.

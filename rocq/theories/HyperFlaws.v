(** The face functions of the hypercubes of the standalone scheme satisfy the laws of FaceSpec.v. *)
From Coq Require Import Sorting.Sorted.
From Verif Require Import Prelude PathSpec SchemeModel SchemeSpec SchemeProofs SchemeInstances FaceModel FaceSpec FaceProofs FaceInstances.
From Verif Require Import BitLemmas SimplexModel SimplexSpec SimplexFaceChildProofs SimplexPathProofs SimplexOrderProofs LineModel LineSpec LineProofs.
From Verif Require Import HyperModel HyperSpec HyperProofs HyperOrderProofs HyperScheme HyperGeoProofs HyperFaceProofs HyperNbProofs.

(** t8_standalone_implementation.hxx *)
Definition hyper_faces (c : hclass) : faces (hyper_scheme c) := @Faces (hyper_scheme c)
  (fun _ => hfaces c) (fun _ => hfaces c) (fun _ => h_child_ids_at_face c) (fun _ => h_face_child_face) (h_face_parent_face c)
  (h_first_descendant_face c) (h_last_descendant_face c).

(** the first and the last child at a face *)
Definition fid (f : Z) : Z := if f mod 2 =? 0 then 0 else 2 ^ (f / 2).
Definition lid (c : hclass) (f : Z) : Z := if f mod 2 =? 0 then hchildren c - 1 - 2 ^ (f / 2) else hchildren c - 1.
Definition ids_ok (c : hclass) (f : Z) : bool :=
  let l := h_child_ids_at_face c f in
  (zlen l =? h_num_face_children c) && (1 <=? zlen l) && increasing l && forallb (fun i => (0 <=? i) && (i <? hchildren c)) l &&
  (hd (-1) l =? fid f) && (last l (-1) =? lid c f) && (0 <=? fid f) && (fid f <? hchildren c) && (0 <=? lid c f) && (lid c f <? hchildren c) &&
  forallb (fun k => (bitk k (fid f) =? (if k =? f / 2 then f mod 2 else 0)) && (bitk k (lid c f) =? (if k =? f / 2 then f mod 2 else 1))) (zseq 0 (hdim c)).
Lemma tab_ids c f : 0 <= f < hfaces c -> ids_ok c f = true.
Proof.
  intros H. assert (A : forallb (ids_ok c) (zseq 0 (Z.to_nat (hfaces c))) = true) by (destruct c; vm_compute; reflexivity).
  rewrite forallb_forall in A. apply A, in_zseq. lia.
Qed.
Lemma ids_facts c f : 0 <= f < hfaces c -> zlen (h_child_ids_at_face c f) = h_num_face_children c /\ 1 <= zlen (h_child_ids_at_face c f) /\
  increasing (h_child_ids_at_face c f) = true /\ Forall (fun i => 0 <= i < hchildren c) (h_child_ids_at_face c f) /\
  hd (-1) (h_child_ids_at_face c f) = fid f /\ last (h_child_ids_at_face c f) (-1) = lid c f /\
  0 <= fid f < hchildren c /\ 0 <= lid c f < hchildren c /\
  forall k, 0 <= k < Z.of_nat (hdim c) -> bitk k (fid f) = (if k =? f / 2 then f mod 2 else 0) /\ bitk k (lid c f) = (if k =? f / 2 then f mod 2 else 1).
Proof.
  intros H. assert (T := tab_ids H). unfold ids_ok in T. cbv zeta in T. rewrite !andb_true_iff in T. destruct T as [[[[[[[[[[T1 T2] T3] T4] T5] T6] T7] T8] T9] T10] T11].
  rewrite forallb_forall in T4, T11. split; [lia|]. split; [lia|]. split; [exact T3|]. split; [apply Forall_forall; intros i Hi; specialize (T4 i Hi); lia|].
  split; [lia|]. split; [lia|]. split; [lia|]. split; [lia|]. intros k Hk. specialize (T11 k ltac:(apply in_zseq; lia)). lia.
Qed.

Lemma h_parent_face_child c p i g : h_path c (p ++ [i]) -> 0 <= g < hfaces c ->
  h_face_parent_face c (h_walk c (p ++ [i])) g = if bitk (g / 2) i =? g mod 2 then g else -1.
Proof.
  intros H Hg. destruct (f_div Hg) as (G1 & G2 & G3). assert (HL := proj2 H). apply h_path_snoc in H. destruct H as (Hp & Hi & HM). pose proof (zlen_nonneg p).
  unfold h_face_parent_face. rewrite h_walk_eq by exact HL. cbn [hl hx]. rewrite zlen_snoc. rewrite (proj2 (Z.eqb_neq (zlen p + 1) 0)) by lia.
  assert (E : znth 0 (coords c (p ++ [i])) (g / 2) = X (hbits c) (g / 2) (p ++ [i])).
  { unfold coords, znth. rewrite (nth_indep _ 0 (X (hbits c) 0 (p ++ [i]))) by (rewrite map_length, zseq_length; lia). rewrite (map_nth (fun k => X (hbits c) k (p ++ [i]))). rewrite nth_zseq by lia. f_equal. lia. }
  rewrite E. rewrite X_cut by (rewrite zlen_snoc; lia). replace (Z.to_nat (zlen p + 1)) with (length (p ++ [i])) by (rewrite app_length; unfold zlen; cbn [length]; lia).
  rewrite firstn_all, map_app. cbn [map]. rewrite num_snoc. pose proof (bitk_range (g / 2) i) as B.
  pose proof (@num_range 2 (map (bitk (g / 2)) p) ltac:(lia) (bitk_valid (g / 2) p)) as R. rewrite Z.rem_mod_nonneg by lia.
  replace ((num 2 (map (bitk (g / 2)) p) * 2 + bitk (g / 2) i) mod 2) with (bitk (g / 2) i) by (rewrite Z.add_comm, Z.mod_add, Z.mod_small by lia; reflexivity).
  rewrite (Z.eqb_sym (g mod 2)). destruct (bitk (g / 2) i =? g mod 2); reflexivity.
Qed.

(** ** descendants at faces *)
Lemma h_corner_walk c p i L : h_path c p -> zlen p <= L <= hmax c ->
  h_walk c (p ++ repeat i (Z.to_nat (L - zlen p))) = Cube L (imap (fun k x => x + bitk k i * (h_len c (zlen p) - h_len c L)) 0 (hx (h_walk c p))).
Proof.
  intros [V HM] HL. assert (E : zlen (p ++ repeat i (Z.to_nat (L - zlen p))) = L) by (rewrite zlen_app, zlen_repeat; lia).
  rewrite !h_walk_eq by lia. cbn [hx]. rewrite E. f_equal. unfold coords. rewrite imap_zseq. apply map_zseq_ext. intros k Hk.
  rewrite X_app by (rewrite zlen_repeat; lia). rewrite map_repeat, zlen_repeat. rewrite !h_len_pow by lia. f_equal. pose proof (bitk_range k i) as B.
  assert (bitk k i = 0 \/ bitk k i = 1) as [Eb|Eb] by lia; rewrite Eb.
  - rewrite num_repeat0. lia.
  - change 1 with (2 - 1) at 1. rewrite num_repeat_last by lia. rewrite Z2Nat.id by lia.
    rewrite (@pow2_split (hbits c - L) (hbits c - zlen p)) by lia. replace (hbits c - zlen p - (hbits c - L)) with (L - zlen p) by lia.
    replace (hbits c - zlen p - (L - zlen p)) with (hbits c - L) by lia. ring.
Qed.
Lemma imap_ext f g k l : (forall j x, k <= j < k + zlen l -> f j x = g j x) -> imap f k l = imap g k l.
Proof.
  revert k. induction l as [|x l IH]; intros k H; cbn [imap]; [reflexivity|]. assert (Q : zlen (x :: l) = zlen l + 1) by (unfold zlen; cbn [length]; lia).
  pose proof (zlen_nonneg l). rewrite (H k x) by lia. f_equal. apply IH. intros j y Hj. apply H. lia.
Qed.
Lemma imap_id k l : imap (fun _ x => x) k l = l.
Proof. revert k. induction l as [|x l IH]; intros k; cbn [imap]; [reflexivity|]. now rewrite IH. Qed.
Lemma h_first_face_walk c p f L : h_path c p -> zlen p <= L <= hmax c -> 0 <= f < hfaces c ->
  h_first_descendant_face c (h_walk c p) f L = h_walk c (p ++ repeat (fid f) (Z.to_nat (L - zlen p))).
Proof.
  intros Hp HL Hf. rewrite h_corner_walk by auto. unfold h_first_descendant_face. f_equal. destruct (ids_facts Hf) as (_ & _ & _ & _ & _ & _ & _ & _ & B). destruct (f_div Hf) as (F1 & F2 & F3).
  assert (ZE : zlen (hx (h_walk c p)) = Z.of_nat (hdim c)) by (destruct (h_walk_aligned Hp) as (_ & Q & _); unfold zlen; now rewrite Q).
  rewrite (h_walk_level (proj2 Hp)). destruct (Z.eqb_spec (f mod 2) 0) as [E|E].
  - rewrite <- (imap_id 0 (hx (h_walk c p))) at 1. apply imap_ext. intros j x Hj. rewrite ZE in Hj. destruct (B j ltac:(lia)) as [B1 _]. rewrite B1. destruct (j =? f / 2); rewrite ?E; lia.
  - apply imap_ext. intros j x Hj. rewrite ZE in Hj. destruct (B j ltac:(lia)) as [B1 _]. rewrite B1. destruct (j =? f / 2); [replace (f mod 2) with 1 by lia|]; lia.
Qed.
Lemma h_last_face_walk c p f L : h_path c p -> zlen p <= L <= hmax c -> 0 <= f < hfaces c ->
  h_last_descendant_face c (h_walk c p) f L = h_walk c (p ++ repeat (lid c f) (Z.to_nat (L - zlen p))).
Proof.
  intros Hp HL Hf. rewrite h_corner_walk by auto. unfold h_last_descendant_face. f_equal. destruct (ids_facts Hf) as (_ & _ & _ & _ & _ & _ & _ & _ & B). destruct (f_div Hf) as (F1 & F2 & F3).
  assert (ZE : zlen (hx (h_walk c p)) = Z.of_nat (hdim c)) by (destruct (h_walk_aligned Hp) as (_ & Q & _); unfold zlen; now rewrite Q).
  rewrite (h_walk_level (proj2 Hp)). apply imap_ext. intros j x Hj. rewrite ZE in Hj. destruct (B j ltac:(lia)) as [_ B1]. now rewrite B1.
Qed.

(** ** the laws *)
Lemma h_face_children c (e : elt (hyper_scheme c)) f x g : 0 <= f < hfaces c ->
  (In (x, g) (face_children (hyper_faces c) e f) <-> g = f /\ exists i, In i (h_child_ids_at_face c f) /\ x = h_child c e i).
Proof.
  intros Hf. unfold face_children. rewrite in_map_iff.
  change (f_children (hyper_faces c) e f) with (map (h_child c e) (h_child_ids_at_face c f)). change (f_child_face (hyper_faces c) e f) with (fun k : Z => f). rewrite map_length. split.
  - intros (k & E & Hk). apply in_seq in Hk. assert (E1 := f_equal fst E). assert (E2 := f_equal snd E). cbn [fst snd] in E1, E2. split; [now symmetry|].
    exists (nth k (h_child_ids_at_face c f) 0). split; [apply nth_In; lia|]. rewrite <- E1. rewrite (nth_indep _ e (h_child c e 0)) by (rewrite map_length; lia). apply map_nth.
  - intros (-> & i & Hi & ->). apply In_nth with (d := 0) in Hi. destruct Hi as (k & Hk & <-). exists k. split; [|apply in_seq; lia]. f_equal.
    rewrite (nth_indep _ e (h_child c e 0)) by (rewrite map_length; lia). apply map_nth.
Qed.
Lemma h_child_inj c p i j : h_path c p -> zlen p < hmax c -> 0 <= i < hchildren c -> 0 <= j < hchildren c -> h_child c (h_walk c p) i = h_child c (h_walk c p) j -> i = j.
Proof.
  intros Hp HL Hi Hj E. rewrite <- !h_walk_snoc in E. apply h_walk_inj in E; [apply app_inj_tail in E; apply E|apply h_path_snoc; auto..].
Qed.
Theorem hyper_flaws c : flaws (hyper_faces c).
Proof.
  assert (FP : 0 <= hfaces c) by (destruct c; cbn; lia).
  constructor.
  - intros a e _. change (0 <= hfaces c <= hfaces c). lia.
  - intros e f _ _ Hf. change (0 <= f < hfaces c) in Hf. change (f_child_ids (hyper_faces c) e f) with (h_child_ids_at_face c f). change (s_num_children e) with (hchildren c).
    destruct (ids_facts Hf) as (I1 & I2 & I3 & I4 & _). split; [intros E; rewrite E in I2; unfold zlen in I2; cbn [length] in I2; lia|]. split; [now apply increasing_sorted|exact I4].
  - intros e f x g _ _ Hf H. change (0 <= f < hfaces c) in Hf. apply (h_face_children _ _ _ Hf) in H. destruct H as (-> & _). exact Hf.
  - intros e i g (p & Hp & ->) HL Hi Hg. change (0 <= g < hfaces c) in Hg. change (0 <= i < hchildren c) in Hi. apply hyper_path in Hp. change (gwalk (hyper_scheme c)) with (h_walk c) in *.
    assert (HL' : hl (h_walk c p) < hmax c) by exact HL. clear HL. rename HL' into HL. rewrite (h_walk_level (proj2 Hp)) in HL.
    change (@s_child (hyper_scheme c)) with (h_child c) in *. change (f_parent_face (hyper_faces c)) with (h_face_parent_face c).
    rewrite <- h_walk_snoc, h_parent_face_child by (auto; now apply h_path_snoc). rewrite h_walk_snoc. split.
    + destruct (bitk (g / 2) i =? g mod 2); [right; exact Hg|now left].
    + intros f Hf. change (0 <= f < hfaces c) in Hf. rewrite h_face_children by exact Hf. split.
      * intros (-> & j & Hj & E). assert (Rj := proj1 (Forall_forall _ _) (proj1 (proj2 (proj2 (proj2 (ids_facts Hf))))) j Hj). cbv beta in Rj. apply h_child_inj in E; auto. subst j. apply h_child_ids_iff in Hj; auto. rewrite Hj, Z.eqb_refl. reflexivity.
      * intros E. destruct (Z.eqb_spec (bitk (g / 2) i) (g mod 2)) as [B|B]; [|lia]. subst f. split; [reflexivity|]. exists i. split; [now apply h_child_ids_iff|reflexivity].
  - intros e g V Hg. change (0 <= g < hfaces c) in Hg. change (f_max (hyper_faces c) e) with (hfaces c). change (f_parent_face (hyper_faces c) e g) with (h_face_parent_face c e g). unfold h_face_parent_face.
    destruct (hl e =? 0); [lia|]. destruct (negb _); lia.
  - intros e f L (p & Hp & ->) HL Hf. assert (LL := law_level (hyper_laws c) Hp).
    destruct (@first_corner (hyper_scheme c) (hyper_laws c) (hyper_faces c) (fun _ f => fid f)) with (n := Z.to_nat (L - s_level (gwalk (hyper_scheme c) p))) (p := p) (f := f) as (rest & R).
    + intros e' f' _ _ Hf'. change (0 <= f' < hfaces c) in Hf'. destruct (ids_facts Hf') as (I1 & I2 & I3 & I4 & I5 & I6 & I7 & I8 & I9). change (f_child_ids (hyper_faces c) e' f') with (h_child_ids_at_face c f').
      destruct (h_child_ids_at_face c f') as [|a r]; [unfold zlen in I2; cbn [length] in I2; lia|]. cbn [hd] in I5. exists r. split; [now rewrite I5|]. split; [reflexivity|]. split; [exact I7|]. split; [exact Hf'|reflexivity].
    + exact Hp.
    + lia.
    + exact Hf.
    + exists f, rest. rewrite R. do 2 f_equal. apply hyper_path in Hp. change (f_first (hyper_faces c)) with (h_first_descendant_face c). change (gwalk (hyper_scheme c)) with (h_walk c) in *. rewrite LL in *. symmetry. now apply h_first_face_walk.
  - intros e f L (p & Hp & ->) HL Hf. assert (LL := law_level (hyper_laws c) Hp).
    destruct (@last_corner (hyper_scheme c) (hyper_laws c) (hyper_faces c) (fun _ f => lid c f)) with (n := Z.to_nat (L - s_level (gwalk (hyper_scheme c) p))) (p := p) (f := f) as (pre & R).
    + intros e' f' _ _ Hf'. change (0 <= f' < hfaces c) in Hf'. destruct (ids_facts Hf') as (I1 & I2 & I3 & I4 & I5 & I6 & I7 & I8 & I9). change (f_child_ids (hyper_faces c) e' f') with (h_child_ids_at_face c f').
      destruct (@last_nth (h_child_ids_at_face c f') (zlen (h_child_ids_at_face c f') - 1) (-1)) as [E1 E2]; [lia|lia|]. exists (removelast (h_child_ids_at_face c f')). rewrite I6 in E1. split; [exact E1|]. split; [reflexivity|]. split; [exact I8|]. split; [exact Hf'|reflexivity].
    + exact Hp.
    + lia.
    + exact Hf.
    + exists pre, f. rewrite R. do 3 f_equal. apply hyper_path in Hp. change (f_last (hyper_faces c)) with (h_last_descendant_face c). change (gwalk (hyper_scheme c)) with (h_walk c) in *. rewrite LL in *. symmetry. now apply h_last_face_walk.
Qed.

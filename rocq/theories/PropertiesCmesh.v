(** Properties C47 (a coarse mesh is what was set), C48 (tree attributes), C49 (copies of coarse meshes).
    The specification is in CmeshSpec.v, the model in CmeshModel.v. *)
From Verif Require Import Prelude EclassModel CmeshModel CmeshSpec CmeshLib CmeshStashProofs CmeshCommitProofs.

Lemma known_replicated n calls t : (forall t1 t2 f1 f2 o, In (SetJoin t1 t2 f1 f2 o) calls -> 0 <= t1 < n /\ 0 <= t2 < n) -> known_tree 0 n calls t -> 0 <= t < n.
Proof. intros H [K|(_ & l & fl & f & o & _ & [K|K])]; [unfold local_tree in K; lia| |]; apply H in K; lia. Qed.
Lemma mesh_join_range dim n calls : mesh_calls dim n calls -> forall t1 t2 f1 f2 o, In (SetJoin t1 t2 f1 f2 o) calls -> 0 <= t1 < n /\ 0 <= t2 < n.
Proof.
  intros H t1 t2 f1 f2 o J. apply (mesh_joins H) in J as [(c1 & J1 & _) (c2 & J2 & _)]. split; apply (mesh_trees H); unfold class_ids; apply in_flat_map; [exists (SetClass t1 c1)|exists (SetClass t2 c2)]; (split; [assumption|now left]).
Qed.
Lemma mesh_part dim n calls : mesh_calls dim n calls -> part_calls dim 0 n calls.
Proof.
  intros H. assert (R := mesh_join_range H). split.
  - apply H.
  - split; [lia|apply H].
  - intros t K. apply (mesh_trees H). exact (known_replicated R K).
  - intros t1 t2 f1 f2 o J. destruct (mesh_joins H J) as [(c1 & J1 & F1) (c2 & J2 & F2)]. split; [intros _; now exists c1|]. split; [intros _; now exists c2|].
    destruct (ok_class (mesh_ok_calls H) J1) as (_ & C1 & D1). destruct (ok_class (mesh_ok_calls H) J2) as (_ & C2 & D2). assert (M1 := max_faces C1). assert (M2 := max_faces C2). rewrite D1 in M1. rewrite D2 in M2. lia.
Qed.
Lemma mesh_replicated dim n calls : mesh_calls dim n calls -> attrs_dense 0 n calls -> exists b c c', run_calls empty_building calls = Ok b /\ commit_replicated b = Ok c /\ copy c = Ok c' /\
  (numbers_right 0 n calls c /\ classes_right 0 n calls c /\ faces_right 0 n calls c /\ attributes_right 0 n calls c) /\ (numbers_right 0 n calls c' /\ classes_right 0 n calls c' /\ faces_right 0 n calls c' /\ attributes_right 0 n calls c').
Proof.
  intros H D. apply commit_replicated_ok with (dim := dim); [now apply mesh_part|assumption|]. split; [reflexivity|]. split; [intros t; apply (mesh_trees H)|]. split; [apply (mesh_join_range H)|]. apply H.
Qed.

(** * C47: the committed mesh is the mesh that was set *)
(** Replicated meshes: the calls succeed, and the local numbers are the global ones, every tree has the class that was set, every joined face leads to the face
    that it was joined with, with the orientation that was set, from both sides, and all other faces are boundary *)
Theorem C47_replicated_mesh_is_what_was_set dim n calls : mesh_calls dim n calls -> attrs_dense 0 n calls -> exists b c, run_calls empty_building calls = Ok b /\ commit_replicated b = Ok c /\
  numbers_right 0 n calls c /\ classes_right 0 n calls c /\ faces_right 0 n calls c.
Proof. intros H D. destruct (mesh_replicated H D) as (b & c & _ & B & C & _ & (A1 & A2 & A3 & _) & _). exists b, c. auto. Qed.
Print Assumptions C47_replicated_mesh_is_what_was_set.
(** Partitioned meshes: on every process, for its trees and the ghosts, which are the trees joined with them; all other trees have the local number -1 *)
Theorem C47_partitioned_mesh_is_what_was_set dim first n calls : part_calls dim first n calls -> attrs_dense first n calls -> exists b c, run_calls empty_building calls = Ok b /\ commit_partitioned first n b = Ok c /\
  numbers_right first n calls c /\ unknown_right first n calls c /\ classes_right first n calls c /\ faces_right first n calls c.
Proof. intros H D. destruct (commit_partitioned_ok H D) as (b & c & _ & B & C & _ & (A1 & A2 & A3 & _ & A5) & _). exists b, c. auto 10. Qed.
Print Assumptions C47_partitioned_mesh_is_what_was_set.

(** a quadrilateral 0 and two triangles 1, 2 in a row, set in another order *)
Definition C47_calls : list call :=
  [SetClass 1 3; SetClass 0 2; SetAttribute 0 1 5 (zseq 10 24); SetClass 2 3; SetJoin 1 0 2 3 1; SetAttribute 0 1 2 [7; 8; 9]; SetJoin 2 1 0 1 0; SetAttribute 2 0 3 [1; 2; 3; 4; 5]].
Lemma calls_class t c : In (SetClass t c) C47_calls -> (t = 1 /\ c = 3) \/ (t = 0 /\ c = 2) \/ (t = 2 /\ c = 3).
Proof. cbn. intros H. repeat (destruct H as [H|H]; [try discriminate; injection H as <- <-; auto|]). destruct H. Qed.
Lemma calls_join t1 t2 f1 f2 o : In (SetJoin t1 t2 f1 f2 o) C47_calls -> (t1 = 1 /\ t2 = 0 /\ f1 = 2 /\ f2 = 3 /\ o = 1) \/ (t1 = 2 /\ t2 = 1 /\ f1 = 0 /\ f2 = 1 /\ o = 0).
Proof. cbn. intros H. repeat (destruct H as [H|H]; [try discriminate; injection H as <- <- <- <- <-; auto 10|]). destruct H. Qed.
Lemma calls_attr t p k d : In (SetAttribute t p k d) C47_calls -> 0 <= t < 3 /\ 0 <= p < 10 /\ 0 <= k < 10 /\ t <> 1.
Proof. cbn. intros H. repeat (destruct H as [H|H]; [try discriminate; injection H as <- <- <- <-; lia|]). destruct H. Qed.
Lemma C47_calls_ok : calls_ok 2 C47_calls.
Proof.
  split.
  - intros t c H. apply calls_class in H as [[-> ->]|[[-> ->]|[-> ->]]]; (split; [lia|split; [lia|reflexivity]]).
  - cbn. repeat constructor; cbn; intuition discriminate.
  - intros t1 t2 f1 f2 o H. apply calls_join in H. lia.
  - cbn. repeat constructor; cbn; intuition discriminate.
  - intros t p k d H. apply calls_attr in H. lia.
  - cbn. repeat constructor; cbn; intuition discriminate.
  - vm_compute. reflexivity.
Qed.
Lemma C47_faces t1 t2 f1 f2 o : In (SetJoin t1 t2 f1 f2 o) C47_calls -> has_face C47_calls t1 f1 /\ has_face C47_calls t2 f2.
Proof.
  intros H. apply calls_join in H as [(-> & -> & -> & -> & ->)|(-> & -> & -> & -> & ->)]; split; [exists 3|exists 2|exists 3|exists 3]; (split; [cbn; tauto|split; [lia|reflexivity]]).
Qed.
Example C47_mesh_nonempty : mesh_calls 2 3 C47_calls /\ attrs_dense 0 3 C47_calls.
Proof.
  split.
  - split.
    + lia.
    + apply C47_calls_ok.
    + intros t. cbn. lia.
    + apply C47_faces.
    + intros t p k d H. apply calls_attr in H. lia.
  - split.
    + right. exists 0, 3, [1; 2; 3; 4; 5]. cbn. tauto.
    + left. intros t (N & l & fl & f & o & _ & J). exfalso. apply N. unfold local_tree. destruct J as [J|J]; apply calls_join in J; lia.
Qed.
Example C47_part_nonempty : part_calls 2 1 1 C47_calls /\ attrs_dense 1 1 C47_calls /\ ghost_tree 1 1 C47_calls 0 /\ ghost_tree 1 1 C47_calls 2.
Proof.
  assert (K : forall t, known_tree 1 1 C47_calls t -> 0 <= t < 3). { intros t [H|(_ & l & fl & f & o & _ & [J|J])]; [unfold local_tree in H; lia| |]; apply calls_join in J; lia. }
  split; [|split; [|split]].
  - split.
    + apply C47_calls_ok.
    + lia.
    + intros t H. apply K in H. cbn. lia.
    + intros t1 t2 f1 f2 o H. assert (C := C47_faces H). split; [tauto|]. split; [tauto|]. change (eclass_max_num_faces 2) with 4. apply calls_join in H. lia.
  - split.
    + left. intros t H (p & k & d & A). apply calls_attr in A. unfold local_tree in H. lia.
    + right. intros t H. assert (R := K t (or_intror H)). destruct H as [N _]. unfold local_tree in N. assert (t = 0 \/ t = 2) as [-> | ->] by lia; [exists 1, 2, [7; 8; 9]|exists 0, 3, [1; 2; 3; 4; 5]]; cbn; tauto.
  - split; [unfold local_tree; lia|]. exists 1, 2, 3, 1. split; [unfold local_tree; lia|]. left. cbn. tauto.
  - split; [unfold local_tree; lia|]. exists 1, 1, 0, 0. split; [unfold local_tree; lia|]. right. cbn. tauto.
Qed.

(** * C48: attributes *)
(** Every attribute of a tree or ghost holds the bytes that were set, and every other key gives the null pointer, if the last tree has an attribute
    or no tree has one, and all ghosts have one or none *)
Theorem C48_replicated_attributes dim n calls : mesh_calls dim n calls -> attrs_dense 0 n calls -> exists b c, run_calls empty_building calls = Ok b /\ commit_replicated b = Ok c /\ attributes_right 0 n calls c.
Proof. intros H D. destruct (mesh_replicated H D) as (b & c & _ & B & C & _ & (_ & _ & _ & A) & _). exists b, c. auto. Qed.
Print Assumptions C48_replicated_attributes.
Theorem C48_partitioned_attributes dim first n calls : part_calls dim first n calls -> attrs_dense first n calls -> exists b c, run_calls empty_building calls = Ok b /\ commit_partitioned first n b = Ok c /\ attributes_right first n calls c.
Proof. intros H D. destruct (commit_partitioned_ok H D) as (b & c & _ & B & C & _ & (_ & _ & _ & A & _) & _). exists b, c. auto. Qed.
Print Assumptions C48_partitioned_attributes.
Example C48_attributes_set : exists b c, run_calls empty_building C47_calls = Ok b /\ commit_replicated b = Ok c /\ get_attribute c 1 5 0 = Ok (Some (zseq 10 24)) /\ get_attribute c 1 3 0 = Ok None.
Proof.
  destruct C47_mesh_nonempty as [M D]. destruct (mesh_replicated M D) as (b & c & _ & B & C & _ & ((_ & N & _) & _ & _ & A1 & A2) & _). exists b, c. split; [assumption|]. split; [assumption|].
  assert (L : get_local_id c 0 = 0) by (rewrite N; [reflexivity|unfold local_tree; lia]). split.
  - rewrite <- L. apply A1; [left; unfold local_tree; lia|cbn; tauto].
  - rewrite <- L. apply A2; [left; unfold local_tree; lia|]. intros d H. cbn in H. intuition discriminate.
Qed.

(** Without the condition the attribute is overwritten.  The last tree has no attribute: t8_cmesh_trees_add_attribute
    then writes the offset of the next attribute, which does not exist, into the data of the first one. *)
Definition C48_last_tree_without : list call := [SetClass 1 3; SetClass 0 2; SetJoin 1 0 2 3 1; SetAttribute 0 1 5 (zseq 10 24)].
Lemma without_mesh d : attr_bytes [SetAttribute 0 1 5 d] < 2 ^ 63 -> mesh_calls 2 2 [SetClass 1 3; SetClass 0 2; SetJoin 1 0 2 3 1; SetAttribute 0 1 5 d].
Proof.
  intros Z0. split.
  - lia.
  - split; cbn.
    + intros t c [H|[H|[H|[H|[]]]]]; try discriminate; injection H as <- <-; (split; [lia|split; [lia|reflexivity]]).
    + repeat constructor; cbn; intuition discriminate.
    + intros t1 t2 f1 f2 o [H|[H|[H|[H|[]]]]]; try discriminate. injection H as <- <- <- <- <-. lia.
    + repeat constructor; cbn; intuition discriminate.
    + intros t p k e [H|[H|[H|[H|[]]]]]; try discriminate. injection H as <- <- <- <-. lia.
    + repeat constructor; cbn; tauto.
    + exact Z0.
  - intros t. cbn. lia.
  - intros t1 t2 f1 f2 o [H|[H|[H|[H|[]]]]]; try discriminate. injection H as <- <- <- <- <-. split; [exists 3|exists 2]; (split; [cbn; tauto|split; [lia|reflexivity]]).
  - intros t p k e [H|[H|[H|[H|[]]]]]; try discriminate. injection H as <- <- <- <-. lia.
Qed.
Theorem C48_last_tree_without_attribute_refuted : ~ (forall dim n calls, mesh_calls dim n calls -> forall b c, run_calls empty_building calls = Ok b -> commit_replicated b = Ok c -> attributes_right 0 n calls c).
Proof.
  intros H. specialize (H 2 2 C48_last_tree_without (@without_mesh (zseq 10 24) ltac:(reflexivity))).
  assert (R : (do b <- run_calls empty_building C48_last_tree_without; do c <- commit_replicated b; get_attribute c 1 5 (get_local_id c 0)) =
    Ok (Some [10; 11; 12; 13; 14; 15; 16; 17; 24; 0; 0; 0; 0; 0; 0; 0; 26; 27; 28; 29; 30; 31; 32; 33])) by (vm_compute; reflexivity).
  destruct (run_calls empty_building C48_last_tree_without) as [b| | |]; cbn [obind] in R; try discriminate. specialize (H b). destruct (commit_replicated b) as [c| | |]; cbn [obind] in R; try discriminate.
  destruct (H c eq_refl eq_refl) as [A _]. specialize (A 0 1 5 (zseq 10 24)). rewrite A in R; [discriminate R|left; unfold local_tree; lia|cbn; tauto].
Qed.
Print Assumptions C48_last_tree_without_attribute_refuted.
(** If that attribute is shorter than 16 bytes, the write is outside of the allocated memory *)
Theorem C48_commit_in_bounds_refuted : exists dim n calls b, mesh_calls dim n calls /\ run_calls empty_building calls = Ok b /\ commit_replicated b = Oob.
Proof. exists 2, 2, [SetClass 1 3; SetClass 0 2; SetJoin 1 0 2 3 1; SetAttribute 0 1 5 [1; 2; 3; 4]]. eexists. split; [now apply without_mesh|]. split; vm_compute; reflexivity. Qed.
Print Assumptions C48_commit_in_bounds_refuted.
(** Likewise for ghosts, if not all of them have an attribute: here trees 0 and 2 are ghosts of the process that owns tree 1 *)
Definition C48_ghost_without : list call := [SetClass 1 3; SetClass 0 2; SetClass 2 3; SetJoin 1 0 2 3 1; SetJoin 2 1 0 1 0; SetAttribute 2 0 3 [1; 2; 3; 4; 5]].
Theorem C48_ghost_without_attribute_refuted : exists b, part_calls 2 1 1 C48_ghost_without /\ run_calls empty_building C48_ghost_without = Ok b /\ commit_partitioned 1 1 b = Oob.
Proof.
  eexists. split; [|split; vm_compute; reflexivity].
  assert (J : forall t1 t2 f1 f2 o, In (SetJoin t1 t2 f1 f2 o) C48_ghost_without -> (t1 = 1 /\ t2 = 0 /\ f1 = 2 /\ f2 = 3 /\ o = 1) \/ (t1 = 2 /\ t2 = 1 /\ f1 = 0 /\ f2 = 1 /\ o = 0)).
  { intros t1 t2 f1 f2 o H. cbn in H. repeat (destruct H as [H|H]; [try discriminate; injection H as <- <- <- <- <-; auto 10|]). destruct H. }
  split.
  - split; cbn.
    + intros t c H. repeat (destruct H as [H|H]; [try discriminate; injection H as <- <-; (split; [lia|split; [lia|reflexivity]])|]). destruct H.
    + repeat constructor; cbn; intuition discriminate.
    + intros t1 t2 f1 f2 o H. apply J in H. lia.
    + repeat constructor; cbn; intuition discriminate.
    + intros t p k e H. repeat (destruct H as [H|H]; [try discriminate; injection H as <- <- <- <-; lia|]). destruct H.
    + repeat constructor; cbn; tauto.
    + vm_compute. reflexivity.
  - lia.
  - intros t [H|(_ & l & fl & f & o & _ & [H|H])]; [unfold local_tree in H; cbn; lia| |]; apply J in H; cbn; lia.
  - intros t1 t2 f1 f2 o H. apply J in H as [(-> & -> & -> & -> & ->)|(-> & -> & -> & -> & ->)]; (split; [|split; [|change (eclass_max_num_faces 2) with 4; lia]]); intros _; [exists 3|exists 2|exists 3|exists 3]; (split; [cbn; tauto|split; [lia|reflexivity]]).
Qed.
Print Assumptions C48_ghost_without_attribute_refuted.

(** * C49: copies *)
(** A copy of a replicated mesh succeeds and answers everything as the original *)
Theorem C49_replicated_copy dim n calls : mesh_calls dim n calls -> attrs_dense 0 n calls -> exists b c c', run_calls empty_building calls = Ok b /\ commit_replicated b = Ok c /\ copy c = Ok c' /\
  numbers_right 0 n calls c' /\ classes_right 0 n calls c' /\ faces_right 0 n calls c' /\ attributes_right 0 n calls c'.
Proof. intros H D. destruct (mesh_replicated H D) as (b & c & c' & B & C & K & _ & A). exists b, c, c'. auto. Qed.
Print Assumptions C49_replicated_copy.
(** The copy of a partitioned mesh succeeds and answers queries by local number as the original.  Missing: the local numbers of ghosts, and with them the
    neighbours of ghosts, which are refuted below. *)
Theorem C49_partitioned_copy_partial dim first n calls : part_calls dim first n calls -> attrs_dense first n calls -> exists b c c', run_calls empty_building calls = Ok b /\ commit_partitioned first n b = Ok c /\ copy c = Ok c' /\
  copy_right first n calls c c'.
Proof. intros H D. destruct (commit_partitioned_ok H D) as (b & c & c' & B & C & K & _ & A). exists b, c, c'. auto. Qed.
Print Assumptions C49_partitioned_copy_partial.
(** A copy of a partitioned mesh does not find its ghosts any more: t8_cmesh_copy leaves the table of the ghosts empty *)
Theorem C49_copy_finds_ghosts_refuted : ~ (forall dim first n calls, part_calls dim first n calls -> attrs_dense first n calls -> forall b c c', run_calls empty_building calls = Ok b -> commit_partitioned first n b = Ok c -> copy c = Ok c' ->
  numbers_right first n calls c').
Proof.
  intros H. destruct C47_part_nonempty as (M & D & G0 & _). specialize (H 2 1 1 C47_calls M D).
  assert (R : (do b <- run_calls empty_building C47_calls; do c <- commit_partitioned 1 1 b; do c' <- copy c; Ok (is_ghost c' (get_local_id c' 0))) = Ok false) by (vm_compute; reflexivity).
  destruct (run_calls empty_building C47_calls) as [b| | |]; cbn [obind] in R; try discriminate. specialize (H b). destruct (commit_partitioned 1 1 b) as [c| | |]; cbn [obind] in R; try discriminate.
  destruct (copy c) as [c'| | |] eqn:E; cbn [obind] in R; try discriminate. destruct (H c c' eq_refl eq_refl E) as (_ & _ & A & _). rewrite (A 0 G0) in R. discriminate R.
Qed.
Print Assumptions C49_copy_finds_ghosts_refuted.

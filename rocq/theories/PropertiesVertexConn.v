(** Property C50 (vertex connectivity of coarse meshes).  The specification is in VertexConnSpec.v, the model in VertexConnModel.v. *)
From Coq Require Import Sorting.Sorted Permutation.
From Verif Require Import Prelude EclassModel CmeshModel CmeshSpec CmeshLib CmeshStashProofs CmeshCommitProofs PropertiesCmesh VertexConnModel VertexConnSpec VertexConnProofs VertexConnCountProofs.

Lemma nth_error_ext {A} (a b : list A) : (forall j, nth_error a j = nth_error b j) -> a = b.
Proof.
  revert b. induction a as [|x a IH]; intros [|y b] H; [reflexivity|now specialize (H 0%nat)|now specialize (H 0%nat)|]. assert (E := H 0%nat). cbn in E. injection E as ->. f_equal. apply IH. intros j. apply (H (S j)).
Qed.
Lemma vertex_dense pkg dim n calls : vertex_calls pkg dim n calls -> attrs_dense 0 n calls.
Proof.
  intros V. assert (M := vc_mesh V). split.
  - destruct (Z.eq_dec n 0) as [->|E]; [left; intros t H; unfold local_tree in H; lia|right]. assert (N := mesh_range M). destruct (vc_all V (t := 0 + n - 1)) as (ids & H & _); [lia|]. now exists pkg, GLOBAL_VERTICES_KEY, (gloidx_array ids).
  - left. intros t H. exfalso. assert (K : 0 <= t < n) by (apply (known_replicated (mesh_join_range M)); now right). destruct H as [H _]. apply H. unfold local_tree. lia.
Qed.
Lemma class_in calls t : In t (class_ids calls) -> exists k, In (SetClass t k) calls.
Proof. unfold class_ids. rewrite in_flat_map. intros ([u k| |] & H & K); cbn in K; try tauto. destruct K as [->|[]]. now exists k. Qed.
(** the facts about a committed mesh from which the theorems follow *)
Lemma vertex_mesh pkg dim n calls : vertex_calls pkg dim n calls -> exists b c, run_calls empty_building calls = Ok b /\ commit_replicated b = Ok c /\ c_ghosts c = [] /\ has_classes c /\ (forall t, known c t <-> 0 <= t < n) /\
  (forall t, known c t -> get_global_id c t = Ok t) /\
  (forall t ids, sets_vertices pkg calls t ids -> known c t /\ get_global_vertices pkg c t = Ok ids /\ zlen ids = nv c t /\ forall v, In v ids -> 0 <= v < 2 ^ 63).
Proof.
  intros V. assert (M := vc_mesh V). destruct (mesh_replicated M (vertex_dense V)) as (b & c & _ & B & C & _ & ((N1 & N2 & N3 & N4 & N5) & K & _ & A & _) & _). exists b, c. split; [assumption|]. split; [assumption|].
  assert (R : forall t, ghost_tree 0 n calls t -> False). { intros t H. assert (T : 0 <= t < n) by (apply (known_replicated (mesh_join_range M)); now right). destruct H as [H _]. apply H. unfold local_tree. lia. }
  assert (G : c_ghosts c = []). { destruct (c_ghosts c) as [|g r] eqn:E; [reflexivity|exfalso]. destruct (N5 (zlen (c_trees c))) as (t & T & _); [unfold is_ghost; rewrite E; unfold zlen; cbn [length]; lia|exact (R t T)]. }
  assert (KN : forall t, known c t <-> 0 <= t < n) by (intros t; unfold known; rewrite G, N1; unfold zlen; cbn; lia).
  assert (KT : forall t, known c t -> known_tree 0 n calls t) by (intros t T; left; apply KN in T; unfold local_tree; lia).
  assert (L : forall t, known c t -> get_local_id c t = t) by (intros t T; apply KN in T; rewrite N2 by (unfold local_tree; lia); lia).
  assert (CL : forall t k, known c t -> In (SetClass t k) calls -> get_class c t = Ok k) by (intros t k T H; rewrite <- (L t T); apply (K t k (KT t T) H)).
  assert (CE : forall t, known c t -> exists k, In (SetClass t k) calls) by (intros t T; apply class_in, (mesh_trees M), KN, T).
  split; [assumption|]. split.
  { intros t T. destruct (CE t T) as (k & H). exists k. split; [now apply CL|]. now destruct (ok_class (mesh_ok_calls M) H) as (_ & D & _). }
  split; [assumption|]. split; [intros t T; rewrite <- (L t T) at 1; now apply N4, KT|].
  intros t ids HS. assert (H := proj1 HS). assert (I2 := proj2 HS). assert (T : known c t) by (apply KN; exact (mesh_attrs M H)). split; [assumption|]. destruct (CE t T) as (k & E). assert (I1 := vc_ids V HS E). assert (NV : zlen ids = nv c t) by (unfold nv; now rewrite (CL t k T E)).
  split; [|auto]. unfold get_global_vertices. rewrite (CL t k T E). replace (is_local_tree c t) with true by (apply KN in T; unfold is_local_tree; rewrite N1; lia). cbn [obind]. assert (A1 := A t pkg GLOBAL_VERTICES_KEY (gloidx_array ids) (KT t T) H). rewrite (L t T) in A1. rewrite A1. cbn [obind].
  rewrite <- I1. unfold zlen. rewrite Nat2Z.id. now apply read_array.
Qed.
Definition ids_of (pkg : Z) (c : cmesh) (t : Z) : list Z := match get_global_vertices pkg c t with Ok l => l | _ => [] end.

(** * C50: vertex connectivity *)
(** The calls succeed, every tree has the global vertices that were set, and the lists of the trees at the global vertices contain exactly the vertices of trees
    that were set to this global vertex. *)
Theorem C50_vertex_connectivity pkg dim n calls : vertex_calls pkg dim n calls -> exists b c s, run_calls empty_building calls = Ok b /\ commit_replicated b = Ok c /\ build_from_ttv pkg c = Ok s /\
  (forall t ids, sets_vertices pkg calls t ids -> get_global_vertices pkg c t = Ok ids /\ forall i, 0 <= i < zlen ids -> get_global_vertex pkg c t i = Ok (znth 0 ids i)) /\
  lists_right s (vertex_of pkg calls) /\
  (forall m, Permutation (v_map s) m -> exists r, ttv_from_vtt c m = Ok r /\ zlen r = n /\ forall t ids, In (t, ids) r <-> sets_vertices pkg calls t ids).
Proof.
  intros V. destruct (vertex_mesh V) as (b & c & B & C & G & HC & KN & GI & F).
  assert (IDS : forall t, known c t -> get_global_vertices pkg c t = Ok (ids_of pkg c t) /\ zlen (ids_of pkg c t) = nv c t /\ forall v, In v (ids_of pkg c t) -> 0 <= v).
  { intros t T. destruct (vc_all V (proj1 (KN t) T)) as (ids & H). destruct (F t ids H) as (_ & E & Z0 & P). unfold ids_of. rewrite E. split; [reflexivity|]. split; [assumption|]. intros v I. now apply P. }
  assert (IE : forall t ids, sets_vertices pkg calls t ids -> ids_of pkg c t = ids) by (intros t ids H; unfold ids_of; now destruct (F t ids H) as (_ & -> & _)).
  destruct (build_ok G HC IDS) as (m & S & R & P). set (LL := the_list c (ids_of pkg c)) in *. assert (CP : complete c LL) by (apply (the_list_complete G HC IDS)).
  assert (Q : forall t i v, In (v, (t, i)) LL <-> vertex_of pkg calls t i v).
  { intros t i v. unfold LL. rewrite (in_the_list G IDS). split.
    - intros (T & I & E). destruct (vc_all V (proj1 (KN t) T)) as (ids & H). exists ids. rewrite (IE t ids H) in E. auto.
    - intros (ids & H & E & I). destruct (F t ids H) as (T & _). rewrite (IE t ids H). auto. }
  exists b, c, (mkVtt m true). split; [assumption|]. split; [assumption|]. split; [assumption|]. split; [|split].
  - intros t ids H. destruct (F t ids H) as (T & E & _). split; [assumption|]. intros i I. unfold get_global_vertex. rewrite (proj2 (Z.leb_le 0 i)) by lia. rewrite E. cbn [obind]. rewrite (proj2 (Z.ltb_lt _ _)) by lia. unfold lget. rewrite (proj2 (Z.ltb_ge i 0)) by lia.
    unfold znth. rewrite (nth_error_nth' ids 0) by (unfold zlen in I; lia). reflexivity.
  - destruct R as (R1 & R2 & vs & R3 & R4 & R5). split; [|split].
    + intros v V0 (t & i & H). destruct (R1 v V0) as (l & A1 & A2 & A3 & A4); [exists t, i; now apply Q|]. exists l. split; [assumption|]. split; [assumption|]. split; [|assumption]. intros u j. now rewrite A3, Q.
    + intros v H. apply R2. intros t i K. apply (H t i), Q, K.
    + exists vs. split; [assumption|]. split; [|assumption]. intros v. rewrite R4. split; intros (t & i & H); exists t, i; now apply Q.
  - cbn [v_map]. intros m' PM. assert (P' : Permutation (flat m') LL). { apply Permutation_trans with (flat m); [|assumption]. unfold flat. apply Permutation_flat_map, Permutation_sym, PM. }
    destruct (ttv_ok HC CP P') as (r & E & RL & RN). exists r. split; [assumption|]. assert (NN : zlen (c_trees c) + zlen (c_ghosts c) = n). { assert (N := mesh_range (vc_mesh V)). assert (A0 := KN 0). assert (A1 := KN n). assert (A2 := KN (n - 1)). unfold known, zlen in *. lia. }
    split; [lia|]. assert (U : forall t ids, known c t -> nth_error r (Z.to_nat t) = Some (t, ids) -> ids = ids_of pkg c t).
    { intros t ids T H. destruct (RN t T) as (g & ids' & GG & E1 & Z1 & I1). rewrite H in E1. injection E1 as _ <-. destruct (IDS t T) as (_ & Z2 & _). apply nth_error_ext. intros j. destruct (nth_error ids j) as [v|] eqn:J.
      - symmetry. destruct (I1 v (Z.of_nat j)) as [_ I2]. rewrite Nat2Z.id in I2. assert (K : In (v, (t, Z.of_nat j)) LL) by (apply I2; split; [lia|assumption]). apply (in_the_list G IDS) in K as (_ & _ & K). now rewrite Nat2Z.id in K.
      - symmetry. apply nth_error_None. apply nth_error_None in J. unfold zlen in Z1, Z2. lia. }
    intros t ids. split.
    + intros H. apply In_nth_error in H as (j & H). assert (J := nth_error_Some_lt H). assert (T : known c (Z.of_nat j)) by (apply KN; rewrite NN in RL; unfold zlen in RL; lia). destruct (RN _ T) as (g & ids' & GG & E1 & _). rewrite Nat2Z.id, H in E1. injection E1 as <- <-.
      rewrite (GI _ T) in GG. injection GG as <-. assert (E2 := U (Z.of_nat j) ids T). rewrite Nat2Z.id in E2. specialize (E2 H). destruct (vc_all V (proj1 (KN _) T)) as (ids2 & H2). rewrite E2. now rewrite (IE _ _ H2).
    + intros H. destruct (F t ids H) as (T & _). destruct (RN t T) as (g & ids' & GG & E1 & _). rewrite (GI _ T) in GG. injection GG as <-. assert (E2 := U t ids' T E1). rewrite (IE t ids H) in E2. subst ids'. eapply nth_error_In. exact E1.
Qed.
Print Assumptions C50_vertex_connectivity.
(** Lists that are filled by hand, in any order, for a mesh with or without ghosts: if every vertex of every tree and ghost is added exactly once, the commit succeeds, the lists are
    right and the global vertices of the trees that are constructed from them are the ones that were added *)
Theorem C50_lists_by_hand c l : has_classes c -> complete c l -> exists s s', add_vertices c vtt_init l = Ok s /\ vtt_commit c s = Ok s' /\ lists_right s' (fun t i v => In (v, (t, i)) l) /\
  (forall m, Permutation (v_map s') m -> exists r, ttv_from_vtt c m = Ok r /\ zlen r = zlen (c_trees c) + zlen (c_ghosts c) /\
     forall t, known c t -> exists g ids, get_global_id c t = Ok g /\ nth_error r (Z.to_nat t) = Some (g, ids) /\ forall v i, In (v, (t, i)) l <-> 0 <= i /\ nth_error ids (Z.to_nat i) = Some v).
Proof.
  intros HC CP. destruct (by_hand HC CP) as (s & s' & A & B & R & P). exists s, s'. split; [assumption|]. split; [assumption|]. split; [assumption|]. intros m PM.
  assert (P' : Permutation (flat m) l) by (apply Permutation_trans with (flat (v_map s')); [unfold flat; apply Permutation_flat_map, Permutation_sym, PM|assumption]).
  destruct (ttv_ok HC CP P') as (r & E & RL & RN). exists r. split; [assumption|]. split; [assumption|]. intros t T. destruct (RN t T) as (g & ids & G & E1 & _ & I). exists g, ids. auto.
Qed.
Print Assumptions C50_lists_by_hand.
(** every committed mesh has the classes that the theorem needs *)
Lemma C50_partitioned_has_classes dim first n calls b c : part_calls dim first n calls -> attrs_dense first n calls -> run_calls empty_building calls = Ok b -> commit_partitioned first n b = Ok c -> has_classes c.
Proof.
  intros P D B C. destruct (C47_partitioned_mesh_is_what_was_set P D) as (b' & c' & B' & C' & (N1 & N2 & N3 & N4 & N5) & _ & K & _). rewrite B in B'. injection B' as <-. rewrite C in C'. injection C' as <-.
  intros lt H. assert (E : exists t, known_tree first n calls t /\ get_local_id c t = lt).
  { unfold known in H. destruct (Z_lt_le_dec lt (zlen (c_trees c))) as [T|T].
    - exists (lt + first). assert (L : local_tree first n (lt + first)) by (unfold local_tree; lia). split; [now left|]. rewrite (N2 _ L). lia.
    - destruct (N5 lt) as (t & T1 & T2); [unfold is_ghost; lia|]. exists t. split; [now right|assumption]. }
  destruct E as (t & T & <-). destruct (class_in (part_trees P T)) as (k & H1). exists k. split; [now apply (K t k T)|]. now destruct (ok_class (part_ok_calls P) H1) as (_ & A & _).
Qed.

(** a quadrilateral with the global vertices 10, 11, 12, 13 and a triangle at its edge 11, 13; the ids are not contiguous *)
Definition C50_calls : list call := [SetClass 1 3; SetClass 0 2; SetJoin 1 0 2 1 0; set_global_vertices 5 1 [11; 13; 7]; set_global_vertices 5 0 [10; 11; 12; 13]].
Example C50_nonempty : vertex_calls 5 2 2 C50_calls.
Proof.
  assert (S : forall t p k d, In (SetAttribute t p k d) C50_calls -> p = 5 /\ k = 1 /\ ((t = 1 /\ d = gloidx_array [11; 13; 7]) \/ (t = 0 /\ d = gloidx_array [10; 11; 12; 13]))).
  { intros t p k d H. unfold C50_calls, set_global_vertices in H. destruct H as [H|[H|[H|[H|[H|[]]]]]]; try discriminate; injection H as <- <- <- <-; auto. }
  split.
  - split.
    + lia.
    + split.
      * intros t c H. cbn in H. repeat (destruct H as [H|H]; [try discriminate; injection H as <- <-; (split; [lia|split; [lia|reflexivity]])|]). destruct H.
      * cbn. repeat constructor; cbn; intuition discriminate.
      * intros t1 t2 f1 f2 o H. cbn in H. repeat (destruct H as [H|H]; [try discriminate; injection H as <- <- <- <- <-; lia|]). destruct H.
      * cbn. repeat constructor; cbn; intuition discriminate.
      * intros t p k d H. apply S in H. lia.
      * cbn. repeat constructor; cbn; intuition discriminate.
      * vm_compute. reflexivity.
    + intros t. cbn. lia.
    + intros t1 t2 f1 f2 o H. cbn in H. repeat (destruct H as [H|H]; [try discriminate; injection H as <- <- <- <- <-|]); [|destruct H]. split; [exists 3|exists 2]; (split; [cbn; tauto|split; [lia|reflexivity]]).
    + intros t p k d H. apply S in H. lia.
  - intros t T. assert (t = 0 \/ t = 1) as [-> | ->] by lia; [exists [10; 11; 12; 13]|exists [11; 13; 7]]; (split; [cbn; tauto|cbn; intros v H; lia]).
  - intros t ids k [H _] K. assert (Q := S _ _ _ _ H). destruct Q as (_ & _ & Q).
    assert (LL : forall l, length (gloidx_array l) = (8 * length l)%nat) by (induction l as [|x l IH]; [reflexivity|]; unfold gloidx_array in *; cbn [flat_map length]; rewrite app_length, le_length, IH; lia).
    destruct Q as [[-> Q]|[-> Q]]; apply (f_equal (@length Z)) in Q; rewrite !LL in Q; cbn [length] in Q; cbn in K; repeat (destruct K as [K|K]; [try discriminate; injection K as <-; unfold zlen; change (eclass_num_vertices 3) with 3; change (eclass_num_vertices 2) with 4; lia|]); destruct K.
Qed.

(** by hand: the same mesh, filled in a mixed order *)
Definition C50_hand : list (Z * (Z * Z)) := [(13, (1, 1)); (10, (0, 0)); (11, (1, 0)); (12, (0, 2)); (7, (1, 2)); (13, (0, 3)); (11, (0, 1))].
Example C50_hand_nonempty : exists b c, run_calls empty_building C50_calls = Ok b /\ commit_replicated b = Ok c /\ has_classes c /\ complete c C50_hand.
Proof.
  destruct (vertex_mesh C50_nonempty) as (b & c & B & C & _ & HC & KN & _ & _). exists b, c. split; [assumption|]. split; [assumption|]. split; [assumption|].
  assert (M := vc_mesh C50_nonempty). destruct (C47_replicated_mesh_is_what_was_set M (vertex_dense C50_nonempty)) as (b' & c' & B' & C' & (N1 & N2 & _) & K & _). rewrite B in B'. injection B' as <-. rewrite C in C'. injection C' as <-.
  assert (L0 : get_local_id c 0 = 0) by (apply N2; unfold local_tree; lia). assert (L1 : get_local_id c 1 = 1) by (apply N2; unfold local_tree; lia).
  assert (K0 : get_class c 0 = Ok 2) by (rewrite <- L0 at 1; apply (K 0 2); [left; unfold local_tree; lia|cbn; tauto]). assert (K1 : get_class c 1 = Ok 3) by (rewrite <- L1 at 1; apply (K 1 3); [left; unfold local_tree; lia|cbn; tauto]).
  split.
  - intros v t i H. cbn in H. repeat (destruct H as [H|H]; [injection H as <- <- <-; split; [lia|split; [apply KN; lia|]]; first [exists 2; split; [assumption|split; [lia|reflexivity]]|exists 3; split; [assumption|split; [lia|reflexivity]]]|]). destruct H.
  - intros t i T (k & E & I). apply KN in T. assert (t = 0 \/ t = 1) as [-> | ->] by lia.
    + rewrite K0 in E. injection E as <-. change (eclass_num_vertices 2) with 4 in I. assert (i = 0 \/ i = 1 \/ i = 2 \/ i = 3) as [-> |[-> |[-> | ->]]] by lia; [exists 10|exists 11|exists 12|exists 13]; cbn; tauto.
    + rewrite K1 in E. injection E as <-. change (eclass_num_vertices 3) with 3 in I. assert (i = 0 \/ i = 1 \/ i = 2) as [-> |[-> | ->]] by lia; [exists 11|exists 13|exists 7]; cbn; tauto.
  - cbn. repeat constructor; cbn; intuition discriminate.
Qed.

(** What the commit does ensure: if it succeeds, as many vertices were added for every tree and ghost as it has; before it no list can be asked for *)
Theorem C50_commit_counts_vertices c l s s' : has_classes c -> add_vertices c vtt_init l = Ok s -> vtt_commit c s = Ok s' ->
  forall t k, known c t -> get_class c t = Ok k -> zlen (filter (fun x => fst (snd x) =? t) l) = eclass_num_vertices k.
Proof. apply commit_counts. Qed.
Print Assumptions C50_commit_counts_vertices.
Theorem C50_lists_after_commit_only c l s v : add_vertices c vtt_init l = Ok s -> get_tree_list s v = AssertFail.
Proof. apply query_before_commit. Qed.
Print Assumptions C50_lists_after_commit_only.

(** The commit of lists that are filled by hand is documented to check that every vertex of every tree has a global vertex.  It only counts the entries of the trees: here
    vertex 0 of a line is added to the global vertices 7 and 8 and vertex 1 is never added.  The commit succeeds, and the global vertices that are
    constructed for the tree depend on the order in which the hash map is iterated. *)
Theorem C50_commit_finds_missing_vertices_refuted : exists b c l s s', run_calls empty_building [SetClass 0 1] = Ok b /\ commit_replicated b = Ok c /\ add_vertices c vtt_init l = Ok s /\ vtt_commit c s = Ok s' /\
  known c 0 /\ has_vertex c 0 1 /\ (forall v pairs, get_tree_list s' v = Ok pairs -> ~ In (0, 1) pairs) /\
  exists m, Permutation (v_map s') m /\ ttv_from_vtt c (v_map s') <> ttv_from_vtt c m.
Proof.
  assert (M : exists b c, run_calls empty_building [SetClass 0 1] = Ok b /\ commit_replicated b = Ok c /\ c_trees c = [mkCtree 0 1 32 48 0 [0; 0] [0; 1]] /\ c_ghosts c = []) by (eexists; eexists; repeat split; vm_compute; reflexivity).
  destruct M as (b & c & B & C & T & G). exists b, c, [(7, (0, 0)); (8, (0, 0))]. assert (K : get_class c 0 = Ok 1) by (unfold get_class, get_tree, is_local_tree; rewrite T; reflexivity).
  assert (KN : is_local_tree c 0 || is_ghost c 0 = true) by (unfold is_local_tree, is_ghost; rewrite T, G; reflexivity).
  exists (mkVtt [(7, [(0, 0)]); (8, [(0, 0)])] false), (mkVtt [(7, [(0, 0)]); (8, [(0, 0)])] true). split; [assumption|]. split; [assumption|]. split; [|split; [|split; [|split; [|split]]]].
  - cbn [add_vertices]. unfold add_vertex_to_tree. rewrite KN, K. reflexivity.
  - unfold vtt_commit, contains_all_vertices. cbn [v_committed v_map sort_lists map fst snd]. rewrite T, G. cbn [length Nat.add zseq vertex_counts]. rewrite K. cbn [obind]. unfold flat_map, app, isort. cbn [fold_right insert snd count_all].
    assert (CD : forall n, count_down c [n] (0, 0) = if 0 <=? n - 1 then Ok [n - 1] else AssertFail) by (intros n; unfold count_down; cbn [fst snd]; rewrite T, G, K; reflexivity). rewrite CD. change (eclass_num_vertices 1) with 2. cbn [Z.leb Z.sub Z.add Z.opp Z.pos_sub Pos.pred_double Z.compare]. cbn -[count_down]. rewrite CD. reflexivity.
  - now apply is_known.
  - exists 1. split; [assumption|]. split; [lia|reflexivity].
  - intros v pairs H. unfold get_tree_list in H. cbn [v_committed v_map find fst andb] in H. destruct (0 <=? v); [|discriminate]. destruct (7 =? v); [injection H as <-; cbn; intuition discriminate|]. destruct (8 =? v); [injection H as <-; cbn; intuition discriminate|discriminate].
  - exists [(8, [(0, 0)]); (7, [(0, 0)])]. split; [apply perm_swap|]. assert (GI : get_global_id c 0 = Ok (0 + c_first c)) by (unfold get_global_id, is_local_tree; rewrite T; reflexivity).
    unfold ttv_from_vtt. rewrite T, G. cbn [v_map length Nat.add zseq gather obind]. rewrite K, GI. cbn. discriminate.
Qed.
Print Assumptions C50_commit_finds_missing_vertices_refuted.
(** Global vertices that are set for some trees only: the commit of the mesh builds the lists for all trees and dereferences the missing attribute of the others *)
Theorem C50_vertices_of_some_trees_refuted : exists calls b c, mesh_calls 2 2 calls /\ attrs_dense 0 2 calls /\ sets_vertices 5 calls 1 [11; 13; 7] /\
  run_calls empty_building calls = Ok b /\ commit_replicated b = Ok c /\ get_global_vertices 5 c 1 = Ok [11; 13; 7] /\ build_from_ttv 5 c = AssertFail.
Proof.
  set (calls := [SetClass 1 3; SetClass 0 2; SetJoin 1 0 2 3 1; set_global_vertices 5 1 [11; 13; 7]]).
  assert (R : (do b <- run_calls empty_building calls; do c <- commit_replicated b; do l <- get_global_vertices 5 c 1; Ok (l, match build_from_ttv 5 c with AssertFail => true | _ => false end)) = Ok ([11; 13; 7], true)) by (vm_compute; reflexivity).
  destruct (run_calls empty_building calls) as [b| | |] eqn:B; cbn [obind] in R; try discriminate. destruct (commit_replicated b) as [c| | |] eqn:C; cbn [obind] in R; try discriminate.
  destruct (get_global_vertices 5 c 1) as [l| | |] eqn:E; cbn [obind] in R; try discriminate. destruct (build_from_ttv 5 c) eqn:F; cbn [obind] in R; try discriminate. injection R as ->.
  exists calls, b, c. subst calls. split; [|split; [|split; [|now repeat split]]]; clear.
  - split.
    + lia.
    + split; cbn.
      * intros t c [H|[H|[H|[H|[]]]]]; try discriminate; injection H as <- <-; (split; [lia|split; [lia|reflexivity]]).
      * repeat constructor; cbn; intuition discriminate.
      * intros t1 t2 f1 f2 o [H|[H|[H|[H|[]]]]]; try discriminate. injection H as <- <- <- <- <-. lia.
      * repeat constructor; cbn; intuition discriminate.
      * unfold set_global_vertices. intros t p k e [H|[H|[H|[H|[]]]]]; try discriminate. injection H as <- <- <- <-. unfold GLOBAL_VERTICES_KEY. lia.
      * repeat constructor; cbn; tauto.
      * vm_compute. reflexivity.
    + intros t. cbn. lia.
    + intros t1 t2 f1 f2 o [H|[H|[H|[H|[]]]]]; try discriminate. injection H as <- <- <- <- <-. split; [exists 3|exists 2]; (split; [cbn; tauto|split; [lia|reflexivity]]).
    + unfold set_global_vertices. intros t p k e [H|[H|[H|[H|[]]]]]; try discriminate. injection H as <- <- <- <-. lia.
  - split.
    + right. exists 5, GLOBAL_VERTICES_KEY, (gloidx_array [11; 13; 7]). cbn. tauto.
    + left. intros t (N & l & fl & f & o & _ & J). exfalso. apply N. unfold local_tree. destruct J as [J|J]; destruct J as [J|[J|[J|[J|[]]]]]; try discriminate; injection J as <- <- <- <- <-; lia.
  - split; [cbn; tauto|]. cbn. intros v H. lia.
Qed.
Print Assumptions C50_vertices_of_some_trees_refuted.

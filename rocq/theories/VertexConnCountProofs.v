(** What the check at the commit of a list of trees at vertices ensures *)
From Coq Require Import Permutation.
From Verif Require Import Prelude EclassModel CmeshModel CmeshSpec CmeshLib CmeshCommitProofs VertexConnModel VertexConnSpec VertexConnProofs.
#[local] Unset Implicit Arguments.

Lemma add_vertices_flat c : forall l s s', add_vertices c s l = Ok s' -> Permutation (flat (v_map s')) (flat (v_map s) ++ l) /\ (v_committed s' = v_committed s).
Proof.
  induction l as [|[v [t i]] l IH]; intros s s' H; cbn [add_vertices] in H.
  - injection H as <-. rewrite app_nil_r. split; [apply Permutation_refl|reflexivity].
  - destruct (add_vertex_to_tree c s v t i) as [s1| | |] eqn:E; cbn [obind] in H; try discriminate. destruct (IH _ _ H) as [P C].
    unfold add_vertex_to_tree in E. destruct (v_committed s) eqn:V; [discriminate|]. destruct (v <? 0); [discriminate|]. destruct (is_local_tree c t || is_ghost c t); [|discriminate].
    destruct (get_class c t) as [k| | |]; cbn [obind] in E; try discriminate. destruct ((0 <=? i) && (i <? eclass_num_vertices k)); [|discriminate]. injection E as <-. cbn [v_map v_committed] in *.
    split; [|exact C]. apply Permutation_trans with (1 := P). replace (flat (v_map s) ++ (v, (t, i)) :: l) with ((flat (v_map s) ++ [(v, (t, i))]) ++ l) by (rewrite <- app_assoc; reflexivity).
    apply Permutation_app_tail. apply push_flat.
Qed.
Lemma count_all_inv c : forall l F r, count_all c (tab F (zlen (c_trees c) + zlen (c_ghosts c))) l = Ok r ->
  r = tab (fun t => F t - num_at t l) (zlen (c_trees c) + zlen (c_ghosts c)).
Proof.
  induction l as [|[t i] l IH]; intros F r H; cbn [count_all] in H.
  - injection H as <-. apply tab_ext. intros t _. unfold num_at. cbn. lia.
  - unfold count_down in H. cbn [fst snd] in H. destruct ((0 <=? t) && (t <? zlen (c_trees c) + zlen (c_ghosts c))) eqn:T; [|discriminate].
    assert (T' : 0 <= t < zlen (c_trees c) + zlen (c_ghosts c)) by lia. destruct (get_class c t) as [k| | |]; cbn [obind] in H; try discriminate.
    destruct ((0 <=? i) && (i <? eclass_num_vertices k)); [|discriminate]. rewrite lget_tab in H by exact T'. cbn [obind] in H. destruct (0 <=? F t - 1); [|discriminate].
    rewrite lset_tab in H by exact T'. cbn [obind] in H. apply IH in H. rewrite H. apply tab_ext. intros u _. unfold num_at. rewrite num_cons. cbn [fst]. unfold upd.
    destruct (Z.eqb_spec u t) as [->|E]; [rewrite Z.eqb_refl; lia|]. rewrite (proj2 (Z.eqb_neq t u)) by congruence. lia.
Qed.
Theorem commit_counts c l s s' : has_classes c -> add_vertices c vtt_init l = Ok s -> vtt_commit c s = Ok s' ->
  forall t k, known c t -> get_class c t = Ok k -> zlen (filter (fun x => fst (snd x) =? t) l) = eclass_num_vertices k.
Proof.
  intros HC A C t k T K. destruct (add_vertices_flat c l vtt_init s A) as [P V]. cbn [v_map vtt_init flat flat_map app] in P.
  unfold vtt_commit in C. destruct (v_committed s); [discriminate|]. destruct (contains_all_vertices c (sort_lists (v_map s))) as [[|]| | |] eqn:E; cbn [obind] in C; try discriminate.
  unfold contains_all_vertices in E. rewrite n_seq in E. rewrite (counts_ok HC) in E. 2:{ intros u U. apply in_zseq in U. unfold known. assert (0 <= zlen (c_trees c) + zlen (c_ghosts c)) by (unfold zlen; lia). lia. }
  cbn [obind] in E. fold (tab (nv c) (zlen (c_trees c) + zlen (c_ghosts c))) in E.
  destruct (count_all c _ _) as [r| | |] eqn:R in E; cbn [obind] in E; try discriminate. apply count_all_inv in R. injection E as E. rewrite forallb_forall in E.
  specialize (E (nv c t - num_at t (flat_map snd (sort_lists (v_map s))))). assert (IN : In (nv c t - num_at t (flat_map snd (sort_lists (v_map s)))) r). { rewrite R. apply in_tab. exists t. split; [exact T|reflexivity]. }
  specialize (E IN). rewrite (@num_at_flat c) in E. unfold nv in E. rewrite K in E.
  assert (Q : Permutation (flat (sort_lists (v_map s))) l) by (apply Permutation_trans with (1 := flat_sort _); exact P).
  unfold zlen in *. rewrite (Permutation_length (bucket_perm t Q)) in E. unfold bucket in E. rewrite map_length in E. lia.
Qed.
Theorem query_before_commit c l s v : add_vertices c vtt_init l = Ok s -> get_tree_list s v = AssertFail.
Proof. intros A. destruct (add_vertices_flat c l vtt_init s A) as [_ V]. unfold get_tree_list. rewrite V. reflexivity. Qed.

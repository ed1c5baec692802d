(** Proofs about the vertex connectivity of coarse meshes *)
From Coq Require Import Sorting.Sorted Permutation.
From Verif Require Import Prelude EclassModel CmeshModel CmeshSpec CmeshLib CmeshCommitProofs VertexConnModel VertexConnSpec.

Lemma nth_error_Some_lt {A} (l : list A) j x : nth_error l j = Some x -> (j < length l)%nat.
Proof. intros H. apply nth_error_Some. congruence. Qed.

(** * The map of lists *)
Definition flat (m : list (Z * list (Z * Z))) : list (Z * (Z * Z)) := flat_map (fun e => map (pair (fst e)) (snd e)) m.
Definition at_v (v : Z) (L : list (Z * (Z * Z))) : list (Z * Z) := map snd (filter (fun x => fst x =? v) L).
Record grouped (m : list (Z * list (Z * Z))) (L : list (Z * (Z * Z))) : Prop := {
  g_nodup : NoDup (map fst m);
  g_lists : forall v l, In (v, l) m -> l = at_v v L;
  g_keys : forall v, In v (map fst m) <-> In v (map fst L);
  g_flat : Permutation (flat m) L
}.
Lemma push_keys m v p w : In w (map fst (map_push m v p)) <-> w = v \/ In w (map fst m).
Proof.
  induction m as [|[x l] m IH]; cbn [map_push]; [cbn; firstorder|]. destruct (Z.eqb_spec x v) as [->|E]; cbn [map fst In]; [firstorder|]. rewrite IH. firstorder.
Qed.
Lemma push_nodup m v p : NoDup (map fst m) -> NoDup (map fst (map_push m v p)).
Proof.
  induction m as [|[x l] m IH]; cbn [map_push map fst]; intros N; [repeat constructor; intros []|]. apply NoDup_cons_iff in N as [N1 N2]. destruct (Z.eqb_spec x v) as [->|E]; cbn [map fst]; [now constructor|].
  constructor; [rewrite push_keys; intros [H|H]; [now apply E|now apply N1]|auto].
Qed.
Lemma push_lists m v p w l : NoDup (map fst m) -> In (w, l) (map_push m v p) -> (w <> v /\ In (w, l) m) \/ (w = v /\ ((exists l', In (v, l') m /\ l = l' ++ [p]) \/ (~ In v (map fst m) /\ l = [p]))).
Proof.
  induction m as [|[x k] m IH]; cbn [map_push map fst]; intros N H.
  - destruct H as [H|[]]. injection H as <- <-. right. split; [reflexivity|]. right. split; [intros []|reflexivity].
  - apply NoDup_cons_iff in N as [N1 N2]. destruct (Z.eqb_spec x v) as [->|E].
    + destruct H as [H|H].
      * injection H as <- <-. right. split; [reflexivity|]. left. exists k. split; [now left|reflexivity].
      * left. split; [|now right]. intros ->. apply N1. apply in_map_iff. now exists (v, l).
    + destruct H as [H|H].
      * injection H as <- <-. left. split; [assumption|now left].
      * destruct (IH N2 H) as [[A1 A2]|[-> [(l' & A1 & A2)|[A1 A2]]]].
        -- left. split; [assumption|now right].
        -- right. split; [reflexivity|]. left. exists l'. split; [now right|assumption].
        -- right. split; [reflexivity|]. right. split; [|assumption]. intros [K|K]; [now apply E|now apply A1].
Qed.
Lemma push_flat m v p : Permutation (flat (map_push m v p)) (flat m ++ [(v, p)]).
Proof.
  induction m as [|[x l] m IH]; cbn [map_push]; [apply Permutation_refl|]. unfold flat. destruct (Z.eqb_spec x v) as [->|E]; cbn [flat_map fst snd].
  - rewrite map_app, <- !app_assoc. apply Permutation_app_head. cbn [map app]. apply Permutation_cons_append.
  - rewrite <- app_assoc. apply Permutation_app_head. exact IH.
Qed.
Lemma at_v_app v a b : at_v v (a ++ b) = at_v v a ++ at_v v b.
Proof. unfold at_v. now rewrite filter_app, map_app. Qed.
Lemma grouped_push m L v p : grouped m L -> grouped (map_push m v p) (L ++ [(v, p)]).
Proof.
  intros G. split.
  - apply push_nodup, G.
  - intros w l H. rewrite at_v_app. unfold at_v at 2. cbn [filter fst]. apply push_lists in H as [[A1 A2]|[-> [(l' & A1 & ->)|[A1 ->]]]]; [| | |apply G].
    + rewrite (proj2 (Z.eqb_neq v w)) by congruence. cbn [map]. rewrite app_nil_r. now apply (g_lists G).
    + rewrite Z.eqb_refl. cbn [map snd]. f_equal. now apply (g_lists G).
    + rewrite Z.eqb_refl. cbn [map snd]. replace (at_v v L) with (@nil (Z * Z)); [reflexivity|]. symmetry. unfold at_v.
      replace (filter (fun x => fst x =? v) L) with (@nil (Z * (Z * Z))); [reflexivity|]. symmetry. destruct (filter (fun x => fst x =? v) L) as [|y r] eqn:F; [reflexivity|exfalso].
      assert (K : In y (filter (fun x => fst x =? v) L)) by (rewrite F; now left). apply filter_In in K as [K1 K2]. apply A1. rewrite (g_keys G). apply in_map_iff. exists y. split; [lia|assumption].
  - intros w. rewrite push_keys, (g_keys G), map_app, in_app_iff. cbn. firstorder.
  - eapply Permutation_trans; [apply push_flat|]. apply Permutation_app_tail, G.
Qed.
Lemma grouped_nil : grouped [] []. Proof. split; [constructor|intros v l []|intros v; reflexivity|apply Permutation_refl]. Qed.
Lemma in_at_v v p L : In p (at_v v L) <-> In (v, p) L.
Proof.
  unfold at_v. rewrite in_map_iff. split.
  - intros ([w q] & <- & H). apply filter_In in H as [H1 H2]. cbn in *. replace v with w by lia. assumption.
  - intros H. exists (v, p). split; [reflexivity|]. apply filter_In. split; [assumption|cbn; lia].
Qed.
Lemma find_key (m : list (Z * list (Z * Z))) v l : NoDup (map fst m) -> In (v, l) m -> find (fun e => fst e =? v) m = Some (v, l).
Proof.
  induction m as [|[x k] m IH]; cbn [map fst find]; intros N H; [destruct H|]. apply NoDup_cons_iff in N as [N1 N2]. destruct H as [H|H]; [injection H as <- <-; now rewrite Z.eqb_refl|].
  destruct (Z.eqb_spec x v) as [->|E]; [exfalso; apply N1, in_map_iff; now exists (v, l)|auto].
Qed.
Lemma find_nokey (m : list (Z * list (Z * Z))) v : ~ In v (map fst m) -> find (fun e => fst e =? v) m = None.
Proof. induction m as [|[x k] m IH]; cbn; intros H; [reflexivity|]. rewrite (proj2 (Z.eqb_neq x v)) by (intros ->; apply H; now left). apply IH. intros K. apply H. now right. Qed.

(** what a committed map answers, from the entries of the map *)
Lemma lists_right_of m (R : Z -> Z -> Z -> Prop) : NoDup (map fst m) -> (forall v l, In (v, l) m -> StronglySorted pair_lt l /\ l <> [] /\ forall t i, In (t, i) l <-> R t i v) -> (forall t i v, R t i v -> In v (map fst m)) -> lists_right (mkVtt m true) R.
Proof.
  intros N L K. split; [|split].
  - intros v V (t & i & H). apply K, in_map_iff in H as ([w l] & E & H). cbn in E. subst w. exists l. destruct (L v l H) as (L1 & L2 & L3).
    assert (G : get_tree_list (mkVtt m true) v = Ok l). { unfold get_tree_list. cbn [v_committed v_map andb]. rewrite (proj2 (Z.leb_le 0 v)) by assumption. now rewrite (find_key N H). }
    split; [assumption|]. split; [assumption|]. split; [assumption|]. unfold num_trees_at_vertex. now rewrite G.
  - intros v H. unfold get_tree_list. cbn [v_committed v_map andb]. destruct (0 <=? v); [|reflexivity]. rewrite find_nokey; [reflexivity|]. intros C. apply in_map_iff in C as ([w l] & E & C). cbn in E. subst w.
    destruct (L v l C) as (_ & L2 & L3). destruct l as [|[t i] r]; [now apply L2|]. apply (H t i), L3. now left.
  - exists (map fst m). split; [assumption|]. split; [|unfold num_global_vertices, zlen; cbn [v_map]; now rewrite map_length].
    intros v. split; [|intros (t & i & H); exact (K t i v H)]. intros H. apply in_map_iff in H as ([w l] & E & H). cbn in E. subst w. destruct (L v l H) as (_ & L2 & L3). destruct l as [|[t i] r]; [now elim L2|].
    exists t, i. apply L3. now left.
Qed.

(** * Adding *)
Lemma is_known c lt : is_local_tree c lt || is_ghost c lt = true <-> known c lt.
Proof. unfold is_local_tree, is_ghost, known, zlen. lia. Qed.
Lemma add_vertices_ok c : forall l m L, grouped m L -> (forall v t i, In (v, (t, i)) l -> 0 <= v /\ known c t /\ has_vertex c t i) -> exists m', add_vertices c (mkVtt m false) l = Ok (mkVtt m' false) /\ grouped m' (L ++ l).
Proof.
  induction l as [|[v [t i]] l IH]; intros m L G H; cbn [add_vertices].
  - exists m. rewrite app_nil_r. auto.
  - destruct (H v t i (or_introl eq_refl)) as (V & T & k & K & I). unfold add_vertex_to_tree. cbn [v_committed v_map]. rewrite (proj2 (Z.ltb_ge v 0)) by assumption. rewrite (proj2 (is_known c t) T). rewrite K. cbn [obind].
    replace ((0 <=? i) && (i <? eclass_num_vertices k)) with true by lia. cbn [obind]. destruct (IH _ _ (grouped_push v (t, i) G)) as (m' & A & B); [intros; apply H; now right|].
    exists m'. rewrite A. split; [reflexivity|]. now rewrite <- app_assoc in B.
Qed.

(** * The order of pairs *)
Lemma pair_ltb_lt a b : pair_ltb a b = true <-> pair_lt a b.
Proof. unfold pair_ltb, pair_lt. destruct (fst a =? fst b) eqn:E; lia. Qed.
Lemma pair_lt_total a b : a <> b -> pair_ltb a b = true \/ pair_ltb b a = true.
Proof. intros H. rewrite !pair_ltb_lt. unfold pair_lt. destruct a as [a1 a2], b as [b1 b2]. cbn. assert (a1 <> b1 \/ a2 <> b2) by (destruct (Z.eq_dec a1 b1) as [->|]; [right; congruence|now left]). lia. Qed.
Lemma sorted_impl {A} (R S : A -> A -> Prop) l : (forall a b, R a b -> S a b) -> StronglySorted R l -> StronglySorted S l.
Proof. intros H. induction 1 as [|a l S1 IH F]; constructor; [assumption|]. eapply Forall_impl; [|exact F]. intros b. apply H. Qed.
Lemma nodup_at_v v L : NoDup (map snd L) -> NoDup (at_v v L).
Proof.
  unfold at_v. induction L as [|[w p] L IH]; cbn [map filter snd fst]; intros N; [constructor|]. apply NoDup_cons_iff in N as [N1 N2]. destruct (w =? v); cbn [map snd]; [|auto]. constructor; [|auto].
  intros H. apply N1. apply in_map_iff in H as (x & <- & H). apply filter_In in H as [H _]. now apply in_map.
Qed.
Lemma sort_sorted l : NoDup l -> StronglySorted pair_lt (isort pair_ltb l).
Proof.
  intros N. apply sorted_impl with (R := fun a b => pair_ltb a b = true); [intros a b; apply pair_ltb_lt|]. apply isort_sorted; [|apply ordpairs_nodup with (f := fun x => x); [apply pair_lt_total|now rewrite map_id]].
  intros a b d. rewrite !pair_ltb_lt. unfold pair_lt. lia.
Qed.

(** * Complete lists *)
Definition bucket (t : Z) (L : list (Z * (Z * Z))) : list (Z * Z) := map (fun x => (fst x, snd (snd x))) (filter (fun x => fst (snd x) =? t) L).
Lemma bucket_app t a b : bucket t (a ++ b) = bucket t a ++ bucket t b.
Proof. unfold bucket. now rewrite filter_app, map_app. Qed.
Lemma in_bucket t v i L : In (v, i) (bucket t L) <-> In (v, (t, i)) L.
Proof.
  unfold bucket. rewrite in_map_iff. split.
  - intros ([w [u j]] & E & H). cbn in E. injection E as -> ->. apply filter_In in H as [H K]. cbn in K. replace t with u by lia. assumption.
  - intros H. exists (v, (t, i)). split; [reflexivity|]. apply filter_In. split; [assumption|cbn; lia].
Qed.
Lemma filter_perm {A} (p : A -> bool) a b : Permutation a b -> Permutation (filter p a) (filter p b).
Proof.
  induction 1 as [|x a b P IH|x y a|a b d P1 IH1 P2 IH2]; cbn; [constructor|destruct (p x); [now constructor|assumption]|destruct (p x), (p y); try apply perm_swap; apply Permutation_refl|now apply Permutation_trans with (filter p b)].
Qed.
Lemma bucket_perm t a b : Permutation a b -> Permutation (bucket t a) (bucket t b).
Proof. intros H. apply Permutation_map, filter_perm, H. Qed.
Lemma bucket_nodup t L : NoDup (map snd L) -> NoDup (map snd (bucket t L)).
Proof.
  unfold bucket. induction L as [|[v [u i]] L IH]; cbn [map filter fst snd]; intros N; [constructor|]. apply NoDup_cons_iff in N as [N1 N2]. destruct (Z.eqb_spec u t) as [->|E]; cbn [map snd fst]; [|auto].
  constructor; [|auto]. intros H. apply N1. apply in_map_iff in H as ([w j] & <- & H). cbn [snd]. change (In (w, j) (bucket t L)) in H. apply in_bucket in H. apply in_map_iff. now exists (w, (t, j)).
Qed.
Section complete.
Variable c : cmesh.
Variable L : list (Z * (Z * Z)).
Hypothesis HC : has_classes c.
Hypothesis CP : complete c L.
Let n := zlen (c_trees c) + zlen (c_ghosts c).
Definition nv (t : Z) : Z := match get_class c t with Ok k => eclass_num_vertices k | _ => 0 end.
Lemma nv_pos t : 0 <= nv t.
Proof.
  unfold nv. destruct (get_class c t) as [k| | |]; try lia. unfold eclass_num_vertices, get1. assert (F : Forall (fun x => 0 <= x) [1; 2; 4; 3; 8; 4; 6; 5]) by (repeat constructor; lia).
  destruct (nth_in_or_default (Z.to_nat k) [1; 2; 4; 3; 8; 4; 6; 5] 0) as [H|H]; [now apply (proj1 (Forall_forall _ _) F) in H|]. unfold znth. lia.
Qed.
Lemma bucket_indices t : known c t -> Permutation (map snd (bucket t L)) (zseq 0 (Z.to_nat (nv t))).
Proof.
  intros T. destruct (HC T) as (k & K & _). apply NoDup_Permutation; [apply bucket_nodup, CP|apply NoDup_zseq|]. intros i. rewrite in_zseq. assert (P := @nv_pos t). unfold nv in *. rewrite K in *. split.
  - intros H. apply in_map_iff in H as ([v j] & <- & H). apply in_bucket in H. destruct (cp_range CP H) as (_ & _ & k' & K' & I). cbn [snd]. rewrite K in K'. injection K' as <-. lia.
  - intros H. destruct (cp_all CP T (i := i)) as (v & V); [exists k; split; [assumption|lia]|]. apply in_map_iff. exists (v, i). split; [reflexivity|]. now apply in_bucket.
Qed.
Lemma bucket_length t L' : known c t -> Permutation L' L -> zlen (bucket t L') = nv t.
Proof.
  intros T P. unfold zlen. rewrite (Permutation_length (bucket_perm t P)). assert (Q := Permutation_length (bucket_indices T)). rewrite map_length, zseq_length in Q. assert (H := @nv_pos t). lia.
Qed.
(** counting down *)
Lemma counts_ok : forall l, (forall t, In t l -> known c t) -> vertex_counts c l = Ok (map nv l).
Proof.
  induction l as [|t l IH]; cbn [vertex_counts map]; intros H; [reflexivity|]. destruct (HC (H t (or_introl eq_refl))) as (k & K & _). rewrite K. cbn [obind]. rewrite IH by (intros; apply H; now right). cbn [obind]. unfold nv at 2. now rewrite K.
Qed.
Definition num_at (t : Z) (l : list (Z * Z)) : Z := num (fun p => fst p =? t) l.
Lemma num_at_flat t m : num_at t (flat_map snd m) = zlen (bucket t (flat m)).
Proof.
  unfold num_at. induction m as [|[v l] m IH]; [reflexivity|]. unfold flat. cbn [flat_map snd fst]. rewrite num_app, bucket_app. unfold zlen. rewrite app_length, Nat2Z.inj_add. f_equal; [|exact IH].
  clear IH. induction l as [|[u i] l IH]; [reflexivity|]. rewrite num_cons. cbn [map fst]. unfold bucket in *. cbn [filter fst snd]. destruct (u =? t); cbn [map length]; lia.
Qed.
Lemma count_all_ok : forall l F, (forall t i, In (t, i) l -> known c t /\ has_vertex c t i) -> (forall t, known c t -> num_at t l <= F t) -> count_all c (tab F n) l = Ok (tab (fun t => F t - num_at t l) n).
Proof.
  induction l as [|[t i] l IH]; intros F H B; cbn [count_all].
  - f_equal. apply tab_ext. intros t _. unfold num_at. cbn. lia.
  - destruct (H t i (or_introl eq_refl)) as (T & k & K & I). unfold count_down. cbn [fst snd]. assert (T' := T). unfold known in T'. fold n in T' |- *. replace ((0 <=? t) && (t <? n)) with true by lia. rewrite K. cbn [obind].
    replace ((0 <=? i) && (i <? eclass_num_vertices k)) with true by lia. rewrite lget_tab by assumption. cbn [obind]. assert (B1 := B t T). unfold num_at in B1. rewrite num_cons in B1. cbn [fst] in B1. rewrite Z.eqb_refl in B1. assert (P := @num_nonneg _ (fun p : Z * Z => fst p =? t) l).
    rewrite (proj2 (Z.leb_le 0 (F t - 1))) by lia. rewrite lset_tab by assumption. cbn [obind]. rewrite IH; [|intros; apply H; now right|].
    + f_equal. apply tab_ext. intros u _. unfold num_at. rewrite num_cons. cbn [fst]. unfold upd. destruct (Z.eqb_spec u t) as [->|E]; [rewrite Z.eqb_refl; lia|]. rewrite (proj2 (Z.eqb_neq t u)) by congruence. lia.
    + intros u U. specialize (B u U). unfold num_at in *. rewrite num_cons in B. cbn [fst] in B. unfold upd. destruct (Z.eqb_spec u t) as [->|E]; [rewrite Z.eqb_refl in B; lia|]. rewrite (proj2 (Z.eqb_neq t u)) in B by congruence. lia.
Qed.
Lemma n_seq : zseq 0 (length (c_trees c) + length (c_ghosts c)) = zseq 0 (Z.to_nat n).
Proof. f_equal. subst n. unfold zlen. lia. Qed.
Lemma contains_all_ok m : Permutation (flat m) L -> contains_all_vertices c m = Ok true.
Proof.
  intros P. unfold contains_all_vertices. rewrite n_seq, counts_ok by (intros t H; apply in_zseq in H; unfold known; fold n; lia). cbn [obind]. change (map nv (zseq 0 (Z.to_nat n))) with (tab nv n).
  assert (E : forall t, known c t -> num_at t (flat_map snd m) = nv t) by (intros t T; rewrite num_at_flat; now apply bucket_length).
  rewrite count_all_ok.
  - cbn [obind]. f_equal. apply forallb_forall. intros x X. apply in_tab in X as (t & T & <-). rewrite E by exact T. lia.
  - intros t i H. apply in_flat_map in H as ([v l] & H1 & H2). assert (K : In (v, (t, i)) L). { apply (Permutation_in _ P). apply in_flat_map. exists (v, l). split; [assumption|]. cbn [fst snd]. now apply in_map. }
    destruct (cp_range CP K) as (_ & A). exact A.
  - intros t T. rewrite E by assumption. lia.
Qed.

(** back to the trees *)
Lemma scatter_list_ok v : forall l F, (forall t i, In (t, i) l -> known c t) -> scatter_list v (tab F n) l = Ok (tab (fun t => F t ++ bucket t (map (pair v) l)) n).
Proof.
  induction l as [|[t i] l IH]; intros F H; cbn [scatter_list].
  - f_equal. apply tab_ext. intros t _. cbn. now rewrite app_nil_r.
  - assert (T := H t i (or_introl eq_refl)). unfold known in T. fold n in T. rewrite lget_tab by assumption. cbn [obind]. rewrite lset_tab by assumption. cbn [obind]. rewrite IH by (intros u j K; apply (H u j); now right).
    f_equal. apply tab_ext. intros u _. unfold upd, bucket. cbn [map filter fst snd]. destruct (Z.eqb_spec u t) as [->|E].
    + rewrite Z.eqb_refl. cbn [map fst snd]. now rewrite <- app_assoc.
    + now rewrite (proj2 (Z.eqb_neq t u)) by congruence.
Qed.
Lemma scatter_ok : forall m F, (forall t i, In (t, i) (flat_map snd m) -> known c t) -> scatter (tab F n) m = Ok (tab (fun t => F t ++ bucket t (flat m)) n).
Proof.
  induction m as [|[v l] m IH]; intros F H; cbn [scatter].
  - f_equal. apply tab_ext. intros t _. cbn. now rewrite app_nil_r.
  - rewrite scatter_list_ok by (intros t i K; apply (H t i); cbn [flat_map snd]; apply in_or_app; now left). cbn [obind]. rewrite IH by (intros t i K; apply (H t i); cbn [flat_map snd]; apply in_or_app; now right).
    f_equal. apply tab_ext. intros t _. unfold flat. cbn [flat_map fst snd]. now rewrite bucket_app, app_assoc.
Qed.
Definition sorted_bucket (t : Z) (B : list (Z * Z)) : list (Z * Z) := isort (fun a b => snd a <? snd b) B.
Lemma sorted_indices t B : known c t -> Permutation B (bucket t L) -> map snd (sorted_bucket t B) = zseq 0 (Z.to_nat (nv t)).
Proof.
  intros T P. assert (I : Permutation (map snd (sorted_bucket t B)) (zseq 0 (Z.to_nat (nv t)))).
  { apply Permutation_trans with (map snd (bucket t L)); [|now apply bucket_indices]. apply Permutation_map. apply Permutation_trans with B; [apply Permutation_sym, isort_perm|assumption]. }
  assert (E := Permutation_length I). rewrite zseq_length in E. rewrite <- E in I |- *. apply sorted_zseq; [|exact I].
  assert (S : StronglySorted (fun a b : Z * Z => (snd a <? snd b) = true) (sorted_bucket t B)).
  { apply isort_sorted; [intros a b d; lia|]. apply ordpairs_nodup with (f := snd); [intros a b; lia|]. apply (Permutation_NoDup (l := map snd (bucket t L))); [apply Permutation_map, Permutation_sym, P|]. apply bucket_nodup, CP. }
  clear I E. induction S as [|a l S IH F]; cbn [map]; constructor; [assumption|]. apply Forall_map. eapply Forall_impl; [|exact F]. cbn beta. intros b. lia.
Qed.
Lemma sorted_ids t B : known c t -> Permutation B (bucket t L) -> zlen (sorted_bucket t B) = nv t /\ forall v i, In (v, (t, i)) L <-> 0 <= i /\ nth_error (map fst (sorted_bucket t B)) (Z.to_nat i) = Some v.
Proof.
  intros T P. assert (I := sorted_indices T P). assert (N := @nv_pos t). split.
  - apply (f_equal (@length Z)) in I. rewrite map_length, zseq_length in I. unfold zlen. lia.
  - intros v i. rewrite <- in_bucket. assert (K : In (v, i) (bucket t L) <-> In (v, i) (sorted_bucket t B)).
    { assert (Q : Permutation (bucket t L) (sorted_bucket t B)) by (apply Permutation_trans with B; [now apply Permutation_sym|apply isort_perm]). split; apply Permutation_in; [assumption|now apply Permutation_sym]. }
    rewrite K. clear K. assert (NE : forall j, nth_error (map snd (sorted_bucket t B)) j = option_map snd (nth_error (sorted_bucket t B) j)) by (intros; now rewrite nth_error_map). rewrite nth_error_map. rewrite I in NE. split.
    + intros H. apply In_nth_error in H as (j & H). specialize (NE j). rewrite H in NE. cbn in NE. assert (J : (j < Z.to_nat (nv t))%nat). { apply nth_error_Some_lt in H. apply (f_equal (@length Z)) in I. rewrite map_length, zseq_length in I. lia. }
      rewrite nth_error_zseq in NE by assumption. injection NE as <-. split; [lia|]. rewrite ?Z.add_0_l, Nat2Z.id. now rewrite H.
    + intros [H1 H2]. specialize (NE (Z.to_nat i)). destruct (nth_error (sorted_bucket t B) (Z.to_nat i)) as [[w j]|] eqn:E; cbn in *; [|discriminate]. injection H2 as ->.
      assert (J : (Z.to_nat i < Z.to_nat (nv t))%nat). { apply nth_error_Some_lt in E. apply (f_equal (@length Z)) in I. rewrite map_length, zseq_length in I. lia. } rewrite nth_error_zseq in NE by assumption. injection NE as NE. replace i with j by lia. eapply nth_error_In. exact E.
Qed.
Lemma global_id_known t : known c t -> exists g, get_global_id c t = Ok g.
Proof. intros T. destruct (HC T) as (k & K & _). unfold get_global_id. destruct (is_local_tree c t) eqn:E; [now eexists|]. unfold get_class in K. destruct (get_tree c t) as [g| | |]; try discriminate. now exists (t_id g). Qed.
Lemma gather_ok F : (forall t, known c t -> Permutation (F t) (bucket t L)) -> forall l, (forall t, In t l -> known c t) -> exists r, gather c (tab F n) l = Ok r /\ length r = length l /\
  forall j t, nth_error l j = Some t -> exists g, get_global_id c t = Ok g /\ nth_error r j = Some (g, map fst (sorted_bucket t (F t))).
Proof.
  intros P. induction l as [|t l IH]; intros H; cbn [gather].
  - exists []. split; [reflexivity|]. split; [reflexivity|]. intros [|j] t; discriminate.
  - assert (T := H t (or_introl eq_refl)). assert (T' := T). unfold known in T'. fold n in T'. rewrite lget_tab by assumption. cbn [obind]. destruct (HC T) as (k & K & _). rewrite K. cbn [obind].
    destruct (sorted_ids T (P t T)) as [Z0 _]. unfold sorted_bucket in Z0. rewrite Z0. unfold nv. rewrite K, Z.eqb_refl. destruct (global_id_known T) as (g & G). rewrite G. cbn [obind].
    destruct IH as (r & R & RL & RN); [intros; apply H; now right|]. rewrite R. cbn [obind]. eexists. split; [reflexivity|]. split; [cbn; now rewrite RL|].
    intros [|j] u; cbn [nth_error]; [|apply RN]. intros E. injection E as <-. exists g. split; [assumption|reflexivity].
Qed.
Lemma ttv_ok m : Permutation (flat m) L -> exists r, ttv_from_vtt c m = Ok r /\ zlen r = n /\
  forall t, known c t -> exists g ids, get_global_id c t = Ok g /\ nth_error r (Z.to_nat t) = Some (g, ids) /\ zlen ids = nv t /\ forall v i, In (v, (t, i)) L <-> 0 <= i /\ nth_error ids (Z.to_nat i) = Some v.
Proof.
  intros P. unfold ttv_from_vtt. rewrite n_seq. rewrite repeat_tab. replace (Z.of_nat (length (c_trees c) + length (c_ghosts c))) with n by (subst n; unfold zlen; lia). rewrite scatter_ok.
  - cbn [obind]. destruct (gather_ok (F := fun t => [] ++ bucket t (flat m)) (fun t _ => bucket_perm t P) (l := zseq 0 (Z.to_nat n))) as (r & R & RL & RN).
    { intros t H. apply in_zseq in H. unfold known. fold n. lia. }
    exists r. split; [exact R|]. rewrite zseq_length in RL. split; [unfold zlen; rewrite RL; subst n; unfold zlen; lia|]. intros t T. assert (T' := T). unfold known in T'. fold n in T'.
    destruct (RN (Z.to_nat t) t) as (g & G & E); [rewrite nth_error_zseq by lia; f_equal; lia|]. destruct (sorted_ids T (bucket_perm t P)) as [A B]. exists g, (map fst (sorted_bucket t (bucket t (flat m)))).
    split; [assumption|]. split; [exact E|]. split; [unfold zlen; rewrite map_length; exact A|]. exact B.
  - intros t i H. apply in_flat_map in H as ([v l] & H1 & H2). assert (K : In (v, (t, i)) L). { apply (Permutation_in _ P). apply in_flat_map. exists (v, l). split; [assumption|]. cbn [fst snd]. now apply in_map. }
    apply (cp_range CP K).
Qed.
End complete.

(** * Lists that are filled in any order *)
Lemma flat_sort m : Permutation (flat (sort_lists m)) (flat m).
Proof. unfold flat, sort_lists. induction m as [|[v l] m IH]; cbn [map flat_map fst snd]; [constructor|]. apply Permutation_app; [|assumption]. apply Permutation_map, Permutation_sym, isort_perm. Qed.
Lemma by_hand c L : has_classes c -> complete c L -> exists s s', add_vertices c vtt_init L = Ok s /\ vtt_commit c s = Ok s' /\ lists_right s' (fun t i v => In (v, (t, i)) L) /\ Permutation (flat (v_map s')) L.
Proof.
  intros HC CP. destruct (@add_vertices_ok c L [] [] grouped_nil (cp_range CP)) as (m & A & G). cbn [app] in G. exists (mkVtt m false), (mkVtt (sort_lists m) true). split; [exact A|].
  assert (P : Permutation (flat (sort_lists m)) L) by (apply Permutation_trans with (flat m); [apply flat_sort|apply G]).
  split; [unfold vtt_commit; cbn [v_committed v_map]; now rewrite (contains_all_ok HC CP P)|]. split; [|exact P].
  assert (K : map fst (sort_lists m) = map fst m) by (unfold sort_lists; rewrite map_map; reflexivity). apply lists_right_of; rewrite ?K.
  - apply G.
  - intros v l H. unfold sort_lists in H. apply in_map_iff in H as ([w l'] & E & H). cbn in E. injection E as -> <-. assert (E := g_lists G H). split; [|split].
    + apply sort_sorted. rewrite E. apply nodup_at_v, CP.
    + intros N. change (isort pair_ltb l' = []) in N. assert (In v (map fst L)) as V by (apply (g_keys G), in_map_iff; now exists (v, l')). apply in_map_iff in V as ([w p] & V1 & V2). cbn in V1. subst w. apply in_at_v in V2. rewrite <- E in V2. apply (Permutation_in _ (isort_perm pair_ltb l')) in V2. now rewrite N in V2.
    + intros t i. rewrite <- in_at_v, <- E. split; apply Permutation_in; [apply Permutation_sym|]; apply isort_perm.
  - intros t i v H. apply (g_keys G). apply in_map_iff. now exists (v, (t, i)).
Qed.

(** * Lists that are built from the trees *)
Lemma read_array ids : (forall v, In v ids -> 0 <= v < 2 ^ 63) -> read_gloidx (length ids) (gloidx_array ids) = Ok ids.
Proof.
  induction ids as [|v ids IH]; intros H; [reflexivity|]. cbn [length read_gloidx gloidx_array flat_map]. assert (E : zlen (le 8 v ++ flat_map (le 8) ids) = 8 + zlen (flat_map (le 8) ids)) by (unfold zlen; rewrite app_length, le_length; lia).
  rewrite E. rewrite (proj2 (Z.leb_le _ _)) by (unfold zlen; lia). assert (LL := le_length 8 v).
  assert (S1 : forall r, skipn 8 (le 8 v ++ r) = r) by (intros r; rewrite skipn_app, LL, Nat.sub_diag, skipn_all2 by lia; reflexivity).
  assert (S2 : forall r, firstn 8 (le 8 v ++ r) = le 8 v) by (intros r; rewrite firstn_app, LL, Nat.sub_diag, firstn_all2 by lia; apply app_nil_r). rewrite S1, S2. unfold gloidx_array in IH. rewrite IH by (intros; apply H; now right). cbn [obind].
  do 2 f_equal. rewrite unle_le. specialize (H v (or_introl eq_refl)). rewrite Z.mod_small by (change (256 ^ Z.of_nat 8) with (2 ^ 64); lia). apply i64_small. lia.
Qed.
Definition row (t : Z) (l : list Z) : list (Z * (Z * Z)) := combine l (combine (map (fun _ => t) l) (zseq 0 (length l))).
Lemma row_from (t : Z) : forall (l : list Z) a, combine l (combine (map (fun _ => t) l) (zseq a (length l))) = map (fun p => (fst p, (t, snd p))) (combine l (zseq a (length l))).
Proof. induction l as [|x l IH]; intros a; cbn; [reflexivity|]. now rewrite IH. Qed.
Lemma in_row_from (t v u i : Z) : forall l a, In (v, (u, i)) (map (fun p => (fst p, (t, snd p))) (combine l (zseq a (length l)))) <-> u = t /\ a <= i /\ nth_error l (Z.to_nat (i - a)) = Some v.
Proof.
  induction l as [|x l IH]; intros a; cbn [length zseq combine map In].
  - split; [intros []|]. intros (_ & _ & H). now destruct (Z.to_nat (i - a)).
  - rewrite IH. cbn [fst snd]. split.
    + intros [H|(-> & H1 & H2)].
      * injection H as -> -> ->. split; [reflexivity|]. split; [lia|]. now replace (Z.to_nat (i - i)) with 0%nat by lia.
      * split; [reflexivity|]. split; [lia|]. now replace (Z.to_nat (i - a)) with (S (Z.to_nat (i - (a + 1)))) by lia.
    + intros (-> & H1 & H2). destruct (Z.eq_dec i a) as [->|E]; [left; rewrite Z.sub_diag in H2; cbn in H2; congruence|right]. split; [reflexivity|]. split; [lia|].
      now replace (Z.to_nat (i - a)) with (S (Z.to_nat (i - (a + 1)))) in H2 by lia.
Qed.
Lemma in_row t v u i l : In (v, (u, i)) (row t l) <-> u = t /\ 0 <= i /\ nth_error l (Z.to_nat i) = Some v.
Proof. unfold row. rewrite row_from, in_row_from. now rewrite Z.sub_0_r. Qed.
Lemma row_sorted t l : StronglySorted pair_lt (map snd (row t l)).
Proof.
  unfold row. rewrite row_from, map_map. cbn [snd]. generalize 0. induction l as [|x l IH]; intros a; cbn [length zseq combine map]; [constructor|]. constructor; [apply IH|]. apply Forall_forall. intros p H.
  apply in_map_iff in H as ([w j] & <- & H). apply in_combine_r, in_zseq in H. cbn [snd]. right. cbn. lia.
Qed.
Lemma sorted_app {A} (R : A -> A -> Prop) a b : StronglySorted R a -> StronglySorted R b -> (forall x y, In x a -> In y b -> R x y) -> StronglySorted R (a ++ b).
Proof.
  intros H K C. induction H as [|x a H IH F]; [assumption|]. cbn. constructor; [apply IH; intros; apply C; [now right|assumption]|]. apply Forall_app. split; [assumption|]. apply Forall_forall. intros y Y. apply C; [now left|assumption].
Qed.
Lemma at_v_sorted v L : StronglySorted pair_lt (map snd L) -> StronglySorted pair_lt (at_v v L).
Proof.
  unfold at_v. induction L as [|[w p] L IH]; cbn [map filter fst snd]; intros H; [constructor|]. inversion H as [|x y S F]; subst. destruct (w =? v); cbn [map snd]; [|auto]. constructor; [auto|].
  rewrite Forall_forall in *. intros q Q. apply F. apply in_map_iff in Q as (x & <- & Q). apply filter_In in Q as [Q _]. now apply in_map.
Qed.
Section build.
Variable pkg : Z.
Variable c : cmesh.
Variable ids : Z -> list Z.
Hypothesis no_ghosts : c_ghosts c = [].
Hypothesis HC : has_classes c.
Hypothesis IDS : forall t, known c t -> get_global_vertices pkg c t = Ok (ids t) /\ zlen (ids t) = nv c t /\ forall v, In v (ids t) -> 0 <= v.
Definition all_rows (l : list Z) : list (Z * (Z * Z)) := flat_map (fun t => row t (ids t)) l.
Lemma in_all_rows l v t i : In (v, (t, i)) (all_rows l) <-> In t l /\ 0 <= i /\ nth_error (ids t) (Z.to_nat i) = Some v.
Proof. unfold all_rows. rewrite in_flat_map. split; [intros (u & U & H); apply in_row in H as (-> & H); tauto|]. intros (T & H). exists t. split; [assumption|]. apply in_row. tauto. Qed.
Lemma rows_range t v i : known c t -> 0 <= i -> nth_error (ids t) (Z.to_nat i) = Some v -> 0 <= v /\ known c t /\ has_vertex c t i.
Proof.
  intros T I E. destruct (IDS T) as (_ & Z0 & V). split; [apply V; eapply nth_error_In; exact E|]. split; [assumption|]. destruct (HC T) as (k & K & _). exists k. split; [assumption|]. unfold nv in Z0. rewrite K in Z0.
  apply nth_error_Some_lt in E. unfold zlen in Z0. lia.
Qed.
Lemma build_trees_ok : forall l m L, grouped m L -> (forall t, In t l -> known c t) -> exists m', build_trees pkg c (mkVtt m false) l = Ok (mkVtt m' false) /\ grouped m' (L ++ all_rows l).
Proof.
  induction l as [|t l IH]; intros m L G H; cbn [build_trees].
  - exists m. cbn. now rewrite app_nil_r.
  - assert (T := H t (or_introl eq_refl)). destruct (IDS T) as (E & _). rewrite E. cbn [obind]. fold (row t (ids t)). destruct (add_vertices_ok (c := c) (l := row t (ids t)) G) as (m1 & A & G1).
    { intros v u i K. apply in_row in K as (-> & K1 & K2). now apply rows_range. }
    rewrite A. cbn [obind]. destruct (IH m1 _ G1) as (m' & B & G2); [intros; apply H; now right|]. exists m'. split; [assumption|]. cbn [all_rows flat_map]. now rewrite app_assoc.
Qed.
Lemma all_rows_sorted k : forall a, StronglySorted pair_lt (map snd (all_rows (zseq a k))).
Proof.
  induction k as [|k IH]; intros a; cbn [zseq all_rows flat_map map]; [constructor|]. rewrite map_app. apply sorted_app; [apply row_sorted|apply IH|]. intros x y X Y.
  apply in_map_iff in X as ([v [t i]] & <- & X). apply in_row in X as (-> & _). apply in_map_iff in Y as ([w [u j]] & <- & Y). apply (in_all_rows (zseq (a + 1) k)) in Y as (Y & _). apply in_zseq in Y. left. cbn. lia.
Qed.
Definition the_list := all_rows (zseq 0 (Z.to_nat (zlen (c_trees c)))).
Lemma known_seq t : known c t <-> In t (zseq 0 (Z.to_nat (zlen (c_trees c)))).
Proof. rewrite in_zseq. unfold known. rewrite no_ghosts. unfold zlen. cbn. lia. Qed.
Lemma in_the_list v t i : In (v, (t, i)) the_list <-> known c t /\ 0 <= i /\ nth_error (ids t) (Z.to_nat i) = Some v.
Proof. unfold the_list. rewrite in_all_rows, known_seq. reflexivity. Qed.
Lemma the_list_complete : complete c the_list.
Proof.
  split.
  - intros v t i H. apply in_the_list in H as (T & I & E). now apply rows_range.
  - intros t i T (k & K & I). destruct (IDS T) as (_ & Z0 & _). unfold nv in Z0. rewrite K in Z0. destruct (nth_error (ids t) (Z.to_nat i)) as [v|] eqn:E.
    + exists v. apply in_the_list. split; [assumption|]. split; [lia|assumption].
    + apply nth_error_None in E. unfold zlen in Z0. lia.
  - assert (S := all_rows_sorted (Z.to_nat (zlen (c_trees c))) 0). fold the_list in S. clear -S. induction S as [|x l S IH F]; constructor; [|assumption]. intros H. apply (proj1 (Forall_forall _ _) F) in H. unfold pair_lt in H. lia.
Qed.
Lemma build_ok : exists m, build_from_ttv pkg c = Ok (mkVtt m true) /\ lists_right (mkVtt m true) (fun t i v => In (v, (t, i)) the_list) /\ Permutation (flat m) the_list.
Proof.
  unfold build_from_ttv. replace (length (c_trees c) + length (c_ghosts c))%nat with (Z.to_nat (zlen (c_trees c))) by (rewrite no_ghosts; unfold zlen; cbn; lia).
  destruct (@build_trees_ok (zseq 0 (Z.to_nat (zlen (c_trees c)))) [] [] grouped_nil) as (m & B & G); [intros t T; now apply known_seq|]. cbn [app] in G. fold the_list in G. change (mkVtt [] false) with vtt_init in B. rewrite B. cbn [obind v_map]. exists m. split; [reflexivity|]. split; [|apply G].
  apply lists_right_of.
  - apply G.
  - intros v l H. assert (E := g_lists G H). split; [|split].
    + rewrite E. apply at_v_sorted. apply all_rows_sorted.
    + intros N. assert (In v (map fst the_list)) as V by (apply (g_keys G), in_map_iff; now exists (v, l)). apply in_map_iff in V as ([w p] & V1 & V2). cbn in V1. subst w. apply in_at_v in V2. rewrite <- E, N in V2. destruct V2.
    + intros t i. now rewrite <- in_at_v, <- E.
  - intros t i v H. apply (g_keys G). apply in_map_iff. now exists (v, (t, i)).
Qed.
End build.

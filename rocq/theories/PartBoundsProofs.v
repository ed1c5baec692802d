(** Proofs about the bounds of uniform partitions computed on a partitioned coarse mesh. *)
From Verif Require Import Prelude PathSpec SchemeModel SchemeProofs OffsetModel OffsetSpec PartitionModel PartitionSpec OwnerModel UniformModel UniformSpec UniformProofs UniformTableProofs.
From Verif Require Import PartBoundsModel PartBoundsSpec VectorSplitProofs.
#[local] Unset Implicit Arguments.
#[local] Arguments u64_small : clear implicits.
#[local] Arguments i64_small : clear implicits.

Lemma concat_map_single {X Y} (f : X -> Y) l : concat (map (fun x => [f x]) l) = map f l.
Proof. induction l as [|x l IH]; cbn; [reflexivity|now rewrite IH]. Qed.
(** ** prefix sums *)
Lemma tree_firsts_prefix l : forall s, tree_firsts s l = prefix_array s l.
Proof. induction l as [|c l IH]; intros s; cbn [tree_firsts prefix_array]; [reflexivity|]. now rewrite IH. Qed.
Lemma prefix_len l : forall s, zlen (prefix_array s l) = zlen l + 1.
Proof. induction l as [|c l IH]; intros s; cbn [prefix_array]; [reflexivity|]. specialize (IH (i64 (s + c))). unfold zlen in *. cbn [length]. lia. Qed.
Lemma prefix_at l : forall s i, 0 <= i <= zlen l -> (forall k, 0 <= k <= zlen l -> - 2 ^ 63 <= s + psum l k < 2 ^ 63) -> znth 0 (prefix_array s l) i = s + psum l i.
Proof.
  induction l as [|c l IH]; intros s i Hi B.
  - unfold zlen in Hi. cbn [length] in Hi. assert (i = 0) by lia. subst i. cbn. lia.
  - cbn [prefix_array]. assert (Z1 : zlen (c :: l) = zlen l + 1) by (unfold zlen; cbn [length]; lia). destruct (Z.eq_dec i 0) as [->|NE]; [cbn; lia|].
    unfold znth. replace (Z.to_nat i) with (S (Z.to_nat (i - 1))) by lia. cbn [nth]. fold (znth 0 (prefix_array (i64 (s + c)) l) (i - 1)).
    assert (L0 : 0 <= zlen l) by (unfold zlen; lia).
    assert (B1 := B 1 ltac:(lia)). change 1 with (0 + 1) in B1. rewrite psum_cons, psum_0 in B1 by lia. rewrite (i64_small (s + c)) by lia. rewrite IH; [|lia|].
    + replace i with (i - 1 + 1) at 2 by lia. rewrite psum_cons by lia. lia.
    + intros k Hk. specialize (B (k + 1) ltac:(lia)). rewrite psum_cons in B by lia. lia.
Qed.
Lemma segment_len l a b : 0 <= a <= b -> b <= zlen l -> zlen (segment l a b) = b - a.
Proof. intros H1 H2. unfold segment, zlen in *. rewrite firstn_length, skipn_length. lia. Qed.
Lemma firstn_segment l a b k : 0 <= a <= b -> 0 <= k <= b - a -> psum (segment l a b) k = psum l (a + k) - psum l a.
Proof.
  intros H1 H2. unfold psum, segment. rewrite firstn_firstn. rewrite Nat.min_l by lia. replace (Z.to_nat (a + k)) with (Z.to_nat a + Z.to_nat k)%nat by lia.
  rewrite <- (firstn_skipn (Z.to_nat a) l) at 2. destruct (Nat.le_gt_cases (Z.to_nat a) (length l)) as [L|L].
  - rewrite firstn_app, firstn_length. rewrite Nat.min_l by lia. rewrite (@firstn_all2 Z (Z.to_nat a + Z.to_nat k) (firstn (Z.to_nat a) l)) by (rewrite firstn_length; lia). replace (Z.to_nat a + Z.to_nat k - Z.to_nat a)%nat with (Z.to_nat k) by lia.
    fold (total (firstn (Z.to_nat a) l ++ firstn (Z.to_nat k) (skipn (Z.to_nat a) l))). rewrite total_app. unfold total. lia.
  - rewrite skipn_all2 by lia. rewrite app_nil_r, firstn_nil. cbn [fold_right]. rewrite firstn_firstn. rewrite Nat.min_r by lia. lia.
Qed.
Lemma segment_skip l a b : 1 <= a <= b -> skipn 1 (segment l (a - 1) b) = segment l a b.
Proof.
  intros H. unfold segment. replace (Z.to_nat (b - (a - 1))) with (S (Z.to_nat (b - a))) by lia. replace (Z.to_nat a) with (S (Z.to_nat (a - 1))) by lia.
  set (n := Z.to_nat (a - 1)). set (k := Z.to_nat (b - a)). clearbody n k. revert l. induction n as [|n IH]; intros l; (destruct l as [|c l]; [rewrite !skipn_nil, ?firstn_nil; reflexivity|]).
  - reflexivity.
  - change (skipn (S n) (c :: l)) with (skipn n l). change (skipn (S (S n)) (c :: l)) with (skipn (S n) l). apply IH.
Qed.
Lemma segment_hd l a b : 0 <= a < b -> hd 0 (segment l a b) = count_of l a.
Proof.
  intros H. unfold segment, count_of. destruct (Z.to_nat (b - a)) as [|k] eqn:E; [lia|]. set (n := Z.to_nat a). clearbody n. revert l. induction n as [|n IH]; intros l; destruct l as [|c l]; cbn [skipn hd nth]; try reflexivity; apply IH.
Qed.

Section main.
Variables (checks : bool) (counts : list Z) (views : list view) (start : Z -> Z).
Notation P := (zlen views).
Notation N := (total counts).
Notation K := (zlen counts).
Notation C r := (cut (total counts) (zlen views) r).
Notation S_ t := (psum counts t).
Hypothesis HP : 0 < P < 2 ^ 31.
Hypothesis F : Forall (fun c => 0 < c) counts.
Hypothesis HT : N < 2 ^ 63 - 1.
Hypothesis HK : 0 < K.
Hypothesis CP : coarse_partition counts views start.
Hypothesis EX : tree_owners_exact checks counts P.

Lemma NR : 0 < N < 2 ^ 63 - 1. Proof. pose proof (N_pos counts F ltac:(lia) HK). lia. Qed.
Lemma C_ok r : 0 <= r <= P -> first_element_of_process r P N = Ok (C r) /\ i64 (C r) = C r /\ 0 <= C r <= N.
Proof. intros H. apply first_ok; auto; lia. Qed.
Lemma fe_ok r : 0 <= r <= P -> fe P N r = Ok (C r).
Proof. intros H. unfold fe. rewrite (u64_small N) by (pose proof NR; lia). destruct (C_ok r H) as (E & E' & _). rewrite E. cbn [obind]. now rewrite E'. Qed.
Lemma C_le q r : q <= r -> C q <= C r. Proof. intros H. pose proof NR. apply cut_mono; lia. Qed.
Lemma C_P : C P = N. Proof. apply cut_P. lia. Qed.
Lemma C_0 : C 0 = 0. Proof. apply cut_0. lia. Qed.
Lemma C_last : C (P - 1) < C P. Proof. apply last_nonempty; auto; lia. Qed.
Lemma S_le s t : 0 <= s -> s <= t -> t <= K -> S_ s <= S_ t. Proof. intros. apply psum_le; auto. apply F0. exact F. Qed.
Lemma S_lt s t : 0 <= s -> s < t -> t <= K -> S_ s < S_ t.
Proof.
  intros H1 H2 H3. assert (Q := S_le (s + 1) t ltac:(lia) ltac:(lia) H3). rewrite psum_step in Q by lia. assert (0 < count_of counts s); [|lia].
  rewrite Forall_forall in F. apply F. apply nth_In. unfold zlen in *. lia.
Qed.
Lemma S_K : S_ K = N. Proof. apply psum_all. Qed.
Lemma S_range t : 0 <= t <= K -> 0 <= S_ t <= N.
Proof. intros H. assert (Q1 := S_le 0 t ltac:(lia) ltac:(lia) ltac:(lia)). assert (Q2 := S_le t K ltac:(lia) ltac:(lia) ltac:(lia)). rewrite psum_0 in Q1. rewrite S_K in Q2. lia. Qed.
Lemma pos_at t g : 0 <= t < K -> S_ t <= g < S_ (t + 1) -> position counts g t (g - S_ t).
Proof. intros H1 H2. rewrite psum_step in H2 by lia. unfold position. lia. Qed.

(** *** the coarse partition *)
Lemma start_step p : 0 <= p < P -> start p <= start (p + 1). Proof. intros H. apply CP. exact H. Qed.
Lemma start_0 : start 0 = 0. Proof. apply CP. Qed.
Lemma start_P : start P = K. Proof. apply CP. Qed.
Lemma start_le_aux n : forall p, 0 <= p -> p + Z.of_nat n <= P -> start p <= start (p + Z.of_nat n).
Proof.
  induction n as [|n IH]; intros p H1 H2; [replace (p + Z.of_nat 0) with p by lia; lia|]. assert (Q := start_step p ltac:(lia)). assert (Q' := IH (p + 1) ltac:(lia) ltac:(lia)).
  replace (p + Z.of_nat (S n)) with (p + 1 + Z.of_nat n) by lia. lia.
Qed.
Lemma start_le p q : 0 <= p -> p <= q -> q <= P -> start p <= start q.
Proof. intros H1 H2 H3. assert (Q := start_le_aux (Z.to_nat (q - p)) p H1 ltac:(lia)). replace (p + Z.of_nat (Z.to_nat (q - p))) with q in Q by lia. exact Q. Qed.
Lemma start_range p : 0 <= p <= P -> 0 <= start p <= K.
Proof. intros H. assert (Q1 := start_le 0 p ltac:(lia) ltac:(lia) ltac:(lia)). assert (Q2 := start_le p P ltac:(lia) ltac:(lia) ltac:(lia)). rewrite start_0 in Q1. rewrite start_P in Q2. lia. Qed.
Lemma view_at p : 0 <= p < P -> v_shift (run_view views p) <= start p /\ v_first (run_view views p) = start p - v_shift (run_view views p) /\
  pure_trees (run_view views p) = segment counts (start p) (start (p + 1)) /\ local_num_children (run_view views p) = S_ (start (p + 1)) - S_ (start p) /\ 0 <= v_shift (run_view views p) <= 1.
Proof.
  intros H. destruct CP as (_ & _ & Q). specialize (Q p H). cbn zeta in Q. fold (run_view views p) in Q. destruct Q as (Q1 & Q2 & Q3 & Q4).
  assert (R1 := start_range p ltac:(lia)). assert (R2 := start_range (p + 1) ltac:(lia)). set (v := run_view views p) in *.
  assert (LOC : forall a, 0 <= a <= start (p + 1) -> sum_counts (segment counts a (start (p + 1))) = S_ (start (p + 1)) - S_ a).
  { intros a Ha. rewrite sum_counts_ok.
    - rewrite <- psum_all, segment_len by lia. rewrite firstn_segment by lia. now replace (a + (start (p + 1) - a)) with (start (p + 1)) by lia.
    - apply Forall_forall. intros x Hx. unfold segment in Hx. assert (In x counts).
      { rewrite <- (firstn_skipn (Z.to_nat a) counts). apply in_or_app. right. rewrite <- (firstn_skipn (Z.to_nat (start (p + 1) - a)) (skipn _ _)). apply in_or_app. now left. }
      pose proof (F0 counts F) as FF. rewrite Forall_forall in FF. now apply FF.
    - rewrite <- psum_all, segment_len by lia. rewrite firstn_segment by lia. replace (a + (start (p + 1) - a)) with (start (p + 1)) by lia. pose proof (S_range (start (p + 1)) ltac:(lia)). pose proof (S_range a ltac:(lia)). lia. }
  assert (SR1 := S_range (start (p + 1)) ltac:(lia)). assert (SR2 := S_range (start p) ltac:(lia)). assert (SL := S_le (start p) (start (p + 1)) ltac:(lia) ltac:(lia) ltac:(lia)).
  split; [exact Q2|]. split; [exact Q3|]. unfold pure_trees, local_num_children, v_shift in *. rewrite Q4. destruct (v_shared v).
  - split; [change (Z.to_nat 1) with 1%nat; apply segment_skip; lia|]. split; [|lia]. rewrite LOC by lia. rewrite segment_hd by lia.
    assert (ST := psum_step counts (start p - 1) ltac:(lia)). replace (start p - 1 + 1) with (start p) in ST by lia. rewrite i64_small by lia. lia.
  - split; [cbn [Z.to_nat skipn]; now rewrite Z.sub_0_r|]. split; [|lia]. rewrite Z.sub_0_r, LOC by lia. rewrite !Z.sub_0_r. rewrite i64_small by lia. reflexivity.
Qed.
Lemma locals_psum p : 0 <= p <= P -> psum (map local_num_children views) p = S_ (start p).
Proof.
  intros H. assert (ZL : zlen (map local_num_children views) = P) by (unfold zlen; now rewrite map_length).
  assert (G : forall n, Z.of_nat n <= P -> psum (map local_num_children views) (Z.of_nat n) = S_ (start (Z.of_nat n))).
  { induction n as [|n IH]; intros Hn; [cbn [Z.of_nat]; rewrite start_0; reflexivity|].
    replace (Z.of_nat (S n)) with (Z.of_nat n + 1) by lia. rewrite psum_step by lia. rewrite IH by lia. destruct (view_at (Z.of_nat n) ltac:(lia)) as (_ & _ & _ & V & _).
    assert (E : count_of (map local_num_children views) (Z.of_nat n) = local_num_children (run_view views (Z.of_nat n))).
    { unfold count_of, run_view. rewrite (nth_indep _ 0 (local_num_children (View 0 false []))) by (rewrite map_length; unfold zlen in Hn; lia). apply map_nth. }
    rewrite E, V. lia. }
  specialize (G (Z.to_nat p)). rewrite Z2Nat.id in G by lia. apply G. lia.
Qed.
Lemma offsets_len : zlen (run_offsets views) = P + 1.
Proof. unfold run_offsets. rewrite prefix_len. unfold zlen. now rewrite map_length. Qed.
Lemma offsets_at p : 0 <= p <= P -> rd (run_offsets views) p = Ok (S_ (start p)).
Proof.
  intros H. rewrite rd_ok by (rewrite offsets_len; lia). unfold run_offsets. assert (ZL : zlen (map local_num_children views) = P) by (unfold zlen; now rewrite map_length).
  rewrite prefix_at; [rewrite locals_psum by lia; reflexivity|lia|]. intros k Hk. rewrite locals_psum by lia. pose proof (S_range (start k) (start_range k ltac:(lia))). pose proof NR. lia.
Qed.
Lemma run_num_ok : run_num views = Ok N.
Proof. unfold run_num, run_size. rewrite offsets_at by lia. cbn [obind]. rewrite start_P, S_K. pose proof NR. rewrite (proj2 (Z.leb_le 0 N)), (proj2 (Z.ltb_lt N _)) by lia. reflexivity. Qed.

(** *** the process of the first element of a tree *)
Definition rk (t : Z) : Z := match determine_partition checks (S_ t) N P 0 with Ok p => p | _ => 0 end.
Lemma rk_own t : 0 <= t < K -> determine_partition checks (S_ t) N P 0 = Ok (rk t) /\ has_element N P (rk t) (S_ t).
Proof. intros H. destruct (EX t H) as (p & E & O). unfold rk. rewrite E. auto. Qed.
Lemma rk_K : determine_partition checks (S_ K) N P 0 = Ok (rk K) /\ rk K = P.
Proof. unfold rk, determine_partition. rewrite S_K, Z.eqb_refl. rewrite Z.sub_0_r, u64_small by lia. auto. Qed.
Lemma rk_range t : 0 <= t <= K -> 0 <= rk t <= P.
Proof. intros H. destruct (Z.eq_dec t K) as [->|]; [rewrite (proj2 rk_K); lia|]. destruct (rk_own t ltac:(lia)) as (_ & [Q _]). lia. Qed.
Lemma rk_det t : 0 <= t <= K -> determine_partition checks (S_ t) N P 0 = Ok (rk t).
Proof. intros H. destruct (Z.eq_dec t K) as [->|]; [apply rk_K|]. apply rk_own. lia. Qed.
Lemma rk_lt t i : 0 <= t <= K -> 0 <= i <= P -> (rk t < i <-> S_ t < C i).
Proof.
  intros H1 H2. destruct (Z.eq_dec t K) as [->|].
  - rewrite (proj2 rk_K), S_K. destruct (C_ok i H2) as (_ & _ & B). lia.
  - destruct (rk_own t ltac:(lia)) as (_ & [Q1 Q2]). split; intros H.
    + assert (L := C_le (rk t + 1) i ltac:(lia)). lia.
    + destruct (Z.lt_ge_cases (rk t) i) as [|G]; [assumption|]. assert (L := C_le i (rk t) G). lia.
Qed.
Lemma rk_le s t : 0 <= s -> s <= t -> t <= K -> rk s <= rk t.
Proof.
  intros H1 H2 H3. destruct (Z.le_gt_cases (rk s) (rk t)) as [|G]; [assumption|exfalso]. assert (R := rk_range s ltac:(lia)).
  apply (rk_lt t (rk s) ltac:(lia) ltac:(lia)) in G. assert (L := S_le s t H1 H2 H3). assert (Q : S_ s < C (rk s)) by lia. apply (rk_lt s (rk s) ltac:(lia) ltac:(lia)) in Q. lia.
Qed.
Lemma det_off t sf : 0 <= t <= K -> 0 <= sf <= rk t -> determine_partition checks (S_ t) N P sf = Ok (rk t - sf).
Proof.
  intros H1 H2. assert (R := rk_range t H1). assert (E := rk_det t H1).
  assert (UU : forall r, u64 (r - 0) = rk t -> u64 (r - sf) = rk t - sf).
  { intros r Hr. rewrite Z.sub_0_r in Hr. unfold u64 in *. rewrite <- (Zminus_mod_idemp_l r), Hr. apply Z.mod_small. lia. }
  unfold determine_partition in *. destruct (Z.eqb_spec (S_ t) N); [injection E as E; now rewrite (UU _ E)|].
  destruct (a_times_b_over_c checks P (N - S_ t - 1) N) as [v| | |]; cbn [obind] in *; try discriminate.
  destruct (checks && negb ((0 <=? P - 1 - v) && (P - 1 - v <? P))); [discriminate|]. destruct (negb checks); [injection E as E; now rewrite (UU _ E)|].
  destruct (first_element_of_process (P - 1 - v) P N) as [a| | |]; cbn [obind] in *; try discriminate.
  match type of E with (obind ?X _ = _) => destruct X as [b| | |]; cbn [obind] in *; try discriminate end.
  destruct (negb ((a <=? S_ t) && (S_ t <? b))); [discriminate|]. injection E as E. now rewrite (UU _ E).
Qed.

(** *** the first process to send to *)
Lemma lower_ok fuel x sf0 : forall low high sf, C sf0 <= x -> sf0 < P -> 0 <= low -> low <= high + 1 -> sf = high + 1 -> sf <= sf0 -> (sf < sf0 -> C sf = x) -> (forall r, 0 <= r < low -> C r < x) ->
  high + 1 - low < Z.of_nat fuel -> exists r, lower_send_first P N fuel x low high sf = Ok r /\ 0 <= r <= sf0 /\ (r < sf0 -> C r = x) /\ forall q, 0 <= q < r -> C q < x.
Proof.
  induction fuel as [|f IH]; intros low high sf H1 H2 H3 H4 H5 H6 H7 H8 Hf; [lia|]. cbn [lower_send_first]. destruct (Z.ltb_spec high low).
  - exists sf. split; [reflexivity|]. split; [lia|]. split; [exact H7|]. intros q Hq. apply H8. lia.
  - set (mid := low + (high - low) / 2). assert (MB : low <= mid <= high) by (unfold mid; lia). rewrite !fe_ok by lia. cbn [obind].
    assert (L1 := C_le (mid + 1) sf0 ltac:(lia)). assert (L2 := C_le mid (mid + 1) ltac:(lia)).
    destruct ((C (mid + 1) <=? C mid) && (C mid =? x)) eqn:E.
    + apply andb_prop in E as [E1 E2]. apply IH; auto; try lia.
    + assert (NX : C mid < x). { destruct (Z.leb_spec (C (mid + 1)) (C mid)); destruct (Z.eqb_spec (C mid) x); cbn in E; try discriminate; lia. }
      apply IH; auto; try lia. intros r Hr. assert (L3 := C_le r mid ltac:(lia)). lia.
Qed.

(** *** what a process sends *)
Definition TT (g : Z) : Z := fst (locate counts g).
Definition DD (g : Z) : Z := snd (locate counts g).
Lemma TD_is g t : 0 <= t < K -> S_ t <= g < S_ (t + 1) -> TT g = t /\ DD g = g - S_ t.
Proof.
  intros H1 H2. assert (Q := pos_at t g H1 H2). assert (R1 := S_range t ltac:(lia)). assert (R2 := S_range (t + 1) ltac:(lia)).
  assert (Q' := locate_ok counts g (F0 counts F) ltac:(lia)). exact (position_unique _ _ _ _ _ _ (F0 counts F) Q' Q).
Qed.
(** the first tree that starts at or after element g *)
Definition UP (g : Z) : Z := if DD g =? 0 then TT g else TT g + 1.
Lemma UP_is g t : 0 <= t <= K -> g <= S_ t -> (0 < t -> S_ (t - 1) < g) -> 0 <= g < N -> UP g = t.
Proof.
  intros H1 H2 H3 H4. unfold UP. destruct (Z.eq_dec g (S_ t)) as [->|NE].
  - assert (t < K) by (destruct (Z.eq_dec t K) as [->|]; [rewrite S_K in H4; lia|lia]). destruct (TD_is (S_ t) t ltac:(lia)) as [E1 E2]; [split; [lia|apply S_lt; lia]|]. rewrite E1, E2. replace (S_ t - S_ t) with 0 by lia. reflexivity.
  - assert (0 < t). { destruct (Z.eq_dec t 0) as [->|]; [rewrite psum_0 in *; lia|lia]. } specialize (H3 ltac:(lia)).
    destruct (TD_is g (t - 1) ltac:(lia)) as [E1 E2]; [replace (t - 1 + 1) with t by lia; lia|]. rewrite E1, E2. destruct (Z.eqb_spec (g - S_ (t - 1)) 0); lia.
Qed.
Definition start_message (r : Z) : message := Msg r true (TT (C r)) (DD (C r)).
Definition end_message (r : Z) : message := Msg r false (TT (C (r + 1) - 1)) (DD (C (r + 1) - 1) + 1).
Definition empty_message (sh r : Z) : message := Msg r true (UP (C r) - sh) (-1).
Definition expected (p sh r : Z) : list message :=
  let A := S_ (start p) in let B := S_ (start (p + 1)) in
  if C (r + 1) <=? C r then (if (A <=? C r) && (C r <? B) then [empty_message sh r] else [])
  else (if (A <=? C r) && (C r <? B) then [start_message r] else []) ++ (if (A <? C (r + 1)) && (C (r + 1) <=? B) then [end_message r] else []).

Lemma chk_true b : b = true -> chk checks b = Ok tt. Proof. intros ->. unfold chk. cbn. now rewrite andb_false_r. Qed.

Section sender.
Variables (p sh : Z).
Hypothesis Hp : 0 <= p < P.
Hypothesis Hsh : 0 <= sh <= 1.
Hypothesis Hsh2 : sh <= start p.
Notation s := (start p).
Notation e := (start (p + 1)).
Notation n := (e - s).
Hypothesis Hse : s < e.
Notation firsts := (tree_firsts (S_ s) (segment counts s e)).
Lemma se_range : 0 <= s /\ e <= K. Proof. pose proof (start_range p ltac:(lia)). pose proof (start_range (p + 1) ltac:(lia)). lia. Qed.
Lemma firsts_len : zlen firsts = n + 1.
Proof. rewrite tree_firsts_prefix, prefix_len. pose proof se_range. rewrite segment_len by lia. lia. Qed.
Lemma firsts_at j : 0 <= j <= n -> znth 0 firsts j = S_ (s + j).
Proof.
  intros H. pose proof se_range. rewrite tree_firsts_prefix, prefix_at.
  - rewrite firstn_segment by lia. lia.
  - rewrite segment_len by lia. lia.
  - intros k Hk. rewrite segment_len in Hk by lia. rewrite firstn_segment by lia. pose proof (S_range (s + k) ltac:(lia)). pose proof NR. lia.
Qed.
Lemma firsts_num : num_pure firsts = n. Proof. unfold num_pure. rewrite firsts_len. lia. Qed.
Lemma firsts_end : end_element firsts = S_ e. Proof. unfold end_element. rewrite firsts_num, firsts_at by (pose proof se_range; lia). f_equal. lia. Qed.
Notation sl := (if P <=? rk e then P - 1 else rk e).
Lemma sl_facts : rk s <= sl /\ sl < P /\ C sl < C (sl + 1) /\ C sl <= S_ e /\ (C (sl + 1) <= S_ e -> S_ e = N /\ sl = P - 1).
Proof.
  pose proof se_range as R. assert (R1 := rk_range e ltac:(lia)). destruct (rk_own s ltac:(lia)) as (_ & [O1 O2]). assert (M := rk_le s e ltac:(lia) ltac:(lia) ltac:(lia)).
  destruct (Z.leb_spec P (rk e)) as [L|L].
  - assert (e = K). { destruct (Z.eq_dec e K); [assumption|]. destruct (rk_own e ltac:(lia)) as (_ & [Q _]). lia. }
    assert (EN : S_ e = N) by (rewrite H; exact S_K). assert (CL := C_last). replace (P - 1 + 1) with P by lia. rewrite EN. destruct (C_ok (P - 1) ltac:(lia)) as (_ & _ & B). repeat split; lia.
  - assert (e < K). { destruct (Z.eq_dec e K) as [E|]; [|lia]. rewrite E, (proj2 rk_K) in L. lia. }
    destruct (rk_own e ltac:(lia)) as (_ & [Q1 Q2]). repeat split; lia.
Qed.
Variables (sf : Z) (offs : list Z).
Hypothesis Hsf1 : 0 <= sf <= rk s.
Hypothesis Hsf2 : sf < rk s -> C sf = S_ s.
Hypothesis Hsf3 : forall q, 0 <= q < sf -> C q < S_ s.
Hypothesis OF : forall r, sf <= r <= sl -> exists pf, rd offs (r - sf) = Ok pf /\ 0 <= pf <= n /\ forall j, 0 <= j <= n -> (j < pf <-> S_ (s + j) < C r).
Hypothesis OL : exists z, rd offs (sl + 1 - sf) = Ok z.

Lemma before_facts r : sf <= r <= sl -> S_ s < C (r + 1) \/ (C r = S_ s /\ C (r + 1) = S_ s).
Proof.
  intros H. pose proof se_range as R. pose proof sl_facts as (SL1 & SL2 & _). destruct (rk_own s ltac:(lia)) as (_ & [O1 O2]). destruct (Z.le_gt_cases (rk s) r) as [L|L].
  - left. assert (Q := C_le (rk s + 1) (r + 1) ltac:(lia)). lia.
  - right. assert (Q := Hsf2 ltac:(lia)). assert (Q1 := C_le sf r ltac:(lia)). assert (Q2 := C_le r (r + 1) ltac:(lia)). assert (Q3 := C_le (r + 1) (rk s) ltac:(lia)). lia.
Qed.
Lemma make_start t r : 0 <= t < n -> S_ (s + t) <= C r < S_ (s + t + 1) -> 0 <= r <= P ->
  make_message checks N K (s - sh) sh true false t r (C r - S_ (s + t)) = Ok [start_message r].
Proof.
  intros H1 H2 H3. pose proof se_range as R. destruct (TD_is (C r) (s + t) ltac:(lia) H2) as [E1 E2]. unfold make_message. cbn [m_tree m_index]. destruct (C_ok r H3) as (_ & _ & B). assert (R1 := S_range (s + t) ltac:(lia)).
  rewrite !chk_true by (cbn [orb]; rewrite andb_true_iff, Z.leb_le, ?Z.ltb_lt, ?Z.leb_le; lia). cbn [obind]. unfold start_message. rewrite E1, E2. do 3 f_equal. lia.
Qed.
Lemma make_end t r : 0 <= t < n -> S_ (s + t) < C (r + 1) <= S_ (s + t + 1) -> 0 <= r < P ->
  make_message checks N K (s - sh) sh false false t r (C (r + 1) - S_ (s + t)) = Ok [end_message r].
Proof.
  intros H1 H2 H3. pose proof se_range as R. destruct (TD_is (C (r + 1) - 1) (s + t) ltac:(lia) ltac:(lia)) as [E1 E2]. unfold make_message. cbn [m_tree m_index]. destruct (C_ok (r + 1) ltac:(lia)) as (_ & _ & B). assert (R1 := S_range (s + t) ltac:(lia)).
  rewrite !chk_true by (cbn [orb]; rewrite andb_true_iff, Z.leb_le, ?Z.ltb_lt, ?Z.leb_le; lia). cbn [obind]. unfold end_message. rewrite E1, E2. do 3 f_equal; lia.
Qed.

Lemma nonempty_ok r : sf <= r <= sl -> C r < C (r + 1) -> send_nonempty checks N K (s - sh) sh firsts sf sl offs r (C r) (C (r + 1)) = Ok (expected p sh r).
Proof.
  intros H NE. pose proof se_range as R. pose proof sl_facts as (SL1 & SL2 & SL3 & SL4 & SL5). assert (BF : S_ s < C (r + 1)) by (destruct (before_facts r H); lia).
  destruct (OF r H) as (pf & E1 & B1 & I1).
  assert (PN : exists pn, rd offs (r + 1 - sf) = Ok pn /\ (r < sl -> 0 <= pn <= n /\ forall j, 0 <= j <= n -> (j < pn <-> S_ (s + j) < C (r + 1)))).
  { destruct (Z.eq_dec r sl) as [EQ|NQ].
    - destruct OL as [z Hz]. exists z. split; [|intros; exfalso; lia]. replace (r + 1 - sf) with (sl + 1 - sf) by lia. exact Hz.
    - destruct (OF (r + 1) ltac:(lia)) as (pn & X1 & X2 & X3). exists pn. auto. }
  destruct PN as (pn & E2 & I2).
  unfold send_nonempty. rewrite E1. cbn [obind]. rewrite E2. cbn [obind]. rewrite (rd_ok firsts pf) by (rewrite firsts_len; lia). cbn [obind]. rewrite firsts_at, firsts_end, firsts_num by lia. cbv zeta.
  unfold expected. cbv zeta. rewrite (proj2 (Z.leb_gt (C (r + 1)) (C r))) by lia.
  assert (U1 : C r <= S_ (s + pf)). { specialize (I1 pf ltac:(lia)). lia. }
  assert (U2 : 1 <= pf -> S_ (s + (pf - 1)) < C r). { intros. apply (I1 (pf - 1)); lia. }
  destruct (Z.leb_spec (S_ e) (C r)) as [NO|NO].
  - cbn [negb andb orb Z.eqb]. rewrite (proj2 (Z.ltb_ge (C r) (S_ e))), (proj2 (Z.leb_gt (C (r + 1)) (S_ e))), !andb_false_r by lia. rewrite !chk_true by reflexivity. reflexivity.
  - cbn [negb andb]. rewrite (proj2 (Z.ltb_lt (C r) (S_ e))), andb_true_r by lia. rewrite (proj2 (Z.ltb_lt (S_ s) (C (r + 1)))) by lia. cbn [andb].
    assert (FT : exists ft, (if C r <? S_ (s + pf) then if pf - 1 <? 0 then -1 else pf - 1 else pf) = ft /\
      ((S_ s <= C r /\ 0 <= ft < n /\ S_ (s + ft) <= C r < S_ (s + ft + 1) /\ negb ((C r <? S_ (s + pf)) && (pf - 1 <? 0)) = true /\ (pn = pf -> C (r + 1) <= S_ (s + pf) -> ft = pf - 1)) \/
       (C r < S_ s /\ ft = -1 /\ pf = 0 /\ negb ((C r <? S_ (s + pf)) && (pf - 1 <? 0)) = false))).
    { eexists. split; [reflexivity|]. destruct (Z.ltb_spec (C r) (S_ (s + pf))) as [L|L].
      - destruct (Z.ltb_spec (pf - 1) 0) as [M|M].
        + right. assert (Q : pf = 0) by lia. rewrite Q in L. rewrite Z.add_0_r in L. auto.
        + left. specialize (U2 ltac:(lia)). assert (Q := S_le s (s + (pf - 1)) ltac:(lia) ltac:(lia) ltac:(lia)). replace (s + (pf - 1) + 1) with (s + pf) by lia. repeat split; try lia; reflexivity.
      - left. assert (C r = S_ (s + pf)) by lia. assert (pf < n). { destruct (Z.eq_dec pf n) as [Q|]; [|lia]. rewrite Q in *. replace (s + n) with e in * by lia. lia. }
        assert (Q := S_le s (s + pf) ltac:(lia) ltac:(lia) ltac:(lia)). assert (Q2 := S_lt (s + pf) (s + pf + 1) ltac:(lia) ltac:(lia) ltac:(lia)). repeat split; try lia; reflexivity. }
    destruct FT as (ft & EF & D). rewrite EF.
    destruct (Z.ltb_spec (S_ e) (C (r + 1))) as [LE|LE]; cbn [negb].
    + rewrite (proj2 (Z.leb_gt (C (r + 1)) (S_ e))) by lia. destruct D as [(D1 & D2 & D3 & D4 & _)|(D1 & D2 & _ & D4)]; rewrite D4.
      * rewrite (proj2 (Z.leb_le (S_ s) (C r))) by lia. rewrite (chk_true (negb true || _)) by (cbn [negb orb]; rewrite andb_true_iff, Z.leb_le, Z.ltb_lt; lia). cbn [obind].
        rewrite (chk_true (negb false || _)) by reflexivity. cbn [obind]. rewrite chk_true by (cbn [Z.eqb Pos.eqb]; now rewrite orb_true_r). cbn [obind]. rewrite (rd_ok firsts ft) by (rewrite firsts_len; lia). cbn [obind]. rewrite firsts_at by lia.
        rewrite make_start by lia. reflexivity.
      * rewrite (proj2 (Z.leb_gt (S_ s) (C r))) by lia. rewrite !chk_true by (try reflexivity; cbn [Z.eqb Pos.eqb]; now rewrite orb_true_r). reflexivity.
    + rewrite (proj2 (Z.leb_le (C (r + 1)) (S_ e))) by lia.
      assert (LT : exists lt, (if r =? sl then n - 1 else if pn =? pf then ft else pn - 1) = lt /\ 0 <= lt < n /\ S_ (s + lt) < C (r + 1) <= S_ (s + lt + 1) /\ (ft = -1 \/ ft <= lt)).
      { destruct (Z.eqb_spec r sl) as [EQ|NQ].
        - exists (n - 1). split; [reflexivity|]. rewrite <- EQ in *. destruct (SL5 LE) as [X1 X2]. replace (s + (n - 1) + 1) with e by lia. assert (Q := S_lt (s + (n - 1)) e ltac:(lia) ltac:(lia) ltac:(lia)).
          assert (C (r + 1) = N) by (rewrite X2; replace (P - 1 + 1) with P by lia; apply C_P). repeat split; try lia.
        - destruct (I2 ltac:(lia)) as [I3 I4]. assert (P1 : 0 < pn). { apply (I4 0 ltac:(lia)). rewrite Z.add_0_r. lia. }
          assert (V1 : C (r + 1) <= S_ (s + pn)). { specialize (I4 pn ltac:(lia)). lia. }
          assert (V2 : S_ (s + (pn - 1)) < C (r + 1)). { apply (I4 (pn - 1)); lia. }
          exists (pn - 1). split.
          + destruct (Z.eqb_spec pn pf) as [EQ|]; [|reflexivity]. destruct D as [(_ & _ & _ & _ & D5)|(_ & _ & D5 & _)]; [rewrite D5 by (try lia; rewrite <- EQ; lia); lia|lia].
          + replace (s + (pn - 1) + 1) with (s + pn) by lia. split; [lia|]. split; [lia|]. destruct D as [(D1 & D2 & D3 & _)|(D1 & D2 & _)]; [right|now left]. assert (ft < pn); [|lia]. apply (I4 ft); lia. }
      destruct LT as (lt & EL & L1 & L2 & L3). rewrite EL. rewrite (chk_true (negb true || ((0 <=? lt) && _))) by (cbn [negb orb]; rewrite andb_true_iff, Z.leb_le, Z.ltb_lt; lia).
      rewrite (rd_ok firsts lt) by (rewrite firsts_len; lia). rewrite (firsts_at lt) by lia.
      rewrite (chk_true ((ft =? -1) || (lt =? -1) || (ft <=? lt))) by (rewrite !orb_true_iff, Z.leb_le, !Z.eqb_eq; lia). cbn [obind]. rewrite make_end by lia.
      destruct D as [(D1 & D2 & D3 & D4 & _)|(D1 & D2 & _ & D4)]; rewrite D4.
      * rewrite (proj2 (Z.leb_le (S_ s) (C r))) by lia. rewrite (chk_true (negb true || _)) by (cbn [negb orb]; rewrite andb_true_iff, Z.leb_le, Z.ltb_lt; lia). cbn [obind].
        rewrite (rd_ok firsts ft) by (rewrite firsts_len; lia). cbn [obind]. rewrite firsts_at by lia. rewrite make_start by lia. reflexivity.
      * rewrite (proj2 (Z.leb_gt (S_ s) (C r))) by lia. rewrite !chk_true by reflexivity. reflexivity.
Qed.

Lemma next_ok fuel i : forall nx, i < nx <= sl -> (forall q, i <= q < nx -> C (q + 1) = C i) -> sf <= i -> sl - nx < Z.of_nat fuel ->
  exists m, next_proc P N firsts sl fuel nx = Ok (m, C i) /\ nx <= m <= sl /\ forall q, i <= q < m -> C (q + 1) = C i.
Proof.
  induction fuel as [|f IH]; intros nx H1 H2 H3 Hf; [lia|]. pose proof sl_facts as (SL1 & SL2 & _). cbn [next_proc]. rewrite !fe_ok by lia. cbn [obind].
  assert (E : C nx = C i). { specialize (H2 (nx - 1) ltac:(lia)). now replace (nx - 1 + 1) with nx in H2 by lia. }
  destruct ((nx + 1 <? sl) && (C (nx + 1) <=? C nx) && (C nx <? end_element firsts)) eqn:CC.
  - apply andb_prop in CC as [CC _]. apply andb_prop in CC as [CC1 CC2]. apply Z.ltb_lt in CC1. apply Z.leb_le in CC2. assert (Q := C_le nx (nx + 1) ltac:(lia)).
    destruct (IH (nx + 1)) as (m & X1 & X2 & X3); try lia.
    + intros q Hq. destruct (Z.eq_dec q nx) as [->|]; [lia|apply H2; lia].
    + exists m. split; [exact X1|]. split; [lia|exact X3].
  - exists nx. rewrite E. split; [reflexivity|]. split; [lia|exact H2].
Qed.
Lemma send_loop_ok fuel : forall i, sf <= i <= sl + 1 -> sl + 1 - i < Z.of_nat fuel -> send_loop checks P N K (s - sh) sh firsts sf sl offs fuel i = Ok (flat_map (expected p sh) (zseq i (Z.to_nat (sl + 1 - i)))).
Proof.
  induction fuel as [|f IH]; intros i Hi Hf; [lia|]. pose proof sl_facts as (SL1 & SL2 & SL3 & SL4 & SL5). pose proof se_range as R. cbn [send_loop]. destruct (Z.ltb_spec sl i) as [L|L].
  - replace (Z.to_nat (sl + 1 - i)) with 0%nat by lia. reflexivity.
  - rewrite !fe_ok by lia. cbn [obind].
    assert (ST : zseq i (Z.to_nat (sl + 1 - i)) = i :: zseq (i + 1) (Z.to_nat (sl + 1 - (i + 1)))). { replace (Z.to_nat (sl + 1 - i)) with (S (Z.to_nat (sl + 1 - (i + 1)))) by lia. reflexivity. }
    destruct (Z.leb_spec (C (i + 1)) (C i)) as [M|M].
    + assert (i < sl). { destruct (Z.eq_dec i sl) as [->|]; [|lia]. lia. } assert (EQ1 : C (i + 1) = C i) by (assert (Q := C_le i (i + 1) ltac:(lia)); lia).
      destruct (next_ok (Z.to_nat P + 1) i (i + 1)) as (m & X1 & X2 & X3); try lia. { intros q Hq. replace q with i by lia. exact EQ1. }
      rewrite X1. cbn [obind]. assert (EQ2 : C (m - 1) = C i). { destruct (Z.eq_dec (m - 1) i) as [->|]; [reflexivity|]. assert (Q := X3 (m - 2) ltac:(lia)). replace (m - 2 + 1) with (m - 1) in Q by lia. exact Q. }
      destruct (OF (m - 1) ltac:(lia)) as (fp & Y1 & Y2 & Y3). replace (m - sf - 1) with (m - 1 - sf) by lia. rewrite Y1. cbn [obind]. rewrite firsts_end, EQ2 in *.
      assert (AC : S_ s <= C i) by (destruct (before_facts i ltac:(lia)); lia).
      destruct (Z.ltb_spec (C i) (S_ e)) as [LT|GE].
      * rewrite IH by lia. cbn [obind]. f_equal.
        replace (Z.to_nat (sl + 1 - i)) with (Z.to_nat (m - i) + Z.to_nat (sl + 1 - m))%nat by lia. rewrite zseq_app, flat_map_app. rewrite Z2Nat.id by lia. replace (i + (m - i)) with m by lia. f_equal.
        rewrite flat_map_concat_map. rewrite <- (concat_map_single (fun q => Msg q true (fp + (s - sh)) (-1))). f_equal. apply map_ext_in. intros q Hq. apply in_zseq in Hq.
        assert (Q1 : C q = C i). { destruct (Z.eq_dec q i) as [->|]; [reflexivity|]. assert (Q := X3 (q - 1) ltac:(lia)). replace (q - 1 + 1) with q in Q by lia. exact Q. }
        unfold expected. cbv zeta. rewrite (X3 q) by lia. rewrite Q1. rewrite (proj2 (Z.leb_le (C i) (C i))), (proj2 (Z.leb_le (S_ s) (C i))), (proj2 (Z.ltb_lt (C i) (S_ e))) by lia. cbn [andb]. unfold empty_message. rewrite Q1.
        assert (UPE : UP (C i) = s + fp); [apply UP_is; [lia| | |]|rewrite UPE; replace (s + fp - sh) with (fp + (s - sh)) by lia; reflexivity].
        -- specialize (Y3 fp ltac:(lia)). lia.
        -- intros FS. destruct (Z.eq_dec fp 0) as [->|]; [|replace (s + fp - 1) with (s + (fp - 1)) by lia; apply (Y3 (fp - 1)); lia]. rewrite Z.add_0_r in *. assert (Q := S_lt (s - 1) s ltac:(lia) ltac:(lia) ltac:(lia)). lia.
        -- destruct (C_ok i ltac:(lia)) as (_ & _ & B). assert (Q := S_range e ltac:(lia)). lia.
      * rewrite IH by lia. rewrite ST. cbn [flat_map]. assert (EE : expected p sh i = []); [|now rewrite EE].
        unfold expected. cbv zeta. rewrite (proj2 (Z.leb_le (C (i + 1)) (C i))), (proj2 (Z.ltb_ge (C i) (S_ e))), andb_false_r by lia. reflexivity.
    + rewrite nonempty_ok by lia. cbn [obind]. rewrite IH by lia. cbn [obind]. rewrite ST. reflexivity.
Qed.
Lemma expected_outside r : 0 <= r < P -> r < sf \/ sl < r -> expected p sh r = [].
Proof.
  intros H1 H2. pose proof sl_facts as (SL1 & SL2 & SL3 & SL4 & SL5). pose proof se_range as R. destruct (rk_own s ltac:(lia)) as (_ & [O1 O2]). unfold expected. cbv zeta. destruct H2 as [H2|H2].
  - assert (Q1 := Hsf3 r ltac:(lia)). assert (Q2 := C_le (r + 1) (rk s) ltac:(lia)). rewrite (proj2 (Z.leb_gt (S_ s) (C r))), (proj2 (Z.ltb_ge (S_ s) (C (r + 1)))) by lia. destruct (C (r + 1) <=? C r); reflexivity.
  - assert (Q1 := C_le (sl + 1) r ltac:(lia)). assert (Q2 := C_le r (r + 1) ltac:(lia)). assert (S_ e < C (sl + 1)) by (destruct (Z.le_gt_cases (C (sl + 1)) (S_ e)) as [G|]; [destruct (SL5 G); lia|lia]).
    rewrite (proj2 (Z.ltb_ge (C r) (S_ e))), (proj2 (Z.leb_gt (C (r + 1)) (S_ e))), !andb_false_r by lia. destruct (C (r + 1) <=? C r); reflexivity.
Qed.

End sender.

Lemma flat_nil {X Y} (f : X -> list Y) l : (forall x, In x l -> f x = []) -> flat_map f l = [].
Proof. induction l as [|x l IH]; intros H; cbn [flat_map]; [reflexivity|]. rewrite (H x) by now left. apply IH. intros y Hy. apply H. now right. Qed.
Notation shv p := (v_shift (run_view views p)).
Definition sent (p : Z) : list message := flat_map (expected p (shv p)) (zseq 0 (Z.to_nat P)).
Lemma messages_ok p : 0 <= p < P -> run_messages checks views K p = Ok (sent p).
Proof.
  intros Hp. destruct (view_at p Hp) as (V1 & V2 & V3 & V4 & V5). assert (R1 := start_range p ltac:(lia)). assert (R2 := start_range (p + 1) ltac:(lia)). assert (R3 := start_step p Hp).
  unfold run_messages. rewrite run_num_ok. cbn [obind]. unfold messages_of, run_size. rewrite V3. rewrite segment_len by lia. destruct (Z.leb_spec (start (p + 1) - start p) 0) as [L|L].
  - f_equal. symmetry. apply flat_nil. intros r Hr. assert (E : start (p + 1) = start p) by lia. unfold expected. cbv zeta. rewrite E.
    destruct (Z.leb_spec (S_ (start p)) (C r)), (Z.ltb_spec (C r) (S_ (start p))); try lia; destruct (Z.leb_spec (C (r + 1)) (S_ (start p))), (Z.ltb_spec (S_ (start p)) (C (r + 1))); try lia; destruct (C (r + 1) <=? C r); reflexivity.
  - rewrite offsets_at by lia. cbn [obind]. cbv zeta. rewrite offsets_at by lia. cbn [obind].
    rewrite firsts_at by lia. replace (start p + (start (p + 1) - start p)) with (start (p + 1)) by lia. rewrite chk_true by apply Z.eqb_refl. cbn [obind].
    rewrite !rk_det by lia. cbn [obind]. destruct (rk_own (start p) ltac:(lia)) as (_ & [O1 O2]).
    destruct (lower_ok (Z.to_nat P + 1) (S_ (start p)) (rk (start p)) 0 (rk (start p) - 1) (rk (start p))) as (sf & E1 & E2 & E3 & E4); try lia. rewrite E1. cbn [obind].
    pose proof (sl_facts p (shv p) Hp V5 V1 ltac:(lia)) as (SL1 & SL2 & SL3 & SL4 & SL5).
    set (sl := if P <=? rk (start (p + 1)) then P - 1 else rk (start (p + 1))) in *. assert (SLR : rk (start (p + 1)) <= sl + 1). { assert (Q := rk_range (start (p + 1)) ltac:(lia)). unfold sl. destruct (Z.leb_spec P (rk (start (p + 1)))); lia. }
    assert (SLQ : sl <= rk (start (p + 1))). { unfold sl. destruct (Z.leb_spec P (rk (start (p + 1)))); lia. }
    set (fs := tree_firsts (S_ (start p)) (segment counts (start p) (start (p + 1)))). assert (FL : zlen fs = start (p + 1) - start p + 1) by (apply firsts_len; lia).
    destruct (vector_split_ok (fun x => determine_partition checks x N P sf) fs (fun j => rk (start p + j) - sf) (sl - sf + 1)) as (offs & W1 & W2 & W3).
    + intros j Hj. unfold fs. rewrite firsts_at by lia. apply det_off; [lia|]. assert (Q := rk_le (start p) (start p + j) ltac:(lia) ltac:(lia) ltac:(lia)). lia.
    + intros j Hj. assert (Q := rk_le (start p) (start p + j) ltac:(lia) ltac:(lia) ltac:(lia)). assert (Q' := rk_le (start p + j) (start (p + 1)) ltac:(lia) ltac:(lia) ltac:(lia)). lia.
    + intros i j Hi Hj. assert (Q := rk_le (start p + i) (start p + j) ltac:(lia) ltac:(lia) ltac:(lia)). lia.
    + lia.
    + lia.
    + replace (sl - sf + 2) with (sl - sf + 1 + 1) by lia. rewrite W1. cbn [obind]. rewrite V2.
      assert (OF : forall r, sf <= r <= sl -> exists pf, rd offs (r - sf) = Ok pf /\ 0 <= pf <= start (p + 1) - start p /\ forall j, 0 <= j <= start (p + 1) - start p -> (j < pf <-> S_ (start p + j) < C r)).
      { intros r Hr. destruct (W3 (r - sf) ltac:(lia)) as [[U1 U2] U3]. exists (znth 0 offs (r - sf)). split; [apply rd_ok; lia|].
        assert (PL : znth 0 offs (r - sf) <= start (p + 1) - start p).
        { destruct (Z.le_gt_cases (znth 0 offs (r - sf)) (start (p + 1) - start p)) as [|G]; [assumption|]. specialize (U3 (start (p + 1) - start p) ltac:(lia)). cbv beta in U3. replace (start p + (start (p + 1) - start p)) with (start (p + 1)) in U3 by lia. lia. }
        split; [lia|]. intros j Hj. rewrite <- (rk_lt (start p + j) r) by lia. split; intros H.
        - specialize (U3 j ltac:(lia)). cbv beta in U3. lia.
        - destruct (Z.lt_ge_cases j (znth 0 offs (r - sf))) as [|G]; [assumption|]. specialize (U2 j ltac:(lia)). cbv beta in U2. lia. }
      assert (OL : exists z, rd offs (sl + 1 - sf) = Ok z) by (eexists; apply rd_ok; lia).
      unfold fs. assert (SQ := send_loop_ok p (shv p) Hp V5 V1 ltac:(lia) sf offs E2 E3 E4 OF OL (Z.to_nat P + 1) sf). fold sl in SQ. rewrite SQ by lia. clear SQ. f_equal. unfold sent.
      replace (Z.to_nat P) with (Z.to_nat sf + (Z.to_nat (sl + 1 - sf) + Z.to_nat (P - (sl + 1))))%nat by lia. rewrite !zseq_app, !flat_map_app. rewrite !Z2Nat.id by lia. rewrite Z.add_0_l. replace (sf + (sl + 1 - sf)) with (sl + 1) by lia.
      rewrite (flat_nil _ (zseq 0 (Z.to_nat sf))), (flat_nil _ (zseq (sl + 1) _)); [now rewrite app_nil_r| |].
      * intros r Hr. apply in_zseq in Hr. apply (expected_outside p (shv p) Hp V5 V1 ltac:(lia) sf offs E2 E4 OF); [lia|right; fold sl; lia].
      * intros r Hr. apply in_zseq in Hr. apply (expected_outside p (shv p) Hp V5 V1 ltac:(lia) sf offs E2 E4 OF); [lia|left; lia].
Qed.

(** *** what a process receives *)
Definition covers (q g : Z) : Prop := 0 <= q < P /\ S_ (start q) <= g < S_ (start (q + 1)).
Lemma covers_unique q q' g : covers q g -> covers q' g -> q = q'.
Proof.
  intros [H1 H2] [H3 H4]. destruct (Z.lt_trichotomy q q') as [L|[E|L]]; [exfalso|exact E|exfalso].
  - assert (Q := start_le (q + 1) q' ltac:(lia) ltac:(lia) ltac:(lia)). assert (R1 := start_range (q + 1) ltac:(lia)). assert (R2 := start_range q' ltac:(lia)). assert (Q2 := S_le (start (q + 1)) (start q') ltac:(lia) Q ltac:(lia)). lia.
  - assert (Q := start_le (q' + 1) q ltac:(lia) ltac:(lia) ltac:(lia)). assert (R1 := start_range (q' + 1) ltac:(lia)). assert (R2 := start_range q ltac:(lia)). assert (Q2 := S_le (start (q' + 1)) (start q) ltac:(lia) Q ltac:(lia)). lia.
Qed.
Lemma search_ok fuel g : forall low high, 0 <= low -> high < P -> low <= high -> S_ (start low) <= g < S_ (start (high + 1)) -> high - low < Z.of_nat fuel ->
  exists q, offset_search fuel (run_offsets views) g low high = Ok q /\ covers q g.
Proof.
  induction fuel as [|f IH]; intros low high H1 H2 H3 H4 Hf; [lia|]. cbn [offset_search]. destruct (Z.ltb_spec high low); [lia|]. set (mid := low + (high - low) / 2). assert (MB : low <= mid <= high) by (unfold mid; lia).
  rewrite !offsets_at by lia. cbn [obind]. destruct ((S_ (start mid) <=? g) && (g <=? S_ (start (mid + 1)) - 1)) eqn:E.
  - apply andb_prop in E as [E1 E2]. exists mid. split; [reflexivity|]. unfold covers. lia.
  - destruct (Z.ltb_spec g (S_ (start mid))).
    + apply IH; try lia. { destruct (Z.eq_dec mid low) as [EQ|]; [rewrite EQ in *; lia|lia]. } replace (mid - 1 + 1) with mid by lia. lia.
    + assert (G : S_ (start (mid + 1)) <= g). { destruct (Z.leb_spec (S_ (start mid)) g), (Z.leb_spec g (S_ (start (mid + 1)) - 1)); cbn in E; try discriminate; lia. }
      apply IH; try lia. destruct (Z.eq_dec mid high) as [EQ|]; [rewrite EQ in *; lia|lia].
Qed.
Lemma search_all g : 0 <= g < N -> exists q, offset_search (Z.to_nat P + 1) (run_offsets views) g 0 (P - 1) = Ok q /\ covers q g.
Proof. intros H. apply search_ok; try lia. replace (P - 1 + 1) with P by lia. rewrite start_0, start_P, psum_0, S_K. lia. Qed.
Lemma expected_to p sh r m : In m (expected p sh r) -> m_to m = r.
Proof. unfold expected. cbv zeta. intros H. repeat (match type of H with context [if ?b then _ else _] => destruct b end); cbn [app In] in H; unfold empty_message, start_message, end_message in H; repeat destruct H as [<-|H]; try destruct H; reflexivity. Qed.
Lemma filter_none {X} (f : X -> bool) l : (forall x, In x l -> f x = false) -> filter f l = [].
Proof. induction l as [|x l IH]; intros H; cbn [filter]; [reflexivity|]. rewrite (H x) by now left. apply IH. intros y Hy. apply H. now right. Qed.
Lemma filter_sent p r b : 0 <= r < P -> filter (matches r b) (sent p) = filter (matches r b) (expected p (shv p) r).
Proof.
  intros Hr. assert (NO : forall q, q <> r -> filter (matches r b) (expected p (shv p) q) = []).
  { intros q Hq. apply filter_none. intros m Hm. apply expected_to in Hm. unfold matches. rewrite Hm. now rewrite (proj2 (Z.eqb_neq q r) Hq). }
  assert (G : forall k a, filter (matches r b) (flat_map (expected p (shv p)) (zseq a k)) = if (a <=? r) && (r <? a + Z.of_nat k) then filter (matches r b) (expected p (shv p) r) else []).
  { induction k as [|k IH]; intros a; cbn [zseq flat_map].
    - destruct (Z.leb_spec a r), (Z.ltb_spec r (a + Z.of_nat 0)); try lia; reflexivity.
    - rewrite filter_app, IH. destruct (Z.eq_dec a r) as [->|NE].
      + rewrite (proj2 (Z.leb_le r r)), (proj2 (Z.leb_gt (r + 1) r)), (proj2 (Z.ltb_lt r (r + Z.of_nat (S k)))) by lia. cbn [andb]. apply app_nil_r.
      + rewrite NO by lia. cbn [app]. replace (a + Z.of_nat (S k)) with (a + 1 + Z.of_nat k) by lia. destruct (Z.leb_spec a r), (Z.leb_spec (a + 1) r); try lia; reflexivity. }
  unfold sent. rewrite G. rewrite (proj2 (Z.leb_le 0 r)), (proj2 (Z.ltb_lt r _)) by lia. reflexivity.
Qed.
Definition first_message (p r : Z) : message := if C (r + 1) <=? C r then empty_message (shv p) r else start_message r.
Lemma sent_start p r : 0 <= r < P -> filter (matches r true) (sent p) = if (S_ (start p) <=? C r) && (C r <? S_ (start (p + 1))) then [first_message p r] else [].
Proof.
  intros Hr. rewrite filter_sent by exact Hr. unfold expected, first_message. cbv zeta. destruct (C (r + 1) <=? C r).
  - destruct ((S_ (start p) <=? C r) && (C r <? S_ (start (p + 1)))); cbn [filter]; [|reflexivity]. unfold matches. cbn [m_to m_start empty_message]. now rewrite Z.eqb_refl.
  - rewrite filter_app. destruct ((S_ (start p) <=? C r) && (C r <? S_ (start (p + 1)))), ((S_ (start p) <? C (r + 1)) && (C (r + 1) <=? S_ (start (p + 1)))); cbn [filter app]; unfold matches; cbn [m_to m_start start_message end_message Bool.eqb]; rewrite ?Z.eqb_refl, ?andb_false_r; reflexivity.
Qed.
Lemma sent_end p r : 0 <= r < P -> filter (matches r false) (sent p) = if (C r <? C (r + 1)) && ((S_ (start p) <? C (r + 1)) && (C (r + 1) <=? S_ (start (p + 1)))) then [end_message r] else [].
Proof.
  intros Hr. rewrite filter_sent by exact Hr. unfold expected. cbv zeta. destruct (Z.leb_spec (C (r + 1)) (C r)) as [L|L], (Z.ltb_spec (C r) (C (r + 1))) as [L'|L']; try lia; cbn [andb].
  - destruct ((S_ (start p) <=? C r) && (C r <? S_ (start (p + 1)))); cbn [filter]; [|reflexivity]. unfold matches. cbn [m_to m_start empty_message Bool.eqb]. now rewrite andb_false_r.
  - rewrite filter_app. destruct ((S_ (start p) <=? C r) && (C r <? S_ (start (p + 1)))), ((S_ (start p) <? C (r + 1)) && (C (r + 1) <=? S_ (start (p + 1)))); cbn [filter app]; unfold matches; cbn [m_to m_start start_message end_message Bool.eqb]; rewrite ?Z.eqb_refl, ?andb_false_r; reflexivity.
Qed.
Lemma TD_pos g : 0 <= g < N -> position counts g (TT g) (DD g).
Proof. intros H. apply locate_ok; [apply F0; exact F|exact H]. Qed.
Lemma TD_range g : 0 <= g < N -> 0 <= TT g < K /\ 0 <= DD g /\ S_ (TT g) + DD g = g /\ g < S_ (TT g + 1).
Proof. intros H. destruct (TD_pos g H) as (H1 & H2 & H3). rewrite psum_step by lia. unfold psum in *. lia. Qed.
Lemma UP_spec g : 0 <= g < N -> 0 <= UP g <= K /\ g <= S_ (UP g) /\ (0 < UP g -> S_ (UP g - 1) < g).
Proof.
  intros H. destruct (TD_range g H) as (H1 & H2 & H3 & H4). unfold UP. destruct (Z.eqb_spec (DD g) 0) as [E|E].
  - repeat split; try lia. intros L. assert (Q := S_lt (TT g - 1) (TT g) ltac:(lia) ltac:(lia) ltac:(lia)). lia.
  - replace (TT g + 1 - 1) with (TT g) by lia. repeat split; lia.
Qed.
Lemma C_lt r : 0 <= r < P -> 0 <= C r < N.
Proof. intros H. destruct (C_ok r ltac:(lia)) as (_ & _ & B). assert (Q := C_le r (P - 1) ltac:(lia)). pose proof C_last as L. rewrite C_P in L. lia. Qed.
Lemma covers_dec r g : 0 <= r < P -> {covers r g} + {~ covers r g}.
Proof. intros H. unfold covers. destruct (Z_le_dec (S_ (start r)) g), (Z_lt_dec g (S_ (start (r + 1)))); (left; lia) || (right; lia). Qed.
Lemma covers_b q g : 0 <= q < P -> ((S_ (start q) <=? g) && (g <? S_ (start (q + 1))) = true <-> covers q g).
Proof. intros H. rewrite andb_true_iff, Z.leb_le, Z.ltb_lt. unfold covers. lia. Qed.
Lemma receive_start q r : 0 <= r < P -> covers q (C r) -> run_receive checks views K r true (C r) = Ok (first_message q r).
Proof.
  intros Hr Hq. assert (CR := C_lt r Hr). destruct (search_all (C r) CR) as (q' & E & Hq'). assert (q' = q) by (eapply covers_unique; eauto). subst q'. unfold run_receive, run_size. rewrite E. cbn [obind].
  destruct Hq as [Q1 Q2]. rewrite (proj2 (Z.leb_le 0 q)), (proj2 (Z.ltb_lt q P)) by lia. cbn [andb negb]. rewrite messages_ok by lia. cbn [obind]. unfold receive. rewrite sent_start by lia.
  rewrite (proj2 (Z.leb_le (S_ (start q)) (C r))), (proj2 (Z.ltb_lt (C r) (S_ (start (q + 1))))) by lia. cbn [andb obind]. rewrite run_num_ok. cbn [obind].
  destruct (TD_range (C r) CR) as (T1 & T2 & T3 & T4). destruct (UP_spec (C r) CR) as (U1 & U2 & U3). destruct (view_at q Q1) as (V1 & _ & _ & _ & V5). assert (R1 := S_range (TT (C r)) ltac:(lia)). assert (R2 := start_range q ltac:(lia)).
  assert (UL : start q <= UP (C r)). { destruct (Z.le_gt_cases (start q) (UP (C r))) as [|G]; [assumption|]. assert (Q := S_lt (UP (C r)) (start q) ltac:(lia) ltac:(lia) ltac:(lia)). lia. }
  unfold first_message. destruct (C (r + 1) <=? C r); cbn [m_tree m_index empty_message start_message].
  - rewrite (chk_true ((_ =? -1) || _)) by (rewrite orb_true_iff, andb_true_iff, !Z.leb_le, Z.eqb_eq; lia). cbn [obind]. rewrite chk_true by reflexivity. reflexivity.
  - rewrite (chk_true ((TT _ =? -1) || _)) by (rewrite orb_true_iff, andb_true_iff, !Z.leb_le, Z.eqb_eq; lia). cbn [obind]. rewrite chk_true by (rewrite orb_true_iff, andb_true_iff, Z.leb_le, Z.ltb_lt, Z.eqb_eq; lia). reflexivity.
Qed.
Lemma receive_end q r : 0 <= r < P -> C r < C (r + 1) -> covers q (C (r + 1) - 1) -> run_receive checks views K r false (C (r + 1) - 1) = Ok (end_message r).
Proof.
  intros Hr NE Hq. assert (CR := C_lt r Hr). destruct (C_ok (r + 1) ltac:(lia)) as (_ & _ & CR2). assert (CR3 : 0 <= C (r + 1) - 1 < N) by lia. destruct (search_all (C (r + 1) - 1) CR3) as (q' & E & Hq'). assert (q' = q) by (eapply covers_unique; eauto). subst q'. unfold run_receive, run_size. rewrite E. cbn [obind].
  destruct Hq as [Q1 Q2]. rewrite (proj2 (Z.leb_le 0 q)), (proj2 (Z.ltb_lt q P)) by lia. cbn [andb negb]. rewrite messages_ok by lia. cbn [obind]. unfold receive. rewrite sent_end by lia.
  rewrite (proj2 (Z.ltb_lt (C r) _)), (proj2 (Z.ltb_lt (S_ (start q)) (C (r + 1)))), (proj2 (Z.leb_le (C (r + 1)) (S_ (start (q + 1))))) by lia. cbn [andb obind]. rewrite run_num_ok. cbn [obind].
  destruct (TD_range (C (r + 1) - 1) CR3) as (T1 & T2 & T3 & T4). assert (R1 := S_range (TT (C (r + 1) - 1)) ltac:(lia)). cbn [m_tree m_index end_message].
  rewrite (chk_true ((TT _ =? -1) || _)) by (rewrite orb_true_iff, andb_true_iff, !Z.leb_le, Z.eqb_eq; lia). cbn [obind]. rewrite chk_true by (rewrite orb_true_iff, andb_true_iff, Z.leb_le, Z.ltb_lt, Z.eqb_eq; lia). reflexivity.
Qed.
Lemma own_start q r : 0 <= r < P -> covers q (C r) -> own_message r true (sent r) = if q =? r then Some (first_message q r) else None.
Proof.
  intros Hr Hq. unfold own_message. rewrite sent_start by exact Hr. destruct (Z.eqb_spec q r) as [E|NE].
  - rewrite E in *. rewrite (proj2 (covers_b r (C r) Hr) Hq). reflexivity.
  - destruct ((S_ (start r) <=? C r) && (C r <? S_ (start (r + 1)))) eqn:E; [|reflexivity]. exfalso. apply covers_b in E; [|exact Hr]. apply NE. eapply covers_unique; eauto.
Qed.
Lemma own_end q r : 0 <= r < P -> C r < C (r + 1) -> covers q (C (r + 1) - 1) -> own_message r false (sent r) = if q =? r then Some (end_message r) else None.
Proof.
  intros Hr NE Hq. unfold own_message. rewrite sent_end by exact Hr. rewrite (proj2 (Z.ltb_lt (C r) _)) by lia. cbn [andb].
  assert (B : (S_ (start r) <? C (r + 1)) && (C (r + 1) <=? S_ (start (r + 1))) = (q =? r)).
  { apply eq_true_iff_eq. rewrite andb_true_iff, Z.ltb_lt, Z.leb_le, Z.eqb_eq. split.
    - intros H. eapply covers_unique; [exact Hq|]. unfold covers. lia.
    - intros ->. destruct Hq. lia. }
  rewrite B. destruct (q =? r); reflexivity.
Qed.
Theorem bounds_nonempty r : 0 <= r < P -> C r < C (r + 1) ->
  bounds_partitioned checks views K r = Ok (Bounds (Some (TT (C r))) (Some (DD (C r))) (TT (C (r + 1) - 1)) (Some (DD (C (r + 1) - 1) + 1)) (Some ((0 <? r) && (0 <? DD (C r))))).
Proof.
  intros Hr NE. destruct (search_all (C r) (C_lt r Hr)) as (q & _ & Hq). destruct (C_ok (r + 1) ltac:(lia)) as (_ & _ & CR2). assert (CR := C_lt r Hr). destruct (search_all (C (r + 1) - 1) ltac:(lia)) as (q2 & _ & Hq2).
  unfold bounds_partitioned. rewrite run_num_ok. cbn [obind]. unfold run_size. rewrite !fe_ok by lia. cbn [obind]. rewrite messages_ok by exact Hr. cbn [obind]. cbv zeta. rewrite (own_start q r Hr Hq), (own_end q2 r Hr NE Hq2).
  rewrite (proj2 (Z.leb_gt (C (r + 1)) (C r))) by lia. rewrite (receive_start q r Hr Hq), (receive_end q2 r Hr NE Hq2).
  assert (FM : first_message q r = start_message r) by (unfold first_message; now rewrite (proj2 (Z.leb_gt (C (r + 1)) (C r))) by lia). rewrite FM.
  destruct (q =? r), (q2 =? r); reflexivity.
Qed.
Theorem bounds_empty q r : 0 <= r < P -> C (r + 1) <= C r -> covers q (C r) ->
  bounds_partitioned checks views K r = Ok (Bounds (Some (UP (C r) - shv q)) (Some (-1)) (if q =? r then -1 else UP (C r) - shv q - 1) None (Some false)).
Proof.
  intros Hr NE Hq.
  unfold bounds_partitioned. rewrite run_num_ok. cbn [obind]. unfold run_size. rewrite !fe_ok by lia. cbn [obind]. rewrite messages_ok by exact Hr. cbn [obind]. cbv zeta. rewrite (own_start q r Hr Hq).
  assert (OE : own_message r false (sent r) = None). { unfold own_message. rewrite sent_end by exact Hr. rewrite (proj2 (Z.ltb_ge (C r) _)) by lia. reflexivity. } rewrite OE.
  rewrite (proj2 (Z.leb_le (C (r + 1)) (C r))) by lia. rewrite (receive_start q r Hr Hq).
  assert (FM : first_message q r = empty_message (shv q) r) by (unfold first_message; now rewrite (proj2 (Z.leb_le (C (r + 1)) (C r))) by lia). rewrite FM.
  destruct (q =? r); reflexivity.
Qed.
End main.

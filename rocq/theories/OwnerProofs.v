(** The owner search on the tables, for an abstract sequence of leaf keys (tree, id). *)
From Verif Require Import Prelude OffsetModel OffsetSpec OffsetProofs PartitionModel PartitionSpec PartitionRangeProofs OwnerModel.

Lemma rd_ok l i : 0 <= i < zlen l -> rd l i = Ok (nth (Z.to_nat i) l 0).
Proof. intros H. unfold rd. rewrite (proj2 (Z.leb_le 0 i)) by lia. rewrite (proj2 (Z.ltb_lt i (zlen l))) by lia. reflexivity. Qed.

Section keys.
Variables (P K N : Z) (o : list Z) (T D : Z -> Z).
Hypothesis HT : element_table P N o.
Hypothesis HN : 1 <= N.
Hypothesis HK : 1 <= K.
Hypothesis T0 : T 0 = 0.
Hypothesis D0 : D 0 = 0.
Hypothesis TN : T (N - 1) = K - 1.
Hypothesis Step : forall i, 0 <= i < N - 1 -> (T (i + 1) = T i /\ D i < D (i + 1)) \/ (T (i + 1) = T i + 1 /\ D (i + 1) = 0).
Notation A p := (at_ o p).

Lemma HP : 1 <= P. Proof. apply HT. Qed.
Lemma keys_lt i n : 0 <= i -> i + Z.of_nat (S n) < N -> T i < T (i + Z.of_nat (S n)) \/ (T i = T (i + Z.of_nat (S n)) /\ D i < D (i + Z.of_nat (S n))).
Proof.
  intros Hi. induction n as [|n IH]; intros H.
  - change (Z.of_nat 1) with 1. destruct (Step (i := i)) as [[E L]|[E L]]; lia.
  - destruct (Step (i := i + Z.of_nat (S n))) as [[E L]|[E L]]; [lia| |]; replace (i + Z.of_nat (S (S n))) with (i + Z.of_nat (S n) + 1) by lia; destruct IH as [|[]]; lia.
Qed.
Lemma keys_mono i j : 0 <= i -> i < j -> j < N -> T i < T j \/ (T i = T j /\ D i < D j).
Proof. intros H1 H2 H3. assert (Q := @keys_lt i (Z.to_nat (j - i - 1)) H1). replace (i + Z.of_nat (S (Z.to_nat (j - i - 1)))) with j in Q by lia. apply Q. lia. Qed.
Lemma T_mono i j : 0 <= i -> i <= j -> j < N -> T i <= T j.
Proof. intros H1 H2 H3. destruct (Z.eq_dec i j) as [->|C]; [lia|]. destruct (@keys_mono i j) as [|[]]; lia. Qed.
Lemma T_range i : 0 <= i < N -> 0 <= T i < K.
Proof. intros H. assert (A := @T_mono 0 i ltac:(lia) ltac:(lia) ltac:(lia)). assert (B := @T_mono i (N - 1) ltac:(lia) ltac:(lia) ltac:(lia)). lia. Qed.
Lemma D_nonneg i : 0 <= i < N -> 0 <= D i.
Proof.
  intros H. replace i with (Z.of_nat (Z.to_nat i)) in * by lia. revert H. generalize (Z.to_nat i) as n. induction n as [|n IH]; intros H; [change (Z.of_nat 0) with 0; lia|].
  replace (Z.of_nat (S n)) with (Z.of_nat n + 1) in * by lia. destruct (Step (i := Z.of_nat n)) as [[]|[]]; lia.
Qed.

(** one past the last tree of the leaves before number i *)
Definition bound (i : Z) : Z := if i =? 0 then 0 else T (i - 1) + 1.
Lemma bound_N : bound N = K. Proof. unfold bound. destruct (Z.eqb_spec N 0); lia. Qed.
Lemma bound_in i : 0 <= i < N -> bound i = if D i =? 0 then T i else T i + 1.
Proof.
  intros H. unfold bound. destruct (Z.eqb_spec i 0) as [->|C]; [rewrite D0, T0; reflexivity|]. assert (Q := D_nonneg (i := i - 1)).
  destruct (Step (i := i - 1)) as [[E L]|[E L]]; [lia| |]; replace (i - 1 + 1) with i in * by lia; destruct (Z.eqb_spec (D i) 0); lia.
Qed.
Lemma A_range p : 0 <= p <= P -> 0 <= A p <= N. Proof. exact (tab_range HT (p := p)). Qed.
Lemma A_mono p q : 0 <= p -> p <= q -> q <= P -> A p <= A q. Proof. exact (@tab_mono _ _ _ HT p q). Qed.
Lemma A_step p : 0 <= p < P -> A p <= A (p + 1). Proof. exact (@tab_step _ _ _ HT p). Qed.

(** ** the tree table *)
Variable to : list Z.
Definition table_entries : Prop := zlen to = P + 1 /\ entry to P = K /\ forall p, 0 <= p < P ->
  entry to p = if A p <? A (p + 1) then (if D (A p) =? 0 then T (A p) else - T (A p) - 1) else bound (A p).
Hypothesis HTO : table_entries.

Lemma bound_nonneg i : 0 <= i <= N -> 0 <= bound i.
Proof. intros H. unfold bound. destruct (Z.eqb_spec i 0); [lia|]. assert (Q := @T_range (i - 1)). lia. Qed.
Lemma entry_full p : 0 <= p < P -> A p < A (p + 1) -> first_tree_of (entry to p) = T (A p).
Proof.
  intros Hp NE. destruct HTO as (_ & _ & H). rewrite H by lia. rewrite (proj2 (Z.ltb_lt _ _) NE). assert (R := @A_range p ltac:(lia)). assert (R' := @A_range (p + 1) ltac:(lia)). assert (Q := @T_range (A p) ltac:(lia)).
  unfold first_tree_of. destruct (Z.eqb_spec (D (A p)) 0); [destruct (Z.ltb_spec (T (A p)) 0)|destruct (Z.ltb_spec (- T (A p) - 1) 0)]; lia.
Qed.
Lemma entry_end p : 0 <= p <= P -> end_before (entry to p) = bound (A p).
Proof.
  intros Hp. destruct HTO as (_ & HE & H). assert (R := @A_range p ltac:(lia)). destruct (Z.eq_dec p P) as [->|C].
  - rewrite HE, (tab_P HT), bound_N. unfold end_before. destruct (Z.ltb_spec K 0); lia.
  - rewrite H by lia. assert (R' := @A_range (p + 1) ltac:(lia)). destruct (Z.ltb_spec (A p) (A (p + 1))) as [L|L].
    + rewrite bound_in by lia. assert (Q := @T_range (A p) ltac:(lia)). unfold end_before. destruct (Z.eqb_spec (D (A p)) 0); [destruct (Z.ltb_spec (T (A p)) 0)|destruct (Z.ltb_spec (- T (A p) - 1) 0)]; lia.
    + assert (Q := bound_nonneg R). unfold end_before. destruct (Z.ltb_spec (bound (A p)) 0); lia.
Qed.
Lemma entry_empty p : 0 <= p < P -> A (p + 1) = A p -> entry to p = bound (A p) /\ first_tree_of (entry to p) = bound (A p).
Proof.
  intros Hp E. destruct HTO as (_ & _ & H). rewrite H by lia. rewrite (proj2 (Z.ltb_ge (A p) (A (p + 1)))) by lia. split; [reflexivity|].
  assert (Q := bound_nonneg (@A_range p ltac:(lia))). unfold first_tree_of. destruct (Z.ltb_spec (bound (A p)) 0); lia.
Qed.
Lemma no_trees_iff p : 0 <= p < P -> (no_trees to p <-> A (p + 1) = A p).
Proof.
  intros Hp. assert (S1 := @A_step p Hp). assert (R := @A_range p ltac:(lia)). assert (R' := @A_range (p + 1) ltac:(lia)). split.
  - intros H. destruct (Z.eq_dec (A (p + 1)) (A p)) as [C|C]; [exact C|exfalso]. apply (H (T (A p))). unfold owns. rewrite entry_full by lia. rewrite entry_end by lia.
    split; [lia|]. unfold bound. destruct (Z.eqb_spec (A (p + 1)) 0); [lia|]. assert (Q := @T_mono (A p) (A (p + 1) - 1) ltac:(lia) ltac:(lia) ltac:(lia)). lia.
  - intros E t H. unfold owns in H. rewrite (proj2 (entry_empty Hp E)), entry_end in H by lia. rewrite E in H. lia.
Qed.
(** the trees of a process are the trees of its leaves *)
Lemma T_onto i j t : 0 <= i -> i <= j -> j < N -> T i <= t <= T j -> exists k, i <= k <= j /\ T k = t.
Proof.
  intros H1 H2 H3 Ht. replace j with (i + Z.of_nat (Z.to_nat (j - i))) in * by lia. assert (H4 : i + Z.of_nat (Z.to_nat (j - i)) < N) by lia. clear H3 H2. revert H4 Ht. generalize (Z.to_nat (j - i)) as n.
  induction n as [|n IH]; intros H4 Ht; [exists i; replace (i + Z.of_nat 0) with i in * by lia; lia|].
  replace (i + Z.of_nat (S n)) with (i + Z.of_nat n + 1) in * by lia. destruct (Z.le_gt_cases t (T (i + Z.of_nat n))) as [L|G].
  - destruct IH as (k & Hk & E); [lia|lia|]. exists k. lia.
  - exists (i + Z.of_nat n + 1). destruct (Step (i := i + Z.of_nat n)) as [[]|[]]; lia.
Qed.
Lemma owns_iff p t : 0 <= p < P -> (owns to p t <-> exists i, A p <= i < A (p + 1) /\ T i = t).
Proof.
  intros Hp. assert (S1 := @A_step p Hp). assert (R := @A_range p ltac:(lia)). assert (R' := @A_range (p + 1) ltac:(lia)). unfold owns. rewrite (@entry_end (p + 1)) by lia.
  destruct (Z.eq_dec (A (p + 1)) (A p)) as [C|C].
  - rewrite (proj2 (entry_empty Hp C)), C. split; [lia|]. intros (i & H & _). lia.
  - rewrite entry_full by lia. unfold bound. destruct (Z.eqb_spec (A (p + 1)) 0); [lia|]. split.
    + intros H. destruct (@T_onto (A p) (A (p + 1) - 1) t) as (k & Hk & E); try lia. exists k. lia.
    + intros (i & H & <-). assert (Q1 := @T_mono (A p) i ltac:(lia) ltac:(lia) ltac:(lia)). assert (Q2 := @T_mono i (A (p + 1) - 1) ltac:(lia) ltac:(lia) ltac:(lia)). lia.
Qed.
Lemma to_valid : valid_table P K to.
Proof.
  assert (HPP := HP). split; [lia|]. destruct HTO as (HL & HE & H). split; [unfold zlen in HL; lia|]. split; [|split; [exact HE|split; [lia|]]].
  - rewrite H by lia. rewrite (tab_0 HT). destruct (0 <? at_ o (0 + 1)); [|reflexivity]. rewrite D0, T0. reflexivity.
  - intros p Hp. assert (S1 := @A_step p Hp). assert (R := @A_range p ltac:(lia)). assert (R' := @A_range (p + 1) ltac:(lia)). destruct (Z.eq_dec (A (p + 1)) (A p)) as [C|C].
    + destruct (entry_empty Hp C) as [E1 E2]. rewrite E2, entry_end by lia. rewrite C. split; [lia|]. intros _. unfold shared_entry. rewrite E1. assert (Q := bound_nonneg R). lia.
    + rewrite entry_full by lia. rewrite entry_end by lia. split.
      * unfold bound. destruct (Z.eqb_spec (A (p + 1)) 0); [lia|]. assert (Q := @T_mono (A p) (A (p + 1) - 1) ltac:(lia) ltac:(lia) ltac:(lia)). lia.
      * intros Q. apply no_trees_iff in Q; [congruence|exact Hp].
Qed.

(** ** the search *)
Variable fd : list Z.
Hypothesis HFD : forall p, 0 <= p < P -> A p < A (p + 1) -> rd fd p = Ok (D (A p)).
(** the key we look for lies in leaf number g, which process w stores *)
Variables (t d g w : Z).
Hypothesis Hg : 0 <= g < N.
Hypothesis Hgt : T g = t.
Hypothesis Hgd : D g <= d.
Hypothesis Hnext : g + 1 < N -> T (g + 1) = t -> d < D (g + 1).
Hypothesis Hw : 0 <= w < P.
Hypothesis Hgw : A w <= g < A (w + 1).

Lemma after_g i : g < i < N -> t < T i \/ (T i = t /\ d < D i).
Proof.
  intros H. assert (Q := Hnext). assert (Q1 := @T_mono g (g + 1) ltac:(lia) ltac:(lia) ltac:(lia)). destruct (Z.eq_dec i (g + 1)) as [->|C]; [destruct (Z.eq_dec (T (g + 1)) t); lia|].
  destruct (@keys_mono (g + 1) i) as [L|[E L]]; lia.
Qed.
Lemma key_le p : 0 <= p < P -> A p < A (p + 1) -> ((T (A p) < t \/ (T (A p) = t /\ D (A p) <= d)) <-> p <= w).
Proof.
  intros Hp NE. assert (R := @A_range p ltac:(lia)). assert (R' := @A_range (p + 1) ltac:(lia)). split.
  - intros H. destruct (Z.le_gt_cases p w) as [|G]; [assumption|exfalso]. assert (M := @A_mono (w + 1) p ltac:(lia) ltac:(lia) ltac:(lia)). destruct (@after_g (A p)) as [Q|[Q1 Q2]]; lia.
  - intros H. assert (M := @A_mono p w ltac:(lia) ltac:(lia) ltac:(lia)). destruct (Z.eq_dec (A p) g) as [E|C]; [rewrite E; lia|]. destruct (@keys_mono (A p) g) as [|[]]; lia.
Qed.
Lemma w_full : A w < A (w + 1). Proof. lia. Qed.
Lemma t_range : 0 <= t < K. Proof. rewrite <- Hgt. apply T_range. exact Hg. Qed.

Lemma eo_bounds p : 0 <= p < P -> in_bounds p o = true.
Proof. intros H. unfold in_bounds, osize. assert (L : zlen o = P + 1) by apply HT. rewrite L. lia. Qed.
Lemma eo_empty p : 0 <= p < P -> t8_offset_empty p o = (A (p + 1) <=? A p).
Proof.
  intros H. unfold t8_offset_empty. rewrite num_eq. destruct (tab_entry HT (p := p)) as (E1 & _); [lia|]. destruct (tab_entry HT (p := p + 1)) as (_ & E2 & _); [lia|]. rewrite E1, E2.
  destruct (Z.leb_spec (A (p + 1) - A p) 0), (Z.leb_spec (A (p + 1)) (A p)); lia.
Qed.

Lemma skip_ok fuel : forall lower upper guess last dir, 0 <= lower -> upper < P -> lower <= w <= upper ->
  (dir = 1 \/ dir = -1) ->
  (dir = 1 -> lower <= last <= guess /\ guess <= upper /\ forall r, last <= r < guess -> A (r + 1) = A r) ->
  (dir = -1 -> lower <= guess <= last /\ last <= upper /\ forall r, guess < r <= last -> A (r + 1) = A r) ->
  (if dir =? 1 then (upper - guess) + (last - lower) else (guess - lower) + (upper - last)) < Z.of_nat fuel ->
  exists lower' upper' guess' dir', skip_empty fuel o lower upper guess last dir = Ok (lower', upper', guess', dir') /\
    lower <= lower' /\ upper' <= upper /\ lower' <= w <= upper' /\ lower' <= guess' <= upper' /\ A guess' < A (guess' + 1) /\ (dir' = 1 \/ dir' = -1).
Proof.
  induction fuel as [|f IH]; intros lower upper guess last dir H1 H2 H3 Hd Hup Hdn Hm.
  { destruct (Z.eqb_spec dir 1) as [C|C]; [destruct (Hup C)|destruct Hdn; [lia|]]; lia. }
  assert (Gr : lower <= guess <= upper). { destruct Hd as [E|E]; [destruct (Hup E)|destruct (Hdn E)]; lia. }
  assert (WF := w_full). cbn [skip_empty]. rewrite eo_bounds by lia. cbn [negb]. rewrite eo_empty by lia. assert (S1 := @A_step guess ltac:(lia)). destruct (Z.leb_spec (A (guess + 1)) (A guess)) as [C|C].
  2:{ exists lower, upper, guess, dir. split; [reflexivity|]. lia. }
  assert (Eg : A (guess + 1) = A guess) by lia.
  destruct Hd as [->| ->].
  - destruct (Hup eq_refl) as (U1 & U2 & U3). cbn [Z.eqb Z.ltb Z.compare Pos.eqb Pos.compare Pos.compare_cont andb orb]. destruct (Z.leb_spec upper guess) as [C2|C2].
    + assert (W : w < last). { destruct (Z.le_gt_cases last w) as [G|G]; [|lia]. destruct (Z.eq_dec w guess) as [Ew|Nw]; [rewrite Ew in WF; lia|]. specialize (U3 w ltac:(lia)). lia. }
      destruct (IH lower last (last - 1) last (-1)) as (l' & u' & g' & d' & E & Q); try lia.
      * intros _. split; [lia|]. split; [lia|]. intros r Hr. destruct (Z.eq_dec r guess) as [->|Nr]; [exact Eg|]. apply U3. lia.
      * cbn [Z.eqb Pos.eqb] in Hm |- *. lia.
      * exists l', u', g', d'. split; [exact E|lia].
    + destruct (IH lower upper (guess + 1) last 1) as (l' & u' & g' & d' & E & Q); try lia.
      * intros _. split; [lia|]. split; [lia|]. intros r Hr. destruct (Z.eq_dec r guess) as [->|Nr]; [exact Eg|]. apply U3. lia.
      * cbn [Z.eqb Pos.eqb] in Hm |- *. lia.
      * exists l', u', g', d'. split; [exact E|lia].
  - destruct (Hdn eq_refl) as (U1 & U2 & U3). cbn [Z.eqb Z.ltb Z.compare Pos.eqb Pos.compare Pos.compare_cont andb orb]. rewrite orb_false_r. destruct (Z.leb_spec guess lower) as [C2|C2].
    + assert (W : last < w). { destruct (Z.le_gt_cases w last) as [G|G]; [|lia]. destruct (Z.eq_dec w guess) as [Ew|Nw]; [rewrite Ew in WF; lia|]. specialize (U3 w ltac:(lia)). lia. }
      change (- -1) with 1. replace (last - -1) with (last + 1) by lia. destruct (IH last upper (last + 1) last 1) as (l' & u' & g' & d' & E & Q); try lia.
      * intros _. split; [lia|]. split; [lia|]. intros r Hr. destruct (Z.eq_dec r guess) as [->|Nr]; [exact Eg|]. apply U3. lia.
      * cbn [Z.eqb Pos.eqb] in Hm |- *. lia.
      * exists l', u', g', d'. split; [exact E|lia].
    + destruct (IH lower upper (guess + -1) last (-1)) as (l' & u' & g' & d' & E & Q); try lia.
      * intros _. split; [lia|]. split; [lia|]. intros r Hr. destruct (Z.eq_dec r guess) as [->|Nr]; [exact Eg|]. apply U3. lia.
      * cbn [Z.eqb Pos.eqb] in Hm |- *. lia.
      * exists l', u', g', d'. split; [exact E|lia].
Qed.

Lemma rd_first_ok p : 0 <= p <= P -> rd_first to p = Ok (first_tree_of (entry to p)).
Proof. intros H. assert (HL : zlen to = P + 1) by apply HTO. unfold rd_first. rewrite rd_ok by lia. cbn [obind]. f_equal. exact (first_eq to p). Qed.

(** the next process with leaves *)
Lemma next_ok p : 0 <= p < P -> exists q, t8_offset_next_nonempty_rank (Z.to_nat (P + 2)) p to = Ok q /\ p < q <= P /\
  (forall r, p < r < q -> A (r + 1) = A r) /\ (q < P -> A q < A (q + 1)).
Proof.
  intros Hp. destruct (next_nonempty_ok to_valid (fuel := Z.to_nat (P + 2)) (rank := p)) as (q & E & H1 & H2 & H3); [lia|lia|]. exists q. split; [exact E|]. split; [exact H1|]. split.
  - intros r Hr. apply no_trees_iff; [lia|]. now apply H2.
  - intros Hq. assert (S1 := @A_step q ltac:(lia)). specialize (H3 Hq). rewrite no_trees_iff in H3 by lia. lia.
Qed.

Lemma check_owner_ok rank : 0 <= rank < P -> check_owner_tables P to fd t d rank = Ok (rank =? w).
Proof.
  intros Hr. assert (HL : zlen to = P + 1) by apply HTO. unfold check_owner_tables. unfold in_bounds, osize. rewrite HL. replace ((0 <=? rank) && (rank <? P + 1 - 1)) with true by lia. cbn [negb].
  assert (S1 := @A_step rank Hr). assert (R := @A_range rank ltac:(lia)). assert (R' := @A_range (rank + 1) ltac:(lia)).
  destruct (t8_offset_in_range t rank to) eqn:Ow.
  2:{ f_equal. symmetry. apply Z.eqb_neq. intros ->. apply in_range_false in Ow. apply Ow. apply owns_iff; [exact Hw|]. exists g. auto. }
  apply in_range_iff in Ow. assert (Ow' := Ow). apply owns_iff in Ow'; [|exact Hr]. destruct Ow' as (i & Hi & Ei).
  rewrite first_eq, last_eq, entry_full by lia. rewrite entry_end by lia. unfold bound. destruct (Z.eqb_spec (A (rank + 1)) 0) as [C0|C0]; [lia|]. replace (T (A (rank + 1) - 1) + 1 - 1) with (T (A (rank + 1) - 1)) by lia.
  destruct (@next_ok rank Hr) as (q & E & Q1 & Q2 & Q3). rewrite E. cbn [obind]. rewrite (HFD (p := rank)) by lia. cbn [obind].
  assert (Tl := @T_mono i (A (rank + 1) - 1) ltac:(lia) ltac:(lia) ltac:(lia)). assert (Tf := @T_mono (A rank) i ltac:(lia) ltac:(lia) ltac:(lia)).
  assert (CN : (t =? T (A (rank + 1) - 1)) && (q <? P) && t8_offset_in_range t q to = true -> q < P /\ T (A q) = t /\ rd fd q = Ok (D (A q))).
  { rewrite !andb_true_iff. intros ((H1 & H2) & H3). apply Z.ltb_lt in H2. specialize (Q3 H2). split; [lia|]. apply in_range_iff in H3. apply owns_iff in H3; [|lia]. destruct H3 as (j & Hj & Ej).
    assert (Rq := @A_range (q + 1) ltac:(lia)). assert (Rq0 := @A_range q ltac:(lia)). assert (M := @A_mono (rank + 1) q ltac:(lia) ltac:(lia) ltac:(lia)). assert (M1 := @T_mono (A (rank + 1) - 1) (A q) ltac:(lia) ltac:(lia) ltac:(lia)). assert (M2 := @T_mono (A q) j ltac:(lia) ltac:(lia) ltac:(lia)). apply Z.eqb_eq in H1. split; [lia|]. apply HFD; lia. }
  assert (CN' : rank < w -> (t =? T (A (rank + 1) - 1)) && (q <? P) && t8_offset_in_range t q to = true /\ q <= w).
  { intros L. assert (Hq : q <= w). { destruct (Z.le_gt_cases q w) as [|G]; [assumption|]. specialize (Q2 w ltac:(lia)). assert (WF := w_full). lia. }
    split; [|exact Hq]. rewrite !andb_true_iff. assert (M := @A_mono (rank + 1) w ltac:(lia) ltac:(lia) ltac:(lia)). assert (M1 := @T_mono (A (rank + 1) - 1) g ltac:(lia) ltac:(lia) ltac:(lia)).
    split; [split; [apply Z.eqb_eq; lia|apply Z.ltb_lt; lia]|]. apply in_range_iff. apply owns_iff; [lia|]. exists (A q). specialize (Q3 ltac:(lia)). split; [lia|].
    assert (Mq := @A_mono q w ltac:(lia) ltac:(lia) ltac:(lia)). assert (Mq' := @A_mono (rank + 1) q ltac:(lia) ltac:(lia) ltac:(lia)). assert (M2 := @T_mono (A (rank + 1) - 1) (A q) ltac:(lia) ltac:(lia) ltac:(lia)). assert (M3 := @T_mono (A q) g ltac:(lia) ltac:(lia) ltac:(lia)). lia. }
  destruct ((t =? T (A (rank + 1) - 1)) && (q <? P) && t8_offset_in_range t q to) eqn:CK.
  - destruct (CN eq_refl) as (Hq & Eq & Er). rewrite Er. cbn [obind]. specialize (Q3 Hq). assert (KQ := @key_le q ltac:(lia) Q3). assert (KR := @key_le rank Hr ltac:(lia)).
    apply andb_prop in CK. destruct CK as [CK _]. apply andb_prop in CK. destruct CK as [CK _]. rewrite CK, orb_true_r. f_equal. cbn [andb].
    destruct (Z.eqb_spec rank w) as [Ew|Nw].
    + destruct (Z.eqb_spec (T (A rank)) t), (Z.ltb_spec d (D (A rank))), (Z.leb_spec (D (A q)) d); cbn [andb orb negb]; try reflexivity; lia.
    + apply negb_false_iff. destruct (Z.leb_spec (D (A q)) d) as [L|L]; [now rewrite orb_true_r|]. rewrite orb_false_r. assert (Hrw : w < rank). { destruct (Z.le_gt_cases rank w); [|assumption]. destruct (CN' ltac:(lia)). lia. }
      assert (Mw := @A_mono (w + 1) rank ltac:(lia) ltac:(lia) ltac:(lia)). destruct (@after_g (A rank)) as [Q|[Qa Qb]]; [lia|lia|]. apply andb_true_iff. split; [apply Z.eqb_eq|apply Z.ltb_lt]; lia.
  - assert (Hrw : w <= rank). { destruct (Z.le_gt_cases w rank); [assumption|]. destruct (CN' ltac:(lia)). congruence. }
    assert (KR := @key_le rank Hr ltac:(lia)). cbn [andb]. rewrite orb_false_r. cbn [obind].
    destruct (Z.eqb_spec rank w) as [Ew|Nw].
    + destruct ((T (A rank) =? t) || (t =? T (A (rank + 1) - 1))); [|reflexivity]. f_equal. destruct (Z.eqb_spec (T (A rank)) t), (Z.ltb_spec d (D (A rank))); cbn [andb negb]; try reflexivity; lia.
    + assert (Mw := @A_mono (w + 1) rank ltac:(lia) ltac:(lia) ltac:(lia)). destruct (@after_g (A rank)) as [Q|[Qa Qb]]; [lia|lia|]. rewrite (proj2 (Z.eqb_eq (T (A rank)) t)) by lia. rewrite (proj2 (Z.ltb_lt d (D (A rank)))) by lia. reflexivity.
Qed.

(** the array of first descendants may be read at index P *)
Hypothesis HFDr : forall p, 0 <= p <= P -> exists x, rd fd p = Ok x.
Lemma owner_loop_ok fuel : forall lower upper guess dir, 0 <= lower -> upper < P -> lower <= w <= upper -> lower <= guess <= upper -> (dir = 1 \/ dir = -1) ->
  upper - lower < Z.of_nat fuel -> owner_loop fuel P o to fd t d lower upper guess dir = Ok w.
Proof.
  assert (TR := t_range). assert (WF := w_full).
  induction fuel as [|f IH]; intros lower upper guess dir H1 H2 H3 H4 Hd Hm; [lia|]. cbn [owner_loop]. rewrite (proj2 (Z.leb_le lower upper)) by lia. cbn [negb].
  destruct (Z.eqb_spec upper lower) as [C|C]; [f_equal; lia|].
  destruct (@skip_ok (Z.to_nat (P + 2)) lower upper guess guess dir) as (l' & u' & g' & d' & E & L1 & U1 & W1 & G1 & NE & Hd'); try lia.
  { intros _. split; [lia|]. split; [lia|]. intros; lia. } { intros _. split; [lia|]. split; [lia|]. intros; lia. } { destruct (dir =? 1); lia. }
  rewrite E. cbn [obind]. clear E. rewrite rd_first_ok by lia. cbn [obind]. rewrite (@entry_full g') by lia. assert (KL := @key_le g' ltac:(lia) NE).
  destruct (Z.ltb_spec t (T (A g'))) as [C1|C1].
  { apply IH; lia. }
  rewrite (HFD (p := g')) by lia. cbn [obind]. destruct (Z.eqb_spec (T (A g')) t) as [C2|C2]; cbn [andb].
  1: destruct (Z.ltb_spec d (D (A g'))) as [C3|C3]; [apply IH; lia|].
  all: assert (GW : g' <= w) by lia; destruct (@next_ok g' ltac:(lia)) as (q & E & Q1 & Q2 & Q3); rewrite E; cbn [obind]; clear E; rewrite rd_first_ok by lia; cbn [obind].
  all: assert (WQ : w = g' \/ q <= w) by (destruct (Z.le_gt_cases q w) as [|G]; [auto|]; destruct (Z.eq_dec w g') as [|Nw]; [auto|]; specialize (Q2 w ltac:(lia)); lia).
  all: destruct (HFDr (p := q)) as (x & Ex); [lia|].
  all: destruct (Z.eq_dec q P) as [EP|NP].
  1,3: subst q; replace (first_tree_of (entry to P)) with K by (destruct HTO as (_ & HE & _); rewrite HE; unfold first_tree_of; destruct (Z.ltb_spec K 0); lia);
    rewrite (proj2 (Z.ltb_ge K t)) by lia; rewrite Ex; cbn [obind]; destruct (Z.eqb_spec K t); [lia|]; cbn [andb]; f_equal; lia.
  all: specialize (Q3 ltac:(lia)); rewrite (@entry_full q) by lia; assert (KQ := @key_le q ltac:(lia) Q3).
  all: destruct (Z.ltb_spec (T (A q)) t) as [C4|C4]; [apply IH; lia|].
  all: rewrite (HFD (p := q)) by lia; cbn [obind]; destruct (Z.eqb_spec (T (A q)) t) as [C5|C5]; cbn [andb]; [destruct (Z.leb_spec (D (A q)) d) as [C6|C6]; [apply IH; lia|]|].
  all: f_equal; lia.
Qed.

End keys.

(** The tree table of a uniform partition of a coarse mesh. *)
From Verif Require Import Prelude PathSpec SchemeModel SchemeProofs OffsetModel OffsetSpec PartitionModel PartitionSpec PartitionRangeProofs OwnerModel OwnerProofs UniformModel UniformSpec UniformProofs.
#[local] Unset Implicit Arguments.

(** tree and number in the tree of element number g *)
Fixpoint locate (l : list Z) (g : Z) : Z * Z :=
  match l with [] => (0, 0) | c :: r => if g <? c then (0, g) else let x := locate r (g - c) in (fst x + 1, snd x) end.
Lemma psum_cons c l t : 0 <= t -> psum (c :: l) (t + 1) = c + psum l t.
Proof. intros H. unfold psum. replace (Z.to_nat (t + 1)) with (S (Z.to_nat t)) by lia. reflexivity. Qed.
Lemma locate_ok l g : Forall (fun c => 0 <= c) l -> 0 <= g < total l -> position l g (fst (locate l g)) (snd (locate l g)).
Proof.
  intros F. revert g. induction F as [|c l Hc F IH]; intros g H; [cbn in H; lia|]. change (total (c :: l)) with (c + total l) in H. cbn [locate]. destruct (Z.ltb_spec g c) as [L|L].
  - cbn [fst snd]. unfold position. rewrite psum_0. unfold zlen, count_of. cbn [length nth Z.to_nat]. lia.
  - cbn zeta. cbn [fst snd]. destruct (IH (g - c) ltac:(lia)) as (H1 & H2 & H3). unfold position. rewrite psum_cons by lia. unfold zlen, count_of in *. cbn [length].
    replace (Z.to_nat (fst (locate l (g - c)) + 1)) with (S (Z.to_nat (fst (locate l (g - c))))) by lia. cbn [nth]. lia.
Qed.

Section table.
Variables (P : Z) (counts : list Z).
Hypothesis HP : 0 < P < 2 ^ 32.
Hypothesis F : Forall (fun c => 0 < c) counts.
Hypothesis HT : total counts < 2 ^ 63.
Hypothesis HK : 0 < zlen counts.
Notation N := (total counts).
Notation K := (zlen counts).
Definition T (g : Z) : Z := fst (locate counts g).
Definition D (g : Z) : Z := snd (locate counts g).
Definition cuts : list Z := map (cut N P) (zseq 0 (Z.to_nat (P + 1))).
Lemma FN : Forall (fun c => 0 <= c) counts. Proof. exact (F0 counts F). Qed.

Lemma at_cuts p : 0 <= p <= P -> at_ cuts p = cut N P p.
Proof. intros H. unfold at_, cuts. rewrite (nth_indep _ 0 (cut N P 0)) by (rewrite map_length, zseq_length; lia). rewrite map_nth. rewrite nth_zseq by lia. f_equal. lia. Qed.
Lemma cuts_table : element_table P N cuts.
Proof.
  assert (NR := N_range counts F HT). split; [lia|]. split; [unfold cuts, zlen; rewrite map_length, zseq_length; lia|]. split; [rewrite at_cuts by lia; apply cut_0; lia|]. split; [rewrite at_cuts by lia; apply cut_P; lia|].
  intros p Hp. rewrite !at_cuts by lia. apply cut_mono; lia.
Qed.
Lemma TD_pos g : 0 <= g < N -> position counts g (T g) (D g). Proof. apply locate_ok. exact FN. Qed.
Lemma TD_at g t j : position counts g t j -> T g = t /\ D g = j.
Proof.
  intros H. apply (position_unique counts g); [exact FN| |exact H]. apply TD_pos. destruct H as (H1 & H2 & H3).
  assert (Q := psum_le counts (t + 1) K FN ltac:(lia) ltac:(lia) ltac:(lia)). assert (Q0 := psum_le counts 0 t FN ltac:(lia) ltac:(lia) ltac:(lia)). rewrite psum_0 in Q0. rewrite psum_all, psum_step in Q by lia. lia.
Qed.
Lemma count_pos t : 0 <= t < K -> 0 < count_of counts t.
Proof. intros H. assert (F2 := F); rewrite Forall_forall in F2. apply F2, nth_In. unfold zlen in H. lia. Qed.
Lemma keys : 1 <= N /\ T 0 = 0 /\ D 0 = 0 /\ T (N - 1) = K - 1 /\
  forall i, 0 <= i < N - 1 -> (T (i + 1) = T i /\ D i < D (i + 1)) \/ (T (i + 1) = T i + 1 /\ D (i + 1) = 0).
Proof.
  assert (NP := N_pos counts F HT HK). split; [lia|].
  assert (P0 : position counts 0 0 0). { split; [lia|]. split; [|rewrite psum_0; lia]. pose proof (count_pos 0 ltac:(lia)). lia. }
  destruct (TD_at _ _ _ P0) as [-> ->]. split; [reflexivity|]. split; [reflexivity|]. split.
  - assert (PL : position counts (N - 1) (K - 1) (count_of counts (K - 1) - 1)).
    { split; [lia|]. pose proof (count_pos (K - 1) ltac:(lia)). split; [lia|]. assert (S := psum_step counts (K - 1) ltac:(lia)). replace (K - 1 + 1) with K in S by lia. rewrite psum_all in S. lia. }
    apply (TD_at _ _ _ PL).
  - intros i Hi. destruct (TD_pos i ltac:(lia)) as (H1 & H2 & H3). destruct (Z.eq_dec (D i + 1) (count_of counts (T i))) as [E|E].
    + assert (S := psum_step counts (T i) H1). assert (TK : T i + 1 < K). { destruct (Z.eq_dec (T i + 1) K) as [Q|]; [|lia]. rewrite Q, psum_all in S. lia. }
      right. apply TD_at. split; [lia|]. pose proof (count_pos (T i + 1) ltac:(lia)). split; lia.
    + left. assert (Q : position counts (i + 1) (T i) (D i + 1)) by (split; [lia|split; lia]). destruct (TD_at _ _ _ Q) as [-> ->]. lia.
Qed.

Notation A p := (cut N P p).
Notation empty p := (A (p + 1) <= A p).
(** the entry of a process that starts with element number g *)
Definition ekey (g : Z) : Z := if D g =? 0 then T g else - T g - 1.
Lemma ekey_at g t j : position counts g t j -> (if 0 <? j then - t - 1 else t) = ekey g.
Proof.
  intros H. unfold ekey. destruct (TD_at _ _ _ H) as [-> ->]. destruct H as (_ & H & _). destruct (Z.eqb_spec j 0) as [->|C]; [reflexivity|]. rewrite (proj2 (Z.ltb_lt 0 j)) by lia. reflexivity.
Qed.

Lemma raw_one p : 0 <= p < P -> exists b e n, bounds_irregular p P counts = Ok b /\ raw_entry b = Ok (e, n) /\
  ((~ empty p /\ e = ekey (A p) /\ 0 < n) \/
   (empty p /\ n <= 0 /\ exists q, p < q < P /\ ~ empty q /\ e = ekey (A q) /\
      ((forall r, p <= r < q -> empty r) \/ (q = P - 1 /\ (forall r, p <= r < P - 2 -> empty r) /\ p < P - 2 /\ ~ empty (P - 2))))).
Proof.
  intros Hp. unfold bounds_irregular. destruct (Z.eqb_spec K 0); [lia|]. destruct (bounds_unpartitioned_ok P counts HP F HT HK p Hp) as (x & E & [X1 _] & X2). rewrite E.
  destruct (Z.le_gt_cases (A (p + 1)) (A p)) as [C|C].
  - destruct (X2 C) as (q & t & j & Hq & PO & E1 & E2 & E3 & Lq & NX). exists x, (ekey (A q)), 0. split; [reflexivity|]. split.
    + unfold raw_entry. rewrite E1, E2, E3. cbn [oget obind]. rewrite (ekey_at _ _ _ PO). f_equal. f_equal. lia.
    + right. split; [exact C|]. split; [lia|]. exists q. split; [lia|]. split; [lia|]. split; [reflexivity|exact NX].
  - destruct (X1 ltac:(lia)) as (f & s & l & e & -> & FL & P1 & P2). eexists _, (ekey (A p)), (l - f + 1). split; [reflexivity|]. split.
    + unfold raw_entry. cbn [b_first b_shared b_last oget obind]. rewrite (ekey_at _ _ _ P1). reflexivity.
    + left. split; [lia|]. split; [reflexivity|lia].
Qed.
Definition good (p : Z) (x : Z * Z) : Prop :=
  (~ empty p /\ fst x = ekey (A p) /\ 0 < snd x) \/
  (empty p /\ snd x <= 0 /\ exists q, p < q < P /\ ~ empty q /\ fst x = ekey (A q) /\
      ((forall r, p <= r < q -> empty r) \/ (q = P - 1 /\ (forall r, p <= r < P - 2 -> empty r) /\ p < P - 2 /\ ~ empty (P - 2)))).
Lemma raw_ok n : forall a, 0 <= a -> a + Z.of_nat n <= P -> exists raw, raw_entries P counts (zseq a n) = Ok raw /\ length raw = n /\
  forall i, (i < n)%nat -> good (a + Z.of_nat i) (nth i raw (0, 0)).
Proof.
  induction n as [|n IH]; intros a H0 H1; cbn [zseq raw_entries].
  - exists []. split; [reflexivity|]. split; [reflexivity|]. intros; lia.
  - destruct (raw_one a ltac:(lia)) as (b & e & m & E1 & E2 & G). rewrite E1. cbn [obind]. rewrite E2. cbn [obind]. destruct (IH (a + 1) ltac:(lia) ltac:(lia)) as (raw & E3 & L & Q). rewrite E3. cbn [obind].
    eexists. split; [reflexivity|]. split; [cbn [length]; lia|]. intros [|i] Hi.
    + cbn [nth]. replace (a + Z.of_nat 0) with a by lia. exact G.
    + cbn [nth]. replace (a + Z.of_nat (S i)) with (a + 1 + Z.of_nat i) by lia. apply Q. lia.
Qed.

Section arr.
Variable raw : list (Z * Z).
Hypothesis RL : length raw = Z.to_nat P.
Hypothesis RG : forall p, 0 <= p < P -> good p (nth (Z.to_nat p) raw (0, 0)).
Notation arr := (map fst raw ++ [K]).
Notation en p := (ent arr p).
Lemma arr_len : zlen arr = P + 1. Proof. unfold zlen. rewrite app_length, map_length, RL. cbn [length]. lia. Qed.
Lemma arr_at p : 0 <= p < P -> en p = fst (nth (Z.to_nat p) raw (0, 0)).
Proof. intros H. unfold ent, znth. rewrite app_nth1 by (rewrite map_length, RL; lia). change 0 with (fst (0, 0)) at 1. apply map_nth. Qed.
Lemma arr_P : en P = K.
Proof. unfold ent, znth. rewrite app_nth2 by (rewrite map_length, RL; lia). rewrite map_length, RL, Nat.sub_diag. reflexivity. Qed.
Lemma A_bounds p : 0 <= p <= P -> 0 <= A p <= N. Proof. intros H. destruct (first_ok P counts HP F HT p H) as (_ & _ & Q). exact Q. Qed.
Lemma A_le p q : p <= q -> A p <= A q. Proof. intros H. pose proof (N_range counts F HT). apply cut_mono; lia. Qed.
Lemma T_lt i j : 0 <= i -> i < j -> j < N -> T i < T j \/ (T i = T j /\ D i < D j).
Proof. destruct keys as (K1 & K2 & K3 & K4 & K5). exact (keys_mono K5 (i := i) (j := j)). Qed.
Lemma T_rng i : 0 <= i < N -> 0 <= T i < K. Proof. intros H. apply (TD_pos i H). Qed.
Lemma D_rng i : 0 <= i < N -> 0 <= D i. Proof. intros H. destruct (TD_pos i H) as (_ & Q & _). lia. Qed.
(** an entry is the key of a later nonempty rank, or K at the end *)
Lemma arr_later p : 0 <= p < P -> exists q, p <= q < P /\ ~ empty q /\ en p = ekey (A q).
Proof. intros H. rewrite arr_at by exact H. destruct (RG p H) as [(G1 & G2 & _)|(_ & _ & q & Hq & G1 & G2 & _)]; [exists p; split; [lia|auto]|exists q; split; [lia|auto]]. Qed.
Lemma ekey_abs g : 0 <= g < N -> Z.abs (ekey g) = (if D g =? 0 then T g else T g + 1) /\ Z.abs (ekey g) + t8_glo_kl0 (ekey g) = T g /\ (ekey g <? 0) = negb (D g =? 0).
Proof. intros H. assert (R := T_rng g H). unfold ekey, t8_glo_kl0. destruct (Z.eqb_spec (D g) 0); cbn [negb]; [rewrite (proj2 (Z.ltb_ge (T g) 0)) by lia|rewrite (proj2 (Z.ltb_lt (- T g - 1) 0)) by lia]; split; try split; lia. Qed.
Lemma nonempty_A q : 0 <= q < P -> ~ empty q -> 0 <= A q < N.
Proof. intros H1 H2. assert (R := A_bounds q ltac:(lia)). assert (R' := A_bounds (q + 1) ltac:(lia)). lia. Qed.
Lemma filled_nonempty q : 0 <= q < P -> ~ empty q -> t8_offset_empty q arr = false.
Proof.
  intros Hq NE. unfold t8_offset_empty, t8_offset_num_trees, t8_offset_first. apply Z.leb_gt. assert (RA := nonempty_A q Hq NE).
  assert (E : en q = ekey (A q)). { rewrite arr_at by exact Hq. destruct (RG q Hq) as [(_ & G & _)|(G & _)]; [exact G|contradiction]. }
  rewrite E. destruct (ekey_abs (A q) RA) as (_ & -> & _). assert (R := T_rng (A q) RA). destruct (Z.eq_dec (q + 1) P) as [C|C].
  - rewrite C, arr_P. lia.
  - destruct (arr_later (q + 1) ltac:(lia)) as (q2 & H2 & NE2 & ->). assert (RA2 := nonempty_A q2 ltac:(lia) NE2). destruct (ekey_abs (A q2) RA2) as (-> & _ & _).
    assert (L := A_le (q + 1) q2 ltac:(lia)). destruct (T_lt (A q) (A q2) ltac:(lia) ltac:(lia) ltac:(lia)) as [Q|[Q Q']]; destruct (Z.eqb_spec (D (A q2)) 0); try lia. assert (DR := D_rng (A q) RA). lia.
Qed.
Notation bnd := (bound T).
Lemma osize_arr : osize arr = P. Proof. unfold osize. rewrite arr_len. lia. Qed.
Lemma steps_half : ~ empty (P - 2) -> 2 <= P -> P < 2 * N.
Proof.
  intros H H2. pose proof (N_pos counts F HT HK). replace (P - 2 + 1) with (P - 1) in H by lia. unfold cut in H. assert (Q : (P - 1) * N / P <= N - 1). { assert ((P - 1) * N / P < N); [|lia]. apply Z.div_lt_upper_bound; nia. }
  destruct (Z.lt_ge_cases P (2 * N)) as [C|C]; [exact C|exfalso]. apply H. assert ((N - 1) <= (P - 2) * N / P); [|lia]. apply Z.div_le_lower_bound; nia.
Qed.
Lemma two_empty r : empty r -> empty (r + 1) -> 2 * N <= P.
Proof.
  unfold cut. intros H1 H2. set (x := r * N / P) in *. pose proof (N_pos counts F HT HK). assert (B : P * x <= r * N) by (apply Z.mul_div_le; lia). 
  assert (L1 : (r + 1 + 1) * N / P <= x) by lia. assert (B2 : (r + 1 + 1) * N < P * (x + 1)). { assert (Q := Z.mul_succ_div_gt ((r + 1 + 1) * N) P ltac:(lia)). nia. }
  nia.
Qed.
Lemma bnd_in i : 0 <= i < N -> bnd i = if D i =? 0 then T i else T i + 1.
Proof. intros H. destruct keys as (K1 & K2 & K3 & K4 & K5). exact (@bound_in N T D K2 K3 K5 i H). Qed.
Lemma value_ok q g : 0 <= q < P -> en q = ekey g -> 0 <= g < N -> (do f <- rd_first arr q; do x <- rd arr q; Ok (if x <? 0 then f + 1 else f)) = Ok (bnd g).
Proof.
  intros Hq E Hg. unfold rd_first. assert (R : rd arr q = Ok (en q)) by (rewrite rd_ok by (rewrite arr_len; lia); reflexivity). rewrite R. cbn [obind]. rewrite E.
  destruct (ekey_abs g Hg) as (_ & -> & ->). rewrite bnd_in by exact Hg. destruct (D g =? 0); reflexivity.
Qed.
Lemma all_empty_A p q : p <= q -> (forall r, p <= r < q -> empty r) -> A q = A p.
Proof.
  intros H G. replace q with (p + Z.of_nat (Z.to_nat (q - p))) in * by lia. revert G. generalize (Z.to_nat (q - p)) as n. induction n as [|n IH]; intros G; [f_equal; lia|].
  assert (I := IH ltac:(intros r Hr; apply G; lia)). assert (Q := G (p + Z.of_nat n) ltac:(lia)). replace (p + Z.of_nat (S n)) with (p + Z.of_nat n + 1) in * by lia. assert (Q' := A_le (p + Z.of_nat n) (p + Z.of_nat n + 1) ltac:(lia)). lia.
Qed.
(** the value of the second round *)
Lemma second_ok p : 0 <= p < P -> empty p ->
  (do next <- t8_offset_next_nonempty_rank (Z.to_nat (P + 2)) p arr; do f <- rd_first arr next; do x <- rd arr next; Ok (if x <? 0 then f + 1 else f)) = Ok (bnd (A p)).
Proof.
  intros Hp Em. destruct (RG p Hp) as [(C & _)|(_ & _ & q' & Hq' & NEq' & Eq' & _)]; [contradiction|].
  (* the next nonempty rank *)
  assert (NX : exists q, p < q < P /\ ~ empty q /\ forall r, p <= r < q -> empty r).
  { assert (G : forall n, p + Z.of_nat n <= q' -> (exists q, p < q < P /\ ~ empty q /\ forall r, p <= r < q -> empty r) \/ (forall r, p <= r <= p + Z.of_nat n -> empty r)).
    { induction n as [|n IH]; intros Hn; [right; intros r Hr; replace r with p by lia; exact Em|]. destruct (IH ltac:(lia)) as [I|I]; [now left|].
      destruct (Z_le_gt_dec (A (p + Z.of_nat n + 1 + 1)) (A (p + Z.of_nat n + 1))) as [C|C].
      - right. intros r Hr. destruct (Z.eq_dec r (p + Z.of_nat n + 1)) as [->|]; [exact C|]. apply I. lia.
      - left. exists (p + Z.of_nat n + 1). split; [lia|]. split; [lia|]. intros r Hr. apply I. lia. }
    destruct (G (Z.to_nat (q' - p)) ltac:(lia)) as [I|I]; [exact I|]. exfalso. apply NEq'. apply I. lia. }
  destruct NX as (q & Hq & NEq & Mid). assert (AQ := all_empty_A p q ltac:(lia) Mid). rewrite <- AQ. assert (RA := nonempty_A q ltac:(lia) NEq).
  assert (Enq : en q = ekey (A q)). { rewrite arr_at by lia. destruct (RG q ltac:(lia)) as [(_ & G & _)|(G & _)]; [exact G|contradiction]. }
  (* the entries of the ranks between *)
  assert (Enr : forall r, p < r < q -> en r = ekey (A q)).
  { intros r Hr. rewrite arr_at by lia. destruct (RG r ltac:(lia)) as [(G & _)|(_ & _ & q2 & H2 & NE2 & -> & G)]; [exfalso; apply G, Mid; lia|]. destruct G as [G|(-> & G1 & G2 & G3)].
    - assert (q2 = q); [|congruence]. destruct (Z.lt_trichotomy q2 q) as [C|[C|C]]; [exfalso; apply NE2, Mid; lia|exact C|exfalso; apply NEq, G; lia].
    - exfalso. assert (q = P - 2). { destruct (Z.lt_trichotomy q (P - 2)) as [C|[C|C]]; [exfalso; apply NEq, G1; lia|exact C|exfalso; apply G3, Mid; lia]. }
      assert (Q1 := two_empty p Em ltac:(apply Mid; lia)). assert (Q2 := steps_half G3 ltac:(lia)). lia. }
  unfold t8_offset_next_nonempty_rank.
  assert (LOOP : forall n r, (Z.to_nat (q - r) < n)%nat -> p < r <= q -> exists m, next_nonempty_loop n r arr = Ok m /\ p < m <= q).
  { induction n as [|n IH]; intros r H1 H2; [lia|]. cbn [next_nonempty_loop]. rewrite osize_arr, (proj2 (Z.ltb_lt r P)) by lia. cbn [andb].
    destruct (t8_offset_empty r arr) eqn:Q; [|exists r; split; [reflexivity|lia]]. destruct (Z.eq_dec r q) as [->|]; [rewrite filled_nonempty in Q by (auto; lia); discriminate|]. apply IH; lia. }
  destruct (LOOP (Z.to_nat (P + 2)) (p + 1) ltac:(lia) ltac:(lia)) as (m & -> & Hm). cbn [obind]. apply value_ok; [lia| |exact RA]. destruct (Z.eq_dec m q) as [->|]; [exact Enq|apply Enr; lia].
Qed.
Lemma second_entries_ok n : forall a, 0 <= a -> a + Z.of_nat n = P ->
  exists l, second_entries P arr a (skipn (Z.to_nat a) raw) = Ok l /\ length l = n /\
    forall i, (i < n)%nat -> nth i l 0 = if A (a + Z.of_nat i) <? A (a + Z.of_nat i + 1) then ekey (A (a + Z.of_nat i)) else bnd (A (a + Z.of_nat i)).
Proof.
  induction n as [|n IH]; intros a H0 H1.
  - rewrite skipn_all2 by (rewrite RL; lia). exists []. split; [reflexivity|]. split; [reflexivity|]. intros; lia.
  - assert (SK : skipn (Z.to_nat a) raw = nth (Z.to_nat a) raw (0, 0) :: skipn (Z.to_nat (a + 1)) raw).
    { replace (Z.to_nat (a + 1)) with (S (Z.to_nat a)) by lia. assert (Ln : (Z.to_nat a < length raw)%nat) by (rewrite RL; lia). revert Ln. generalize (Z.to_nat a) as k. clear. induction raw as [|x l IH]; intros k H; [cbn in H; lia|]. destruct k; [reflexivity|]. cbn [skipn nth]. apply IH. cbn in H. lia. }
    rewrite SK. assert (G := RG a ltac:(lia)). destruct (nth (Z.to_nat a) raw (0, 0)) as [e m]. cbn [second_entries]. destruct (IH (a + 1) ltac:(lia) ltac:(lia)) as (l & E & LL & Q).
    assert (HD : (if m <=? 0 then do next <- t8_offset_next_nonempty_rank (Z.to_nat (P + 2)) a arr; do f <- rd_first arr next; do x <- rd arr next; Ok (if x <? 0 then f + 1 else f) else Ok e) =
      Ok (if A a <? A (a + 1) then ekey (A a) else bnd (A a))).
    { destruct G as [(G1 & G2 & G3)|(G1 & G2 & _)]; cbn [fst snd] in *.
      - rewrite (proj2 (Z.leb_gt m 0)) by lia. rewrite (proj2 (Z.ltb_lt (A a) (A (a + 1)))) by lia. now rewrite G2.
      - rewrite (proj2 (Z.leb_le m 0)) by lia. rewrite (proj2 (Z.ltb_ge (A a) (A (a + 1)))) by lia. apply second_ok; [lia|exact G1]. }
    rewrite HD. cbn [obind]. rewrite E. cbn [obind]. eexists. split; [reflexivity|]. split; [cbn [length]; lia|]. intros [|i] Hi.
    + cbn [nth]. replace (a + Z.of_nat 0) with a by lia. reflexivity.
    + cbn [nth]. rewrite Q by lia. replace (a + Z.of_nat (S i)) with (a + 1 + Z.of_nat i) by lia. reflexivity.
Qed.
End arr.

Lemma uniform_table_ok : exists to, cmesh_uniform_table P counts = Ok to /\ table_entries P K cuts T D to.
Proof.
  unfold cmesh_uniform_table. destruct (raw_ok (Z.to_nat P) 0 ltac:(lia) ltac:(lia)) as (raw & E & RL & G). rewrite E. cbn [obind].
  assert (RG : forall p, 0 <= p < P -> good p (nth (Z.to_nat p) raw (0, 0))). { intros p Hp. assert (Q := G (Z.to_nat p) ltac:(lia)). replace (0 + Z.of_nat (Z.to_nat p)) with p in Q by lia. exact Q. }
  assert (FIN : forall l, length l = Z.to_nat P -> (forall i, (i < Z.to_nat P)%nat -> nth i l 0 = if A (Z.of_nat i) <? A (Z.of_nat i + 1) then ekey (A (Z.of_nat i)) else bound T (A (Z.of_nat i))) -> table_entries P K cuts T D (l ++ [K])).
  { intros l Ll Q. split; [unfold zlen at 1; rewrite app_length, Ll; cbn [length]; lia|]. unfold entry. split; [rewrite app_nth2 by lia; rewrite Ll, Nat.sub_diag; reflexivity|].
    intros p Hp. rewrite app_nth1 by lia. rewrite Q by lia. replace (Z.of_nat (Z.to_nat p)) with p by lia. rewrite !at_cuts by lia. reflexivity. }
  destruct (existsb (fun x => snd x <=? 0) raw) eqn:Ex.
  - destruct (second_entries_ok raw RL RG (Z.to_nat P) 0 ltac:(lia) ltac:(lia)) as (l & E2 & Ll & Q). change (skipn (Z.to_nat 0) raw) with raw in E2. rewrite E2. cbn [obind]. eexists. split; [reflexivity|]. apply FIN; [exact Ll|]. exact Q.
  - eexists. split; [reflexivity|]. apply FIN; [rewrite map_length; exact RL|]. intros i Hi. change 0 with (fst (0, 0)) at 1. rewrite map_nth. assert (Q := G i Hi). change (0 + Z.of_nat i) with (Z.of_nat i) in Q. destruct Q as [(Q1 & Q2 & Q3)|(Q1 & Q2 & _)].
    + rewrite (proj2 (Z.ltb_lt _ _)) by lia. exact Q2.
    + exfalso. assert (existsb (fun x => snd x <=? 0) raw = true); [|congruence]. apply existsb_exists. exists (nth i raw (0, 0)). split; [apply nth_In; lia|]. apply Z.leb_le. exact Q2.
Qed.
Lemma uniform_table_main : exists to, cmesh_uniform_table P counts = Ok to /\ valid_table P K to /\
  forall p t, 0 <= p < P -> (owns to p t <-> exists g j, cut N P p <= g < cut N P (p + 1) /\ position counts g t j).
Proof.
  destruct uniform_table_ok as (to & E & TE). exists to. split; [exact E|]. destruct keys as (K1 & K2 & K3 & K4 & K5). assert (HK1 : 1 <= K) by lia. split.
  - exact (@to_valid P K N cuts T D cuts_table K1 HK1 K2 K3 K4 K5 to TE).
  - intros p t Hp. rewrite (@owns_iff P K N cuts T D cuts_table K1 HK1 K2 K3 K4 K5 to TE p t Hp). rewrite !at_cuts by lia. assert (R := A_bounds p ltac:(lia)). assert (R' := A_bounds (p + 1) ltac:(lia)). split.
    + intros (i & Hi & Q). exists i, (D i). split; [exact Hi|]. rewrite <- Q. apply TD_pos. lia.
    + intros (i & j & Hi & Q). exists i. split; [exact Hi|]. apply (TD_at _ _ _ Q).
Qed.
End table.

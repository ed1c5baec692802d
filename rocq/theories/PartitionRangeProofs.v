(** Which ranks exchange which elements. *)
From Verif Require Import Prelude OffsetModel OffsetSpec OffsetProofs PathSpec SchemeProofs NetModel PartitionModel PartitionSpec.

Section table.
Variables (P N : Z) (o : list Z).
Hypothesis T : element_table P N o.
Lemma tab_step p : 0 <= p < P -> at_ o p <= at_ o (p + 1).
Proof. apply T. Qed.
Lemma tab_mono p q : 0 <= p -> p <= q -> q <= P -> at_ o p <= at_ o q.
Proof.
  intros Hp Hq HP. replace q with (p + Z.of_nat (Z.to_nat (q - p))) by lia. assert (L : p + Z.of_nat (Z.to_nat (q - p)) <= P) by lia. revert L.
  generalize (Z.to_nat (q - p)) as n. induction n as [|n IH]; intros L; [replace (p + Z.of_nat 0) with p by lia; lia|].
  assert (I := IH ltac:(lia)). assert (S1 := @tab_step (p + Z.of_nat n) ltac:(lia)). replace (p + Z.of_nat (S n)) with (p + Z.of_nat n + 1) by lia. lia.
Qed.
Lemma tab_0 : at_ o 0 = 0. Proof. apply T. Qed.
Lemma tab_P : at_ o P = N. Proof. apply T. Qed.
Lemma tab_range p : 0 <= p <= P -> 0 <= at_ o p <= N.
Proof. intros H. assert (A := @tab_mono 0 p ltac:(lia) ltac:(lia) ltac:(lia)). assert (B := @tab_mono p P ltac:(lia) ltac:(lia) ltac:(lia)). rewrite tab_0 in A. rewrite tab_P in B. lia. Qed.
Lemma tab_entry p : 0 <= p <= P -> first_tree_of (entry o p) = at_ o p /\ end_before (entry o p) = at_ o p /\ ~ shared_entry (entry o p).
Proof. intros H. assert (R := tab_range H). change (entry o p) with (at_ o p). unfold first_tree_of, end_before, shared_entry. destruct (Z.ltb_spec (at_ o p) 0); [lia|]. split; [reflexivity|]. split; [reflexivity|lia]. Qed.
Lemma tab_valid : valid_table P N o.
Proof.
  destruct T as (H1 & H2 & H3 & H4 & H5). split; [exact H1|]. split; [unfold zlen in H2; lia|]. split; [exact H3|]. split; [exact H4|].
  assert (R := tab_range (p := P)). rewrite H4 in R. split; [lia|]. intros p Hp. destruct (@tab_entry p) as (A & B & C); [lia|]. destruct (@tab_entry (p + 1)) as (A' & B' & C'); [lia|].
  rewrite A, B'. split; [apply H5; lia|]. intros _. exact C.
Qed.
Lemma tab_owner p g : owner P o p g <-> 0 <= p < P /\ at_ o p <= g < at_ o (p + 1).
Proof.
  unfold owner, owns. split; intros [H1 H2]; (split; [exact H1|]); destruct (@tab_entry p) as (A & _); try lia; destruct (@tab_entry (p + 1)) as (_ & B & _); try lia; rewrite A, B in *; exact H2.
Qed.
Lemma part_owner_ok start g : 0 <= start < P -> 0 <= g < N -> exists p, part_owner_of_element P start g o = Ok p /\ 0 <= p < P /\ at_ o p <= g < at_ o (p + 1).
Proof.
  intros Hs Hg. unfold part_owner_of_element. destruct (any_owner_ext_ok tab_valid (t := g) (start := start) (fuel := Z.to_nat P)) as (p & E & O); try lia.
  exists p. apply tab_owner in O. auto.
Qed.
End table.

(** [piece]: the elements rank p owns in the old and rank q in the new table *)
Definition lo_ (oold onew : list Z) (p q : Z) : Z := Z.max (at_ oold p) (at_ onew q).
Definition hi_ (oold onew : list Z) (p q : Z) : Z := Z.min (at_ oold (p + 1)) (at_ onew (q + 1)).

Section ranges.
Variables (P N : Z) (oold onew : list Z).
Hypothesis TO : element_table P N oold.
Hypothesis TN : element_table P N onew.
Notation lo := (lo_ oold onew).
Notation hi := (hi_ oold onew).

Lemma sendrange_spec p : 0 <= p < P -> exists sf sl, part_sendrange P p (at_ oold (p + 1) - at_ oold p) oold onew = Ok (sf, sl) /\
  ((at_ oold (p + 1) = at_ oold p /\ sf = 0 /\ sl = -1) \/
   (at_ oold p < at_ oold (p + 1) /\ 0 <= sf /\ sf <= sl /\ sl < P /\ at_ onew sf <= at_ oold p < at_ onew (sf + 1) /\ at_ onew sl <= at_ oold (p + 1) - 1 < at_ onew (sl + 1))).
Proof.
  intros Hp. assert (S1 := tab_step TO Hp). assert (R1 := @tab_range _ _ _ TO p ltac:(lia)). assert (R2 := @tab_range _ _ _ TO (p + 1) ltac:(lia)).
  unfold part_sendrange, part_first_element, part_last_element. destruct (Z.eqb_spec (at_ oold (p + 1) - at_ oold p) 0) as [C|C].
  - exists 0, (-1). split; [reflexivity|]. left. lia.
  - change (ent oold p) with (at_ oold p). change (ent oold (p + 1)) with (at_ oold (p + 1)).
    destruct (part_owner_ok TN (start := p) (g := at_ oold p)) as (sf & E1 & B1 & B2); try lia.
    destruct (part_owner_ok TN (start := p) (g := at_ oold (p + 1) - 1)) as (sl & E2 & B3 & B4); try lia.
    rewrite E1. cbn [obind]. rewrite E2. cbn [obind]. exists sf, sl. split; [reflexivity|]. right. split; [lia|]. split; [lia|]. split; [|split; [lia|split; [lia|lia]]].
    destruct (Z.le_gt_cases sf sl) as [|G]; [assumption|]. assert (M := @tab_mono _ _ _ TN (sl + 1) sf ltac:(lia) ltac:(lia) ltac:(lia)). lia.
Qed.
Lemma bounds_spec p sf sl q : 0 <= p < P -> at_ oold p < at_ oold (p + 1) -> 0 <= sf -> sf <= sl -> sl < P -> at_ onew sf <= at_ oold p < at_ onew (sf + 1) -> at_ onew sl <= at_ oold (p + 1) - 1 < at_ onew (sl + 1) ->
  sf <= q <= sl -> send_bounds p (at_ oold (p + 1) - at_ oold p) sf sl oold onew q = (lo p q - at_ oold p, hi p q - 1 - at_ oold p).
Proof.
  intros Hp NE H1 H2 H3 H4 H5 Hq. unfold send_bounds, lo_, hi_. change (ent oold p) with (at_ oold p). change (ent onew q) with (at_ onew q). change (ent onew (q + 1)) with (at_ onew (q + 1)).
  f_equal.
  - destruct (Z.eqb_spec q sf) as [->|C]; [lia|]. assert (M := @tab_mono _ _ _ TN (sf + 1) q ltac:(lia) ltac:(lia) ltac:(lia)). lia.
  - destruct (Z.eqb_spec q sl) as [->|C]; [lia|]. assert (M := @tab_mono _ _ _ TN (q + 1) sl ltac:(lia) ltac:(lia) ltac:(lia)). lia.
Qed.
(** the receivers of rank p are inside its send range *)
Lemma overlap_send p sf sl q : 0 <= p < P -> 0 <= sf -> sf <= sl -> sl < P -> at_ onew sf <= at_ oold p < at_ onew (sf + 1) -> at_ onew sl <= at_ oold (p + 1) - 1 < at_ onew (sl + 1) ->
  0 <= q < P -> lo p q < hi p q -> sf <= q <= sl.
Proof.
  intros Hp H1 H2 H3 H4 H5 Hq Ov. unfold lo_, hi_ in Ov. split.
  - destruct (Z.le_gt_cases sf q) as [|G]; [assumption|]. assert (M := @tab_mono _ _ _ TN (q + 1) sf ltac:(lia) ltac:(lia) ltac:(lia)). lia.
  - destruct (Z.le_gt_cases q sl) as [|G]; [assumption|]. assert (M := @tab_mono _ _ _ TN (sl + 1) q ltac:(lia) ltac:(lia) ltac:(lia)). lia.
Qed.
Lemma recvrange_spec q : 0 <= q < P -> at_ onew q < at_ onew (q + 1) -> exists rf rl, part_recvrange P q oold onew = Ok (rf, rl) /\
  0 <= rf /\ rf <= rl /\ rl < P /\ at_ oold rf <= at_ onew q < at_ oold (rf + 1) /\ at_ oold rl <= at_ onew (q + 1) - 1 < at_ oold (rl + 1).
Proof.
  intros Hq NE. assert (R1 := @tab_range _ _ _ TN q ltac:(lia)). assert (R2 := @tab_range _ _ _ TN (q + 1) ltac:(lia)).
  unfold part_recvrange, part_first_element, part_last_element. change (ent onew q) with (at_ onew q). change (ent onew (q + 1)) with (at_ onew (q + 1)).
  destruct (Z.ltb_spec (at_ onew (q + 1) - 1) (at_ onew q)); [lia|].
  destruct (part_owner_ok TO (start := q) (g := at_ onew q)) as (rf & E1 & B1 & B2); try lia.
  destruct (part_owner_ok TO (start := q) (g := at_ onew (q + 1) - 1)) as (rl & E2 & B3 & B4); try lia.
  rewrite E1. cbn [obind]. rewrite E2. cbn [obind]. exists rf, rl. split; [reflexivity|]. split; [lia|]. split; [|split; [lia|split; [lia|lia]]].
  destruct (Z.le_gt_cases rf rl) as [|G]; [assumption|]. assert (M := @tab_mono _ _ _ TO (rl + 1) rf ltac:(lia) ltac:(lia) ltac:(lia)). lia.
Qed.
Lemma in_recv_procs rf rl p : In p (recv_procs rf rl oold) <-> rf <= p <= rl /\ at_ oold p < at_ oold (p + 1).
Proof.
  unfold recv_procs. rewrite filter_In, in_zseq. unfold part_empty, part_first_element. change (ent oold p) with (at_ oold p). change (ent oold (p + 1)) with (at_ oold (p + 1)).
  rewrite negb_true_iff, Z.leb_gt. lia.
Qed.
Lemma recv_overlap q rf rl p : 0 <= q < P -> at_ onew q < at_ onew (q + 1) -> 0 <= rf -> rf <= rl -> rl < P -> at_ oold rf <= at_ onew q < at_ oold (rf + 1) -> at_ oold rl <= at_ onew (q + 1) - 1 < at_ oold (rl + 1) ->
  0 <= p < P -> (In p (recv_procs rf rl oold) <-> lo p q < hi p q).
Proof.
  intros Hq NE H1 H2 H3 H4 H5 Hp. rewrite in_recv_procs. unfold lo_, hi_. split.
  - intros [B NEp]. assert (A : at_ oold p <= at_ onew (q + 1) - 1).
    { assert (M := @tab_mono _ _ _ TO p rl ltac:(lia) ltac:(lia) ltac:(lia)). lia. }
    assert (A' : at_ onew q < at_ oold (p + 1)).
    { assert (M := @tab_mono _ _ _ TO (rf + 1) (p + 1) ltac:(lia) ltac:(lia) ltac:(lia)). lia. }
    lia.
  - intros Ov. split; [|lia]. split.
    + destruct (Z.le_gt_cases rf p) as [|G]; [assumption|]. assert (M := @tab_mono _ _ _ TO (p + 1) rf ltac:(lia) ltac:(lia) ltac:(lia)). lia.
    + destruct (Z.le_gt_cases p rl) as [|G]; [assumption|]. assert (M := @tab_mono _ _ _ TO (rl + 1) p ltac:(lia) ltac:(lia) ltac:(lia)). lia.
Qed.
Lemma recv_procs_nodup rf rl : NoDup (recv_procs rf rl oold).
Proof.
  unfold recv_procs. apply NoDup_filter. generalize (Z.to_nat (rl - rf + 1)) as n. intros n. revert rf. induction n as [|n IH]; intros rf; cbn [zseq]; constructor; auto.
  rewrite in_zseq. lia.
Qed.
End ranges.

(** parts of sequences *)
Section parts.
Variable A : Type.
Implicit Types l : list A.
Lemma zlen_part l a b : 0 <= a -> a <= b -> b <= zlen l -> zlen (part l a b) = b - a.
Proof. intros H1 H2 H3. unfold part, zlen in *. rewrite firstn_length, skipn_length. lia. Qed.
Lemma part_nil l a b : b <= a -> part l a b = [].
Proof. intros H. unfold part. replace (Z.to_nat (b - a)) with 0%nat by lia. reflexivity. Qed.
Lemma part_all l : part l 0 (zlen l) = l.
Proof. unfold part, zlen. cbn [skipn Z.to_nat]. apply firstn_all2. lia. Qed.
Lemma firstn_add (n m : nat) l : firstn (n + m) l = firstn n l ++ firstn m (skipn n l).
Proof. revert l. induction n as [|n IH]; intros [|x l]; cbn [Nat.add firstn skipn app]; [reflexivity|reflexivity|now rewrite firstn_nil|]. now rewrite IH. Qed.
Lemma skipn_skipn' (n m : nat) l : skipn n (skipn m l) = skipn (m + n) l.
Proof. revert l. induction m as [|m IH]; intros [|x l]; cbn [Nat.add skipn]; [reflexivity|reflexivity|now rewrite skipn_nil|apply IH]. Qed.
Lemma part_cat l a b c : 0 <= a -> a <= b -> b <= c -> part l a b ++ part l b c = part l a c.
Proof.
  intros H0 H1 H2. unfold part. replace (Z.to_nat (c - a)) with (Z.to_nat (b - a) + Z.to_nat (c - b))%nat by lia. rewrite firstn_add. f_equal. rewrite skipn_skipn'. do 2 f_equal. lia.
Qed.
Lemma part_part l a b c d : 0 <= a -> 0 <= c -> d <= b - a -> part (part l a b) c d = part l (a + c) (a + d).
Proof.
  intros H0 H1 H2. destruct (Z.le_gt_cases d c) as [C|C]; [rewrite !part_nil by lia; reflexivity|]. unfold part. rewrite skipn_firstn_comm, firstn_firstn, skipn_skipn'.
  f_equal; [lia|]. f_equal. lia.
Qed.
Lemma part_app_r l1 l2 a b : zlen l1 <= a -> part (l1 ++ l2) a b = part l2 (a - zlen l1) (b - zlen l1).
Proof.
  intros H. unfold part. rewrite skipn_app. unfold zlen in *. rewrite skipn_all2 by lia. cbn [app]. f_equal; [lia|]. f_equal. lia.
Qed.
Lemma part_app_l l1 l2 b : 0 <= b <= zlen l1 -> part (l1 ++ l2) 0 b = part l1 0 b.
Proof.
  intros H. unfold part. change (Z.to_nat 0) with 0%nat. cbn [skipn]. rewrite firstn_app. unfold zlen in *. replace (Z.to_nat (b - 0) - length l1)%nat with 0%nat by lia. cbn [firstn]. now rewrite app_nil_r.
Qed.

Lemma flat_zseq_len (f : Z -> list A) (o : list Z) p n : (forall q, p <= q < p + Z.of_nat n -> zlen (f q) = at_ o (q + 1) - at_ o q) ->
  zlen (flat_map f (zseq p n)) = at_ o (p + Z.of_nat n) - at_ o p.
Proof.
  revert p. induction n as [|n IH]; intros p H; cbn [zseq flat_map].
  - replace (p + Z.of_nat 0) with p by lia. unfold zlen. cbn [length]. lia.
  - rewrite zlen_app, IH by (intros; apply H; lia). rewrite H by lia. replace (p + 1 + Z.of_nat n) with (p + Z.of_nat (S n)) by lia. lia.
Qed.
Lemma zseq_split p n k : (k <= n)%nat -> zseq p n = zseq p k ++ zseq (p + Z.of_nat k) (n - k).
Proof. intros H. replace n with (k + (n - k))%nat at 1 by lia. apply zseq_app. Qed.
Lemma gather_part P N o (f : Z -> list A) p : element_table P N o -> (forall q, 0 <= q < P -> zlen (f q) = at_ o (q + 1) - at_ o q) -> 0 <= p < P ->
  part (gather P f) (at_ o p) (at_ o (p + 1)) = f p.
Proof.
  intros T H Hp. unfold gather. rewrite (@zseq_split 0 (Z.to_nat P) (Z.to_nat p)) by lia. rewrite flat_map_app.
  assert (L := @flat_zseq_len f o 0 (Z.to_nat p) ltac:(intros q Hq; apply H; lia)). rewrite (tab_0 T) in L. replace (0 + Z.of_nat (Z.to_nat p)) with p in * by lia.
  rewrite part_app_r by lia. rewrite L. replace (Z.to_nat P - Z.to_nat p)%nat with (S (Z.to_nat P - Z.to_nat p - 1))%nat by lia. cbn [zseq flat_map].
  replace (at_ o p - (at_ o p - 0)) with 0 by lia. assert (Z1 := zlen_ge0 (f p)). rewrite (H p Hp) in Z1.
  rewrite part_app_l by (rewrite (H p Hp); lia). replace (at_ o (p + 1) - (at_ o p - 0)) with (zlen (f p)) by (rewrite (H p Hp); lia). apply part_all.
Qed.
Lemma gather_len P N o (f : Z -> list A) : element_table P N o -> (forall q, 0 <= q < P -> zlen (f q) = at_ o (q + 1) - at_ o q) -> zlen (gather P f) = N.
Proof. intros T H. unfold gather. rewrite (@flat_zseq_len f o) by (intros q Hq; apply H; destruct T; lia). rewrite (tab_0 T). destruct T as (H1 & _ & _ & H4 & _). replace (0 + Z.of_nat (Z.to_nat P)) with P by lia. lia. Qed.

(** the pieces of the ranks one receives from, one after the other *)
Lemma pieces_cat P N oold onew q rf n (g : list A) : element_table P N oold -> element_table P N onew -> 0 <= q < P -> 0 <= rf -> rf + Z.of_nat n <= P -> at_ oold rf <= at_ onew q ->
  flat_map (fun p => part g (lo_ oold onew p q) (hi_ oold onew p q)) (zseq rf n) = part g (at_ onew q) (Z.max (at_ onew q) (Z.min (at_ oold (rf + Z.of_nat n)) (at_ onew (q + 1)))).
Proof.
  intros TO TN Hq H0 H1 H2. assert (Rq := @tab_range _ _ _ TN q ltac:(lia)). induction n as [|n IH].
  - cbn [zseq flat_map]. replace (rf + Z.of_nat 0) with rf by lia. rewrite part_nil by lia. reflexivity.
  - replace (S n) with (n + 1)%nat at 1 by lia. rewrite zseq_app, flat_map_app. rewrite IH by lia. cbn [zseq flat_map]. rewrite app_nil_r. clear IH. unfold lo_, hi_.
    set (p := rf + Z.of_nat n) in *. replace (rf + Z.of_nat (S n)) with (p + 1) by (unfold p; lia).
    assert (S1 := @tab_step _ _ _ TO p ltac:(unfold p; lia)). assert (S2 := @tab_step _ _ _ TN q Hq).
    destruct (Z.le_gt_cases (Z.min (at_ oold (p + 1)) (at_ onew (q + 1))) (Z.max (at_ oold p) (at_ onew q))) as [C|C].
    + rewrite (@part_nil g (Z.max _ _)) by lia. rewrite app_nil_r. destruct (Z.le_gt_cases (at_ onew (q + 1)) (at_ oold p)) as [D|D]; [f_equal; lia|].
      destruct (Z.le_gt_cases (at_ oold (p + 1)) (at_ onew q)) as [F|F]; [rewrite !part_nil by lia; reflexivity|]. f_equal; lia.
    + replace (Z.max (at_ oold p) (at_ onew q)) with (Z.max (at_ onew q) (Z.min (at_ oold p) (at_ onew (q + 1)))) by lia.
      rewrite part_cat by lia. f_equal. lia.
Qed.
Lemma flat_map_filter (B : Type) (f : B -> list A) (t : B -> bool) (l : list B) : (forall x, In x l -> t x = false -> f x = []) -> flat_map f (filter t l) = flat_map f l.
Proof.
  induction l as [|x l IH]; intros H; [reflexivity|]. cbn [filter]. destruct (t x) eqn:Tx.
  - cbn [flat_map]. rewrite IH; auto. intros y Hy. apply H. now right.
  - cbn [flat_map]. rewrite (H x) by (auto; now left). rewrite IH; auto. intros y Hy. apply H. now right.
Qed.
End parts.

(** Properties C22 and C25: the new element offsets, in double arithmetic.  Vocabulary: PartitionSpec.v (element_table, at_),
    WeightSpec.v. *)
From Verif Require Import Prelude PartitionModel PartitionSpec FloatModel FloatProofs WeightModel WeightSpec WeightProofs.

(** C22 (first half), for every N that fits into t8_gloidx_t and every number of ranks that fits into int: the offsets are a table
    that starts with 0, ends with N and never decreases. *)
Theorem C22_offsets_monotone : forall N P, 0 <= N < 2 ^ 63 -> 1 <= P < 2 ^ 31 ->
  exists o, balanced_offsets N P = Ok o /\ element_table P N o.
Proof. exact balanced_table. Qed.
Print Assumptions C22_offsets_monotone.
Example C22_offsets_monotone_ex : balanced_offsets 10 4 = Ok [0; 2; 5; 7; 10] /\ 0 <= 10 < 2 ^ 63 /\ 1 <= 4 < 2 ^ 31.
Proof. split; [vm_compute; reflexivity|lia]. Qed.

(** C22 (second half): as long as N * P does not exceed 2^53, every rank gets N / P elements, rounded down or up.
    Missing for the full property: larger N * P, where it is false (C22_balanced_refuted). *)
Theorem C22_balanced_partial : forall N P o, 0 <= N < 2 ^ 63 -> 1 <= P < 2 ^ 31 -> N * P <= 2 ^ 53 -> balanced_offsets N P = Ok o ->
  forall p, 0 <= p < P ->
    at_ o (p + 1) - at_ o p = N / P \/ at_ o (p + 1) - at_ o p = (N + P - 1) / P.
Proof.
  intros N P o HN HP HM E p Hp.
  rewrite (balanced_exact N P o HN HP HM E (p + 1)), (balanced_exact N P o HN HP HM E p) by lia.
  assert (A := count_exact N P p ltac:(lia) ltac:(lia)). assert (B := ceil_floor N P ltac:(lia) ltac:(lia)). lia.
Qed.
Print Assumptions C22_balanced_partial.
Example C22_balanced_ex : 1000003 * 7 <= 2 ^ 53 /\ balanced_offsets 1000003 7 = Ok [0; 142857; 285715; 428572; 571430; 714287; 857145; 1000003].
Proof. split; [lia|vm_compute; reflexivity]. Qed.

(** Up to 2^50 elements no rank has more than one element more or less than it should, however many ranks there are. *)
Theorem C22_nearly_balanced_partial : forall N P o, 0 <= N <= 2 ^ 50 -> 1 <= P < 2 ^ 31 -> balanced_offsets N P = Ok o ->
  forall p, 0 <= p < P -> N / P - 1 <= at_ o (p + 1) - at_ o p <= (N + P - 1) / P + 1.
Proof.
  intros N P o HN HP E p Hp.
  exact (count_near N P p _ _ ltac:(lia) ltac:(lia) (balanced_near N P o HN HP E p ltac:(lia)) (balanced_near N P o HN HP E (p + 1) ltac:(lia))).
Qed.
Print Assumptions C22_nearly_balanced_partial.
Example C22_nearly_balanced_ex : exists o, balanced_offsets 1125899906842623 3 = Ok o /\ 1125899906842623 <= 2 ^ 50.
Proof. eexists. split; [vm_compute; reflexivity|lia]. Qed.

(** Beyond 2^53 the rounding of N * i shows: here N is a multiple of P, but rank 4 gets one element less and rank 5 one more. *)
Theorem C22_balanced_refuted : exists N P o p, 0 <= N < 2 ^ 63 /\ 1 <= P < 2 ^ 31 /\ balanced_offsets N P = Ok o /\ 0 <= p < P /\
  at_ o (p + 1) - at_ o p <> N / P /\ at_ o (p + 1) - at_ o p <> (N + P - 1) / P.
Proof.
  exists 1808158380452501, 7. eexists. exists 4. split; [lia|]. split; [lia|]. split; [vm_compute; reflexivity|].
  split; [lia|]. split; vm_compute; discriminate.
Qed.
Print Assumptions C22_balanced_refuted.

(** C25 for weights k * 2^s with nonnegative integers k (fixed point numbers) whose sum K, times the number of ranks, is below 2^53:
    the offsets are a table for all elements, and rank p starts with the element j at which the accumulated weight exceeds p / P of
    the total weight: (weight before j) <= p K / P < (weight up to and including j).
    [kss]: for each rank, the list of the k of its elements.
    Missing for the full property: weights whose sums are rounded, where it is false (C25_weighted_refuted). *)
Theorem C25_weighted_partial : forall s (kss : list (list Z)), -500 <= s <= 500 ->
  let P := zlen kss in let ks := concat kss in let K := zsum ks in
  1 <= P < 2 ^ 31 -> Forall (fun k => 0 <= k) ks -> 1 <= K -> K * P < 2 ^ 53 ->
  exists o, weighted_offsets (zlen ks) (map (map (as_double s)) kss) = Ok o /\ element_table P (zlen ks) o /\
    forall p, 0 < p < P -> let j := at_ o p in
      0 <= j < zlen ks /\ P * weight_before ks j <= K * p < P * weight_before ks (j + 1).
Proof. exact weighted_main. Qed.
Print Assumptions C25_weighted_partial.
(** weights 0.5, 1.0, 3.5, 0.5, 0.5, 1.5 on three ranks *)
Example C25_weighted_ex : let kss := [[1; 2]; [7; 1; 1]; [3]] in
  weighted_offsets 6 (map (map (as_double (-1))) kss) = Ok [0; 2; 3; 6] /\ zlen kss = 3 /\ zsum (concat kss) = 15.
Proof. split; [vm_compute; reflexivity|split; reflexivity]. Qed.
(** no weight, no element: all ranks are empty *)
Theorem C25_no_elements : forall ws, 1 <= zlen ws -> exists o, weighted_offsets 0 ws = Ok o /\ element_table (zlen ws) 0 o.
Proof. intros ws H. eexists. split; [reflexivity|]. exact (proj2 (zero_table (zlen ws) H)). Qed.
Print Assumptions C25_no_elements.

(** Three ranks with one element each, all of weight 0.7: rank 0 writes behind the end of its vector of offsets.
    Four ranks with one element each, all of weight 0.1: rank 2 does not fill its vector. *)
Theorem C25_weighted_refuted :
  (let w := d_div (d_of_int 7) (d_of_int 10) in weighted_offsets 3 [[w]; [w]; [w]] = Oob) /\
  (let w := d_div (d_of_int 1) (d_of_int 10) in weighted_offsets 4 [[w]; [w]; [w]; [w]] = AssertFail).
Proof. split; vm_compute; reflexivity. Qed.
Print Assumptions C25_weighted_refuted.

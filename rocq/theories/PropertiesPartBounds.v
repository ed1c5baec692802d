(** Property C40 on partitioned coarse meshes: the bounds of a uniform partition are computed by the processes that have the trees and
    sent to the processes that get the elements.  Vocabulary: UniformSpec.v, PartBoundsSpec.v and bounds_of in PropertiesUniform.v. *)
From Verif Require Import Prelude OwnerModel UniformModel UniformSpec UniformProofs PropertiesUniform PartBoundsModel PartBoundsSpec PartBoundsProofs LongDoubleProofs LongDoubleErrorProofs.

(** Process p of P gets the elements cut N P p to cut N P (p+1) - 1.  On every process with elements the result are the trees and the
    numbers of its first and its last element; no process waits for a message that is not sent and no assertion fails.  On a process
    without elements the first tree is the first one that starts at or after the place of the process, and the last tree is the one
    before, unless the tree at this place is on the process itself or on a process that shares its first tree.
    Missing for the full claim (it holds without this if all trees have more elements than there are processes, C40_bounds_partitioned_fine): the process of the first element of a tree is found with long doubles and has to be the right one
    (C40_owner_of_element_refuted, C40_bounds_partitioned_refuted), and the two cases of processes without elements
    (C40_empty_partitioned_refuted). *)
Theorem C40_bounds_partitioned_partial : forall checks counts views start r, 0 < zlen views < 2 ^ 31 -> 0 < zlen counts -> Forall (fun x => 0 < x) counts -> total counts < 2 ^ 63 - 1 ->
  coarse_partition counts views start -> tree_owners_exact checks counts (zlen views) -> 0 <= r < zlen views ->
  let a := cut (total counts) (zlen views) r in let b := cut (total counts) (zlen views) (r + 1) in
  exists x, bounds_partitioned checks views (zlen counts) r = Ok x /\ (a < b -> bounds_of counts a b x) /\
    (b <= a -> forall q t j, 0 <= q < zlen views -> start q <= t < start (q + 1) -> position counts a t j -> q <> r -> v_shared (nth (Z.to_nat q) views (View 0 false [])) = false ->
     exists f, b_first x = Some f /\ b_last x = f - 1 /\ 0 <= f <= zlen counts /\ a <= psum counts f /\ (0 < f -> psum counts (f - 1) < a)).
Proof.
  intros checks counts views start r HP HK F HT CP EX Hr a b. destruct (Z.lt_ge_cases a b) as [L|L].
  - eexists. split; [exact (bounds_nonempty checks counts views start HP F HT HK CP EX r Hr L)|]. split; [|intros; lia]. intros _.
    assert (CA := C_lt counts views HP F HT HK r Hr). fold a in CA. destruct (C_ok counts views HP F HT (r + 1) ltac:(lia)) as (_ & _ & CB). fold b in CB.
    assert (PA := TD_pos counts F a ltac:(lia)). assert (PB := TD_pos counts F (b - 1) ltac:(lia)).
    exists (TT counts a), (DD counts a), (TT counts (b - 1)), (DD counts (b - 1) + 1). split; [|split; [|split; [exact PA|replace (DD counts (b - 1) + 1 - 1) with (DD counts (b - 1)) by lia; exact PB]]].
    + fold a b. do 2 f_equal. destruct (Z.ltb_spec 0 r) as [|G]; [reflexivity|]. assert (E : r = 0) by lia. assert (A0 : a = 0) by (unfold a; rewrite E; apply cut_0; lia).
      assert (D0 : DD counts a = 0). { destruct PA as (P1 & P2 & P3). pose proof (S_range counts F (TT counts a) ltac:(lia)) as SR. lia. } rewrite D0. reflexivity.
    + eapply (position_le counts a (b - 1)); [apply F0; exact F|exact PA|exact PB|lia].
  - assert (CA := C_lt counts views HP F HT HK r Hr). fold a in CA. destruct (search_all counts views start HP F HT HK CP a CA) as (q0 & _ & Hq0).
    eexists. split; [exact (bounds_empty checks counts views start HP F HT HK CP EX q0 r Hr L Hq0)|]. split; [intros; lia|]. intros _ q t j Hq Ht (P1 & P2 & P3) NE NS.
    assert (CV : covers counts views start q a).
    { split; [exact Hq|]. assert (R1 := start_range counts views start CP q ltac:(lia)). assert (R2 := start_range counts views start CP (q + 1) ltac:(lia)).
      assert (Q1 := psum_le counts (start q) t (F0 counts F) ltac:(lia) ltac:(lia) ltac:(lia)). assert (Q2 := psum_le counts (t + 1) (start (q + 1)) (F0 counts F) ltac:(lia) ltac:(lia) ltac:(lia)). rewrite psum_step in Q2 by lia. lia. }
    assert (EQ : q0 = q) by exact (covers_unique counts views start F CP q0 q a Hq0 CV). subst q0.
    assert (SH : v_shift (run_view views q) = 0) by (unfold v_shift, run_view; now rewrite NS). rewrite SH, Z.sub_0_r. rewrite (proj2 (Z.eqb_neq q r) NE). fold a.
    exists (UP counts a). cbn [b_first b_last]. destruct (UP_spec counts views F HK a CA) as (U1 & U2 & U3). repeat split; auto; lia.
Qed.
Print Assumptions C40_bounds_partitioned_partial.
(** every process is sent exactly one message with its first element, and exactly one with its last element if it has elements; so no
    receive waits for ever and no message is left over *)
Theorem C40_messages_matched_partial : forall checks counts views start, 0 < zlen views < 2 ^ 31 -> 0 < zlen counts -> Forall (fun x => 0 < x) counts -> total counts < 2 ^ 63 - 1 ->
  coarse_partition counts views start -> tree_owners_exact checks counts (zlen views) ->
  exists ms : Z -> list message, (forall q, 0 <= q < zlen views -> run_messages checks views (zlen counts) q = Ok (ms q)) /\
    forall r, 0 <= r < zlen views ->
      (exists q m, 0 <= q < zlen views /\ filter (matches r true) (ms q) = [m] /\ forall q', 0 <= q' < zlen views -> q' <> q -> filter (matches r true) (ms q') = []) /\
      (cut (total counts) (zlen views) r < cut (total counts) (zlen views) (r + 1) ->
       exists q m, 0 <= q < zlen views /\ filter (matches r false) (ms q) = [m] /\ forall q', 0 <= q' < zlen views -> q' <> q -> filter (matches r false) (ms q') = []) /\
      (cut (total counts) (zlen views) (r + 1) <= cut (total counts) (zlen views) r -> forall q, 0 <= q < zlen views -> filter (matches r false) (ms q) = []).
Proof.
  intros checks counts views start HP HK F HT CP EX. exists (sent counts views start). split; [intros q Hq; exact (messages_ok checks counts views start HP F HT HK CP EX q Hq)|].
  intros r Hr. assert (CA := C_lt counts views HP F HT HK r Hr). destruct (C_ok counts views HP F HT (r + 1) ltac:(lia)) as (_ & _ & CB). set (a := cut (total counts) (zlen views) r) in *. set (b := cut (total counts) (zlen views) (r + 1)) in *. split; [|split].
  - destruct (search_all counts views start HP F HT HK CP a CA) as (q & _ & Hq). exists q, (first_message counts views q r). split; [exact (proj1 Hq)|]. split.
    + rewrite (sent_start counts views start HP q r Hr). fold a. now rewrite (proj2 (covers_b counts views start q a (proj1 Hq)) Hq).
    + intros q' Hq' NE. rewrite (sent_start counts views start HP q' r Hr). fold a. destruct (_ && _) eqn:E; [|reflexivity]. exfalso. apply (covers_b counts views start q' a Hq') in E. apply NE. exact (covers_unique counts views start F CP q' q a E Hq).
  - intros L. destruct (search_all counts views start HP F HT HK CP (b - 1) ltac:(lia)) as (q & _ & Hq). exists q, (end_message counts views r). split; [exact (proj1 Hq)|]. destruct (Hq) as [Q1 Q2]. split.
    + rewrite (sent_end counts views start HP q r Hr). fold a b. rewrite (proj2 (Z.ltb_lt a b) L), (proj2 (Z.ltb_lt _ b)), (proj2 (Z.leb_le b _)) by lia. reflexivity.
    + intros q' Hq' NE. rewrite (sent_end counts views start HP q' r Hr). fold a b. destruct (_ && (_ && _)) eqn:E; [|reflexivity]. exfalso. apply andb_prop in E as [_ E]. apply andb_prop in E as [E1 E2]. apply Z.ltb_lt in E1. apply Z.leb_le in E2.
      apply NE. apply (covers_unique counts views start F CP q' q (b - 1)); [|exact Hq]. split; [exact Hq'|lia].
  - intros L q Hq. rewrite (sent_end counts views start HP q r Hr). fold a b. rewrite (proj2 (Z.ltb_ge a b) L). reflexivity.
Qed.
Print Assumptions C40_messages_matched_partial.

(** The process of an element is found exactly if the number of elements is a power of two and its product with the number of processes
    fits into 64 bits: then no long double is rounded. *)
Theorem C40_owner_of_element_partial : forall checks k g P, 0 <= k <= 62 -> 0 <= g < 2 ^ k -> 0 < P < 2 ^ 31 -> P * 2 ^ k <= 2 ^ 64 ->
  exists p, determine_partition checks g (2 ^ k) P 0 = Ok p /\ has_element (2 ^ k) P p g.
Proof. exact determine_pow2. Qed.
Print Assumptions C40_owner_of_element_partial.
(** so the hypothesis of C40_bounds_partitioned_partial and C40_messages_matched_partial holds in this case *)
Theorem C40_tree_owners_partial : forall checks counts P k, Forall (fun x => 0 < x) counts -> total counts = 2 ^ k -> 0 <= k <= 62 -> 0 < P < 2 ^ 31 -> P * 2 ^ k <= 2 ^ 64 -> tree_owners_exact checks counts P.
Proof.
  intros checks counts P k F E Hk HP HPN t Ht. rewrite E. apply C40_owner_of_element_partial; auto. assert (A := psum_le counts 0 t (F0 counts F) ltac:(lia) ltac:(lia) ltac:(lia)). assert (B := psum_le counts (t + 1) (zlen counts) (F0 counts F) ltac:(lia) ltac:(lia) ltac:(lia)).
  rewrite psum_0 in A. rewrite psum_all, psum_step, E in B by lia. assert (0 < count_of counts t); [|lia]. rewrite Forall_forall in F. apply F. apply nth_In. unfold zlen in *. lia.
Qed.
Print Assumptions C40_tree_owners_partial.
(** It is also found if N, the number of elements, does not divide P * (g + 1): only at the last element of a process, where the ranges
    of the processes end at exact multiples of N / P, can the rounding change the result. *)
Theorem C40_owner_of_inner_element : forall checks g N P, 0 <= g < N -> N < 2 ^ 63 -> 0 < P < 2 ^ 31 -> P * N <= 2 ^ 60 -> (P * (g + 1)) mod N <> 0 ->
  exists p, determine_partition checks g N P 0 = Ok p /\ has_element N P p g.
Proof. exact determine_interior. Qed.
Print Assumptions C40_owner_of_inner_element.
(** If the numbers of elements of all trees are multiples of a number greater than the number of processes, as on a mesh of quads, hexes or
    simplices refined often enough, then the bounds are right on every process, in every partition of the coarse mesh. *)
Theorem C40_bounds_partitioned_fine : forall checks counts views start c r, 0 < zlen counts -> Forall (fun x => 0 < x) counts -> Forall (fun x => (c | x)) counts -> 0 < zlen views < c -> zlen views < 2 ^ 31 ->
  zlen views * total counts <= 2 ^ 60 -> coarse_partition counts views start -> 0 <= r < zlen views ->
  exists x, bounds_partitioned checks views (zlen counts) r = Ok x /\ bounds_of counts (cut (total counts) (zlen views) r) (cut (total counts) (zlen views) (r + 1)) x.
Proof.
  intros checks counts views start c r HK F Dc HP HP2 HPN CP Hr. assert (TO := owners_coarse checks counts (zlen views) c F Dc HP HP2 HPN).
  assert (NP : zlen views <= total counts).
  { assert (A := psum_le counts 1 (zlen counts) (F0 counts F) ltac:(lia) ltac:(lia) ltac:(lia)). rewrite psum_all in A. change 1 with (0 + 1) in A. rewrite psum_step, psum_0 in A by lia.
    assert (IN : In (count_of counts 0) counts) by (apply nth_In; unfold zlen in *; lia). rewrite Forall_forall in F, Dc. assert (B := Z.divide_pos_le _ _ (F _ IN) (Dc _ IN)). lia. }
  assert (NB : total counts <= zlen views * total counts) by (rewrite <- (Z.mul_1_l (total counts)) at 1; apply Z.mul_le_mono_nonneg_r; lia).
  destruct (@C40_bounds_partitioned_partial checks counts views start r ltac:(lia) HK F ltac:(lia) CP TO Hr) as (x & E & X & _). exists x. split; [exact E|]. apply X.
  unfold cut. assert (r * total counts / zlen views + 1 <= (r + 1) * total counts / zlen views); [|lia]. rewrite <- Z.div_add by lia. apply Z.div_le_mono; [lia|]. rewrite Z.mul_add_distr_r. lia.
Qed.
Print Assumptions C40_bounds_partitioned_fine.
(** With 82 elements on two processes element 40 belongs to process 0, and process 1 is found.  In a debug build the assertion in
    the function fails. *)
Theorem C40_owner_of_element_refuted : exists N P g p, 0 <= g < N /\ determine_partition false g N P 0 = Ok p /\ ~ has_element N P p g /\ determine_partition true g N P 0 = AssertFail.
Proof.
  exists 82, 2, 40, 1. split; [lia|]. split; [vm_compute; reflexivity|]. split; [|vm_compute; reflexivity]. intros [_ [H _]]. vm_compute in H. now apply H.
Qed.
Print Assumptions C40_owner_of_element_refuted.
(** So on coarse meshes of 82 trees with one element each, on two processes, (1) process 0 gets a last element that does not exist
    and (2), with another partition of the coarse mesh, process 0 waits for a message that is never sent. *)
Theorem C40_bounds_partitioned_refuted :
  (exists counts views start x, Forall (fun c => 0 < c) counts /\ coarse_partition counts views start /\ 0 < zlen counts /\
     cut (total counts) (zlen views) 0 < cut (total counts) (zlen views) 1 /\ bounds_partitioned false views (zlen counts) 0 = Ok x /\
     ~ bounds_of counts (cut (total counts) (zlen views) 0) (cut (total counts) (zlen views) 1) x) /\
  (exists counts views start, Forall (fun c => 0 < c) counts /\ coarse_partition counts views start /\ 0 < zlen counts /\ bounds_partitioned false views (zlen counts) 0 = OutOfFuel).
Proof.
  assert (CP : forall n m, 0 <= n -> 0 <= m -> coarse_partition (repeat 1 (Z.to_nat (n + m))) [View 0 false (repeat 1 (Z.to_nat n)); View n false (repeat 1 (Z.to_nat m))] (fun p => if p =? 0 then 0 else if p =? 1 then n else n + m)).
  { intros n m Hn Hm. split; [reflexivity|]. split; [unfold zlen; rewrite repeat_length; cbn; lia|]. intros p Hp. change (0 <= p < 2) in Hp.
    assert (SP : forall a b, skipn a (repeat 1 (a + b)) = repeat 1 b) by (induction a as [|a IH]; intros b; [reflexivity|exact (IH b)]).
    assert (FP : forall a b, firstn a (repeat 1 (a + b)) = repeat 1 a) by (induction a as [|a IH]; intros b; [reflexivity|cbn; now rewrite IH]).
    assert (C2 : p = 0 \/ p = 1) by lia. destruct C2 as [-> | ->]; cbn [Z.to_nat nth v_shared v_first v_counts Pos.to_nat Pos.iter_op Z.add Z.eqb Pos.eqb Pos.add Pos.succ].
    - split; [lia|]. split; [lia|]. split; [lia|]. unfold segment. rewrite Z2Nat.inj_add by lia. rewrite !Z.sub_0_r. cbn [Z.to_nat skipn]. now rewrite FP.
    - change (Pos.to_nat 1) with 1%nat. cbn [nth v_shared v_first v_counts]. split; [lia|]. split; [lia|]. split; [lia|]. unfold segment. rewrite Z.sub_0_r. rewrite Z2Nat.inj_add by lia. rewrite SP. replace (n + m - n) with m by lia.
      assert (FA : firstn (Z.to_nat m) (repeat 1 (Z.to_nat m + 0)) = repeat 1 (Z.to_nat m)) by apply FP. rewrite Nat.add_0_r in FA. now rewrite FA. }
  assert (FO : Forall (fun c => 0 < c) (repeat 1 82)) by (apply Forall_forall; intros x Hx; apply repeat_spec in Hx; lia).
  split.
  - exists (repeat 1 82), [View 0 false (repeat 1 41); View 41 false (repeat 1 41)], (fun p => if p =? 0 then 0 else if p =? 1 then 41 else 41 + 41), (Bounds (Some 0) (Some 0) 39 (Some 2) (Some false)).
    split; [exact FO|]. split; [exact (CP 41 41 ltac:(lia) ltac:(lia))|]. split; [reflexivity|]. split; [vm_compute; reflexivity|]. split; [vm_compute; reflexivity|].
    intros (f & s & l & e & E & _ & _ & PO). injection E as E1 E2 E3 E4 E5. subst l e. destruct PO as (_ & [_ PO] & _). vm_compute in PO. discriminate.
  - exists (repeat 1 82), [View 0 false (repeat 1 40); View 40 false (repeat 1 42)], (fun p => if p =? 0 then 0 else if p =? 1 then 40 else 40 + 42).
    split; [exact FO|]. split; [exact (CP 40 42 ltac:(lia) ltac:(lia))|]. split; [reflexivity|]. vm_compute. reflexivity.
Qed.
Print Assumptions C40_bounds_partitioned_refuted.
(** On a process without elements: (1) if the tree at its place is on the process itself, the last tree stays -1, so that the number
    of its trees, last - first + 1, is not 0; (2) if this tree is on a process that shares its first tree, the first tree is one too
    small.  Both also in a debug build and with exact owners. *)
Theorem C40_empty_partitioned_refuted :
  (exists counts views start r x f, coarse_partition counts views start /\ tree_owners_exact true counts (zlen views) /\ 0 <= r < zlen views /\
     cut (total counts) (zlen views) r = cut (total counts) (zlen views) (r + 1) /\ bounds_partitioned true views (zlen counts) r = Ok x /\ b_first x = Some f /\ b_last x - f + 1 < 0) /\
  (exists counts views start r x f, coarse_partition counts views start /\ tree_owners_exact true counts (zlen views) /\ 0 <= r < zlen views /\
     cut (total counts) (zlen views) r = cut (total counts) (zlen views) (r + 1) /\ bounds_partitioned true views (zlen counts) r = Ok x /\ b_first x = Some f /\
     psum counts f < cut (total counts) (zlen views) r).
Proof.
  assert (TO : tree_owners_exact true [1; 1] 4).
  { intros t Ht. change (0 <= t < 2) in Ht. assert (C2 : t = 0 \/ t = 1) by lia. destruct C2 as [-> | ->]; [exists 1|exists 3]; (split; [vm_compute; reflexivity|]); split; [lia|vm_compute; split; [discriminate|reflexivity]|lia|vm_compute; split; [discriminate|reflexivity]]. }
  split.
  - exists [1; 1], [View 0 false [1]; View 1 false []; View 1 false [1]; View 2 false []], (fun p => if p =? 0 then 0 else if p <=? 2 then 1 else 2), 2, (Bounds (Some 1) (Some (-1)) (-1) None (Some false)), 1.
    split; [|split; [exact TO|split; [split; [lia|reflexivity]|split; [reflexivity|split; [vm_compute; reflexivity|split; [reflexivity|cbn; lia]]]]]].
    split; [reflexivity|]. split; [reflexivity|]. intros p Hp. change (0 <= p < 4) in Hp. assert (C4 : p = 0 \/ p = 1 \/ p = 2 \/ p = 3) by lia. destruct C4 as [-> | [-> | [-> | ->]]]; vm_compute; repeat split; discriminate.
  - exists [1; 1], [View 0 false [1]; View 0 true [1; 1]; View 2 false []; View 2 false []], (fun p => if p =? 0 then 0 else if p =? 1 then 1 else 2), 2, (Bounds (Some 0) (Some (-1)) (-1) None (Some false)), 0.
    split; [|split; [exact TO|split; [split; [lia|reflexivity]|split; [reflexivity|split; [vm_compute; reflexivity|split; [reflexivity|vm_compute; reflexivity]]]]]].
    split; [reflexivity|]. split; [reflexivity|]. intros p Hp. change (0 <= p < 4) in Hp. assert (C4 : p = 0 \/ p = 1 \/ p = 2 \/ p = 3) by lia. destruct C4 as [-> | [-> | [-> | ->]]]; vm_compute; repeat split; discriminate.
Qed.
Print Assumptions C40_empty_partitioned_refuted.

(** Three trees with 2, 1 and 5 elements on four processes, the first tree of process 1 shared: the hypotheses of the theorems above hold. *)
Definition ex_counts : list Z := [2; 1; 5].
Definition ex_views : list view := [View 0 false [2]; View 0 true [2; 1]; View 2 false []; View 2 false [5]].
Definition ex_start (p : Z) : Z := if p =? 0 then 0 else if p =? 1 then 1 else if p <=? 3 then 2 else 3.
Example ex_partition : 0 < zlen ex_views < 2 ^ 31 /\ 0 < zlen ex_counts /\ Forall (fun x => 0 < x) ex_counts /\ total ex_counts < 2 ^ 63 - 1 /\ coarse_partition ex_counts ex_views ex_start /\ forall checks, tree_owners_exact checks ex_counts (zlen ex_views).
Proof.
  split; [split; reflexivity|]. split; [reflexivity|]. split; [repeat constructor|]. split; [reflexivity|]. split.
  - split; [reflexivity|]. split; [reflexivity|]. intros p Hp. change (0 <= p < 4) in Hp. assert (C4 : p = 0 \/ p = 1 \/ p = 2 \/ p = 3) by lia. destruct C4 as [-> | [-> | [-> | ->]]]; vm_compute; repeat split; discriminate.
  - intros checks t Ht. change (0 <= t < 3) in Ht. change (total ex_counts) with (2 ^ 3). change (zlen ex_views) with 4. assert (C3 : t = 0 \/ t = 1 \/ t = 2) by lia. apply C40_owner_of_element_partial; try lia. destruct C3 as [-> | [-> | ->]]; vm_compute; split; (discriminate || reflexivity).
Qed.
Example ex_bounds : map (bounds_partitioned true ex_views 3) [0; 1; 2; 3] =
  [Ok (Bounds (Some 0) (Some 0) 0 (Some 2) (Some false)); Ok (Bounds (Some 1) (Some 0) 2 (Some 1) (Some false)); Ok (Bounds (Some 2) (Some 1) 2 (Some 3) (Some true)); Ok (Bounds (Some 2) (Some 3) 2 (Some 5) (Some true))].
Proof. vm_compute. reflexivity. Qed.
(** three trees with 6, 12 and 6 elements on five processes *)
Example ex_fine : let counts := [6; 12; 6] in let views := [View 0 false []; View 0 false [6; 12]; View 1 true [12]; View 2 false [6]; View 3 false []] in let start p := if p <=? 1 then 0 else if p <=? 3 then 2 else 3 in
  0 < zlen counts /\ Forall (fun x => 0 < x) counts /\ Forall (fun x => (6 | x)) counts /\ 0 < zlen views < 6 /\ zlen views * total counts <= 2 ^ 60 /\ coarse_partition counts views start.
Proof.
  cbv zeta. split; [reflexivity|]. split; [repeat constructor|]. split; [repeat constructor; [exists 1|exists 2|exists 1]; reflexivity|]. split; [split; reflexivity|]. split; [vm_compute; discriminate|].
  split; [reflexivity|]. split; [reflexivity|]. intros p Hp. change (0 <= p < 5) in Hp. assert (C5 : p = 0 \/ p = 1 \/ p = 2 \/ p = 3 \/ p = 4) by lia. destruct C5 as [-> | [-> | [-> | [-> | ->]]]]; vm_compute; repeat split; discriminate.
Qed.
(** a process without elements *)
Example ex_empty : bounds_partitioned true [View 0 false []; View 0 false [1; 1]; View 2 false []; View 2 false []] 2 2 = Ok (Bounds (Some 1) (Some (-1)) 0 None (Some false)).
Proof. vm_compute. reflexivity. Qed.

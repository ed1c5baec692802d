(** Proofs about vector_split. *)
From Verif Require Import Prelude PathSpec SchemeModel SchemeProofs OffsetModel OffsetSpec PartitionModel PartitionSpec OwnerModel UniformModel UniformSpec UniformProofs UniformTableProofs.
From Verif Require Import PartBoundsModel PartBoundsSpec.
#[local] Unset Implicit Arguments.

(** ** arrays *)
Lemma rd_ok l i : 0 <= i < zlen l -> rd l i = Ok (znth 0 l i).
Proof. intros H. unfold rd. rewrite (proj2 (Z.leb_le 0 i)), (proj2 (Z.ltb_lt i (zlen l))) by lia. reflexivity. Qed.
Lemma fill_len l a b v : zlen (fill l a b v) = zlen l.
Proof. unfold fill, zlen. now rewrite map_length, zseq_length. Qed.
Lemma fill_at l a b v i : 0 <= i < zlen l -> znth 0 (fill l a b v) i = if (a <=? i) && (i <? b) then v else znth 0 l i.
Proof.
  intros H. unfold fill, znth at 1. set (g := fun i => _). rewrite (nth_indep _ 0 (g 0)) by (rewrite map_length, zseq_length; unfold zlen in H; lia).
  rewrite map_nth, nth_zseq by (unfold zlen in H; lia). unfold g. replace (0 + Z.of_nat (Z.to_nat i)) with i by lia. reflexivity.
Qed.

(** ** vector_split *)
Section split.
Variables (cat : Z -> outcome Z) (l : list Z) (c : Z -> Z) (m : Z).
Notation count := (zlen l).
Hypothesis Hcat : forall j, 0 <= j < count -> cat (znth 0 l j) = Ok (c j).
Hypothesis Hrange : forall j, 0 <= j < count -> 0 <= c j <= m.
Hypothesis Hmono : forall i j, 0 <= i <= j -> j < count -> c i <= c j.
Hypothesis Hm : 1 <= m.
Hypothesis Hc : 0 < count.

Definition upper (offs : list Z) (k : Z) : Prop := 0 <= znth 0 offs k <= count /\ forall j, znth 0 offs k <= j < count -> k <= c j.
Definition good (offs : list Z) (k : Z) : Prop := upper offs k /\ forall j, 0 <= j < znth 0 offs k -> c j < k.
Definition split_done (offs : list Z) : Prop := zlen offs = m + 1 /\ forall k, 0 <= k < m -> good offs k.
Definition split_inv (offs : list Z) (low high step : Z) : Prop :=
  zlen offs = m + 1 /\ 1 <= step < m /\ 0 <= low <= high /\ high = znth 0 offs step /\ (forall j, 0 <= j < low -> c j < step) /\
  (forall k, 0 <= k < step -> good offs k) /\ (forall k, step <= k < m -> upper offs k).

Lemma advance_ok fuel offs low high step : split_inv offs low high step -> m - step < Z.of_nat fuel ->
  exists r, split_advance fuel offs m low high step = Ok r /\
    match r with None => split_done offs
    | Some (h, s) => split_inv offs low h s /\ low < h /\ step <= s /\ (s = step -> h = high) end.
Proof.
  revert high step. induction fuel as [|f IH]; intros high step I Hf; [destruct I as (_ & S & _); lia|]. assert (I0 := I). destruct I as (L & S & B & H & J & G & U). cbn [split_advance].
  destruct (Z.eqb_spec low high) as [E|E].
  - assert (GS : good offs step). { split; [apply U; lia|]. intros j Hj. apply J. lia. }
    assert (G' : forall k, 0 <= k < step + 1 -> good offs k). { intros k Hk. destruct (Z.eq_dec k step) as [->|]; [exact GS|apply G; lia]. }
    destruct (Z.eqb_spec (step + 1) m) as [E1|E1].
    + exists None. split; [reflexivity|]. split; [exact L|]. intros k Hk. apply G'. lia.
    + rewrite rd_ok by lia. cbn [obind]. destruct (U (step + 1) ltac:(lia)) as [U1 U2].
      assert (LH : low <= znth 0 offs (step + 1)).
      { destruct (Z.le_gt_cases low (znth 0 offs (step + 1))) as [|C]; [assumption|exfalso]. destruct (U step ltac:(lia)) as [U3 _].
        specialize (U2 (znth 0 offs (step + 1)) ltac:(lia)). specialize (J (znth 0 offs (step + 1)) ltac:(lia)). lia. }
      destruct (IH (znth 0 offs (step + 1)) (step + 1)) as (r & R1 & R2); [|lia|].
      { split; [exact L|]. split; [lia|]. split; [lia|]. split; [reflexivity|]. split; [intros j Hj; specialize (J j Hj); lia|]. split; [exact G'|]. intros k Hk. apply U. lia. }
      exists r. split; [exact R1|]. destruct r as [[h s]|]; [|exact R2]. destruct R2 as (R2 & R3 & R4 & R5). split; [exact R2|]. split; [exact R3|]. split; lia.
  - exists (Some (high, step)). split; [reflexivity|]. split; [exact I0|]. split; [lia|]. split; [lia|]. auto.
Qed.
Lemma split_loop_ok fuel offs low high step : split_inv offs low high step -> low < high -> (m - step) * (count + 1) + (high - low) < Z.of_nat fuel ->
  exists r, split_loop fuel cat l m low high step offs = Ok r /\ split_done r.
Proof.
  revert offs low high step. induction fuel as [|f IH]; intros offs low high step I LH Hf; [destruct I as (_ & S & _); exfalso; assert (0 <= (m - step) * (count + 1)) by (apply Z.mul_nonneg_nonneg; lia); lia|]. assert (I0 := I). destruct I as (L & S & B & H & J & G & U). cbn [split_loop].
  destruct (Z.leb_spec m step); [lia|]. destruct (U step ltac:(lia)) as [U1 U2]. rewrite <- H in U1, U2.
  set (guess := (low + high) / 2). assert (GB : low <= guess < high) by (unfold guess; lia). rewrite rd_ok by lia. cbn [obind]. rewrite Hcat by lia. cbn [obind].
  assert (CR := Hrange guess ltac:(lia)). destruct (Z.ltb_spec m (c guess)); [lia|]. destruct (Z.ltb_spec (c guess) step) as [C|C].
  - assert (I : split_inv offs (guess + 1) high step).
    { split; [exact L|]. split; [lia|]. split; [lia|]. split; [exact H|]. split; [|auto]. intros j Hj. specialize (Hmono j guess ltac:(lia) ltac:(lia)). lia. }
    destruct (advance_ok (Z.to_nat m + 1) _ _ _ _ I ltac:(lia)) as (r & R1 & R2). rewrite R1. cbn [obind]. destruct r as [[h s]|]; [|exists offs; auto].
    destruct R2 as (R2 & R3 & R4 & R5). apply IH; [exact R2|exact R3|]. destruct (Z.eq_dec s step) as [->|NE]; [rewrite R5 by reflexivity; lia|].
    destruct R2 as (_ & S2 & _ & H2 & _ & _ & U3). destruct (U3 s ltac:(lia)) as [U4 _]. rewrite <- H2 in U4. assert (MM := Z.mul_le_mono_nonneg_r (m - s) (m - step - 1) (count + 1) ltac:(lia) ltac:(lia)). assert (ME : (m - step - 1) * (count + 1) = (m - step) * (count + 1) - (count + 1)) by ring. lia.
  - set (offs' := fill offs step (c guess + 1) guess).
    assert (AT : forall k, 0 <= k <= m -> znth 0 offs' k = if (step <=? k) && (k <? c guess + 1) then guess else znth 0 offs k). { intros k Hk. apply fill_at. lia. }
    assert (I : split_inv offs' low guess step).
    { split; [unfold offs'; rewrite fill_len; exact L|]. split; [lia|]. split; [lia|].
      split; [rewrite AT by lia; rewrite (proj2 (Z.leb_le step step)), (proj2 (Z.ltb_lt step (c guess + 1))) by lia; reflexivity|].
      split; [exact J|]. split.
      - intros k Hk. specialize (G k Hk). unfold good, upper in *. rewrite AT by lia. rewrite (proj2 (Z.leb_gt step k)) by lia. exact G.
      - intros k Hk. specialize (U k Hk). unfold upper in *. rewrite AT by lia. rewrite (proj2 (Z.leb_le step k)) by lia. cbn [andb]. destruct (Z.ltb_spec k (c guess + 1)); [|exact U].
        split; [lia|]. intros j Hj. specialize (Hmono guess j ltac:(lia) ltac:(lia)). lia. }
    destruct (advance_ok (Z.to_nat m + 1) _ _ _ _ I ltac:(lia)) as (r & R1 & R2). rewrite R1. cbn [obind]. destruct r as [[h s]|]; [|exists offs'; auto].
    destruct R2 as (R2 & R3 & R4 & R5). apply IH; [exact R2|exact R3|]. destruct (Z.eq_dec s step) as [->|NE]; [rewrite R5 by reflexivity; lia|].
    destruct R2 as (_ & S2 & _ & H2 & _ & _ & U3). destruct (U3 s ltac:(lia)) as [U4 _]. rewrite <- H2 in U4. assert (MM := Z.mul_le_mono_nonneg_r (m - s) (m - step - 1) (count + 1) ltac:(lia) ltac:(lia)). assert (ME : (m - step - 1) * (count + 1) = (m - step) * (count + 1) - (count + 1)) by ring. lia.
Qed.
Lemma vector_split_ok : exists r, vector_split cat l (m + 1) = Ok r /\ split_done r.
Proof.
  unfold vector_split. destruct (Z.eqb_spec count 0); [lia|]. destruct (Z.leb_spec (m + 1) 0); [lia|]. replace (m + 1 - 1) with m by lia.
  set (offs := 0 :: repeat count (Z.to_nat m)). assert (L : zlen offs = m + 1) by (unfold offs, zlen; cbn [length]; rewrite repeat_length; lia).
  assert (A0 : znth 0 offs 0 = 0) by reflexivity. assert (A1 : forall k, 1 <= k <= m -> znth 0 offs k = count).
  { intros k Hk. unfold znth, offs. replace (Z.to_nat k) with (S (Z.to_nat (k - 1))) by lia. cbn [nth]. apply (nth_error_nth (repeat count (Z.to_nat m))). apply nth_error_repeat. lia. }
  assert (G0 : good offs 0). { unfold good, upper. rewrite A0. split; [split; [lia|]|intros; lia]. intros j Hj. apply Hrange. lia. }
  destruct (Z.leb_spec m 1).
  - exists offs. split; [reflexivity|]. split; [exact L|]. intros k Hk. replace k with 0 by lia. exact G0.
  - apply split_loop_ok; [|lia|assert (ME : (count + 1) * (m + 1) = (m - 1) * (count + 1) + 2 * (count + 1)) by ring; rewrite ME; assert (0 <= (m - 1) * (count + 1)) by (apply Z.mul_nonneg_nonneg; lia); lia]. split; [exact L|]. split; [lia|]. split; [lia|]. split; [rewrite A1 by lia; reflexivity|]. split; [intros; lia|]. split.
    + intros k Hk. replace k with 0 by lia. exact G0.
    + intros k Hk. unfold upper. rewrite A1 by lia. split; [lia|]. intros; lia.
Qed.
End split.

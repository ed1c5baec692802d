(** sc_array_split computes the offsets of the types. *)
From Verif Require Import Prelude PathSpec SchemeModel SchemeProofs SearchModel.

Lemma nth_error_skipn' {A} (l : list A) n i : nth_error (skipn n l) i = nth_error l (n + i).
Proof. revert l. induction n as [|n IH]; intros l; [reflexivity|]. destruct l as [|a l]; cbn; [now destruct i|apply IH]. Qed.
Lemma nth_error_firstn' {A} (l : list A) n i : (i < n)%nat -> nth_error (firstn n l) i = nth_error l i.
Proof. revert l i. induction n as [|n IH]; intros l i Hi; [lia|]. destruct l as [|a l]; [reflexivity|]. destruct i as [|i]; [reflexivity|]. cbn. apply IH. lia. Qed.
Lemma nth_error_repeat' {A} (a : A) n i : (i < n)%nat -> nth_error (repeat a n) i = Some a.
Proof. revert i. induction n as [|n IH]; intros i Hi; [lia|]. destruct i as [|i]; [reflexivity|]. cbn. apply IH. lia. Qed.

Lemma write_offsets_spec offs step type guess i : 0 <= step <= type -> type < zlen offs ->
  nth_error (write_offsets offs step type guess) i =
  (if (step <=? Z.of_nat i) && (Z.of_nat i <=? type) then Some guess else nth_error offs i) /\
  length (write_offsets offs step type guess) = length offs.
Proof.
  intros Hs Ht. unfold zlen in Ht. unfold write_offsets. split.
  - destruct (Z.ltb_spec (Z.of_nat i) step).
    + rewrite nth_error_app1 by (rewrite firstn_length; lia). rewrite nth_error_firstn' by lia.
      destruct (Z.leb_spec step (Z.of_nat i)); [lia|]. reflexivity.
    + rewrite nth_error_app2 by (rewrite firstn_length; lia). rewrite firstn_length. replace (Nat.min (Z.to_nat step) (length offs)) with (Z.to_nat step) by lia.
      destruct (Z.leb_spec (Z.of_nat i) type).
      * rewrite nth_error_app1 by (rewrite repeat_length; lia). rewrite nth_error_repeat' by lia.
        destruct (Z.leb_spec step (Z.of_nat i)); [|lia]. reflexivity.
      * rewrite nth_error_app2 by (rewrite repeat_length; lia). rewrite repeat_length, nth_error_skipn'.
        destruct (Z.leb_spec step (Z.of_nat i)); [|lia]. cbn [andb]. f_equal. lia.
  - rewrite !app_length, firstn_length, repeat_length, skipn_length. lia.
Qed.

Section split.
Variable ty : Z -> outcome Z.
Variable t : Z -> Z.
Variables num count : Z.
Hypothesis Hnum : 1 <= num.
Hypothesis Hcount : 0 <= count.
Hypothesis Hty : forall k, 0 <= k < count -> ty k = Ok (t k) /\ 0 <= t k < num.
Hypothesis Hmono : forall k j, 0 <= k <= j -> j < count -> t k <= t j.

Definition offsets_ok (offs : list Z) : Prop :=
  zlen offs = num + 1 /\
  forall i o, nth_error offs i = Some o -> 0 <= o <= count /\ forall k, 0 <= k < count -> (k < o <-> t k < Z.of_nat i).

Record inv (offs : list Z) (low high step : Z) : Prop := {
  i_len : zlen offs = num + 1;
  i_step : 1 <= step < num;
  i_low : 0 <= low <= high;
  i_high : nth_error offs (Z.to_nat step) = Some high;
  i_last : nth_error offs (Z.to_nat num) = Some count;
  i_upper : forall i o, nth_error offs i = Some o -> 0 <= o <= count /\ forall k, o <= k < count -> Z.of_nat i <= t k;
  i_final : forall i o, nth_error offs i = Some o -> Z.of_nat i < step -> forall k, 0 <= k < o -> t k < Z.of_nat i;
  i_below : forall k, 0 <= k < low -> t k < step
}.

Lemma advance_spec fuel offs low step high : inv offs low high step -> (Z.to_nat (num - step) < fuel)%nat ->
  (split_advance num fuel offs low step high = Ok None /\ offsets_ok offs) \/
  (exists step' high', split_advance num fuel offs low step high = Ok (Some (step', high')) /\ inv offs low high' step' /\ low < high' /\
     (step' = step /\ high' = high \/ step < step')).
Proof.
  revert step high. induction fuel as [|fuel IH]; intros step high I Hf; [lia|]. cbn [split_advance].
  destruct (Z.eqb_spec low high) as [E|E].
  2:{ right. exists step, high. split; [reflexivity|]. split; [exact I|]. destruct I. split; [lia|auto]. }
  destruct I as [I1 I2 I3 I4 I5 I6 I7 I8].
  destruct (nth_error offs (Z.to_nat (step + 1))) as [h|] eqn:N.
  2:{ apply nth_error_None in N. unfold zlen in I1. lia. }
  assert (F : forall i o, nth_error offs i = Some o -> Z.of_nat i < step + 1 -> forall k, 0 <= k < o -> t k < Z.of_nat i).
  { intros i o Hi Hlt k Hk. destruct (Z.eq_dec (Z.of_nat i) step) as [Q|Q]; [|apply (I7 i o); auto; lia].
    assert (Z.to_nat step = i) by lia. subst i. rewrite I4 in Hi. injection Hi as <-. rewrite Q. apply I8. lia. }
  destruct (Z.eqb_spec (step + 1) num) as [D|D].
  - left. split; [reflexivity|]. split; [exact I1|]. intros i o Hi. destruct (I6 i o Hi) as [B U]. split; [exact B|].
    intros k Hk. split.
    + intros Hlt. destruct (Z.eq_dec (Z.of_nat i) num) as [Q|Q]; [rewrite Q; apply Hty; lia|].
      apply (F i o Hi); [|lia]. assert (L : (i < length offs)%nat) by (apply nth_error_Some; congruence). unfold zlen in I1. lia.
    + intros Hlt. destruct (Z.lt_ge_cases k o) as [C|C]; [exact C|]. specialize (U k ltac:(lia)). lia.
  - assert (Hlow : low <= h).
    { destruct (Z.le_gt_cases low h) as [C|C]; [exact C|]. destruct (I6 _ _ N) as [B U]. assert (low <= count) by (destruct (I6 _ _ I4); lia).
      specialize (U h ltac:(lia)). specialize (I8 h ltac:(lia)). lia. }
    assert (I' : inv offs low h (step + 1)).
    { split; auto; try lia. intros k Hk. specialize (I8 k Hk). lia. }
    destruct (IH _ _ I' ltac:(lia)) as [R|(s & h' & R1 & R2 & R3 & R4)]; [now left|]. right. exists s, h'. repeat (split; auto). right. lia.
Qed.

Lemma split_loop_spec fuel offs low high step : inv offs low high step -> low < high ->
  (Z.to_nat ((num - step) * (count + 1) + (high - low)) < fuel)%nat ->
  exists r, split_loop ty num fuel offs low high step = Ok r /\ offsets_ok r.
Proof.
  revert offs low high step. induction fuel as [|fuel IH]; intros offs low high step I Hlt Hf; [lia|]. cbn [split_loop].
  set (guess := low + Z.quot (high - low) 2).
  assert (G : low <= guess < high).
  { unfold guess. rewrite Z.quot_div_nonneg by (destruct I; lia). lia. }
  assert (HC : high <= count) by (destruct (i_upper I (i_high I)); lia).
  assert (L0 := i_low I). destruct (@Hty guess ltac:(lia)) as [-> T]. cbn [obind].
  assert (C : (t guess <? 0) || (num <=? t guess) = false) by lia. rewrite C. clear C.
  set (st3 := if t guess <? step then (offs, guess + 1, high) else (write_offsets offs step (t guess) guess, low, guess)).
  assert (I' : exists o l h, st3 = (o, l, h) /\ inv o l h step /\ h - l < high - low).
  { unfold st3. destruct I as [I1 I2 I3 I4 I5 I6 I7 I8]. destruct (Z.ltb_spec (t guess) step) as [C|C].
    - exists offs, (guess + 1), high. split; [reflexivity|]. split; [|lia]. split; auto; try lia. intros k Hk.
      assert (t k <= t guess) by (apply Hmono; lia). lia.
    - exists (write_offsets offs step (t guess) guess), low, guess. split; [reflexivity|]. split; [|lia].
      assert (W : forall i, nth_error (write_offsets offs step (t guess) guess) i =
        (if (step <=? Z.of_nat i) && (Z.of_nat i <=? t guess) then Some guess else nth_error offs i)).
      { intros i. apply write_offsets_spec; lia. }
      assert (WL : length (write_offsets offs step (t guess) guess) = length offs) by (apply (@write_offsets_spec offs step (t guess) guess 0%nat); lia).
      split; try lia.
      + unfold zlen in *. now rewrite WL.
      + rewrite W. replace ((step <=? Z.of_nat (Z.to_nat step)) && (Z.of_nat (Z.to_nat step) <=? t guess)) with true by lia. reflexivity.
      + rewrite W. replace ((step <=? Z.of_nat (Z.to_nat num)) && (Z.of_nat (Z.to_nat num) <=? t guess)) with false by lia. exact I5.
      + intros i o Hi. rewrite W in Hi. destruct ((step <=? Z.of_nat i) && (Z.of_nat i <=? t guess)) eqn:D; [|apply (I6 i o Hi)].
        injection Hi as <-. split; [lia|]. intros k Hk. assert (t guess <= t k) by (apply Hmono; lia). lia.
      + intros i o Hi Hlt' k Hk. rewrite W in Hi. destruct ((step <=? Z.of_nat i) && (Z.of_nat i <=? t guess)) eqn:D; [lia|]. now apply (I7 i o Hi).
      + exact I8. }
  destruct I' as (o & l & h & -> & I' & Hd). cbn [obind].
  assert (Hs := i_step I').
  destruct (@advance_spec (S (Z.to_nat num)) _ _ _ _ I' ltac:(lia)) as [[-> R]|(s & h' & -> & R2 & R3 & R4)]; cbn [obind].
  - exists o. split; auto.
  - apply IH; [exact R2|exact R3|]. assert (Hs' := i_step R2). destruct (i_upper R2 (i_high R2)) as [B _]. assert (L' := i_low R2). assert (L'' := i_low I').
    destruct R4 as [[-> ->]|R4]; [nia|]. nia.
Qed.

Theorem split_spec : exists r, sc_array_split ty num count = Ok r /\ offsets_ok r.
Proof.
  unfold sc_array_split. set (offs := 0 :: repeat count (Z.to_nat num)).
  assert (L : zlen offs = num + 1) by (unfold offs, zlen; cbn [length]; rewrite repeat_length; lia).
  assert (N : forall i o, nth_error offs i = Some o -> (i = 0%nat /\ o = 0) \/ (0 < i)%nat /\ o = count).
  { intros i o Hi. destruct i as [|i]; cbn in Hi; [injection Hi as <-; auto|]. right. split; [lia|].
    apply nth_error_In, repeat_spec in Hi. exact Hi. }
  destruct ((count =? 0) || (num <=? 1)) eqn:C.
  - exists offs. split; [reflexivity|]. split; [exact L|]. intros i o Hi. destruct (N i o Hi) as [[-> ->]|[Hp ->]].
    + split; [lia|]. intros k Hk. destruct (Hty Hk). lia.
    + split; [lia|]. intros k Hk. destruct (Hty Hk). lia.
  - apply split_loop_spec.
    + split; try lia.
      * unfold offs. change (nth_error (repeat count (Z.to_nat num)) 0 = Some count). apply nth_error_repeat'. lia.
      * unfold offs. replace (Z.to_nat num) with (S (Z.to_nat (num - 1))) by lia. cbn [nth_error]. apply nth_error_repeat'. lia.
      * intros i o Hi. destruct (N i o Hi) as [[-> ->]|[Hp ->]]; (split; [lia|]); intros k Hk; [|lia]. destruct (@Hty k ltac:(lia)). lia.
      * intros i o Hi Hlt k Hk. destruct (N i o Hi) as [[-> ->]|[Hp ->]]; lia.
    + lia.
    + nia.
Qed.
End split.

(** Proofs about who sends which tree to whom when the coarse mesh is repartitioned. *)
From Verif Require Import Prelude OffsetModel OffsetSpec OffsetProofs.
From Coq Require Import Sorted.

Section Send.
Variables (P K : Z) (of ot : list Z).
Hypothesis Vf : valid_table P K of.
Hypothesis Vt : valid_table P K ot.
Let E p := end_before (entry of p).
Let F p := first_tree_of (entry of p).

Lemma owner_treerange o p t : valid_table P K o -> owner P o p t -> 0 <= t < K.
Proof.
  intros V [Hb Ho]. unfold owns in Ho.
  assert (end_before (entry o (p + 1)) <= end_before (entry o P)) by (apply (E_mono V); lia).
  rewrite (EP V) in *. unfold first_tree_of in Ho. destruct (entry o p <? 0) eqn:?; [lia|].
  assert (end_before (entry o 0) <= end_before (entry o p)) by (apply (E_mono V); lia).
  rewrite (E0 V) in *. unfold end_before in *. rewrite Heqb in *. lia.
Qed.

Lemma sends_iff a b t : 0 <= a < P -> 0 <= b < P ->
  t8_offset_sendstree a b t of ot = true <->
  (owner P of a t /\ owner P ot b t /\ (a = b \/ (home P of a t /\ ~ owner P of b t))).
Proof.
  intros Ha Hb. unfold t8_offset_sendstree.
  destruct (t8_offset_in_range t a of) eqn:H1; cbn [negb].
  2:{ apply in_range_false in H1. split; [discriminate|]. intros [[_ H] _]. contradiction. }
  destruct (t8_offset_in_range t b ot) eqn:H2; cbn [negb].
  2:{ apply in_range_false in H2. split; [discriminate|]. intros (_ & [_ H] & _). contradiction. }
  apply in_range_iff in H1, H2.
  assert (Ho1 : owner P of a t) by (split; assumption).
  assert (Ho2 : owner P ot b t) by (split; assumption).
  destruct (a =? b) eqn:Hab; cbn [negb].
  { rewrite !andb_false_r. cbn [andb]. split; [|reflexivity]. intros _. split; [exact Ho1|]. split; [exact Ho2|]. left; lia. }
  rewrite andb_true_r. cbn [andb]. rewrite !first_eq. change (ent of a) with (entry of a). fold (F a) (F b).
  destruct (negb (t8_offset_empty b of) && (t =? F b)) eqn:H3.
  - split; [discriminate|]. intros (_ & _ & [H|[Hh Hn]]); [lia|]. exfalso. apply Hn.
    apply andb_prop in H3. destruct H3 as [H3 H4]. apply negb_true_iff, empty_false in H3.
    split; [exact Hb|]. rewrite empty_ineq in H3. unfold owns. fold (F b) in *. lia.
  - assert (HFE := FE of a). cbv beta zeta in HFE. fold (F a) (E a) in HFE. unfold owns in H1. fold (F a) (E (a+1)) in H1.
    destruct ((t =? F a) && (entry of a <? 0)) eqn:H4.
    + split; [discriminate|]. intros (_ & _ & [H|[[_ Hh] Hn]]); [lia|].
      fold (E a) (E (a+1)) in Hh. destruct (entry of a <? 0); lia.
    + split; [|reflexivity]. intros _. split; [exact Ho1|]. split; [exact Ho2|]. right.
      assert (Hh : home P of a t).
      { split; [exact Ha|]. fold (E a) (E (a+1)). destruct (entry of a <? 0); lia. }
      split; [exact Hh|]. intros Hob. destruct (owner_cases Vf Hh Hob) as [->|(Hlt & Hs & HE)]; [lia|].
      assert (HFb := FE of b). cbv beta zeta in HFb. fold (F b) (E b) in HFb, HE. replace (entry of b <? 0) with true in HFb by lia.
      assert (t8_offset_empty b of = false) as Hne.
      { apply empty_false. exact (owner_nonempty Hob). }
      rewrite Hne in H3. cbn [negb] in H3. lia.
Qed.

Theorem unique_sender b t : owner P ot b t ->
  exists a, (0 <= a < P /\ t8_offset_sendstree a b t of ot = true) /\
            forall a', 0 <= a' < P -> t8_offset_sendstree a' b t of ot = true -> a' = a.
Proof.
  intros Hb. pose proof Hb as [Hbb _]. pose proof (owner_treerange Vt Hb) as Ht.
  destruct (home_exists Vf Ht) as [h Hh]. pose proof (home_owner Hh) as Hho. pose proof Hh as [Hhb _].
  destruct (owns_dec of b t) as [Hy|Hn].
  - exists b. split.
    + split; [exact Hbb|]. apply sends_iff; auto. split; [split; assumption|]. split; [exact Hb|]. now left.
    + intros a Ha Hs. apply sends_iff in Hs; auto. destruct Hs as (_ & _ & [->|[_ Hc]]); [reflexivity|].
      exfalso. apply Hc. split; assumption.
  - exists h. split.
    + split; [exact Hhb|]. apply sends_iff; auto. split; [exact Hho|]. split; [exact Hb|]. right.
      split; [exact Hh|]. intros [_ Hc]. contradiction.
    + intros a Ha Hs. apply sends_iff in Hs; auto. destruct Hs as (Hoa & _ & [->|[Hha Hc]]).
      * destruct Hoa as [_ Hoa]. contradiction.
      * destruct (owner_cases Vf Hh (home_owner Hha)) as [He|(Hlt & _)]; [exact He|].
        destruct (owner_cases Vf Hha Hho) as [He|(Hlt' & _)]; lia.
Qed.

Theorem sendsto_iff a b : 0 <= a < P -> 0 <= b < P ->
  t8_offset_sendsto a b of ot = true <-> exists t, t8_offset_sendstree a b t of ot = true.
Proof.
  intros Ha Hb.
  assert (Hrel : (a = b /\ F a = F b /\ E a = E b /\ E (a+1) = E (b+1) /\ entry of a = entry of b) \/ (a < b /\ E (a + 1) <= E b) \/ (b < a /\ E (b + 1) <= E a)).
  { destruct (Z.lt_trichotomy a b) as [H|[H|H]]; [right; left|left; subst b; repeat split; reflexivity|right; right]; split; try lia;
      apply (E_mono Vf); lia. }
  assert (HFa := FE of a). assert (HFb := FE of b). cbv beta zeta in HFa, HFb. fold (F a) (F b) (E a) (E b) in HFa, HFb.
  pose proof (step Vf Ha) as [Sa1 Sa2]. pose proof (step Vf Hb) as [Sb1 Sb2].
  pose proof (step Vt Hb) as [Tb1 Tb2].
  fold (F a) (E (a+1)) in *. fold (F b) (E (b+1)) in *.
  set (G := first_tree_of (entry ot b)) in *. set (H := end_before (entry ot (b + 1))) in *.
  assert (Eqst : forall t, t8_offset_sendstree a b t of ot =
    ((F a <=? t) && (t <=? E (a + 1) - 1) && ((G <=? t) && (t <=? H - 1)) &&
     negb (negb (E (b+1) - F b <=? 0) && (t =? F b) && negb (a =? b)) &&
     negb (negb (a =? b) && (t =? F a) && (entry of a <? 0)))).
  { intros t. unfold t8_offset_sendstree, t8_offset_in_range, t8_offset_empty. rewrite !first_eq, !last_eq, !num_eq. change ent with entry.
    fold (F a) (F b) (E (a+1)) (E (b+1)) G H.
    destruct ((F a <=? t) && (t <=? E (a + 1) - 1)); cbn [negb andb]; [|reflexivity].
    destruct ((G <=? t) && (t <=? H - 1)); cbn [negb andb]; [|reflexivity].
    destruct (negb (E (b + 1) - F b <=? 0) && (t =? F b) && negb (a =? b)); cbn [negb andb]; [reflexivity|].
    destruct (negb (a =? b) && (t =? F a) && (entry of a <? 0)); reflexivity. }
  unfold t8_offset_sendsto, t8_offset_empty, t8_offset_in_range. rewrite !first_eq, !last_eq, !num_eq. change ent with entry.
  fold (F a) (F b) (E (a+1)) (E (b+1)) G H.
  destruct ((E (a + 1) - F a <=? 0) || (H - G <=? 0)) eqn:H0.
  { split; [discriminate|]. intros [t Ht]. rewrite Eqst in Ht. lia. }
  destruct ((entry of b <? 0) && ((G <=? F b) && (F b <=? H - 1)) && negb (E (b + 1) - F b <=? 0)) eqn:Hk.
  - (* b keeps its first, shared, tree *)
    destruct (a =? b) eqn:Hab; cbn [andb].
    + split; [|reflexivity]. intros _. exists (F b). rewrite Eqst.
      lia.
    + unfold b2z. destruct (entry of a <? 0) eqn:Hsa; destruct (entry of b <? 0) eqn:Hsb; try lia;
      destruct (E (a + 1) - 1 =? F b) eqn:Hl; destruct (G =? F b) eqn:Hg.
      all: split; [intros Hs|intros [t Ht]; rewrite Eqst in Ht; lia].
      all: match type of Hs with (?l <=? _) && _ && (?r <=? _) = true => exists (Z.max l r) end; rewrite Eqst; lia.
  - rewrite andb_false_r. cbn [andb]. unfold b2z.
    destruct (entry of a <? 0) eqn:Hsa; destruct (a =? b) eqn:Hab.
    all: split; [intros Hs|intros [t Ht]; rewrite Eqst in Ht; try lia].
    all: try (match type of Hs with (?l <=? _) && _ && (?r <=? _) = true => exists (Z.max l r) end; rewrite Eqst).
    all: destruct (entry of b <? 0) eqn:Hsb; try lia.
Qed.

(** ** t8_offset_nosend *)
Lemma owner_of_all t : 0 <= t < K -> exists b, owner P ot b t.
Proof. intros Ht. destruct (home_exists Vt Ht) as [h Hh]. exists h. now apply home_owner. Qed.

Lemma unshared_sent a t : home P of a t -> (forall p, owner P of p t -> p = a) ->
  exists b, 0 <= b < P /\ t8_offset_sendstree a b t of ot = true.
Proof.
  intros Hh Hu. pose proof (home_owner Hh) as Ho. pose proof Hh as [Hab _].
  destruct (owner_of_all (owner_treerange Vf Ho)) as [b Hb]. pose proof Hb as [Hbb _].
  exists b. split; [exact Hbb|]. apply sends_iff; auto. split; [exact Ho|]. split; [exact Hb|].
  destruct (Z.eq_dec a b) as [He|Hne]; [left; exact He|right]. split; [exact Hh|].
  intros Hob. apply Hne. symmetry. now apply Hu.
Qed.

Theorem nosend_iff a fuel : 0 <= a < P -> 2 * P + 3 < Z.of_nat fuel ->
  exists r, t8_offset_nosend fuel a P of ot = Ok r /\
    (r = true <-> forall b t, 0 <= b < P -> t8_offset_sendstree a b t of ot = false).
Proof.
  intros Ha Hf. unfold t8_offset_nosend.
  assert (HFa := FE of a). cbv beta zeta in HFa. fold (F a) (E a) in HFa.
  pose proof (step Vf Ha) as [Sa1 Sa2]. fold (F a) (E (a+1)) in *.
  assert (Hcontra : forall (X : Prop), (exists b t, 0 <= b < P /\ t8_offset_sendstree a b t of ot = true) ->
     (forall b t, 0 <= b < P -> t8_offset_sendstree a b t of ot = false) -> X).
  { intros X (b & t & Hb & Hs) Hall. rewrite (Hall b t Hb) in Hs. discriminate. }
  destruct (t8_offset_empty a of) eqn:He.
  { exists true. split; [reflexivity|]. split; [|reflexivity]. intros _ b t Hb.
    destruct (t8_offset_sendstree a b t of ot) eqn:Hs; [|reflexivity]. exfalso.
    apply sends_iff in Hs; auto. destruct Hs as [Ho _]. apply (owner_nonempty Ho). now apply empty_iff. }
  apply empty_false in He. rewrite empty_ineq in He. fold (F a) (E (a+1)) in He.
  rewrite num_eq. fold (F a) (E (a + 1)).
  assert (Hself : forall t, owner P of a t -> owner P ot a t -> exists b t, 0 <= b < P /\ t8_offset_sendstree a b t of ot = true).
  { intros t H1 H2. exists a, t. split; [exact Ha|]. apply sends_iff; auto. }
  assert (Hmid : forall t, E a <= t < E (a + 1) - 1 -> exists b t, 0 <= b < P /\ t8_offset_sendstree a b t of ot = true).
  { intros t Ht. assert (Hh : home P of a t) by (split; [exact Ha|]; fold (E a) (E (a+1)); lia).
    destruct (@unshared_sent a t Hh) as (b & Hb & Hs); [|exists b, t; auto].
    intros p Hp. destruct (owner_cases Vf Hh Hp) as [Heq|(Hlt & Hsh & HEp)]; [exact Heq|exfalso].
    pose proof Hp as [Hpb _]. fold (E p) in HEp.
    assert (E (a + 1) <= E p) by (apply (E_mono Vf); lia). lia. }
  destruct (E (a + 1) - F a <=? 2) eqn:Hn2.
  2:{ exists false. split; [reflexivity|]. split; [discriminate|]. apply Hcontra.
      apply (Hmid (F a + 1)). destruct (entry of a <? 0); lia. }
  rewrite first_eq. change ent with entry. fold (F a).
  destruct (t8_offset_in_range (F a) a ot) eqn:Hir.
  - (* first tree is kept *)
    apply in_range_iff in Hir. rewrite andb_false_r. cbn [andb negb orb].
    assert (Hs : exists b t, 0 <= b < P /\ t8_offset_sendstree a b t of ot = true).
    { apply (Hself (F a)); split; auto. unfold owns. fold (F a) (E (a+1)). lia. }
    destruct (E (a + 1) - F a =? 1) eqn:Hn1.
    + rewrite last_eq. fold (E (a+1)). replace (E (a + 1) - 1) with (F a) by lia.
      apply in_range_iff in Hir. rewrite Hir. exists false. split; [reflexivity|]. split; [discriminate|].
      now apply Hcontra.
    + unfold b2z. exists false. split; [f_equal; lia|]. split; [discriminate|]. now apply Hcontra.
  - apply in_range_false in Hir. rewrite andb_true_r.
    assert (Hnotfirst : entry of a < 0 -> forall b, 0 <= b < P -> t8_offset_sendstree a b (F a) of ot = false).
    { intros Hsh b Hb. destruct (t8_offset_sendstree a b (F a) of ot) eqn:Hs; [|reflexivity]. exfalso.
      apply sends_iff in Hs; auto. destruct Hs as (_ & Hob & [<-|[[_ Hh] _]]).
      - destruct Hob as [_ Hob]. contradiction.
      - fold (E a) (E (a+1)) in Hh. replace (entry of a <? 0) with true in HFa by lia. lia. }
    set (last := E (a + 1) - 1).
    assert (Hlastcase : E a <= last -> ((entry of a <? 0) = true -> E (a+1) - F a = 2) -> ((entry of a <? 0) = false -> E (a+1) - F a = 1) ->
      exists r, (if t8_offset_in_range last a ot then Ok false
        else do temp_proc <- skip_up fuel (a + 1) of;
        if (P <=? temp_proc) || negb (t8_offset_first temp_proc of =? last) then Ok false
        else
          do receivers <- t8_offset_all_owners_of_tree fuel P last ot;
          if existsb (fun r => negb (t8_offset_in_range last r of)) receivers then Ok false
          else Ok (E (a + 1) - F a - b2z (entry of a <? 0) - 1 <=? 0)) = Ok r /\
       (r = true <-> forall b t, 0 <= b < P -> t8_offset_sendstree a b t of ot = false)).
    { intros Hlast Hc1 Hc2.
      assert (Hh : home P of a last) by (split; [exact Ha|]; fold (E a) (E (a+1)); unfold last in *; lia).
      pose proof (home_owner Hh) as Hol. pose proof (owner_treerange Vf Hol) as HlK.
      destruct (t8_offset_in_range last a ot) eqn:Hkl.
      { apply in_range_iff in Hkl. exists false. split; [reflexivity|]. split; [discriminate|]. apply Hcontra.
        apply (Hself last); [exact Hol|split; assumption]. }
      apply in_range_false in Hkl.
      destruct (@skip_up_ok P K of Vf fuel (a + 1)) as (q & -> & Hq1 & Hq2 & Hq3); [lia|lia|]. cbn [obind].
      destruct ((P <=? q) || negb (t8_offset_first q of =? last)) eqn:Hqc.
      { exists false. split; [reflexivity|]. split; [discriminate|]. apply Hcontra.
        destruct (@unshared_sent a last Hh) as (b & Hb & Hs); [|exists b, last; auto].
        intros p Hp. destruct (owner_cases Vf Hh Hp) as [Heq|(Hlt & Hsh & HEp)]; [exact Heq|exfalso].
        pose proof Hp as [Hpb _].
        destruct (Z_lt_ge_dec p q) as [Hpq|Hpq].
        { apply (owner_nonempty Hp). apply Hq2. lia. }
        destruct (@between P K of Vf a last p q Hh Hp) as [Hoq|[Hnq _]]; [lia| |apply Hq3; [lia|exact Hnq]].
        destruct (owner_cases Vf Hh Hoq) as [Heq|(Hlt2 & Hsh2 & HEq)]; [lia|].
        rewrite first_eq in Hqc. assert (HFq := FE of q). cbv beta zeta in HFq. fold (F q) (E q) in *.
        replace (entry of q <? 0) with true in HFq by lia. lia. }
      destruct (all_owners_ok Vt HlK Hf) as (l & -> & _ & Hl). cbn [obind].
      destruct (existsb (fun r => negb (t8_offset_in_range last r of)) l) eqn:Hex.
      { exists false. split; [reflexivity|]. split; [discriminate|]. apply Hcontra.
        apply existsb_exists in Hex. destruct Hex as (r & Hr & Hnr). apply Hl in Hr.
        apply negb_true_iff, in_range_false in Hnr. pose proof Hr as [Hrb _].
        exists r, last. split; [exact Hrb|]. apply sends_iff; auto. split; [exact Hol|]. split; [exact Hr|]. right.
        split; [exact Hh|]. intros [_ Hc]. contradiction. }
      exists true. split.
      { f_equal. unfold b2z. destruct (entry of a <? 0); [specialize (Hc1 eq_refl)|specialize (Hc2 eq_refl)]; lia. }
      split; [|reflexivity]. intros _ b t Hb.
      destruct (t8_offset_sendstree a b t of ot) eqn:Hs; [|reflexivity]. exfalso. pose proof Hs as Hs0.
      apply sends_iff in Hs; auto. destruct Hs as ([_ Hoa] & Hob & Hcase). unfold owns in Hoa. fold (F a) (E (a+1)) in Hoa.
      assert (Htl : t = last \/ (t = F a /\ entry of a < 0)).
      { unfold last. destruct (entry of a <? 0) eqn:Hsa; [specialize (Hc1 eq_refl)|specialize (Hc2 eq_refl)]; lia. }
      destruct Htl as [->|[-> Hsh]].
      - destruct Hcase as [<-|[_ Hnb]]; [destruct Hob; contradiction|].
        apply Hl in Hob. assert (Hall : existsb (fun r => negb (t8_offset_in_range last r of)) l = true).
        { apply existsb_exists. exists b. split; [exact Hob|]. apply negb_true_iff, in_range_false.
          intros Hc. apply Hnb. split; assumption. }
        rewrite Hall in Hex. discriminate.
      - rewrite (Hnotfirst Hsh b Hb) in Hs0. discriminate. }
    rewrite last_eq. fold (E (a + 1)). fold last.
    destruct (entry of a <? 0) eqn:Hsa; cbn [negb andb orb].
    + destruct (E (a + 1) - F a =? 2) eqn:Hn; cbn [orb].
      * apply Hlastcase; [unfold last; lia|lia|discriminate].
      * exists true. split; [unfold b2z; f_equal; lia|]. split; [|reflexivity]. intros _ b t Hb.
        destruct (t8_offset_sendstree a b t of ot) eqn:Hs; [|reflexivity]. exfalso. pose proof Hs as Hs0.
        apply sends_iff in Hs; auto. destruct Hs as ([_ Hoa] & _ & _). unfold owns in Hoa. fold (F a) (E (a+1)) in Hoa.
        replace t with (F a) in Hs0 by lia. rewrite Hnotfirst in Hs0; [discriminate|lia|exact Hb].
    + destruct (E (a + 1) - F a =? 1) eqn:Hn; cbn [orb].
      * apply Hlastcase; [unfold last; lia|discriminate|lia].
      * exists false. split; [unfold b2z; f_equal; lia|]. split; [discriminate|]. apply Hcontra.
        apply (Hmid (F a)). lia.
Qed.

Theorem range_send_ok b : 0 <= b < P ->
  t8_offset_range_send 0 (P - 1) b of ot =
  zlen (filter (fun a => t8_offset_sendsto a b of ot) (zseq 0 (Z.to_nat P))).
Proof.
  intros _. unfold t8_offset_range_send. replace (P - 1 - 0 + 1) with P by lia.
  assert (Hg : forall l c, fold_left (fun count i => if t8_offset_sendsto i b of ot then count + 1 else count) l c
               = c + zlen (filter (fun a => t8_offset_sendsto a b of ot) l)).
  { induction l as [|x l IH]; intros c; cbn [fold_left filter]; [unfold zlen; simpl; lia|].
    rewrite IH. destruct (t8_offset_sendsto x b of ot); unfold zlen; cbn [length]; lia. }
  apply Hg.
Qed.

End Send.

(** ** t8_offset_consistent accepts exactly the valid tables *)
Section Consistent.
Variables (P K : Z) (o : list Z).
Hypothesis HP : 1 <= P.
Hypothesis HL : length o = Z.to_nat (P + 1).
Hypothesis HK : 0 <= K.
Let E p := end_before (entry o p).
Let F p := first_tree_of (entry o p).

Lemma E_nonneg p : 0 <= E p.
Proof. unfold E, end_before. destruct (entry o p <? 0) eqn:?; lia. Qed.

Lemma consistent_loop_sound n : forall i last ret,
  1 <= i -> i + Z.of_nat n = P ->
  last = E i - 1 ->
  consistent_loop n i last ret K o = Ok true ->
  ret = true /\ forall p, i <= p < P -> F p <= E (p + 1) /\ (no_trees o p -> ~ shared_entry (entry o p)).
Proof.
  induction n as [|n IH]; intros i last ret Hi Hn Hlast H; cbn [consistent_loop] in H.
  - inversion H; subst. split; [reflexivity|]. intros p Hp. lia.
  - destruct ret; [|discriminate].
    unfold num_trees_assert in H. rewrite num_eq in H. fold (F i) (E (i + 1)) in H.
    destruct (0 <=? E (i + 1) - F i) eqn:Ha; cbn [negb] in H; [|discriminate].
    destruct (t8_offset_empty i o) eqn:He.
    + pose proof He as He'. apply empty_iff in He. pose proof (proj1 (empty_ineq o i) He) as Hei. fold (F i) (E (i+1)) in Hei.
      assert (H0 : (0 <=? ent o i) = true).
      { destruct (0 <=? ent o i) eqn:H0; [reflexivity|]. destruct n; cbn [consistent_loop] in H; discriminate. }
      assert (HFi := FE o i). cbv beta zeta in HFi. fold (F i) (E i) in HFi. change ent with entry in H0.
      replace (entry o i <? 0) with false in HFi by lia.
      apply IH in H; try lia. destruct H as [Hr Hp]. split; [reflexivity|]. intros p Hpp.
      destruct (Z.eq_dec p i) as [->|Hne]; [|apply Hp; lia]. split; [lia|]. unfold shared_entry. lia.
    + apply IH in H; try lia.
      * destruct H as [Hr Hp]. split; [reflexivity|]. intros p Hpp.
        destruct (Z.eq_dec p i) as [->|Hne]; [|apply Hp; lia]. split; [lia|]. apply empty_false in He. contradiction.
      * rewrite last_eq. reflexivity.
Qed.

Lemma consistent_loop_complete n : valid_table P K o -> forall i last,
  1 <= i -> i + Z.of_nat n = P -> last = E i - 1 ->
  consistent_loop n i last true K o = Ok true.
Proof.
  intros V. induction n as [|n IH]; intros i last Hi Hn Hlast; cbn [consistent_loop]; [reflexivity|].
  pose proof (step V (p:=i)) as [S1 S2]; [lia|]. fold (F i) (E (i+1)) in S1, S2.
  unfold num_trees_assert. rewrite num_eq. fold (F i) (E (i + 1)).
  replace (0 <=? E (i + 1) - F i) with true by lia. cbn [negb].
  assert (HFi := FE o i). cbv beta zeta in HFi. fold (F i) (E i) in HFi.
  destruct (t8_offset_empty i o) eqn:He.
  - apply empty_iff, empty_ineq in He. fold (F i) (E (i+1)) in He. change ent with entry.
    replace (0 <=? entry o i) with true by lia. replace (entry o i <? 0) with false in HFi by lia.
    apply IH; lia.
  - rewrite first_eq, last_eq. change ent with entry. fold (F i) (E (i+1)).
    assert (E (i + 1) <= E P) by (apply (E_mono V); lia). unfold E in H at 2. rewrite (EP V) in H.
    destruct (entry o i <? 0) eqn:Hs.
    + replace ((F i =? last) && (E (i + 1) - 1 <=? K)) with true by lia. apply IH; lia.
    + replace ((last <? F i) && (E (i + 1) - 1 <=? K)) with true by lia. apply IH; lia.
Qed.

Theorem consistent_iff : t8_offset_consistent P o K = Ok true <-> valid_table P K o.
Proof.
  unfold t8_offset_consistent. rewrite last_eq. replace (0 + 1) with 1 by lia. fold (E 1). split.
  - intros H.
    destruct (consistent_loop (Z.to_nat (P - 1)) 1 (E 1 - 1) (ent o 0 =? 0) K o) as [r| | |] eqn:Hl; cbn [obind] in H; try discriminate.
    inversion H as [Hr]. apply andb_prop in Hr. destruct Hr as [-> HKp].
    apply consistent_loop_sound in Hl; try lia. destruct Hl as [H0 Hp]. change ent with entry in *.
    split; [lia|]. split; [exact HL|]. split; [lia|]. split; [lia|]. split; [lia|].
    intros p Hpp. destruct (Z.eq_dec p 0) as [->|Hne]; [|apply Hp; lia].
    split; [|unfold shared_entry; lia].
    pose proof (@E_nonneg 1) as HE1. replace (0 + 1) with 1 by lia. unfold E in HE1.
    unfold first_tree_of. replace (entry o 0 <? 0) with false by lia. lia.
  - intros V. change ent with entry. pose proof V as (_ & _ & H0 & HKp & _ & _).
    replace (entry o 0 =? 0) with true by lia.
    rewrite consistent_loop_complete; auto; try lia. cbn [obind]. change ent with entry. f_equal. lia.
Qed.
End Consistent.

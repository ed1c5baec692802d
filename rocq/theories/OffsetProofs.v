(** Proofs about the partition table model. *)
From Verif Require Import Prelude OffsetModel OffsetSpec.
From Coq Require Import Sorted.

Lemma ent_entry o p : ent o p = entry o p.
Proof. reflexivity. Qed.

Lemma first_eq o p : t8_offset_first p o = first_tree_of (entry o p).
Proof. unfold t8_offset_first, t8_glo_kl0, first_tree_of. rewrite ent_entry. destruct (entry o p <? 0) eqn:H; lia. Qed.
Lemma abs_eq o p : Z.abs (ent o p) = end_before (entry o p).
Proof. unfold end_before. rewrite ent_entry. destruct (entry o p <? 0) eqn:H; lia. Qed.
Lemma last_eq o p : t8_offset_last p o = end_before (entry o (p + 1)) - 1.
Proof. unfold t8_offset_last. now rewrite abs_eq. Qed.
Lemma num_eq o p : t8_offset_num_trees p o = end_before (entry o (p + 1)) - first_tree_of (entry o p).
Proof. unfold t8_offset_num_trees. now rewrite abs_eq, first_eq. Qed.
Lemma in_range_iff o p t : t8_offset_in_range t p o = true <-> owns o p t.
Proof. unfold t8_offset_in_range, owns. rewrite first_eq, last_eq. lia. Qed.
Lemma in_range_false o p t : t8_offset_in_range t p o = false <-> ~ owns o p t.
Proof. rewrite <- in_range_iff. destruct (t8_offset_in_range t p o); intuition discriminate. Qed.
Lemma empty_iff o p : t8_offset_empty p o = true <-> no_trees o p.
Proof.
  unfold t8_offset_empty, no_trees, owns. rewrite num_eq. split.
  - intros H t. lia.
  - intros H. specialize (H (first_tree_of (entry o p))). lia.
Qed.
Lemma empty_false o p : t8_offset_empty p o = false <-> ~ no_trees o p.
Proof. rewrite <- empty_iff. destruct (t8_offset_empty p o); intuition discriminate. Qed.
Lemma empty_ineq o p : no_trees o p <-> end_before (entry o (p + 1)) <= first_tree_of (entry o p).
Proof. rewrite <- empty_iff. unfold t8_offset_empty. rewrite num_eq. lia. Qed.

Lemma first_end e : first_tree_of e = (if e <? 0 then end_before e - 1 else end_before e).
Proof. unfold first_tree_of, end_before. destruct (e <? 0) eqn:H; lia. Qed.

Section Table.
Variables (P K : Z) (o : list Z).
Hypothesis V : valid_table P K o.
Let E p := end_before (entry o p).
Let F p := first_tree_of (entry o p).

Lemma P_pos : 1 <= P. Proof. apply V. Qed.
Lemma osize_P : osize o = P.
Proof. unfold osize, zlen. destruct V as (H & L & _). rewrite L. lia. Qed.
Lemma E0 : E 0 = 0.
Proof. unfold E. destruct V as (_ & _ & -> & _). reflexivity. Qed.
Lemma EP : E P = K.
Proof. unfold E, end_before. destruct V as (_ & _ & _ & -> & H & _). destruct (K <? 0) eqn:?; lia. Qed.
Lemma FE p : F p = (if entry o p <? 0 then E p - 1 else E p).
Proof. unfold F, E. apply first_end. Qed.
Lemma F_le p : E p - 1 <= F p <= E p.
Proof. rewrite FE. destruct (entry o p <? 0); lia. Qed.
Lemma step p : 0 <= p < P -> F p <= E (p + 1) /\ (E (p + 1) <= F p -> 0 <= entry o p).
Proof.
  intros Hp. destruct V as (_ & _ & _ & _ & _ & H). destruct (H p Hp) as [H1 H2]. split; [exact H1|].
  intros He. apply empty_ineq in He. specialize (H2 He). unfold shared_entry in H2. lia.
Qed.
Lemma E_step p : 0 <= p < P -> E p <= E (p + 1).
Proof.
  intros Hp. destruct (step Hp) as [H1 H2]. pose proof (FE p) as HF.
  destruct (entry o p <? 0) eqn:Hs; lia.
Qed.
Lemma E_mono p q : 0 <= p -> p <= q -> q <= P -> E p <= E q.
Proof.
  intros Hp Hpq Hq.
  replace q with (p + Z.of_nat (Z.to_nat (q - p))) in * by lia.
  induction (Z.to_nat (q - p)) as [|n IH].
  - rewrite Z.add_0_r. lia.
  - assert (E (p + Z.of_nat n) <= E (p + Z.of_nat n + 1)) by (apply E_step; lia).
    replace (p + Z.of_nat (S n)) with (p + Z.of_nat n + 1) by lia.
    assert (E p <= E (p + Z.of_nat n)) by (apply IH; lia). lia.
Qed.
Lemma empty_E p : 0 <= p < P -> (no_trees o p <-> (0 <= entry o p /\ E (p + 1) = E p)).
Proof.
  intros Hp. rewrite empty_ineq. fold (E (p + 1)) (F p). destruct (step Hp) as [H1 H2].
  pose proof (FE p) as HF. destruct (entry o p <? 0) eqn:Hs; lia.
Qed.

(** the smallest owner of a tree *)
Definition home (h t : Z) := 0 <= h < P /\ E h <= t < E (h + 1).

Lemma home_exists t : 0 <= t < K -> exists h, home h t.
Proof.
  intros Ht. assert (HE : forall n, (Z.of_nat n <= P) -> t < E (Z.of_nat n) -> exists h, home h t).
  { induction n as [|n IH]; intros Hn Hlt.
    - replace (Z.of_nat 0) with 0 in * by lia. rewrite E0 in *. lia.
    - destruct (Z_lt_dec t (E (Z.of_nat n))) as [Hl|Hl].
      + apply IH; [lia|exact Hl].
      + exists (Z.of_nat n). split; [lia|]. replace (Z.of_nat n + 1) with (Z.of_nat (S n)) by lia. lia. }
  apply (HE (Z.to_nat P)); pose proof P_pos; rewrite ?Z2Nat.id by lia; [lia|]. rewrite EP. lia.
Qed.

Lemma home_owner h t : home h t -> owner P o h t.
Proof. intros [H1 H2]. split; [exact H1|]. unfold owns. fold (F h) (E (h+1)). pose proof (F_le h). lia. Qed.

Lemma owner_cases h t p : home h t -> owner P o p t -> p = h \/ (h < p /\ entry o p < 0 /\ E p = t + 1).
Proof.
  intros [Hh1 Hh2] [Hp1 Hp2]. unfold owns in Hp2. fold (F p) (E (p + 1)) in Hp2.
  pose proof (FE p) as HF.
  destruct (Z.lt_trichotomy p h) as [Hc|[Hc|Hc]].
  - assert (E (p + 1) <= E h) by (apply E_mono; lia). lia.
  - now left.
  - right. assert (E (h + 1) <= E p) by (apply E_mono; lia).
    destruct (entry o p <? 0) eqn:Hs; lia.
Qed.

Lemma between h t p r : home h t -> owner P o p t -> h <= r <= p -> owner P o r t \/ (no_trees o r /\ r <> h).
Proof.
  intros Hh Hp Hr. destruct (owner_cases Hh Hp) as [->|(Hlt & Hs & HEp)].
  - left. replace r with h by lia. exact Hp.
  - destruct (Z.eq_dec r h) as [->|Hn]; [left; now apply home_owner|].
    destruct (Z.eq_dec r p) as [->|Hn2]; [left; exact Hp|].
    destruct Hh as [Hh1 Hh2]. destruct Hp as [Hp1 _].
    assert (E (h + 1) <= E r) by (apply E_mono; lia).
    assert (E r <= E (r + 1)) by (apply E_mono; lia).
    assert (E (r + 1) <= E p) by (apply E_mono; lia).
    pose proof (FE r) as HF. destruct (entry o r <? 0) eqn:Hsr.
    + left. split; [lia|]. unfold owns. fold (F r) (E (r + 1)). lia.
    + right. split; [|exact Hn]. apply empty_ineq. fold (F r) (E (r + 1)). lia.
Qed.

(** ** t8_offset_any_owner_of_tree_ext *)
Lemma any_owner_loop_ok t h fuel : forall lo hi proc,
  home h t -> 0 <= lo -> hi < P -> lo <= h <= hi -> lo <= proc <= hi -> hi - lo < Z.of_nat fuel ->
  exists p, any_owner_loop fuel lo hi proc t o = Ok p /\ owner P o p t.
Proof.
  induction fuel as [|f IH]; intros lo hi proc Hh Hlo Hhi Hin Hpr Hf; [lia|].
  cbn [any_owner_loop]. unfold in_bounds. rewrite osize_P.
  replace (negb ((0 <=? proc) && (proc <? P))) with false by lia.
  destruct (t8_offset_in_range t proc o) eqn:Hir.
  - exists proc. split; [reflexivity|]. split; [lia|]. now apply in_range_iff.
  - apply in_range_false in Hir. unfold owns in Hir. fold (F proc) (E (proc + 1)) in Hir.
    rewrite last_eq. fold (E (proc + 1)). destruct Hh as [Hh1 Hh2].
    destruct (E (proc + 1) - 1 <? t) eqn:Hl.
    + assert (proc + 1 <= h).
      { destruct (Z_le_gt_dec (proc + 1) h) as [Hle|Hgt]; [exact Hle|exfalso].
        assert (E (h + 1) <= E (proc + 1)) by (apply E_mono; lia). lia. }
      apply IH; try lia. split; lia.
      all: rewrite Z.quot_div_nonneg by lia; lia.
    + pose proof (F_le proc).
      assert (h < proc).
      { destruct (Z_lt_ge_dec h proc) as [Hle|Hgt]; [exact Hle|exfalso].
        assert (E proc <= E h) by (apply E_mono; lia). lia. }
      apply IH; try lia. split; lia.
      all: rewrite Z.quot_div_nonneg by lia; lia.
Qed.

Theorem any_owner_ext_ok t start fuel :
  0 <= t < K -> 0 <= start < P -> P <= Z.of_nat fuel ->
  exists p, t8_offset_any_owner_of_tree_ext fuel P start t o = Ok p /\ owner P o p t.
Proof.
  intros Ht Hs Hf. destruct (home_exists Ht) as [h Hh].
  unfold t8_offset_any_owner_of_tree_ext. pose proof Hh as [Hh1 _].
  eapply any_owner_loop_ok; eauto; lia.
Qed.

Theorem any_owner_ok t fuel :
  0 <= t < K -> P <= Z.of_nat fuel ->
  exists p, t8_offset_any_owner_of_tree fuel P t o = Ok p /\ owner P o p t.
Proof.
  intros Ht Hf. apply any_owner_ext_ok; auto. pose proof P_pos.
  rewrite Z.quot_div_nonneg by lia. lia.
Qed.

(** ** skipping empty ranks *)
Lemma skip_down_ok fuel : forall p, -1 <= p < P -> p + 1 < Z.of_nat fuel ->
  exists q, skip_down fuel p o = Ok q /\ -1 <= q <= p /\ (forall r, q < r <= p -> no_trees o r) /\
            (0 <= q -> ~ no_trees o q).
Proof.
  induction fuel as [|f IH]; intros p Hp Hf; [lia|]. cbn [skip_down].
  destruct ((0 <=? p) && t8_offset_empty p o) eqn:Hc.
  - apply andb_prop in Hc. destruct Hc as [Hc1 Hc2]. apply empty_iff in Hc2.
    destruct (IH (p - 1)) as (q & Hq & H1 & H2 & H3); [lia|lia|].
    exists q. repeat split; try lia; auto.
    intros r Hr. destruct (Z.eq_dec r p) as [->|Hn]; [exact Hc2|apply H2; lia].
  - exists p. repeat split; try lia; auto.
    intros H0 He. apply empty_iff in He. rewrite He in Hc. lia.
Qed.

Lemma skip_up_ok fuel : forall p, 0 <= p <= P -> P - p < Z.of_nat fuel ->
  exists q, skip_up fuel p o = Ok q /\ p <= q <= P /\ (forall r, p <= r < q -> no_trees o r) /\
            (q < P -> ~ no_trees o q).
Proof.
  induction fuel as [|f IH]; intros p Hp Hf; [lia|]. cbn [skip_up]. rewrite osize_P.
  destruct ((p <? P) && t8_offset_empty p o) eqn:Hc.
  - apply andb_prop in Hc. destruct Hc as [Hc1 Hc2]. apply empty_iff in Hc2.
    destruct (IH (p + 1)) as (q & Hq & H1 & H2 & H3); [lia|lia|].
    exists q. repeat split; try lia; auto.
    intros r Hr. destruct (Z.eq_dec r p) as [->|Hn]; [exact Hc2|apply H2; lia].
  - exists p. repeat split; try lia; auto.
    intros H0 He. apply empty_iff in He. rewrite He in Hc. lia.
Qed.


Lemma next_nonempty_ok fuel rank : -1 <= rank < P -> P < Z.of_nat fuel ->
  exists q, t8_offset_next_nonempty_rank fuel rank o = Ok q /\ rank < q <= P /\
    (forall r, rank < r < q -> no_trees o r) /\ (q < P -> ~ no_trees o q).
Proof.
  intros Hr Hf. unfold t8_offset_next_nonempty_rank.
  assert (Heq : forall f p, next_nonempty_loop f p o = skip_up f p o).
  { induction f as [|f IH]; intros p; cbn [next_nonempty_loop skip_up]; rewrite ?IH; reflexivity. }
  rewrite Heq. destruct (@skip_up_ok fuel (rank + 1)) as (q & Hq & H1 & H2 & H3); [lia|lia|].
  exists q. repeat split; try lia; auto. intros r Hrr. apply H2. lia.
Qed.

Lemma skip_up_unguarded_ok h fuel : forall p, 0 <= p <= h -> h < P -> ~ no_trees o h ->
  (forall r, p <= r < h -> no_trees o r) -> h - p < Z.of_nat fuel ->
  skip_up_unguarded fuel p o = Ok h.
Proof.
  induction fuel as [|f IH]; intros p Hp HP Hh Hr Hf; [lia|]. cbn [skip_up_unguarded].
  unfold in_bounds. rewrite osize_P. replace (negb ((0 <=? p) && (p <? P))) with false by lia.
  destruct (t8_offset_empty p o) eqn:He.
  - apply empty_iff in He. destruct (Z.eq_dec p h) as [->|Hn]; [contradiction|].
    apply IH; try lia; auto. intros r Hrr. apply Hr. lia.
  - destruct (Z.eq_dec p h) as [->|Hn]; [reflexivity|].
    apply empty_false in He. exfalso. apply He, Hr. lia.
Qed.
Lemma skip_down_unguarded_ok h fuel : forall p, h <= p < P -> 0 <= h -> ~ no_trees o h ->
  (forall r, h < r <= p -> no_trees o r) -> p - h < Z.of_nat fuel ->
  skip_down_unguarded fuel p o = Ok h.
Proof.
  induction fuel as [|f IH]; intros p Hp HP Hh Hr Hf; [lia|]. cbn [skip_down_unguarded].
  unfold in_bounds. rewrite osize_P. replace (negb ((0 <=? p) && (p <? P))) with false by lia.
  destruct (t8_offset_empty p o) eqn:He.
  - apply empty_iff in He. destruct (Z.eq_dec p h) as [->|Hn]; [contradiction|].
    apply IH; try lia; auto. intros r Hrr. apply Hr. lia.
  - destruct (Z.eq_dec p h) as [->|Hn]; [reflexivity|].
    apply empty_false in He. exfalso. apply He, Hr. lia.
Qed.

Lemma owner_nonempty p t : owner P o p t -> ~ no_trees o p.
Proof. intros [_ H] He. exact (He t H). Qed.

(** ** first owner *)
Lemma first_owner_loop_ok t h fuel : home h t -> forall p,
  (owner P o p t \/ (-1 <= p < h /\ (forall r, p < r < h -> no_trees o r))) ->
  p + P + 3 < Z.of_nat fuel ->
  exists q, first_owner_loop fuel p t o = Ok q /\ -1 <= q < h /\ (forall r, q < r < h -> no_trees o r).
Proof.
  intros Hh. induction fuel as [|f IH]; intros p Hp Hf.
  { exfalso. pose proof P_pos as HPp. destruct Hp as [[Hq _]|[Hq _]]; lia. }
  cbn [first_owner_loop]. pose proof P_pos. pose proof Hh as [Hhb Hhe].
  destruct ((0 <=? p) && t8_offset_in_range t p o) eqn:Hc.
  - apply andb_prop in Hc. destruct Hc as [Hc1 Hc2]. apply in_range_iff in Hc2.
    assert (Hown : owner P o p t).
    { destruct Hp as [Hp|[Hp _]]; [exact Hp|]. split; [lia|exact Hc2]. }
    pose proof Hown as [Hpb _].
    assert (Hge : h <= p) by (destruct (owner_cases Hh Hown); lia).
    destruct (@skip_down_ok f (p - 1)) as (q & Hq & H1 & H2 & H3); [lia|lia|].
    rewrite Hq. cbn [obind]. apply IH; [|lia].
    destruct (Z_le_gt_dec h q) as [Hle|Hgt].
    + left. destruct (@between h t p q Hh Hown ltac:(lia)) as [H4|[H4 _]]; [exact H4|].
      exfalso. apply H3; [lia|exact H4].
    + right. split; [lia|]. intros r Hr. apply H2. lia.
  - exists p. split; [reflexivity|].
    destruct Hp as [[Hp1 Hp2]|[Hp1 Hp2]].
    + apply in_range_iff in Hp2. rewrite Hp2 in Hc. lia.
    + split; [lia|exact Hp2].
Qed.

Lemma first_owner_home t h fuel some :
  home h t -> (some < 0 \/ owner P o some t) -> 2 * P + 3 < Z.of_nat fuel ->
  t8_offset_first_owner_of_tree fuel P t o some = Ok h.
Proof.
  intros Hh Hs Hf. pose proof P_pos. pose proof Hh as [Hhb Hhe].
  assert (HtK : 0 <= t < K).
  { rewrite <- EP, <- E0. assert (E 0 <= E h) by (apply E_mono; lia).
    assert (E (h + 1) <= E P) by (apply E_mono; lia). lia. }
  unfold t8_offset_first_owner_of_tree.
  assert (Hso : exists so, (if some <? 0 then t8_offset_any_owner_of_tree fuel P t o else Ok some) = Ok so
                           /\ owner P o so t).
  { destruct (some <? 0) eqn:Hn.
    - apply any_owner_ok; [exact HtK|lia].
    - exists some. split; [reflexivity|]. destruct Hs; [lia|assumption]. }
  destruct Hso as (so & -> & Hown). cbn [obind]. pose proof Hown as [Hb _].
  replace (negb (so <? P)) with false by lia.
  destruct (@first_owner_loop_ok t h fuel Hh so) as (q & -> & H1 & H2); [left; exact Hown|lia|].
  cbn [obind]. replace (-1 <=? q) with true by lia.
  rewrite (@skip_up_unguarded_ok h fuel (q + 1)); try lia.
  - cbn [obind]. destruct (home_owner Hh) as [_ Hin]. apply in_range_iff in Hin. now rewrite Hin.
  - exact (owner_nonempty (home_owner Hh)).
  - intros r Hr. apply H2. lia.
Qed.

Theorem first_owner_ok t fuel some :
  0 <= t < K -> (some < 0 \/ owner P o some t) -> 2 * P + 3 < Z.of_nat fuel ->
  exists p, t8_offset_first_owner_of_tree fuel P t o some = Ok p /\ owner P o p t /\
            (forall q, owner P o q t -> p <= q).
Proof.
  intros Ht Hs Hf. destruct (home_exists Ht) as [h Hh].
  exists h. split; [now apply first_owner_home|]. split; [now apply home_owner|].
  intros q Hq. destruct (owner_cases Hh Hq); lia.
Qed.

(** ** last owner *)
Lemma last_owner_loop_ok t h l fuel : home h t -> owner P o l t -> (forall q, owner P o q t -> q <= l) -> forall p,
  (owner P o p t \/ (l < p <= P /\ (forall r, l < r < p -> no_trees o r) /\ (p < P -> ~ no_trees o p))) ->
  2 * P - p + 3 < Z.of_nat fuel ->
  exists q, last_owner_loop fuel p t o = Ok q /\ l < q <= P /\ (forall r, l < r < q -> no_trees o r).
Proof.
  intros Hh Hl Hmax. induction fuel as [|f IH]; intros p Hp Hf.
  { exfalso. pose proof P_pos as HPp. destruct Hp as [[Hq _]|[Hq _]]; lia. }
  cbn [last_owner_loop]. rewrite osize_P. pose proof P_pos. pose proof Hl as [Hlb _].
  destruct ((p <? P) && t8_offset_in_range t p o) eqn:Hc.
  - apply andb_prop in Hc. destruct Hc as [Hc1 Hc2]. apply in_range_iff in Hc2.
    assert (Hown : owner P o p t).
    { destruct Hp as [Hp|[Hp _]]; [exact Hp|]. split; [lia|exact Hc2]. }
    pose proof Hown as [Hpb _]. pose proof (Hmax _ Hown) as Hpl.
    destruct (@skip_up_ok f (p + 1)) as (q & Hq & H1 & H2 & H3); [lia|lia|].
    rewrite Hq. cbn [obind]. apply IH; [|lia].
    destruct (Z_le_gt_dec q l) as [Hle|Hgt].
    + left. assert (h <= p) by (destruct (owner_cases Hh Hown); lia).
      destruct (@between h t l q Hh Hl ltac:(lia)) as [H4|[H4 _]]; [exact H4|].
      exfalso. apply H3; [lia|exact H4].
    + right. split; [lia|]. split; [|exact H3]. intros r Hr. apply H2. lia.
  - exists p. split; [reflexivity|].
    destruct Hp as [[Hp1 Hp2]|[Hp1 Hp2]].
    + apply in_range_iff in Hp2. rewrite Hp2 in Hc. lia.
    + split; [lia|apply Hp2].
Qed.

Lemma owns_dec p t : {owns o p t} + {~ owns o p t}.
Proof. destruct (t8_offset_in_range t p o) eqn:H; [left; now apply in_range_iff|right; now apply in_range_false]. Qed.

Lemma max_owner_exists t : 0 <= t < K -> exists l, owner P o l t /\ (forall q, owner P o q t -> q <= l).
Proof.
  intros Ht. destruct (home_exists Ht) as [h Hh]. pose proof Hh as [Hhb _].
  assert (Hind : forall n, (0 <= Z.of_nat n < P) ->
     (exists l, 0 <= l <= Z.of_nat n /\ owner P o l t /\ (forall q, q <= Z.of_nat n -> owner P o q t -> q <= l)) \/
     (forall q, q <= Z.of_nat n -> ~ owner P o q t)).
  { induction n as [|n IH]; intros Hn.
    - destruct (owns_dec 0 t) as [Hy|Hno].
      + left. exists 0. split; [lia|]. split; [split; [lia|exact Hy]|]. intros q Hq _. lia.
      + right. intros q Hq [Hb Ho]. assert (q = 0) by lia. subst. contradiction.
    - destruct (owns_dec (Z.of_nat (S n)) t) as [Hy|Hno].
      + left. exists (Z.of_nat (S n)). split; [lia|]. split; [split; [lia|exact Hy]|]. intros q Hq _. lia.
      + destruct IH as [(l & H1 & H2 & H3)|H1]; [lia| |].
        * left. exists l. split; [lia|]. split; [exact H2|]. intros q Hq Hoq.
          destruct (Z.eq_dec q (Z.of_nat (S n))) as [->|Hne]; [destruct Hoq; contradiction|].
          apply H3; [lia|exact Hoq].
        * right. intros q Hq Hoq.
          destruct (Z.eq_dec q (Z.of_nat (S n))) as [->|Hne]; [destruct Hoq; contradiction|].
          apply (H1 q); [lia|exact Hoq]. }
  destruct (Hind (Z.to_nat (P - 1))) as [(l & H1 & H2 & H3)|H1]; [lia| |].
  - exists l. split; [exact H2|]. intros q Hq. apply H3; [destruct Hq; lia|exact Hq].
  - exfalso. apply (H1 h); [lia|now apply home_owner].
Qed.

Theorem last_owner_ok t fuel some :
  0 <= t < K -> (some < 0 \/ owner P o some t) -> 2 * P + 3 < Z.of_nat fuel ->
  exists p, t8_offset_last_owner_of_tree fuel P t o some = Ok p /\ owner P o p t /\
            (forall q, owner P o q t -> q <= p).
Proof.
  intros Ht Hs Hf. destruct (home_exists Ht) as [h Hh]. pose proof P_pos.
  destruct (max_owner_exists Ht) as (l & Hl & Hmax). pose proof Hl as [Hlb _].
  exists l. split; [|split; assumption].
  unfold t8_offset_last_owner_of_tree.
  assert (Hso : exists so, (if some <? 0 then t8_offset_any_owner_of_tree fuel P t o else Ok some) = Ok so
                           /\ owner P o so t).
  { destruct (some <? 0) eqn:Hn.
    - apply any_owner_ok; [exact Ht|lia].
    - exists some. split; [reflexivity|]. destruct Hs; [lia|assumption]. }
  destruct Hso as (so & -> & Hown). cbn [obind]. pose proof Hown as [Hb _].
  replace (negb (so <? P)) with false by lia.
  destruct (@last_owner_loop_ok t h l fuel Hh Hl Hmax so) as (q & -> & H1 & H2); [left; exact Hown|lia|].
  cbn [obind]. replace (q <=? P) with true by lia.
  rewrite (@skip_down_unguarded_ok l fuel (q - 1)); try lia.
  - cbn [obind]. destruct Hl as [_ Hin]. apply in_range_iff in Hin. now rewrite Hin.
  - exact (owner_nonempty Hl).
  - intros r Hr. apply H2. lia.
Qed.

(** ** next owner *)
Lemma skip_dir_up fuel p : 0 <= p -> skip_dir fuel p 1 o = skip_up fuel p o.
Proof.
  revert p; induction fuel as [|f IH]; intros p Hp; cbn [skip_dir skip_up]; auto.
  replace (0 <=? p) with true by lia. rewrite andb_true_l.
  destruct ((p <? osize o) && t8_offset_empty p o); auto. apply IH. lia.
Qed.
Lemma skip_dir_down fuel p : p < P -> skip_dir fuel p (-1) o = skip_down fuel p o.
Proof.
  revert p; induction fuel as [|f IH]; intros p Hp; cbn [skip_dir skip_down]; auto.
  rewrite osize_P. replace (p <? P) with true by lia. rewrite andb_true_r.
  destruct ((0 <=? p) && t8_offset_empty p o); auto. apply IH. lia.
Qed.

(** least owner above cur, or -1 if there is none *)
Theorem next_owner_ok t fuel cur : owner P o cur t -> P < Z.of_nat fuel ->
  exists p, t8_offset_next_owner_of_tree fuel P t o cur = Ok p /\
    ((p = -1 /\ forall q, cur < q -> ~ owner P o q t) \/
     (cur < p /\ owner P o p t /\ forall q, cur < q < p -> ~ owner P o q t)).
Proof.
  intros Hc Hf. pose proof Hc as [Hcb Hco]. unfold t8_offset_next_owner_of_tree, t8_offset_next_prev_owner_of_tree.
  replace (0 <? 1) with true by reflexivity. rewrite skip_dir_up by lia.
  destruct (@skip_up_ok fuel (cur + 1)) as (q & -> & H1 & H2 & H3); [lia|lia|]. cbn [obind].
  assert (HtK : 0 <= t < K).
  { unfold owns in Hco. fold (F cur) (E (cur + 1)) in Hco. pose proof (FE cur) as HF.
    assert (E (cur + 1) <= E P) by (apply E_mono; lia). rewrite EP in *.
    assert (0 <= F cur). { unfold F, first_tree_of. destruct (entry o cur <? 0) eqn:?; lia. }
    lia. }
  destruct (home_exists HtK) as [h Hh].
  destruct ((0 <=? q) && (q <? P) && t8_offset_in_range t q o) eqn:Hin.
  - exists q. split; [reflexivity|]. right.
    apply andb_prop in Hin. destruct Hin as [Hin1 Hin2]. apply in_range_iff in Hin2.
    split; [lia|]. split; [split; [lia|exact Hin2]|].
    intros r Hr Hor. apply (owner_nonempty Hor). apply H2. lia.
  - exists (-1). split; [reflexivity|]. left. split; [reflexivity|].
    intros r Hr Hor. pose proof Hor as [Hrb _].
    assert (h <= cur) by (destruct (owner_cases Hh Hc); lia).
    destruct (Z_lt_ge_dec r q) as [Hlt|Hge].
    + apply (owner_nonempty Hor). apply H2. lia.
    + destruct (@between h t r q Hh Hor ltac:(lia)) as [H4|[H4 _]].
      * destruct H4 as [H5 H6]. apply in_range_iff in H6. rewrite H6 in Hin. lia.
      * apply H3; [lia|exact H4].
Qed.

(** greatest owner below cur, or -1 if there is none *)
Theorem prev_owner_ok t fuel cur : owner P o cur t -> P < Z.of_nat fuel ->
  exists p, t8_offset_prev_owner_of_tree fuel P t o cur = Ok p /\
    ((p = -1 /\ forall q, q < cur -> ~ owner P o q t) \/
     (0 <= p < cur /\ owner P o p t /\ forall q, p < q < cur -> ~ owner P o q t)).
Proof.
  intros Hc Hf. pose proof Hc as [Hcb Hco]. unfold t8_offset_prev_owner_of_tree, t8_offset_next_prev_owner_of_tree.
  replace (0 <? -1) with false by reflexivity. rewrite skip_dir_down by lia.
  destruct (@skip_down_ok fuel (cur + -1)) as (q & -> & H1 & H2 & H3); [lia|lia|]. cbn [obind].
  assert (HtK : 0 <= t < K).
  { unfold owns in Hco. fold (F cur) (E (cur + 1)) in Hco. pose proof (FE cur) as HF.
    assert (E (cur + 1) <= E P) by (apply E_mono; lia). rewrite EP in *.
    assert (0 <= F cur). { unfold F, first_tree_of. destruct (entry o cur <? 0) eqn:?; lia. }
    lia. }
  destruct (home_exists HtK) as [h Hh]. pose proof Hh as [Hhb _].
  destruct ((0 <=? q) && (q <? P) && t8_offset_in_range t q o) eqn:Hin.
  - exists q. split; [reflexivity|]. right.
    apply andb_prop in Hin. destruct Hin as [Hin1 Hin2]. apply in_range_iff in Hin2.
    split; [lia|]. split; [split; [lia|exact Hin2]|].
    intros r Hr Hor. apply (owner_nonempty Hor). apply H2. lia.
  - exists (-1). split; [reflexivity|]. left. split; [reflexivity|].
    intros r Hr Hor. pose proof Hor as [Hrb _].
    assert (h <= r) by (destruct (owner_cases Hh Hor); lia).
    destruct (Z_lt_ge_dec q r) as [Hlt|Hge].
    + apply (owner_nonempty Hor). apply H2. lia.
    + destruct (@between h t cur q Hh Hc ltac:(lia)) as [H4|[H4 _]].
      * destruct H4 as [H5 H6]. apply in_range_iff in H6. rewrite H6 in Hin. lia.
      * apply H3; [lia|exact H4].
Qed.

(** ** all owners *)
Lemma all_owners_loop_ok t fuel : forall cur acc,
  (cur = -1 \/ owner P o cur t) ->
  (cur = -1 -> forall q, owner P o q t -> In q acc) ->
  (0 <= cur -> forall q, q <= cur -> owner P o q t -> In q acc) ->
  (0 <= cur -> forall q, In q acc -> q <= cur) ->
  (forall q, In q acc -> owner P o q t) -> StronglySorted Z.lt acc ->
  (if 0 <=? cur then 2 * P - cur + 2 else 0) < Z.of_nat fuel ->
  exists l, all_owners_loop fuel P t o cur acc = Ok l /\ StronglySorted Z.lt l /\
            (forall q, In q l <-> owner P o q t).
Proof.
  induction fuel as [|f IH]; intros cur acc Hc H1 H2 H3 H4 Hs Hf.
  { exfalso. pose proof P_pos. destruct (0 <=? cur) eqn:?; [|lia]. destruct Hc as [->|[Hc _]]; lia. }
  cbn [all_owners_loop]. destruct (0 <=? cur) eqn:Hcur.
  - assert (Ho : owner P o cur t) by (destruct Hc; [lia|assumption]).
    pose proof Ho as [Hb _].
    destruct (@next_owner_ok t f cur Ho ltac:(lia)) as (p & -> & [[-> Hno]|(Hlt & Hop & Hbet)]); cbn [obind].
    + replace (0 <=? -1) with false by reflexivity. apply IH; auto; try lia.
      * intros _ q Hq. destruct (Z_le_gt_dec q cur) as [Hle|Hgt]; [apply H2; auto; lia|].
        exfalso. apply (Hno q); [lia|exact Hq].
      * replace (0 <=? -1) with false by reflexivity. lia.
    + pose proof Hop as [Hpb _]. replace (0 <=? p) with true by lia. apply IH; auto.
      * lia.
      * intros _ q Hqp Hq. apply in_or_app. destruct (Z_le_gt_dec q cur) as [Hle|Hgt].
        -- left. apply H2; auto; lia.
        -- right. left. destruct (Z.eq_dec q p) as [->|Hne]; [reflexivity|].
           exfalso. apply (Hbet q); [lia|exact Hq].
      * intros _ q Hq. apply in_app_or in Hq. destruct Hq as [Hq|[<-|[]]]; [|lia].
        assert (q <= cur) by (apply H3; auto; lia). lia.
      * intros q Hq. apply in_app_or in Hq. destruct Hq as [Hq|[<-|[]]]; auto.
      * clear -Hs H3 Hlt Hcur. assert (Hall : forall q, In q acc -> q < p) by (intros q Hq; specialize (H3 ltac:(lia) q Hq); lia).
        clear H3. induction acc as [|a acc IHa]; cbn [app].
        -- repeat constructor.
        -- inversion Hs as [|? ? Hs1 Hs2]; subst. constructor.
           ++ apply IHa; auto. intros q Hq; apply Hall; now right.
           ++ apply Forall_app. split; [exact Hs2|]. constructor; [apply Hall; now left|constructor].
      * replace (0 <=? p) with true by lia. lia.
  - assert (cur = -1). { destruct Hc as [->|[Hc _]]; [reflexivity|lia]. } subst cur.
    exists acc. split; [reflexivity|]. split; [exact Hs|]. intros q. split; [apply H4|now apply H1].
Qed.

Theorem all_owners_ok t fuel : 0 <= t < K -> 2 * P + 3 < Z.of_nat fuel ->
  exists l, t8_offset_all_owners_of_tree fuel P t o = Ok l /\ StronglySorted Z.lt l /\
            (forall q, In q l <-> owner P o q t).
Proof.
  intros Ht Hf. unfold t8_offset_all_owners_of_tree.
  destruct (@first_owner_ok t fuel (-1) Ht ltac:(lia) Hf) as (p & -> & Hp & Hmin). cbn [obind].
  pose proof Hp as [Hb _]. apply all_owners_loop_ok; auto.
  - lia.
  - intros _ q Hq Hoq. left. specialize (Hmin q Hoq). lia.
  - intros _ q [<-|[]]. lia.
  - intros q [<-|[]]. exact Hp.
  - repeat constructor.
  - replace (0 <=? p) with true by lia. lia.
Qed.

End Table.

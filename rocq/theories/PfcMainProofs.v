(** Partition for coarsening: the local searches, the messages, the corrected table. *)
From Verif Require Import Prelude PathSpec SchemeModel SchemeSpec SchemeProofs SchemeOrderProofs OffsetModel LeafModel LeafProofs LeafIndexProofs.
From Verif Require Import SearchMainProofs ReplaceProofs NetModel NetProofs PartitionModel PartitionSpec PartitionRangeProofs PartitionProofs PartitionMainProofs.
From Verif Require Import PfcModel PfcSpec PfcProofs PfcForestProofs.
#[local] Arguments PfcSpec.family_at {sch} K {cl} lv {t} x s.

(** ** the loop over possible siblings, in one tree *)
Section siblings.
Variable sch : Z -> scheme.
Variables (c off : Z) (es : list (elt (sch c))).
Hypothesis LW : laws (sch c).
Hypothesis OE : ordered es.
Notation T := (PTree c off (map (existT (fun c => elt (sch c)) c) es)).
Lemma tree_leaf_spec k x : at_index es k = Some x -> tree_leaf sch T k = Ok x.
Proof.
  intros H. unfold tree_leaf. unfold at_index in H. destruct (k <? 0); [discriminate|]. cbn [pt_elems pt_class]. rewrite nth_error_map, H. cbn [option_map]. apply as_class_inj.
Qed.
Lemma es_valid e : In e es -> valid e.
Proof. apply Forall_forall, (ordered_valid OE). Qed.
Lemma all_levels x : In x es -> 0 < s_level x -> forall e, In e es -> 0 < s_level e.
Proof.
  intros Hx Lx e He. pose proof (valid_level LW (es_valid He)). destruct (Z.eq_dec (s_level e) 0) as [Q|Q]; [|lia]. exfalso. apply (valid_level0 LW) in Q; [|now apply es_valid]. subst e.
  assert (E : s_root (sch c) = x) by (apply (ordered_alone LW OE He Hx), below_root, es_valid, Hx). pose proof (LeafProofs.root_level LW). rewrite E in H0. lia.
Qed.
Lemma loop_spec par d i m : valid par -> Z.abs d = 1 -> (forall e, In e es -> 0 < s_level e) -> (forall k, 0 <= k <= m -> 0 <= i + d * k < zlen es) ->
  index_test (kid_of par) es i = true -> 0 <= m -> forall fuel k, 0 <= k <= m + 1 -> (Z.to_nat (m + 2 - k) <= fuel)%nat -> (forall j, 0 <= j < k -> index_test (kid_of par) es (i + d * j) = true) ->
  exists r, sibling_loop sch fuel T par d (i + d * m) (i + d * k) (i + d * Z.max 0 (k - 1)) = Ok (i + d * r) /\ 0 <= r <= m /\
    (forall j, 0 <= j <= r -> index_test (kid_of par) es (i + d * j) = true) /\ (r = m \/ index_test (kid_of par) es (i + d * (r + 1)) = false).
Proof.
  intros Vp Hd LV IN H0 Hm. induction fuel as [|fuel IH]; intros k Hk HF HJ; [lia|]. cbn [sibling_loop].
  assert (DD : (i + d * k - (i + d * m)) * d = k - m) by (assert (d = 1 \/ d = -1) as [-> | ->] by lia; lia). rewrite DD.
  destruct (Z.leb_spec (k - m) 0) as [C|C].
  - destruct (@at_index_ok _ es (i + d * k)) as (y & Ey); [apply IN; lia|]. rewrite (tree_leaf_spec Ey). cbn [obind]. destruct (at_index_some Ey) as [_ Iy].
    assert (EK : s_equal par (s_parent y) = index_test (kid_of par) es (i + d * k)).
    { unfold index_test. rewrite Ey. unfold kid_of. rewrite (proj2 (Z.ltb_lt _ _) (LV y Iy)). reflexivity. }
    cbn [pt_class]. rewrite EK. destruct (index_test (kid_of par) es (i + d * k)) eqn:TK.
    + destruct (IH (k + 1)) as (r & E & R); try lia.
      { intros j Hj. destruct (Z.eq_dec j k) as [->|]; [exact TK|]. apply HJ. lia. }
      exists r. split; [|exact R]. rewrite <- E. f_equal; [lia|]. f_equal. f_equal. lia.
    + assert (k <> 0) by (intros ->; rewrite Z.mul_0_r, Z.add_0_r in TK; congruence). exists (k - 1). split; [f_equal; f_equal; f_equal; lia|]. split; [lia|]. split; [intros j Hj; apply HJ; lia|]. right. replace (k - 1 + 1) with k by lia. exact TK.
  - exists m. replace (Z.max 0 (k - 1)) with m by lia. split; [reflexivity|]. split; [lia|]. split; [intros j Hj; apply HJ; lia|]. now left.
Qed.
Lemma extreme_spec i x d : at_index es i = Some x -> 0 < s_level x -> Z.abs d = 1 ->
  exists r, extreme_local_sibling sch T i d = Ok (i + d * r) /\ 0 <= r /\ 0 <= i + d * r < zlen es /\
    (forall j, 0 <= j <= r -> index_test (kid_of (s_parent x)) es (i + d * j) = true) /\ index_test (kid_of (s_parent x)) es (i + d * (r + 1)) = false.
Proof.
  intros Ex Lx Hd. destruct (at_index_some Ex) as [Hi Ix]. assert (Vx := es_valid Ix). destruct (valid_parent LW Vx Lx) as (Vp & Lp & _). set (par := s_parent x) in *.
  pose proof (valid_level LW Vx). pose proof (valid_nchild LW Vp) as NC. set (n := s_num_children par) in *.
  assert (TI : index_test (kid_of par) es i = true).
  { unfold index_test. rewrite Ex. apply (kid_of_spec LW); auto. }
  assert (KC : cnt (index_test (kid_of par) es) 0 (zlen es) <= n) by (rewrite cnt_filter; apply (kids_count LW OE Vp); lia).
  unfold extreme_local_sibling. rewrite (proj2 (Z.eqb_eq _ _) Hd). cbn [negb]. rewrite (tree_leaf_spec Ex). cbn [obind pt_class pt_elems]. destruct (Z.eqb_spec (s_level x) 0); [lia|]. fold par n.
  assert (ZM : zlen (map (existT (fun c => elt (sch c)) c) es) = zlen es) by (unfold zlen; now rewrite map_length).
  match goal with |- context [zlen ?a - 1] => lazymatch a with map _ _ => change (zlen a) with (zlen (map (existT (fun c => elt (sch c)) c) es)) end end. rewrite ZM.
  set (check := Z.max 0 (Z.min (i + d * n) (zlen es - 1))). set (m := (check - i) * d).
  assert (D1 : d = 1 \/ d = -1) by lia. assert (CM : check = i + d * m) by (unfold m; destruct D1 as [-> | ->]; lia).
  assert (M0 : 0 <= m <= n) by (unfold m, check; destruct D1 as [-> | ->]; lia).
  assert (IN : forall k, 0 <= k <= m -> 0 <= i + d * k < zlen es) by (intros k Hk; unfold m, check in *; destruct D1 as [-> | ->]; lia).
  destruct (@loop_spec par d i m Vp Hd (all_levels Ix Lx) IN TI ltac:(lia) (Z.to_nat (n + 2)) 0) as (r & E & Hr & A & B); try lia.
  rewrite Z.mul_0_r, Z.add_0_r in E. cbn [Z.max Z.sub Z.add Z.opp] in E. change (Z.max 0 (0 - 1)) with 0 in E. rewrite Z.mul_0_r, Z.add_0_r in E. rewrite CM. exists r. split; [exact E|]. split; [lia|]. split; [apply IN; lia|]. split; [exact A|].
  destruct B as [->|B]; [|exact B]. destruct (index_test (kid_of par) es (i + d * (m + 1))) eqn:TT; [|reflexivity]. exfalso.
  assert (0 <= i + d * (m + 1) < zlen es). { unfold index_test in TT. destruct (at_index es (i + d * (m + 1))) eqn:Q; [|discriminate]. apply at_index_some in Q. tauto. }
  assert (m = n) by (unfold m, check in *; destruct D1 as [-> | ->]; lia).
  assert (Q : exists a, 0 <= a /\ a + n + 1 <= zlen es /\ forall k, a <= k < a + n + 1 -> index_test (kid_of par) es k = true).
  { destruct D1 as [-> | ->].
    - exists i. split; [lia|]. split; [lia|]. intros k Hk. replace k with (i + 1 * (k - i)) by lia. apply A. lia.
    - exists (i - n). split; [lia|]. split; [lia|]. intros k Hk. replace k with (i + -1 * (i - k)) by lia. apply A. lia. }
  destruct Q as (a & Q1 & Q2 & Q3). rewrite (cnt_add _ (b := a)), (cnt_add _ (a := a) (b := a + n + 1)) in KC by lia. rewrite (@cnt_all _ a) in KC by (auto; lia).
  pose proof (@cnt_ge0 (index_test (kid_of par) es) 0 a). pose proof (@cnt_ge0 (index_test (kid_of par) es) (a + n + 1) (zlen es)). lia.
Qed.
End siblings.

(** ** the owner of an element in a table *)
Section table.
Variables (P N : Z) (o : list Z).
Hypothesis TO : element_table P N o.
Lemma firstn_entry i x : nth_error (firstn (Z.to_nat P) o) i = Some x <-> Z.of_nat i < P /\ x = at_ o (Z.of_nat i).
Proof.
  assert (HL : zlen o = P + 1) by apply TO. assert (HP : 1 <= P) by apply TO. unfold at_. rewrite Nat2Z.id. split.
  - intros H. assert (Q : (i < length (firstn (Z.to_nat P) o))%nat) by (apply nth_error_Some; congruence). rewrite firstn_length in Q. split; [lia|].
    rewrite <- (firstn_skipn (Z.to_nat P) o). rewrite app_nth1 by (rewrite firstn_length; lia). symmetry. now apply nth_error_nth.
  - intros [H ->]. rewrite <- (firstn_skipn (Z.to_nat P) o) at 2. unfold zlen in HL. rewrite app_nth1 by (rewrite firstn_length; lia). apply nth_error_nth'. rewrite firstn_length. lia.
Qed.
Lemma zlen_firstn : zlen (firstn (Z.to_nat P) o) = P.
Proof. assert (HL : zlen o = P + 1) by apply TO. assert (HP : 1 <= P) by apply TO. unfold zlen in *. rewrite firstn_length. lia. Qed.
Lemma at_mono p q : 0 <= p -> p <= q -> q <= P -> at_ o p <= at_ o q.
Proof. apply (tab_mono TO). Qed.
Lemma proc_owner_last g : 0 <= g -> exists q, proc_owner o P g = Ok q /\ 0 <= q < P /\ at_ o q <= g /\ forall i, 0 <= i < P -> (i <= q <-> at_ o i <= g).
Proof.
  intros Hg. assert (HP : 1 <= P) by apply TO.
  destruct (@partition_full Z (fun e => negb (g <? e)) (firstn (Z.to_nat P) o)) as (r & E & Hr & Q).
  { intros i j x y Hx Hy Hij Py. apply firstn_entry in Hx, Hy. destruct Hx as [_ ->], Hy as [Hj ->]. assert (Mo := @at_mono (Z.of_nat i) (Z.of_nat j) ltac:(lia) ltac:(lia) ltac:(lia)). lia. }
  rewrite zlen_firstn in Hr. assert (Q' : forall i, 0 <= i < P -> (i < r <-> at_ o i <= g)).
  { intros i Hi. specialize (Q (Z.to_nat i) (at_ o i)). rewrite Z2Nat.id in Q by lia. rewrite Q; [lia|]. apply firstn_entry. rewrite Z2Nat.id by lia. split; [lia|reflexivity]. }
  assert (R1 : 0 < r) by (apply Q'; [lia|]; rewrite (tab_0 TO); lia).
  exists (r - 1). unfold proc_owner, std_upper_bound. rewrite E. cbn [obind]. split; [reflexivity|]. split; [lia|]. split; [apply Q'; lia|]. intros i Hi. rewrite <- (Q' i Hi). lia.
Qed.
Lemma proc_owner_spec g : 0 <= g < N -> exists q, proc_owner o P g = Ok q /\ 0 <= q < P /\ at_ o q <= g < at_ o (q + 1).
Proof.
  intros Hg. destruct (@proc_owner_last g ltac:(lia)) as (q & E & Hq & A & B). exists q. split; [exact E|]. split; [exact Hq|]. split; [exact A|].
  destruct (Z.eq_dec (q + 1) P) as [Q|Q]; [rewrite Q, (tab_P TO); lia|]. assert (W := B (q + 1) ltac:(lia)). lia.
Qed.
Lemma lower_bound_spec g : exists r, std_lower_bound (fun x => x) (firstn (Z.to_nat P) o) g = Ok r /\ 0 <= r <= P /\ forall i, 0 <= i < P -> (i < r <-> at_ o i < g).
Proof.
  assert (HP : 1 <= P) by apply TO. destruct (@partition_full Z (fun e => e <? g) (firstn (Z.to_nat P) o)) as (r & E & Hr & Q).
  { intros i j x y Hx Hy Hij Py. apply firstn_entry in Hx, Hy. destruct Hx as [_ ->], Hy as [Hj ->]. assert (Mo := @at_mono (Z.of_nat i) (Z.of_nat j) ltac:(lia) ltac:(lia) ltac:(lia)). lia. }
  rewrite zlen_firstn in Hr. exists r. split; [exact E|]. split; [exact Hr|]. intros i Hi. specialize (Q (Z.to_nat i) (at_ o i)). rewrite Z2Nat.id in Q by lia. rewrite Q; [lia|]. apply firstn_entry. rewrite Z2Nat.id by lia. split; [lia|reflexivity].
Qed.

(** the processes a process exchanges messages with *)
Definition near (p q : Z) : Prop := q <> p /\ at_ o p < at_ o (p + 1) /\ at_ o q < at_ o (q + 1) /\
  Z.max 0 (at_ o p - 9) < at_ o (q + 1) /\ at_ o q < Z.min N (at_ o (p + 1) + 9).
Lemma near_sym p q : 0 <= p < P -> 0 <= q < P -> near p q -> near q p.
Proof.
  intros Hp Hq (A & B & C & D & E). split; [congruence|]. split; [exact C|]. split; [exact B|]. assert (R1 := @tab_range _ _ _ TO (p + 1) ltac:(lia)). assert (R2 := @tab_range _ _ _ TO (q + 1) ltac:(lia)). assert (R3 := @tab_range _ _ _ TO p ltac:(lia)).
  assert (R4 := @tab_range _ _ _ TO q ltac:(lia)).
  destruct (Z.lt_total p q) as [Q|[Q|Q]]; [|congruence|].
  - assert (Mo := @at_mono (p + 1) q ltac:(lia) ltac:(lia) ltac:(lia)). lia.
  - assert (Mo := @at_mono (q + 1) p ltac:(lia) ltac:(lia) ltac:(lia)). lia.
Qed.
Lemma range_spec p : 0 <= p < P -> at_ o p < at_ o (p + 1) -> exists b e, relevant_process_range o p P = Ok (b, e) /\ 0 <= b <= p /\ p < e <= P /\
  at_ o b <= Z.max 0 (at_ o p - 9) < at_ o (b + 1) /\ at_ o (e - 1) < Z.min N (at_ o (p + 1) + 9) <= at_ o e.
Proof.
  intros Hp HN. assert (R1 := @tab_range _ _ _ TO p ltac:(lia)). assert (R2 := @tab_range _ _ _ TO (p + 1) ltac:(lia)).
  unfold relevant_process_range. change T8_ECLASS_MAX_CHILDREN with 10. change (ent o p) with (at_ o p). change (ent o (p + 1)) with (at_ o (p + 1)). change (ent o P) with (at_ o P). rewrite (tab_P TO).
  change (10 - 1) with 9. destruct (@proc_owner_spec (Z.max 0 (at_ o p - 9))) as (b & Eb & Hb & Bb); [lia|]. destruct (@proc_owner_spec (Z.min N (at_ o (p + 1) + 9) - 1)) as (l & El & Hl & Bl); [lia|].
  rewrite Eb. cbn [obind]. rewrite El. cbn [obind].
  assert (B1 : b <= p) by (destruct (Z.le_gt_cases b p) as [Q|Q]; [exact Q|]; assert (Mo := @at_mono (p + 1) b ltac:(lia) ltac:(lia) ltac:(lia)); lia).
  assert (B2 : p <= l) by (destruct (Z.le_gt_cases p l) as [Q|Q]; [exact Q|]; assert (Mo := @at_mono (l + 1) p ltac:(lia) ltac:(lia) ltac:(lia)); lia).
  rewrite (proj2 (Z.leb_le 0 b)), (proj2 (Z.leb_le b (l + 1))), (proj2 (Z.leb_le (l + 1) P)) by lia. cbn [andb]. exists b, (l + 1). replace (l + 1 - 1) with l by lia. split; [reflexivity|]. lia.
Qed.
Definition other (p q : Z) : bool := negb ((at_ o (q + 1) <=? at_ o q) || (q =? p)).
Lemma partners_spec p : 0 <= p < P -> at_ o p < at_ o (p + 1) -> exists b e, 0 <= b <= p /\ p < e <= P /\
  at_ o b <= Z.max 0 (at_ o p - 9) /\ Z.min N (at_ o (p + 1) + 9) <= at_ o e /\
  partner_procs o p P = Ok (filter (other p) (zseq b (Z.to_nat (p - b))) ++ filter (other p) (zseq (p + 1) (Z.to_nat (e - (p + 1))))) /\
  forall q, In q (filter (other p) (zseq b (Z.to_nat (p - b))) ++ filter (other p) (zseq (p + 1) (Z.to_nat (e - (p + 1))))) <-> 0 <= q < P /\ near p q.
Proof.
  intros Hp HN. destruct (range_spec Hp HN) as (b & e & E & B & Ee & A1 & A2). exists b, e. split; [exact B|]. split; [exact Ee|]. split; [lia|]. split; [lia|].
  assert (EL : filter (other p) (zseq b (Z.to_nat (e - b))) = filter (other p) (zseq b (Z.to_nat (p - b))) ++ filter (other p) (zseq (p + 1) (Z.to_nat (e - (p + 1))))).
  { replace (Z.to_nat (e - b)) with (Z.to_nat (p - b) + (1 + Z.to_nat (e - (p + 1))))%nat by lia. rewrite !zseq_app. replace (b + Z.of_nat (Z.to_nat (p - b))) with p by lia. cbn [zseq]. rewrite !filter_app.
    cbn [filter]. assert (Op : other p p = false) by (unfold other; rewrite Z.eqb_refl, orb_true_r; reflexivity). rewrite Op. cbn [app]. reflexivity. }
  split.
  - unfold partner_procs. rewrite E. cbn [obind fst snd]. f_equal. exact EL.
  - intros q. rewrite <- EL, filter_In, in_zseq. unfold other, near. assert (R1 := @tab_range _ _ _ TO p ltac:(lia)). split.
    + intros [H1 H2]. assert (M1 := @at_mono (b + 1) (q + 1) ltac:(lia) ltac:(lia) ltac:(lia)). assert (M2 := @at_mono q (e - 1) ltac:(lia) ltac:(lia) ltac:(lia)). lia.
    + intros (Hq & H1 & H2 & H3 & H4 & H5). split; [|lia]. split.
      * destruct (Z.le_gt_cases b q) as [Q|Q]; [exact Q|]. assert (M1 := @at_mono (q + 1) b ltac:(lia) ltac:(lia) ltac:(lia)). lia.
      * destruct (Z.le_gt_cases e q) as [Q|Q]; [|lia]. assert (M1 := @at_mono e q ltac:(lia) ltac:(lia) ltac:(lia)). lia.
Qed.
End table.

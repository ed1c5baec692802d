(** Partition for coarsening: families in a list of leaves, counting, and the local searches. *)
From Verif Require Import Prelude PathSpec SchemeModel SchemeSpec SchemeProofs SchemeOrderProofs OffsetModel LeafModel LeafProofs.
From Verif Require Import SearchMainProofs ReplaceProofs NetModel NetProofs PartitionModel PartitionSpec PartitionRangeProofs PartitionProofs PartitionMainProofs.
From Verif Require Import PfcModel PfcSpec.
From Coq Require Import Sorted.

(** ** counting indices *)
Section count.
Variable kid : Z -> bool.
Definition cnt (a b : Z) : Z := zlen (filter kid (zseq a (Z.to_nat (b - a)))).
Lemma cnt_ge0 a b : 0 <= cnt a b. Proof. apply zlen_ge0. Qed.
Lemma cnt_add a b c : a <= b -> b <= c -> cnt a c = cnt a b + cnt b c.
Proof.
  intros H1 H2. unfold cnt. replace (Z.to_nat (c - a)) with (Z.to_nat (b - a) + Z.to_nat (c - b))%nat by lia.
  rewrite zseq_app, filter_app, zlen_app. replace (a + Z.of_nat (Z.to_nat (b - a))) with b by lia. reflexivity.
Qed.
Lemma cnt_nil a b : b <= a -> cnt a b = 0.
Proof. intros H. unfold cnt. replace (Z.to_nat (b - a)) with 0%nat by lia. reflexivity. Qed.
Lemma cnt_all a b : a <= b -> (forall k, a <= k < b -> kid k = true) -> cnt a b = b - a.
Proof.
  intros H K. unfold cnt. assert (E : filter kid (zseq a (Z.to_nat (b - a))) = zseq a (Z.to_nat (b - a))).
  { assert (G : forall l, (forall k, In k l -> kid k = true) -> filter kid l = l).
    { induction l as [|x l IH]; intros G; [reflexivity|]. cbn [filter]. rewrite G by now left. f_equal. apply IH. intros k Hk. apply G. now right. }
    apply G. intros k Hk. apply in_zseq in Hk. apply K. lia. }
  rewrite E. unfold zlen. rewrite zseq_length. lia.
Qed.
Lemma cnt_none a b : (forall k, a <= k < b -> kid k = false) -> cnt a b = 0.
Proof.
  intros K. unfold cnt. assert (G : forall l, (forall k, In k l -> kid k = false) -> filter kid l = []).
  { induction l as [|x l IH]; intros G; [reflexivity|]. cbn [filter]. rewrite G by now left. apply IH. intros k Hk. apply G. now right. }
  rewrite G; [reflexivity|]. intros k Hk. apply in_zseq in Hk. apply K. lia.
Qed.
(** an interval of kids *)
Lemma cnt_interval s e a b : a <= b -> s <= e -> (forall k, a <= k < b -> (kid k = true <-> s <= k < e)) -> cnt a b = Z.max 0 (Z.min b e - Z.max a s).
Proof.
  intros H H2 K. destruct (Z.ltb_spec (Z.max a s) (Z.min b e)) as [C|C].
  - rewrite (cnt_add (b := Z.max a s)), (cnt_add (a := Z.max a s) (b := Z.min b e)) by lia.
    rewrite (@cnt_none a), (@cnt_all (Z.max a s)), (@cnt_none (Z.min b e)); try lia.
    + intros k Hk. destruct (kid k) eqn:E; [|reflexivity]. apply K in E; lia.
    + intros k Hk. apply K; lia.
    + intros k Hk. destruct (kid k) eqn:E; [|reflexivity]. apply K in E; lia.
  - rewrite cnt_none; [lia|]. intros k Hk. destruct (kid k) eqn:E; [|reflexivity]. apply K in E; lia.
Qed.
(** counting rank by rank *)
Lemma cnt_ranks P N o : element_table P N o -> forall n p, 0 <= p -> p + Z.of_nat n <= P ->
  fold_right Z.add 0 (map (fun q => cnt (at_ o q) (at_ o (q + 1))) (zseq p n)) = cnt (at_ o p) (at_ o (p + Z.of_nat n)).
Proof.
  intros T n. induction n as [|n IH]; intros p Hp Hn.
  - cbn [zseq map fold_right]. rewrite Z.add_0_r, cnt_nil by lia. reflexivity.
  - cbn [zseq map fold_right]. rewrite IH by lia. rewrite <- cnt_add.
    + f_equal. f_equal. lia.
    + apply (tab_step T). lia.
    + apply (tab_mono T); lia.
Qed.
End count.

Lemma convex_split {A} (t : A -> bool) (R : A -> A -> Prop) (l : list A) : StronglySorted R l ->
  (forall x y z, In x l -> In y l -> In z l -> R x y -> R y z -> t x = true -> t z = true -> t y = true) ->
  exists a b, l = a ++ filter t l ++ b /\ Forall (fun x => t x = false) (a ++ b).
Proof.
  induction l as [|x l IH]; intros ST C.
  - exists [], []. split; [reflexivity|constructor].
  - inversion ST as [|? ? ST1 ST2]; subst. rewrite Forall_forall in ST2. cbn [filter]. destruct (t x) eqn:Tx.
    + (* the kids are at the beginning *)
      assert (G : forall m, StronglySorted R m -> incl m l -> exists b, m = filter t m ++ b /\ Forall (fun x => t x = false) b).
      { induction m as [|y m IHm]; intros SM IM.
        - exists []. split; [reflexivity|constructor].
        - inversion SM as [|? ? SM1 SM2]; subst. rewrite Forall_forall in SM2. cbn [filter]. destruct (t y) eqn:Ty.
          + destruct IHm as (b & E & F); [exact SM1|intros z Hz; apply IM; now right|]. exists b. split; [cbn [app]; f_equal; exact E|exact F].
          + assert (F : Forall (fun x => t x = false) m).
            { apply Forall_forall. intros z Hz. destruct (t z) eqn:Tz; [|reflexivity]. rewrite (C x y z) in Ty; [discriminate|now left|right; apply IM; now left|right; apply IM; now right| | |exact Tx|exact Tz].
              - apply ST2, IM. now left.
              - apply SM2, Hz. }
            assert (E : filter t m = []). { clear -F. induction F as [|z m Hz F IH]; [reflexivity|]. cbn [filter]. now rewrite Hz. }
            rewrite E. exists (y :: m). split; [reflexivity|]. constructor; assumption. }
      destruct (G l ST1 (fun z H => H)) as (b & E & F). exists [], b. split; [cbn [app]; f_equal; exact E|exact F].
    + destruct IH as (a & b & E & F); [exact ST1|intros u v w Hu Hv Hw; apply C; now right|]. exists (x :: a), b. split; [cbn [app]; f_equal; exact E|]. cbn [app]. constructor; assumption.
Qed.

(** ** siblings in an ordered list of elements *)
Section tree.
Variable S : scheme.
Hypothesis LW : laws S.
Notation elt := (elt S).
Notation M := (s_maxlevel S).
Implicit Types e f x p y : elt.
Implicit Types l a b : list elt.

Definition kid_of p e : bool := (0 <? s_level e) && s_equal p (s_parent e).
Lemma kid_of_spec p e : valid p -> valid e -> (kid_of p e = true <-> 0 < s_level e /\ s_parent e = p).
Proof.
  intros Vp Ve. unfold kid_of. rewrite andb_true_iff, Z.ltb_lt. split; intros [H1 H2]; (split; [exact H1|]); destruct (valid_parent LW Ve H1) as (V & _); [symmetry|]; apply (valid_equal LW Vp V); auto.
Qed.
Lemma kid_of_child p e : valid p -> s_level p < M -> valid e -> (kid_of p e = true <-> In e (s_children p)).
Proof.
  intros Vp HL Ve. rewrite (kid_of_spec Vp Ve). split.
  - intros [H1 <-]. destruct (valid_parent LW Ve H1) as (V & L & C & E & _). apply SchemeProofs.in_children. eauto.
  - intros H. destruct (ReplaceProofs.in_children LW Vp HL H) as (_ & L & E & _). pose proof (valid_level LW Vp). split; [lia|exact E].
Qed.
Lemma filter_ordered (t : elt -> bool) l : ordered l -> ordered (filter t l).
Proof.
  intros O. induction l as [|x l IH]; [exact O|]. cbn [filter]. apply (ordered_cons LW) in O. destruct O as (V & O & F). specialize (IH O).
  destruct (t x); [|exact IH]. apply (ordered_cons LW). split; [exact V|]. split; [exact IH|]. apply Forall_forall. intros y Hy. apply filter_In in Hy. rewrite Forall_forall in F. apply F, Hy.
Qed.
Lemma kids_count l p : ordered l -> valid p -> s_level p < M ->
  zlen (filter (kid_of p) l) <= s_num_children p /\ (zlen (filter (kid_of p) l) = s_num_children p -> incl (s_children p) l).
Proof.
  intros O Vp HL. assert (V := proj1 (Forall_forall _ _) (ordered_valid O)). pose proof (valid_nchild LW Vp).
  assert (ND : NoDup (filter (kid_of p) l)) by (apply NoDup_filter, (ordered_nodup LW O)).
  assert (I : incl (filter (kid_of p) l) (s_children p)).
  { intros e He. apply filter_In in He. destruct He as [He K]. apply kid_of_child in K; auto. }
  split.
  - assert (Q := NoDup_incl_length ND I). rewrite children_length in Q. unfold zlen. lia.
  - intros E y Hy. assert (I2 : incl (s_children p) (filter (kid_of p) l)).
    { apply NoDup_length_incl; auto. rewrite children_length. unfold zlen in E. lia. }
    apply I2, filter_In in Hy. tauto.
Qed.
(** the children of p, if they are all in the list, follow each other *)
Lemma family_interval l p : ordered l -> valid p -> s_level p < M -> incl (s_children p) l ->
  exists a b, l = a ++ s_children p ++ b /\ Forall (fun e => kid_of p e = false) (a ++ b).
Proof.
  intros O Vp HL I. assert (V := proj1 (Forall_forall _ _) (ordered_valid O)). assert (BO := proj1 (ordered_iff LW l) O). destruct BO as [_ ST].
  assert (KB : forall y, In y l -> (kid_of p y = true <-> below p y)).
  { intros y Hy. rewrite (kid_of_child Vp HL (V _ Hy)). split.
    - intros H. apply (ReplaceProofs.in_children LW Vp HL H).
    - intros B. destruct (Z.eq_dec (s_level p) (s_level y)) as [Q|Q].
      + assert (p = y) by (apply (below_level LW B), Q). exfalso. assert (In (s_child p 0) (s_children p)) as C0 by (apply SchemeProofs.in_children; exists 0; pose proof (valid_nchild LW Vp); split; [lia|reflexivity]).
        destruct (ReplaceProofs.in_children LW Vp HL C0) as (_ & L0 & _ & B0). assert (E : p = s_child p 0).
        { apply (ordered_alone LW O); [congruence|apply I, C0|exact B0]. } rewrite E in L0 at 2. lia.
      + destruct (SearchProofs.proper_child LW B) as (_ & i & Hi & Bi); [congruence|]. assert (Ci : In (s_child p i) (s_children p)) by (apply SchemeProofs.in_children; eauto).
        assert (E : s_child p i = y) by (apply (ordered_alone LW O); auto). now rewrite <- E. }
  destruct (convex_split (t := kid_of p) ST) as (a & b & E & F).
  { intros x y z Hx Hy Hz B1 B2 T1 T2. apply KB in T1, T2; auto. apply KB; auto. exact (between LW (V _ Hy) T1 T2 B1 B2). }
  exists a, b. split; [|exact F]. rewrite E at 1. f_equal. f_equal.
  assert (OC : ordered (s_children p)) by (apply contiguous_ordered, (children_contig LW Vp HL)).
  apply (sorted_same (R := @before S)).
  - intros x y Hx Hy B1 B2. apply filter_In in Hx, Hy. pose proof (lo_hi LW (V _ (proj1 Hx))). pose proof (lo_hi LW (V _ (proj1 Hy))). unfold before in *. lia.
  - apply (ordered_iff LW). apply filter_ordered, O.
  - apply (ordered_iff LW), OC.
  - intros x. rewrite filter_In. split.
    + intros [Hx K]. apply kid_of_child in K; auto.
    + intros Hx. split; [apply I, Hx|]. apply kid_of_child; auto.
Qed.
End tree.

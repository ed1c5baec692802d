(** Partition for coarsening: the corrected table. *)
From Verif Require Import Prelude PathSpec SchemeModel SchemeSpec SchemeProofs SchemeOrderProofs OffsetModel LeafModel.
From Verif Require Import NetModel NetProofs PartitionModel PartitionSpec PartitionRangeProofs PartitionProofs PartitionMainProofs.
From Verif Require Import PfcModel PfcSpec PfcProofs PfcForestProofs PfcMainProofs PfcLocalProofs.
#[local] Arguments PfcSpec.family_at {sch} K {cl} lv {t} x s.

Lemma omap_ok {A B} (F : A -> outcome B) (R : A -> B -> Prop) (l : list A) : (forall x, In x l -> exists y, F x = Ok y /\ R x y) -> exists ys, omap F l = Ok ys /\ Forall2 R l ys.
Proof.
  induction l as [|x l IH]; intros H; [exists []; split; [reflexivity|constructor]|]. destruct (H x (or_introl eq_refl)) as (y & E & Rxy). destruct IH as (ys & Es & F2); [intros z Hz; apply H; now right|].
  exists (y :: ys). cbn [omap]. rewrite E. cbn [obind]. rewrite Es. cbn [obind]. split; [reflexivity|]. now constructor.
Qed.
Lemma Forall2_nth {A B} (R : A -> B -> Prop) l m : Forall2 R l m -> forall i d e, (i < length l)%nat -> R (nth i l d) (nth i m e).
Proof. induction 1 as [|x y l m H F IH]; intros i d e Hi; [cbn [length] in Hi; lia|]. destruct i as [|i]; [exact H|]. cbn [nth length] in *. apply IH. lia. Qed.

Lemma Forall2_len {A B} (R : A -> B -> Prop) l m : Forall2 R l m -> length l = length m.
Proof. induction 1; cbn [length]; congruence. Qed.

Section table.
Variable sch : Z -> scheme.
Variable K : Z.
Variable cl : Z -> Z.
Variable lv : forall t, list (elt (sch (cl t))).
Notation celt := {c : Z & elt (sch c)}.
Notation G := (leaf_sequence K cl lv).
Notation itm t := (@PfcSpec.item sch cl t).
Hypothesis good : leaves_good K lv.
Notation kid := (kid K lv).

(** ** places of families *)
Lemma family_interval_at t (x : elt (sch (cl t))) s : family_at K lv x s -> s + s_num_children x <= zlen G /\ 1 <= s_num_children x /\ forall i, kid x i = true <-> s <= i < s + s_num_children x.
Proof.
  intros (FA & S0 & PA). destruct (family_place good FA) as (s0 & _ & L0 & IV). destruct FA as (Ht & Vx & Lx & Ix). destruct (good Ht) as (LW & _). pose proof (valid_nchild LW Vx) as NC. set (n := s_num_children x) in *.
  assert (A : forall k, 0 <= k < n -> s0 <= s + k < s0 + n).
  { intros k Hk. apply IV. unfold PfcForestProofs.kid, index_test. assert (A : at_index (part G s (s + n)) k = at_index G (s + k)) by (apply at_index_part; lia). rewrite <- A, PA, at_index_map.
    destruct (@at_index_ok _ (s_children x) k) as (z & Ez); [rewrite (ReplaceProofs.zlen_children LW Vx); exact Hk|]. rewrite Ez. cbn [option_map]. rewrite kid_item_item. apply at_index_some in Ez. destruct Ez as [_ Iz]. apply (kid_of_child LW Vx Lx); [|exact Iz]. apply (ReplaceProofs.in_children LW Vx Lx Iz). }
  assert (A0 := A 0 ltac:(lia)). assert (A1 := A (n - 1) ltac:(lia)). assert (s = s0) by lia. subst s0. split; [exact L0|]. split; [lia|exact IV].
Qed.
(** two families with a common leaf have the same place *)
Lemma family_same t (x : elt (sch (cl t))) s t' (x' : elt (sch (cl t'))) s' i : family_at K lv x s -> family_at K lv x' s' -> s <= i < s + s_num_children x -> s' <= i < s' + s_num_children x' ->
  s = s' /\ s_num_children x = s_num_children x'.
Proof.
  intros F F' Hi Hi'. destruct (family_interval_at F) as (_ & NC & IV). destruct (family_interval_at F') as (_ & NC' & IV').
  assert (A := proj2 (IV i) Hi). assert (A' := proj2 (IV' i) Hi'). unfold PfcForestProofs.kid, index_test in A, A'. destruct (at_index G i) as [y|] eqn:E; [|discriminate].
  apply at_index_some in E. destruct E as [_ Iy]. apply in_sequence in Iy. destruct Iy as (u & e & Hu & Ie & ->).
  assert (t = u). { unfold kid_item in A. cbn [fst PfcSpec.item] in A. destruct (Z.eqb_spec u t); [congruence|discriminate]. } assert (t' = u). { unfold kid_item in A'. cbn [fst PfcSpec.item] in A'. destruct (Z.eqb_spec u t'); [congruence|discriminate]. }
  subst t t'. rewrite kid_item_item in A, A'. destruct F as ((_ & V & _ & _) & _ & _), F' as ((_ & V' & _ & _) & _ & _). destruct (good Hu) as (LW & _ & O & _). assert (Ve : valid e) by exact (proj1 (Forall_forall _ _) (ordered_valid O) _ Ie).
  apply (kid_of_spec LW V Ve) in A. apply (kid_of_spec LW V' Ve) in A'. destruct A as [_ A], A' as [_ A']. assert (EX : x = x') by congruence. clear A A'. destruct EX. split; [|reflexivity].
  assert (B := proj1 (IV' s) (proj2 (IV s) ltac:(lia))). assert (B' := proj1 (IV s') (proj2 (IV' s') ltac:(lia))). lia.
Qed.
Lemma corrected_mono a b a' b' : corrected K lv a b -> corrected K lv a' b' -> a <= a' -> b <= b'.
Proof.
  intros C C' H. destruct C as [(t & x & s & F & Hs & ->)|[-> N]].
  - destruct C' as [(t' & x' & s' & F' & Hs' & ->)|[-> N']].
    + destruct (Z.le_gt_cases (s + s_num_children x) a') as [Q|Q]; [lia|]. destruct (family_same (i := a') F F') as [E1 E2]; lia.
    + assert (Q := N' t x s F). lia.
  - destruct C' as [(t' & x' & s' & F' & Hs' & ->)|[-> N']]; lia.
Qed.
Lemma corrected_ge a b : corrected K lv a b -> a <= b.
Proof. intros [(t & x & s & _ & Hs & ->)|[-> _]]; lia. Qed.
Lemma corrected_end a b : corrected K lv a b -> a <= zlen G -> b <= zlen G.
Proof. intros [(t & x & s & F & Hs & ->)|[-> _]] H; [|exact H]. apply (family_interval_at F). Qed.
Lemma corrected_uncut a b t (x : elt (sch (cl t))) s : corrected K lv a b -> family_at K lv x s -> ~ (s < b < s + s_num_children x).
Proof.
  intros [(t' & x' & s' & F' & Hs & ->)|[-> N]] F Hb; [|exact (N _ _ _ F Hb)]. destruct (family_interval_at F') as (_ & NC & _).
  destruct (family_same (i := s' + s_num_children x' - 1) F F') as [E1 E2]; lia.
Qed.
Lemma corrected_0 b : corrected K lv 0 b -> b = 0.
Proof. intros [(t & x & s & (_ & S0 & _) & Hs & ->)|[-> _]]; lia. Qed.
Lemma corrected_last : corrected K lv (zlen G) (zlen G).
Proof. right. split; [reflexivity|]. intros t x s F H. destruct (family_interval_at F) as (Q & _). lia. Qed.

(** the tree ids go up in steps of one *)
Lemma sequence_consecutive : consecutive G.
Proof.
  unfold leaf_sequence. assert (GE : forall n t0, 0 <= t0 -> t0 + Z.of_nat n <= K -> consecutive (flat_map (fun t => map (itm t) (lv t)) (zseq t0 n)) /\
    match flat_map (fun t => map (itm t) (lv t)) (zseq t0 n) with [] => n = 0%nat | x :: _ => fst (fst x) = t0 end).
  { induction n as [|n IH]; intros t0 H0 Hn; [split; [exact Logic.I|reflexivity]|]. cbn [zseq flat_map]. destruct (IH (t0 + 1) ltac:(lia) ltac:(lia)) as [C H]. destruct (good (t := t0) ltac:(lia)) as (_ & _ & _ & NE).
    split; [|destruct (lv t0); [congruence|reflexivity]]. clear IH NE. induction (lv t0) as [|x l IHl]; [exact C|]. cbn [map app]. destruct l as [|y l].
    - cbn [map app]. destruct (flat_map _ (zseq (t0 + 1) n)) as [|[[t' c'] z] r]; [exact Logic.I|]. cbn [fst] in H. split; [right; exact H|exact C].
    - split; [left; split; reflexivity|exact IHl]. }
  destruct (Z.le_gt_cases 0 K) as [Q|Q]; [apply GE; lia|]. replace (Z.to_nat K) with 0%nat by lia. exact Logic.I.
Qed.

Variables (P N : Z) (o onew : list Z) (f : Z -> pforest celt).
Hypothesis TO : element_table P N o.
Hypothesis TN : element_table P N onew.
Hypothesis FO : forall p, 0 <= p < P -> local_forest (f p) /\ pf_num (f p) = at_ o (p + 1) - at_ o p.
Hypothesis SEQ : gather P (fun p => tagged (f p)) = G.
Hypothesis HK : K <= 2 ^ 31.
Let ZG : zlen G = N := zlen_G TO FO SEQ.

Lemma correct_offset_spec p ms r : 0 <= p < P -> received P o f p ms -> 0 <= r < P -> at_ o p <= at_ onew r < at_ o (p + 1) ->
  exists y, correct_offset sch (f p) o onew p P ms r = Ok y /\ corrected K lv (at_ onew r) y.
Proof.
  intros Hp RC Hr Hg. destruct (border_spec good TO FO SEQ HK Hp Hg RC) as (full & fb & fe & E & C). unfold correct_offset. change (ent onew r) with (at_ onew r). unfold PfcModel.celt in *. rewrite E. cbn [obind]. destruct C as [[-> C]|(-> & t & x & F & Ef & B & B')].
  - eexists. split; [reflexivity|]. right. split; [reflexivity|]. intros t x s F H. apply (C _ _ _ F). lia.
  - assert (F0 : 0 <= fb) by apply F. destruct (proc_owner_last TN F0) as (l & El & Hl & A1 & A2). rewrite El. cbn [obind]. eexists. split; [reflexivity|]. destruct (Z.leb_spec r l) as [D|D].
    + apply A2 in D; [|exact Hr]. assert (fb = at_ onew r) by lia. right. split; [assumption|]. intros t' x' s' F' H'. destruct (family_same (i := at_ onew r) F F') as [E1 E2]; lia.
    + left. exists t, x, fb. split; [exact F|]. split; [|exact Ef]. assert (~ at_ onew r <= fb) by (intros Q; apply A2 in Q; [lia|exact Hr]). lia.
Qed.

(** the number of entries below g *)
Definition lbv (g : Z) : Z := match std_lower_bound (fun x => x) (firstn (Z.to_nat P) onew) g with Ok r => r | _ => 0 end.
Lemma lb_spec g : std_lower_bound (fun x => x) (firstn (Z.to_nat P) onew) g = Ok (lbv g) /\ 0 <= lbv g <= P /\ forall i, 0 <= i < P -> (i < lbv g <-> at_ onew i < g).
Proof. destruct (lower_bound_spec TN g) as (r & E & H). unfold lbv. rewrite E. exact (conj eq_refl H). Qed.
Lemma lb_mono g g' : g <= g' -> lbv g <= lbv g'.
Proof.
  intros H. destruct (lb_spec g) as (_ & R & A). destruct (lb_spec g') as (_ & R' & A'). destruct (Z.le_gt_cases (lbv g) (lbv g')) as [Q|Q]; [exact Q|].
  assert (B := proj1 (A (lbv g') ltac:(lia)) ltac:(lia)). assert (B' := proj2 (A' (lbv g') ltac:(lia)) ltac:(lia)). lia.
Qed.
Lemma lb_0 : lbv 0 = 0.
Proof.
  destruct (lb_spec 0) as (_ & R & A). destruct (Z.eq_dec (lbv 0) 0) as [Q|Q]; [exact Q|]. assert (1 <= P) by apply TN. assert (B := proj1 (A 0 ltac:(lia)) ltac:(lia)). rewrite (tab_0 TN) in B. lia.
Qed.
Notation R := (fun r y => corrected K lv (at_ onew r) y).
Lemma local_spec p ms : 0 <= p < P -> (at_ o p < at_ o (p + 1) -> received P o f p ms) ->
  exists ys, pfc_local sch (f p) o onew p P ms = Ok ys /\ Forall2 R (zseq (lbv (at_ o p)) (Z.to_nat (lbv (at_ o (p + 1)) - lbv (at_ o p)))) ys.
Proof.
  intros Hp RC. destruct (FO Hp) as [_ Hn]. assert (S1 := tab_step TO Hp). unfold pfc_local. unfold PfcModel.celt in *. rewrite Hn. destruct (Z.eqb_spec (at_ o (p + 1) - at_ o p) 0) as [C|C]; cbn [negb].
  - replace (at_ o (p + 1)) with (at_ o p) by lia. rewrite Z.sub_diag. exists []. split; [reflexivity|constructor].
  - unfold correct_local_offsets. change (ent o p) with (at_ o p). change (ent o (p + 1)) with (at_ o (p + 1)). destruct (lb_spec (at_ o p)) as (E1 & R1 & A1). destruct (lb_spec (at_ o (p + 1))) as (E2 & R2 & A2).
    rewrite E1. cbn [obind]. rewrite E2. cbn [obind]. apply omap_ok. intros r Hr. apply in_zseq in Hr. assert (HR : 0 <= r < P) by lia. assert (B1 := A1 r HR). assert (B2 := A2 r HR). apply (correct_offset_spec Hp); [apply RC; lia|exact HR|lia].
Qed.
Lemma table_spec (ms : Z -> list (Z * pmsg sch)) : (forall p, 0 <= p < P -> at_ o p < at_ o (p + 1) -> received P o f p (ms p)) ->
  exists locals ocor, (forall p, 0 <= p < P -> pfc_local sch (f p) o onew p P (ms p) = Ok (locals p)) /\ allgatherv_into onew (map locals (zseq 0 (Z.to_nat P))) = Ok ocor /\
    element_table P N ocor /\ forall q, 0 <= q <= P -> corrected K lv (at_ onew q) (at_ ocor q).
Proof.
  intros RC. set (locals := fun p => match pfc_local sch (f p) o onew p P (ms p) with Ok ys => ys | _ => [] end).
  assert (L : forall p, 0 <= p < P -> pfc_local sch (f p) o onew p P (ms p) = Ok (locals p) /\ Forall2 R (zseq (lbv (at_ o p)) (Z.to_nat (lbv (at_ o (p + 1)) - lbv (at_ o p)))) (locals p)).
  { intros p Hp. destruct (local_spec Hp (RC p Hp)) as (ys & E & F). unfold locals. rewrite E. exact (conj eq_refl F). }
  exists locals. assert (HP : 1 <= P) by apply TO.
  assert (CC : forall n, Z.of_nat n <= P -> Forall2 R (zseq 0 (Z.to_nat (lbv (at_ o (Z.of_nat n))))) (concat (map locals (zseq 0 n)))).
  { induction n as [|n IH]; intros Hn.
    - change (Z.of_nat 0) with 0. rewrite (tab_0 TO), lb_0. constructor.
    - replace (S n) with (n + 1)%nat at 2 by lia. rewrite zseq_app, map_app, concat_app. cbn [zseq map concat]. rewrite app_nil_r. replace (0 + Z.of_nat n) with (Z.of_nat n) by lia.
      assert (S1 := @tab_step _ _ _ TO (Z.of_nat n) ltac:(lia)). assert (MO := lb_mono S1). destruct (lb_spec (at_ o (Z.of_nat n))) as (_ & R0 & _).
      replace (Z.of_nat (S n)) with (Z.of_nat n + 1) by lia.
      replace (Z.to_nat (lbv (at_ o (Z.of_nat n + 1)))) with (Z.to_nat (lbv (at_ o (Z.of_nat n))) + Z.to_nat (lbv (at_ o (Z.of_nat n + 1)) - lbv (at_ o (Z.of_nat n))))%nat by lia.
      rewrite zseq_app. apply Forall2_app; [apply IH; lia|]. replace (0 + Z.of_nat (Z.to_nat (lbv (at_ o (Z.of_nat n))))) with (lbv (at_ o (Z.of_nat n))) by lia. apply L. lia. }
  specialize (CC (Z.to_nat P) ltac:(lia)). replace (Z.of_nat (Z.to_nat P)) with P in CC by lia. rewrite (tab_P TO) in CC. set (all := concat (map locals (zseq 0 (Z.to_nat P)))) in *.
  destruct (lb_spec N) as (_ & RN & AN). assert (LA : length all = Z.to_nat (lbv N)) by (rewrite <- (Forall2_len CC), zseq_length; reflexivity).
  assert (LN : zlen onew = P + 1) by apply TN. exists (all ++ skipn (length all) onew). split; [intros p Hp; apply L, Hp|]. split.
  { unfold allgatherv_into. fold all. destruct (Z.leb_spec (zlen all) (zlen onew)) as [Q|Q]; [reflexivity|]. unfold zlen in Q, LN. lia. }
  assert (COR : forall q, 0 <= q <= P -> corrected K lv (at_ onew q) (at_ (all ++ skipn (length all) onew) q)).
  { intros q Hq. destruct (Z.ltb_spec q (lbv N)) as [D|D].
    - unfold at_ at 2. rewrite app_nth1 by lia. assert (Q : R (nth (Z.to_nat q) (zseq 0 (Z.to_nat (lbv N))) 0) (nth (Z.to_nat q) all 0)) by (apply (Forall2_nth CC); rewrite zseq_length; lia). cbn beta in Q. rewrite nth_zseq in Q by lia. replace (0 + Z.of_nat (Z.to_nat q)) with q in Q by lia. exact Q.
    - assert (QN : at_ onew q = N). { destruct (Z.eq_dec q P) as [->|NP]; [apply (tab_P TN)|]. assert (RR := @tab_range _ _ _ TN q ltac:(lia)). assert (B := AN q ltac:(lia)). lia. }
      assert (EQ : at_ (all ++ skipn (length all) onew) q = at_ onew q).
      { unfold at_. rewrite app_nth2 by lia. assert (LS : length (firstn (length all) onew) = length all) by (rewrite firstn_length; unfold zlen in LN; lia). rewrite <- (firstn_skipn (length all) onew) at 2. rewrite app_nth2 by lia. f_equal. lia. }
      rewrite EQ, QN. rewrite <- ZG. apply corrected_last. }
  split; [|exact COR]. split; [exact HP|]. split; [|split; [|split]].
  - unfold zlen in *. rewrite app_length, skipn_length. lia.
  - apply corrected_0. assert (C := COR 0 ltac:(lia)). rewrite (tab_0 TN) in C. exact C.
  - assert (C := COR P ltac:(lia)). rewrite (tab_P TN) in C. assert (Q1 := corrected_ge C). assert (Q2 := corrected_end C). lia.
  - intros p Hp. apply (corrected_mono (COR p ltac:(lia)) (COR (p + 1) ltac:(lia))). apply (tab_step TN Hp).
Qed.

(** ** the exchange of the messages *)
Notation nonempty p := (at_ o p < at_ o (p + 1)).
Lemma kids_one_rank (f' : Z -> pforest celt) ocor : element_table P N ocor -> (forall q, 0 <= q <= P -> corrected K lv (at_ onew q) (at_ ocor q)) ->
  (forall q, 0 <= q < P -> tagged (f' q) = part G (at_ ocor q) (at_ ocor (q + 1))) -> forall t (x : elt (sch (cl t))), family K lv x -> on_one_rank P f' x.
Proof.
  intros TC COR TG t x FX. destruct (family_place good FX) as (s & FA & _ & _). destruct (family_interval_at FA) as (L & NC & _). assert (S0 : 0 <= s) by apply FA. assert (PA : part G s (s + s_num_children x) = map (@PfcSpec.item sch cl t) (s_children x)) by apply FA.
  destruct (@proc_owner_spec _ _ _ TC s) as (q & _ & Hq & Bq); [lia|]. exists q. split; [exact Hq|]. assert (E1 : s + s_num_children x <= at_ ocor (q + 1)). { assert (C := corrected_uncut (COR (q + 1) ltac:(lia)) FA). lia. }
  assert (R0 := @tab_range _ _ _ TC (q + 1) ltac:(lia)). assert (R1 := @tab_range _ _ _ TC q ltac:(lia)). intros y Hy. assert (I : In (@PfcSpec.item sch cl t y) (part G s (s + s_num_children x))) by (rewrite PA; now apply in_map).
  rewrite (TG q Hq). rewrite <- (@part_cat _ G (at_ ocor q) s (at_ ocor (q + 1))), <- (@part_cat _ G s (s + s_num_children x) (at_ ocor (q + 1))) by lia. apply in_or_app. right. apply in_or_app. now left.
Qed.
Lemma exchange_spec p : 0 <= p < P -> exists sends srcs, pfc_exchange sch (f p) o p P = Ok (sends, srcs) /\ map fst sends = srcs /\ NoDup srcs /\
  (forall q, In q srcs <-> 0 <= q < P /\ near N o p q) /\ Forall (fun m => fill sch (f p) o p (fst m) = Ok (snd m)) sends /\ (nonempty p -> partner_procs o p P = Ok srcs).
Proof.
  intros Hp. destruct (FO Hp) as [_ Hn]. assert (S1 := tab_step TO Hp). unfold pfc_exchange. unfold PfcModel.celt in *. rewrite Hn. destruct (Z.eqb_spec (at_ o (p + 1) - at_ o p) 0) as [C|C]; cbn [negb].
  - exists [], []. split; [reflexivity|]. split; [reflexivity|]. split; [constructor|]. split; [|split; [constructor|lia]]. intros q. split; [intros []|]. intros (_ & _ & Q & _). lia.
  - assert (NE : nonempty p) by lia. destruct (partners_spec TO Hp NE) as (b & e & B1 & B2 & _ & _ & EP & IP). unfold pfc_sends, pfc_sources. rewrite EP. cbn [obind]. set (ps := filter (other o p) _ ++ filter (other o p) _) in *.
    destruct (@omap_ok _ _ (fun iproc => do m <- fill sch (f p) o p iproc; Ok (iproc, m)) (fun q m => fst m = q /\ fill sch (f p) o p (fst m) = Ok (snd m)) ps) as (sends & Es & F2).
    { intros q Hq. apply IP in Hq. destruct Hq as (Hq & N1 & _). destruct (@fill_spec sch K cl lv good P N o f TO FO SEQ HK p q Hp) as (t & x & m & Em & _); [congruence|exact NE|]. rewrite Em. cbn [obind]. exists (q, m). split; [reflexivity|]. split; [reflexivity|exact Em]. }
    unfold PfcModel.celt in *. rewrite Es. cbn [obind]. exists sends, ps. split; [reflexivity|]. split.
    { clear -F2. induction F2 as [|q m l sends [H _] F IH]; [reflexivity|]. cbn [map]. now rewrite H, IH. }
    split. { unfold ps. rewrite <- filter_app. apply NoDup_filter.
      assert (Z1 : zseq b (Z.to_nat (p - b)) ++ [p] ++ zseq (p + 1) (Z.to_nat (e - (p + 1))) = zseq b (Z.to_nat (e - b))).
      { replace (Z.to_nat (e - b)) with (Z.to_nat (p - b) + (1 + Z.to_nat (e - (p + 1))))%nat by lia. rewrite !zseq_app. replace (b + Z.of_nat (Z.to_nat (p - b))) with p by lia. reflexivity. }
      assert (ND := nodup_zseq b (Z.to_nat (e - b))). rewrite <- Z1 in ND. cbn [app] in ND. apply NoDup_remove_1 in ND. exact ND. }
    split; [exact IP|]. split; [|reflexivity]. clear -F2. induction F2 as [|q m l sends [_ H] F IH]; constructor; auto.
Qed.
End table.

(** The weighted offsets for weights k * 2^s with integers k of a small enough sum: all sums are exact, and the rounded quotients
    are on the right side of every integer they are compared with. *)
From Coq Require Import Reals Lra SpecFloat.
From Flocq Require Import Core.Zaux Core.Raux Core.Defs Core.Float_prop Core.Generic_fmt Core.FLT Core.Round_NE Core.Ulp Relative
  IEEE754.BinarySingleNaN.
From Verif Require Import Prelude PathSpec SchemeProofs PartitionModel PartitionSpec FloatModel FloatProofs WeightModel WeightSpec.
#[local] Unset Implicit Arguments.
#[local] Open Scope R_scope.
#[local] Instance p53' : FLX.Prec_gt_0 53 := eq_refl.
#[local] Instance e1024' : Prec_lt_emax 53 1024 := eq_refl.
#[local] Instance vfx' : Valid_exp fx := FLT_exp_valid (-1074) 53.

Lemma scaled_spec k s : Rabs (rnd (IZR k * bpow radix2 s)) < big ->
  dbl (SpecFloat.binary_normalize 53 1024 k s false) (rnd (IZR k * bpow radix2 s)).
Proof.
  intros H. rewrite normalize_equiv.
  exists (binary_normalize 53 1024 p53' e1024' mode_NE k s false). split; [reflexivity|].
  pose proof (binary_normalize_correct 53 1024 p53' e1024' mode_NE k s false) as C. cbv zeta in C.
  rewrite fexp_fx in C. cbn [round_mode] in C.
  change (F2R (Float radix2 k s)) with (IZR k * bpow radix2 s) in C.
  fold (rnd (IZR k * bpow radix2 s)) in C. rewrite Rlt_bool_true in C by exact H. tauto.
Qed.

(** the ceiling of P k / K *)
Definition ceil_div (a b : Z) : Z := (- ((- a) / b))%Z.
Lemma ceil_div_spec a b : (0 < b)%Z -> (b * (ceil_div a b - 1) < a <= b * ceil_div a b)%Z.
Proof.
  intros H. unfold ceil_div. pose proof (Z.div_mod (- a) b ltac:(lia)). pose proof (Z.mod_pos_bound (- a) b ltac:(lia)). nia.
Qed.

Section exact.
Variable s : Z.
Hypothesis Hs : (-500 <= s <= 500)%Z.
Notation sg := (bpow radix2 s).
Lemma sg_pos : 0 < sg.
Proof. apply bpow_gt_0. Qed.

Lemma rnd_scaled k : (Z.abs k < 2 ^ 53)%Z -> rnd (IZR k * sg) = IZR k * sg.
Proof.
  intros H. apply round_generic; [auto with typeclass_instances|].
  apply generic_format_FLT. exists (Float radix2 k s); [reflexivity| |].
  - simpl Fnum. change (Zpower radix2 53) with (2 ^ 53)%Z. exact H.
  - simpl. lia.
Qed.
Lemma scaled_big k : (0 <= k <= 2 ^ 100)%Z -> IZR k * sg < big.
Proof.
  intros H. apply Rle_lt_trans with (bpow radix2 100 * bpow radix2 500).
  - apply Rmult_le_compat.
    + apply IZR_le. lia.
    + apply Rlt_le, sg_pos.
    + rewrite <- (IZR_Zpower radix2) by lia. apply IZR_le. change (Zpower radix2 100) with (2 ^ 100)%Z. lia.
    + apply bpow_le. lia.
  - rewrite <- bpow_plus. apply bpow_lt. reflexivity.
Qed.
Lemma scaled_ge0 k : (0 <= k)%Z -> 0 <= IZR k * sg.
Proof. intros H. apply Rmult_le_pos; [apply IZR_le; lia|apply Rlt_le, sg_pos]. Qed.

Definition val (x : spec_float) (k : Z) : Prop := dbl x (IZR k * sg).
Lemma val_weight k : (0 <= k < 2 ^ 53)%Z -> val (SpecFloat.binary_normalize 53 1024 k s false) k.
Proof.
  intros H. unfold val. rewrite <- rnd_scaled by lia. apply scaled_spec. rewrite rnd_scaled by lia.
  rewrite Rabs_pos_eq by (apply scaled_ge0; lia). apply scaled_big. lia.
Qed.
Lemma val_zero : val d_zero 0.
Proof.
  unfold val. rewrite Rmult_0_l. exists (B754_zero false). repeat split.
Qed.
Lemma val_add x y k l : (0 <= k)%Z -> (0 <= l)%Z -> (k + l < 2 ^ 53)%Z -> val x k -> val y l -> val (d_add x y) (k + l).
Proof.
  intros H0 H1 H2 A B. unfold val.
  assert (E : IZR (k + l) * sg = IZR k * sg + IZR l * sg) by (rewrite plus_IZR; ring).
  rewrite <- rnd_scaled by lia. rewrite E. apply d_add_spec; auto.
  rewrite <- E, rnd_scaled by lia. rewrite Rabs_pos_eq by (apply scaled_ge0; lia). apply scaled_big. lia.
Qed.
Lemma int_dbl n : (0 <= n < 2 ^ 53)%Z -> dbl (d_of_int n) (IZR n).
Proof.
  intros H. rewrite <- (rnd_int n) at 1 by lia. apply d_of_int_spec. rewrite rnd_int by lia.
  assert (0 <= IZR n <= 9007199254740992) by (split; apply IZR_le; lia).
  rewrite Rabs_pos_eq by lra. pose proof big_ge. lra.
Qed.
Lemma val_mul_r x k n : (0 <= k)%Z -> (0 <= n < 2 ^ 53)%Z -> (k * n < 2 ^ 53)%Z -> val x k -> val (d_mul x (d_of_int n)) (k * n).
Proof.
  intros H0 H1 H2 A. unfold val.
  assert (E : IZR (k * n) * sg = IZR k * sg * IZR n) by (rewrite mult_IZR; ring).
  assert (0 <= k * n)%Z by nia.
  rewrite <- rnd_scaled by lia. rewrite E. apply d_mul_spec; auto; [now apply int_dbl|].
  rewrite <- E, rnd_scaled by lia. rewrite Rabs_pos_eq by (apply scaled_ge0; lia). apply scaled_big. lia.
Qed.
Lemma val_mul_l x k n : (0 <= k)%Z -> (0 <= n < 2 ^ 53)%Z -> (n * k < 2 ^ 53)%Z -> val x k -> val (d_mul (d_of_int n) x) (n * k).
Proof.
  intros H0 H1 H2 A. unfold val.
  assert (E : IZR (n * k) * sg = IZR n * (IZR k * sg)) by (rewrite mult_IZR; ring).
  assert (0 <= n * k)%Z by nia.
  rewrite <- rnd_scaled by lia. rewrite E. apply d_mul_spec; auto; [now apply int_dbl|].
  rewrite <- E, rnd_scaled by lia. rewrite Rabs_pos_eq by (apply scaled_ge0; lia). apply scaled_big. lia.
Qed.

Lemma small_bpow x : bpow radix2 (-600) <= x -> x - u * x <= rnd x <= x + u * x.
Proof.
  intros H. assert (P : 0 < x) by (apply Rlt_le_trans with (2 := H); apply bpow_gt_0).
  pose proof (rnd_err x) as E. rewrite (Rabs_pos_eq x) in E by lra.
  assert (E' := E (Rle_trans _ _ _ (bpow_le radix2 (-1022) (-600) ltac:(lia)) H)). apply Rabs_le_inv in E'. lra.
Qed.

(** acc > K iproc / P, decided in doubles *)
Lemma val_compare W acc K k P i : (0 <= k < 2 ^ 53)%Z -> (0 <= K)%Z -> (1 <= P < 2 ^ 31)%Z -> (0 <= i < 2 ^ 53)%Z -> (K * i < 2 ^ 53)%Z ->
  val W K -> val acc k ->
  d_ltb (d_div (d_mul W (d_of_int i)) (d_of_int P)) acc = (K * i <? k * P)%Z.
Proof.
  intros Hk HK HP Hi HM A B.
  assert (M := val_mul_r W K i HK Hi HM A). unfold val in M, B.
  set (m := (K * i)%Z) in *. assert (M0 : (0 <= m)%Z) by (unfold m; nia).
  assert (BP : 1 <= IZR P <= 2147483648) by (split; apply IZR_le; lia).
  assert (IP : 0 < / IZR P) by (apply Rinv_0_lt_compat; lra).
  pose proof sg_pos as SP.
  set (x := IZR m * sg / IZR P).
  assert (X : x * IZR P = IZR m * sg) by (unfold x, Rdiv; rewrite Rmult_assoc, Rinv_l by lra; ring).
  assert (X0 : 0 <= x) by (unfold x, Rdiv; apply Rmult_le_pos; [apply scaled_ge0; lia|lra]).
  assert (X1 : x <= IZR m * sg) by (rewrite <- X; nra).
  assert (RX0 : 0 <= rnd x) by (apply rnd_ge0; lra).
  assert (RX1 : rnd x <= IZR m * sg).
  { rewrite <- rnd_scaled by lia. now apply rnd_le. }
  assert (D : dbl (d_div (d_mul W (d_of_int i)) (d_of_int P)) (rnd x)).
  { apply d_div_spec; auto; [apply int_dbl; lia|lra|]. fold x. rewrite Rabs_pos_eq by exact RX0.
    apply Rle_lt_trans with (1 := RX1). apply scaled_big. lia. }
  rewrite (d_ltb_spec _ _ _ _ D B).
  destruct (Z.ltb_spec m (k * P)) as [L|L].
  - apply Rlt_bool_true.
    assert (L' : IZR m + 1 <= IZR k * IZR P) by (rewrite <- mult_IZR, <- plus_IZR; apply IZR_le; lia).
    destruct (Z.eq_dec m 0) as [E|E].
    + unfold x. rewrite E. unfold Rdiv. rewrite !Rmult_0_l, rnd_0. apply Rmult_lt_0_compat; [|exact SP].
      apply IZR_lt. nia.
    + assert (1 <= IZR m) by (apply IZR_le; lia).
      assert (TX : bpow radix2 (-600) <= x).
      { apply Rmult_le_reg_r with (IZR P); [lra|]. rewrite X.
        apply Rle_trans with (bpow radix2 (-600) * bpow radix2 31).
        - apply Rmult_le_compat_l; [apply bpow_ge_0|]. rewrite <- (IZR_Zpower radix2) by lia. apply IZR_le. change (Zpower radix2 31) with (2 ^ 31)%Z. lia.
        - rewrite <- bpow_plus. apply Rle_trans with sg; [apply bpow_le; lia|nra]. }
      apply small_bpow in TX.
      assert (M2 : IZR m < 9007199254740992) by (apply IZR_lt; lia).
      assert (UM : u * IZR m < 1) by (unfold u; lra).
      apply Rle_lt_trans with (1 := proj2 TX).
      apply Rmult_lt_reg_r with (IZR P); [lra|].
      rewrite Rmult_plus_distr_r, Rmult_assoc, X.
      replace (IZR m * sg + u * (IZR m * sg)) with ((IZR m + u * IZR m) * sg) by ring.
      replace (IZR k * sg * IZR P) with (IZR k * IZR P * sg) by ring.
      apply Rmult_lt_compat_r; lra.
  - apply Rlt_bool_false. rewrite <- rnd_scaled by lia. apply rnd_le.
    apply Rmult_le_reg_r with (IZR P); [lra|]. rewrite X.
    replace (IZR k * sg * IZR P) with (IZR (k * P) * sg) by (rewrite mult_IZR; ring).
    apply Rmult_le_compat_r; [lra|]. apply IZR_le. lia.
Qed.

Lemma d_ceil_spec x r : dbl x r -> d_ceil x = Some (Zceil r).
Proof.
  intros (b & <- & F & <-). unfold d_ceil.
  assert (D : dbl (SFopp (B2SF b)) (- B2R b)).
  { exists (Bopp b). split; [now destruct b|]. split; [now destruct b|]. apply B2R_Bopp. }
  rewrite (d_floor_spec _ _ D). reflexivity.
Qed.
Lemma val_ceil x W k K P : (0 <= k)%Z -> (1 <= K)%Z -> (1 <= P < 2 ^ 31)%Z -> (P * k < 2 ^ 53)%Z -> (K < 2 ^ 53)%Z -> (k <= K)%Z ->
  val x k -> val W K ->
  to_int 32 (d_ceil (d_div (d_mul (d_of_int P) x) W)) = Ok (ceil_div (P * k) K).
Proof.
  intros Hk HK HP HM HK2 HkK A B.
  assert (M := val_mul_l x k P Hk ltac:(lia) HM A). unfold val in M, B.
  set (m := (P * k)%Z) in *. assert (M0 : (0 <= m)%Z) by (unfold m; nia).
  assert (BK : 1 <= IZR K <= 9007199254740992) by (split; apply IZR_le; lia).
  assert (IK : 0 < / IZR K) by (apply Rinv_0_lt_compat; lra).
  pose proof sg_pos as SP.
  pose proof (ceil_div_spec m K ltac:(lia)) as [C1 C2]. set (c := ceil_div m K) in *.
  assert (C0 : (0 <= c)%Z) by nia. assert (CM : (c <= m)%Z) by nia. assert (CP : (c <= P)%Z) by (unfold m in *; nia).
  set (x0 := IZR m / IZR K).
  assert (X : x0 * IZR K = IZR m) by (unfold x0, Rdiv; rewrite Rmult_assoc, Rinv_l by lra; ring).
  assert (Xe : IZR m * sg / (IZR K * sg) = x0) by (unfold x0; field; lra).
  assert (IM : 0 <= IZR m < 9007199254740992) by (split; [apply IZR_le|apply IZR_lt]; lia).
  assert (X0 : 0 <= x0) by (apply Rmult_le_reg_r with (IZR K); lra).
  assert (XC : x0 <= IZR c).
  { apply Rmult_le_reg_r with (IZR K); [lra|]. rewrite X, <- mult_IZR. apply IZR_le. lia. }
  assert (RXC : rnd x0 <= IZR c) by (rewrite <- (rnd_int c) by lia; now apply rnd_le).
  assert (RX0 : 0 <= rnd x0) by (now apply rnd_ge0).
  assert (LC : IZR c - 1 < rnd x0).
  { destruct (Z.eq_dec m 0) as [E|E].
    - assert (c = 0)%Z by nia. assert (IZR c = 0) by (now f_equal). lra.
    - assert (1 <= IZR m) by (apply IZR_le; lia).
      assert (TX : bpow radix2 (-600) <= x0).
      { apply Rle_trans with (bpow radix2 (-53)); [now apply bpow_le|]. apply Rmult_le_reg_r with (IZR K); [lra|]. rewrite X. simpl. lra. }
      apply small_bpow in TX.
      assert (UM : u * IZR m < 1) by (unfold u; lra).
      apply Rlt_le_trans with (2 := proj1 TX).
      apply Rmult_lt_reg_r with (IZR K); [lra|].
      replace ((x0 - u * x0) * IZR K) with (IZR m - u * IZR m) by (rewrite <- X; ring).
      assert (K1 : IZR K * (IZR c - 1) + 1 <= IZR m) by (rewrite <- minus_IZR, <- mult_IZR, <- plus_IZR; apply IZR_le; lia).
      lra. }
  assert (D : dbl (d_div (d_mul (d_of_int P) x) W) (rnd x0)).
  { rewrite <- Xe. apply d_div_spec; auto.
    - apply Rgt_not_eq. apply Rmult_lt_0_compat; lra.
    - rewrite Xe, Rabs_pos_eq by exact RX0. apply Rle_lt_trans with (1 := RXC).
      assert (IZR c <= 9007199254740992) by (apply IZR_le; lia). pose proof big_ge. lra. }
  rewrite (d_ceil_spec _ _ D).
  assert (Z : Zceil (rnd x0) = c) by (apply Zceil_imp; rewrite minus_IZR; lra).
  rewrite Z. unfold to_int.
  replace ((- 2 ^ (32 - 1) <=? c) && (c <? 2 ^ (32 - 1)))%Z with true; [reflexivity|].
  symmetry. apply andb_true_intro. split; [apply Z.leb_le|apply Z.ltb_lt]; lia.
Qed.
End exact.

#[local] Open Scope Z_scope.
Lemma forall2_len {A B} {R : A -> B -> Prop} {a b} : Forall2 R a b -> length a = length b.
Proof. induction 1; simpl; auto. Qed.
(** * The loops, for integer multiples k * 2^s *)
Lemma zsum_app a b : zsum (a ++ b) = zsum a + zsum b.
Proof. induction a as [|x a IH]; simpl; [lia|]. unfold zsum in *. simpl. lia. Qed.
Lemma zsum_nonneg l : Forall (fun k => 0 <= k) l -> 0 <= zsum l.
Proof. induction 1; unfold zsum in *; simpl; lia. Qed.

Lemma sum_spec s (Hs : -500 <= s <= 500) : forall ks ws acc a, Forall2 (val s) ws ks -> Forall (fun x => 0 <= x) ks -> 0 <= a -> a + zsum ks < 2 ^ 53 ->
  val s acc a -> val s (fold_left d_add ws acc) (a + zsum ks).
Proof.
  induction ks as [|k ks IH]; intros ws acc a V F A B VA; inversion V as [|w k' ws' ks' V1 V2]; subst.
  - simpl. unfold zsum. simpl. now rewrite Z.add_0_r.
  - inversion F as [|? ? F1 F2]; subst. change (zsum (k :: ks)) with (k + zsum ks) in *. pose proof (zsum_nonneg _ F2). cbn [fold_left].
    replace (a + (k + zsum ks)) with (a + k + zsum ks) by lia. apply IH; auto; try lia.
    apply val_add; auto; lia.
Qed.

Section loops.
Variables (s : Z) (P K : Z) (W : spec_float).
Hypothesis Hs : -500 <= s <= 500.
Hypothesis HP : 1 <= P < 2 ^ 31.
Hypothesis HK : 1 <= K.
Hypothesis HKP : K * P < 2 ^ 53.
Hypothesis HW : val s W K.
Variable all : list Z.     (* the integer weights of all elements *)
Hypothesis Hpos : Forall (fun k => 0 <= k) all.
Hypothesis Hall : zsum all = K.

Notation pre := (weight_before all).
(** j is the place where rank p starts: the weight before j is at most p / P of the total, the weight including j is more *)
Definition is_cut (p j : Z) : Prop := 0 <= j < zlen all /\ P * pre j <= K * p < P * pre (j + 1).
Fixpoint cuts (p : Z) (l : list Z) : Prop := match l with [] => True | j :: r => is_cut p j /\ cuts (p + 1) r end.
Lemma cuts_app p a b : cuts p a -> cuts (p + zlen a) b -> cuts p (a ++ b).
Proof.
  revert p; induction a as [|x a IH]; intros p A B.
  - simpl. change (zlen (@nil Z)) with 0 in B. now rewrite Z.add_0_r in B.
  - destruct A as [A1 A2]. simpl. split; [exact A1|]. apply IH; [exact A2|]. rewrite zlen_cons in B.
    replace (p + 1 + zlen a) with (p + (zlen a + 1)) by lia. exact B.
Qed.
Lemma cuts_nth p l i : cuts p l -> 0 <= i < zlen l -> is_cut (p + i) (at_ l i).
Proof.
  revert p i; induction l as [|x l IH]; intros p i A Hi; [change (zlen (@nil Z)) with 0 in Hi; lia|].
  rewrite zlen_cons in Hi. destruct A as [A1 A2]. destruct (Z.eq_dec i 0) as [->|].
  - rewrite Z.add_0_r. exact A1.
  - unfold at_. replace (Z.to_nat i) with (S (Z.to_nat (i - 1))) by lia. simpl.
    replace (p + i) with (p + 1 + (i - 1)) by lia. apply IH; [exact A2|lia].
Qed.

Notation ce k := (ceil_div (P * k) K).
Lemma ce_spec k : K * (ce k - 1) < P * k <= K * ce k.
Proof. apply ceil_div_spec. lia. Qed.
Lemma ce_le a b : a <= b -> ce a <= ce b.
Proof. intros H. pose proof (ce_spec a). pose proof (ce_spec b). nia. Qed.
Lemma ce_0 : ce 0 = 0.
Proof. pose proof (ce_spec 0). nia. Qed.
Lemma ce_K : ce K = P.
Proof. pose proof (ce_spec K). nia. Qed.

Lemma while_spec n acc k rank_end idx ip out :
  0 <= k <= K -> 0 <= ip -> ip <= ce k -> ce k <= rank_end -> Z.of_nat n >= rank_end - ip + 1 ->
  val s acc k -> 0 <= idx < zlen all -> (forall q, ip <= q < ce k -> is_cut q idx) ->
  exists l, weight_while n P W acc rank_end idx ip out = Ok (ce k, out ++ l) /\ cuts ip l /\ zlen l = ce k - ip.
Proof.
  revert ip out; induction n as [|n IH]; intros ip out Hk H0 H1 H2 H3 V Hi C.
  - exfalso. lia.
  - pose proof (ce_spec k) as CK.
    assert (CP : ce k <= P) by (pose proof ce_K; pose proof (ce_le k K ltac:(lia)); lia).
    cbn [weight_while].
    rewrite (val_compare s Hs W acc K k P ip) by (try assumption; nia).
    destruct (Z.ltb_spec (K * ip) (k * P)) as [L|L].
    + assert (ip < ce k) by nia.
      rewrite (proj2 (Z.ltb_lt _ _)) by lia.
      destruct (IH (ip + 1) (out ++ [idx])) as (l & E & Cl & Ll); try lia; try assumption.
      { intros q Hq. apply C. lia. }
      exists (idx :: l). split; [rewrite E; now rewrite <- app_assoc|]. split.
      * split; [apply C; lia|exact Cl].
      * rewrite zlen_cons. lia.
    + assert (ip = ce k) by nia. exists []. rewrite app_nil_r. split; [now subst ip|]. split; [exact I|].
      change (zlen (@nil Z)) with 0. lia.
Qed.

Lemma pre_step j k r pr : all = pr ++ k :: r -> j = zlen pr -> pre j = zsum pr /\ pre (j + 1) = zsum pr + k.
Proof.
  intros E ->. unfold weight_before, zlen. split.
  - rewrite Nat2Z.id, E, firstn_app, firstn_all, Nat.sub_diag. simpl. now rewrite app_nil_r.
  - replace (Z.to_nat (Z.of_nat (length pr) + 1)) with (length pr + 1)%nat by lia.
    rewrite E, firstn_app, firstn_all2 by lia. replace (length pr + 1 - length pr)%nat with 1%nat by lia.
    simpl. rewrite zsum_app. unfold zsum. simpl. lia.
Qed.
Lemma elems_spec n rank_end : forall ks ws pr post acc out,
  all = pr ++ ks ++ post -> Forall2 (val s) ws ks -> val s acc (zsum pr) ->
  ce (zsum (pr ++ ks)) <= rank_end -> Z.of_nat n >= rank_end - ce (zsum pr) + 1 ->
  exists l, weight_elems n P W acc rank_end (zlen pr) (ce (zsum pr)) out ws = Ok (ce (zsum (pr ++ ks)), out ++ l) /\
    cuts (ce (zsum pr)) l /\ zlen l = ce (zsum (pr ++ ks)) - ce (zsum pr).
Proof.
  induction ks as [|k ks IH]; intros ws pr post acc out E V A H2 H3; inversion V as [|w k' ws' ks' V1 V2]; subst.
  - exists []. rewrite !app_nil_r. split; [reflexivity|]. split; [exact I|]. change (zlen (@nil Z)) with 0. lia.
  - cbn [weight_elems].
    assert (F : Forall (fun x => 0 <= x) (pr ++ k :: ks ++ post)) by (rewrite E in Hpos; exact Hpos).
    apply Forall_app in F. destruct F as [F1 F2]. inversion F2 as [|? ? F3 F4]; subst.
    apply Forall_app in F4. destruct F4 as [F4 F5].
    pose proof (zsum_nonneg _ F1) as N1. pose proof (zsum_nonneg _ F4) as N4. pose proof (zsum_nonneg _ F5) as N5.
    assert (T : zsum pr + (k + (zsum ks + zsum post)) = K).
    { rewrite <- Hall, E, zsum_app. cbn [app]. change (zsum (k :: ks ++ post)) with (k + zsum (ks ++ post)). rewrite zsum_app. reflexivity. }
    assert (KB : K < 2 ^ 53) by nia.
    assert (S1 : zsum (pr ++ [k]) = zsum pr + k) by (rewrite zsum_app; unfold zsum; simpl; lia).
    assert (VA : val s (d_add acc w) (zsum (pr ++ [k]))) by (rewrite S1; apply val_add; auto; lia).
    assert (LE : ce (zsum (pr ++ [k])) <= ce (zsum (pr ++ k :: ks))).
    { apply ce_le. rewrite S1, zsum_app. change (zsum (k :: ks)) with (k + zsum ks). lia. }
    pose proof (ce_le (zsum pr) (zsum (pr ++ [k])) ltac:(lia)) as LE2.
    pose proof (ce_le 0 (zsum pr) N1) as C0. rewrite ce_0 in C0.
    destruct (@while_spec n (d_add acc w) (zsum (pr ++ [k])) rank_end (zlen pr) (ce (zsum pr)) out) as (l1 & E1 & Q1 & L1); try assumption; try lia.
    { rewrite E, zlen_app. cbn [app]. rewrite zlen_cons. pose proof (zlen_ge0 pr). pose proof (zlen_ge0 (ks ++ post)). lia. }
    { intros q Hq. destruct (@pre_step (zlen pr) k (ks ++ post) pr E eq_refl) as [P1 P2].
      split.
      - rewrite E, zlen_app. cbn [app]. rewrite zlen_cons. pose proof (zlen_ge0 pr). pose proof (zlen_ge0 (ks ++ post)). lia.
      - rewrite P1, P2. pose proof (ce_spec (zsum pr)). pose proof (ce_spec (zsum (pr ++ [k]))). rewrite S1 in *. nia. }
    rewrite E1. cbn [obind fst snd].
    assert (E' : all = (pr ++ [k]) ++ ks ++ post) by (rewrite <- app_assoc; exact E).
    assert (J : (pr ++ [k]) ++ ks = pr ++ k :: ks) by (now rewrite <- app_assoc).
    destruct (@IH ws' (pr ++ [k]) post (d_add acc w) (out ++ l1) E' V2 VA) as (l2 & E2 & Q2 & L2); [rewrite J; lia|lia|].
    rewrite J in E2, L2. rewrite zlen_app in E2. change (zlen [k]) with 1 in E2.
    exists (l1 ++ l2). rewrite E2, <- app_assoc. split; [reflexivity|]. split.
    + apply cuts_app; [exact Q1|]. replace (ce (zsum pr) + zlen l1) with (ce (zsum (pr ++ [k]))) by lia. exact Q2.
    + rewrite zlen_app. lia.
Qed.
Lemma local_spec ks ws pr post off :
  all = pr ++ ks ++ post -> Forall2 (val s) ws ks -> val s off (zsum pr) ->
  exists l, local_offsets P W off (zlen pr) ws = Ok l /\ cuts (ce (zsum pr)) l /\ zlen l = ce (zsum (pr ++ ks)) - ce (zsum pr).
Proof.
  intros E V A.
  assert (F : Forall (fun x => 0 <= x) (pr ++ ks ++ post)) by (rewrite E in Hpos; exact Hpos).
  apply Forall_app in F. destruct F as [F1 F2]. apply Forall_app in F2. destruct F2 as [F4 F5].
  pose proof (zsum_nonneg _ F1) as N1. pose proof (zsum_nonneg _ F4) as N4. pose proof (zsum_nonneg _ F5) as N5.
  assert (T : zsum pr + (zsum ks + zsum post) = K) by (rewrite <- Hall, E, !zsum_app; reflexivity).
  assert (KB : K < 2 ^ 53) by nia.
  unfold local_offsets.
  assert (VW : val s (partition_weight ws) (zsum ks)).
  { change (zsum ks) with (0 + zsum ks). apply sum_spec; auto; try lia. apply val_zero. }
  assert (VS : val s (d_add off (partition_weight ws)) (zsum pr + zsum ks)) by (apply val_add; auto; lia).
  rewrite (val_ceil s Hs off W (zsum pr) K P) by (try assumption; nia). cbn [obind].
  rewrite (val_ceil s Hs (d_add off (partition_weight ws)) W (zsum pr + zsum ks) K P) by (try assumption; nia). cbn [obind].
  pose proof (ce_le (zsum pr) (zsum pr + zsum ks) ltac:(lia)) as LE.
  rewrite (proj2 (Z.ltb_ge _ _)) by exact LE.
  rewrite <- zsum_app in *.
  destruct (@elems_spec (Z.to_nat (ce (zsum (pr ++ ks)) - ce (zsum pr) + 1)) (ce (zsum (pr ++ ks))) ks ws pr post off [] E V A) as (l & E1 & Q & L); try lia.
  rewrite E1. cbn [obind fst snd app]. rewrite Z.eqb_refl. exists l. auto.
Qed.
Lemma all_local_spec : forall kss wss pr off, all = pr ++ concat kss -> Forall2 (Forall2 (val s)) wss kss -> val s off (zsum pr) ->
  exists l, all_local_offsets P W (exscan off (map partition_weight wss)) (zlen pr) wss = Ok l /\
    cuts (ce (zsum pr)) l /\ zlen l = ce (zsum all) - ce (zsum pr).
Proof.
  induction kss as [|ks kss IH]; intros wss pr off E V A; inversion V as [|ws ks' wss' kss' V1 V2]; subst.
  - exists []. simpl. split; [reflexivity|]. split; [exact I|]. rewrite E. simpl. rewrite app_nil_r. unfold zlen. simpl. lia.
  - cbn [map exscan all_local_offsets]. cbn [concat] in E.
    destruct (@local_spec ks ws pr (concat kss) off E V1 A) as (l1 & E1 & Q1 & L1).
    rewrite E1. cbn [obind].
    assert (F : Forall (fun x => 0 <= x) (pr ++ ks ++ concat kss)) by (rewrite E in Hpos; exact Hpos).
    apply Forall_app in F. destruct F as [F1 F2]. apply Forall_app in F2. destruct F2 as [F4 F5].
    pose proof (zsum_nonneg _ F1) as N1. pose proof (zsum_nonneg _ F4) as N4. pose proof (zsum_nonneg _ F5) as N5.
    assert (T : zsum pr + (zsum ks + zsum (concat kss)) = K) by (rewrite <- Hall, E, !zsum_app; reflexivity).
    assert (KB : K < 2 ^ 53) by nia.
    assert (VA : val s (d_add off (partition_weight ws)) (zsum (pr ++ ks))).
    { rewrite zsum_app. apply val_add; auto; try lia. change (zsum ks) with (0 + zsum ks). apply sum_spec; auto; try lia. apply val_zero. }
    destruct (@IH wss' (pr ++ ks) (d_add off (partition_weight ws)) ltac:(now rewrite <- app_assoc) V2 VA) as (l2 & E2 & Q2 & L2).
    assert (LW : zlen ws = zlen ks) by (unfold zlen; now rewrite (forall2_len V1)).
    rewrite zlen_app, <- LW in E2. rewrite E2. cbn [obind].
    exists (l1 ++ l2). split; [reflexivity|]. split.
    + apply cuts_app; [exact Q1|]. replace (ce (zsum pr) + zlen l1) with (ce (zsum (pr ++ ks))) by lia. exact Q2.
    + rewrite zlen_app. lia.
Qed.
End loops.

Lemma forest_weight_fold : forall sums acc, sums <> [] ->
  d_add (last (exscan acc sums) d_zero) (last sums d_zero) = fold_left d_add sums acc.
Proof.
  induction sums as [|w sums IH]; intros acc H; [congruence|].
  destruct sums as [|w2 sums]; [reflexivity|].
  change (last (w :: w2 :: sums) d_zero) with (last (w2 :: sums) d_zero).
  specialize (IH (d_add acc w) ltac:(congruence)). exact IH.
Qed.
Lemma zsum_concat kss : zsum (concat kss) = zsum (map zsum kss).
Proof. induction kss as [|ks kss IH]; [reflexivity|]. cbn [concat map]. rewrite zsum_app, IH. reflexivity. Qed.
Lemma forall_concat {A} (Q : A -> Prop) kss : Forall Q (concat kss) -> Forall (Forall Q) kss.
Proof. induction kss as [|ks kss IH]; intros H; constructor; apply Forall_app in H; [tauto|apply IH; tauto]. Qed.


Lemma pre_mono all a b : Forall (fun k => 0 <= k) all -> a <= b -> weight_before all a <= weight_before all b.
Proof.
  intros F H. unfold weight_before. rewrite <- (firstn_skipn (Z.to_nat a) (firstn (Z.to_nat b) all)).
  rewrite firstn_firstn. replace (Nat.min (Z.to_nat a) (Z.to_nat b)) with (Z.to_nat a) by lia.
  rewrite zsum_app.
  assert (0 <= zsum (skipn (Z.to_nat a) (firstn (Z.to_nat b) all))); [|lia].
  apply zsum_nonneg. rewrite Forall_forall in *. intros x Hx. apply F.
  rewrite <- (firstn_skipn (Z.to_nat b) all). apply in_or_app. left.
  rewrite <- (firstn_skipn (Z.to_nat a) (firstn (Z.to_nat b) all)). apply in_or_app. now right.
Qed.
Lemma at_0 x l : at_ (x :: l) 0 = x.
Proof. reflexivity. Qed.
Lemma at_tail x y l N p : 0 < p <= zlen l -> at_ (x :: l ++ [N]) p = at_ (y :: l) p.
Proof.
  intros H. unfold at_, zlen in *. replace (Z.to_nat p) with (S (Z.to_nat (p - 1))) by lia. cbn [nth].
  apply app_nth1. lia.
Qed.
Lemma at_end x l N p : p = zlen l + 1 -> at_ (x :: l ++ [N]) p = N.
Proof.
  intros ->. unfold at_, zlen. replace (Z.to_nat (Z.of_nat (length l) + 1)) with (S (length l)) by lia. cbn [nth].
  rewrite app_nth2, Nat.sub_diag by lia. reflexivity.
Qed.

Lemma weighted_main s kss : -500 <= s <= 500 -> let P := zlen kss in let all := concat kss in let K := zsum all in
  1 <= P < 2 ^ 31 -> Forall (fun k => 0 <= k) all -> 1 <= K -> K * P < 2 ^ 53 ->
  exists o, weighted_offsets (zlen all) (map (map (as_double s)) kss) = Ok o /\ element_table P (zlen all) o /\
    forall p, 0 < p < P -> is_cut P K all p (at_ o p).
Proof.
  intros Hs P all K HP F HK HM.
  assert (KB : K < 2 ^ 53) by nia.
  assert (L0 : zlen all <> 0).
  { intros E. unfold K in HK. destruct all; [unfold zsum in HK; simpl in HK; lia|rewrite zlen_cons in E; pose proof (zlen_ge0 all); lia]. }
  assert (EL : forall k, In k all -> 0 <= k <= K).
  { intros k Hk. apply in_split in Hk. destruct Hk as (a & b & E). unfold K. rewrite E in *.
    apply Forall_app in F. destruct F as [Fa Fb]. inversion Fb as [|? ? F1 F2]; subst.
    rewrite zsum_app. change (zsum (k :: b)) with (k + zsum b). pose proof (zsum_nonneg _ Fa). pose proof (zsum_nonneg _ F2). lia. }
  assert (V : Forall2 (Forall2 (val s)) (map (map (as_double s)) kss) kss).
  { assert (EL2 : forall k, In k (concat kss) -> 0 <= k <= K) by exact EL. clear -Hs EL2 KB.
    revert EL2. generalize K KB. clear K KB. intros K KB EL.
    induction kss as [|ks kss IH]; constructor.
    - assert (EL2 : forall k, In k ks -> 0 <= k <= K) by (intros k Hk; apply EL; cbn [concat]; apply in_or_app; now left).
      clear -Hs EL2 KB. induction ks as [|k ks IH]; constructor.
      + apply val_weight; [exact Hs|]. specialize (EL2 k (or_introl eq_refl)). lia.
      + apply IH. intros k' Hk. apply EL2. now right.
    - apply IH. intros k Hk. apply EL. cbn [concat]. apply in_or_app. now right. }
  assert (VS : Forall2 (val s) (map partition_weight (map (map (as_double s)) kss)) (map zsum kss)).
  { assert (FF := forall_concat _ _ F).
    assert (SB : forall ks, In ks kss -> zsum ks < 2 ^ 53).
    { intros ks Hk. apply in_split in Hk. destruct Hk as (a & b & E).
      assert (K = zsum (concat a) + (zsum ks + zsum (concat b))).
      { unfold K, all. rewrite E, concat_app, zsum_app. cbn [concat]. now rewrite zsum_app. }
      assert (Forall (fun k => 0 <= k) (concat a) /\ Forall (fun k => 0 <= k) (concat b)) as [Fa Fb].
      { unfold all in F. rewrite E, concat_app in F. apply Forall_app in F. cbn [concat] in F. destruct F as [? F].
        apply Forall_app in F. tauto. }
      pose proof (zsum_nonneg _ Fa). pose proof (zsum_nonneg _ Fb). lia. }
    clear -V FF SB Hs.
    revert V FF SB. generalize (map (map (as_double s)) kss). intros wss V. induction V as [|ws ks wss kss V1 V2 IH]; intros FF SB; constructor.
    - inversion FF; subst. change (zsum ks) with (0 + zsum ks). apply sum_spec; auto; try lia.
      + specialize (SB ks (or_introl eq_refl)). lia.
      + apply val_zero.
    - inversion FF; subst. apply IH; auto. intros ks' Hk. apply SB. now right. }
  assert (NE : map partition_weight (map (map (as_double s)) kss) <> []).
  { destruct kss; [unfold P, zlen in HP; simpl in HP; lia|simpl; congruence]. }
  assert (HW : val s (forest_weight (map partition_weight (map (map (as_double s)) kss))) K).
  { unfold forest_weight. rewrite forest_weight_fold by exact NE.
    unfold K, all. rewrite zsum_concat. change (zsum (map zsum kss)) with (0 + zsum (map zsum kss)).
    apply sum_spec; auto; try lia.
    - assert (FF := forall_concat _ _ F). clear -FF. induction FF; simpl; constructor; auto. now apply zsum_nonneg.
    - rewrite <- zsum_concat. exact KB.
    - apply val_zero. }
  assert (HWS : zlen (map (map (as_double s)) kss) = P) by (unfold zlen, P; rewrite map_length; reflexivity).
  destruct (@all_local_spec s P K _ Hs HP HK HM HW all F eq_refl kss (map (map (as_double s)) kss) [] d_zero eq_refl V (val_zero s)) as (l & E & C & L).
  change (zlen (@nil Z)) with 0 in E. change (zsum []) with 0 in C, L.
  rewrite (ce_0 P K HK) in C, L. fold K in L. rewrite (ce_K P K HP HK) in L. rewrite Z.sub_0_r in L.
  unfold weighted_offsets. rewrite HWS. rewrite (proj2 (Z.eqb_neq _ _)) by exact L0. rewrite E. cbn [obind].
  rewrite (proj2 (Z.eqb_eq _ _)) by lia.
  destruct l as [|x l]; [change (zlen (@nil Z)) with 0 in L; lia|]. rewrite zlen_cons in L. cbn [tl].
  exists (0 :: l ++ [zlen all]). split; [reflexivity|].
  assert (Q : forall p, 0 < p < P -> is_cut P K all p (at_ (0 :: l ++ [zlen all]) p)).
  { intros p Hp. rewrite (at_tail 0 x) by lia. pose proof (cuts_nth P K all 0 (x :: l) p C) as Q.
    rewrite zlen_cons in Q. apply Q. lia. }
  split; [|exact Q].
  split; [lia|]. split; [rewrite zlen_cons, zlen_app; change (zlen [zlen all]) with 1; lia|].
  split; [reflexivity|]. split; [apply at_end; lia|].
  intros p Hp. destruct (Z.eq_dec p 0) as [->|P0].
  - rewrite at_0. destruct (Z.eq_dec P 1) as [P1|P1].
    + rewrite at_end by lia. apply zlen_ge0.
    + apply (Q (0 + 1)). lia.
  - destruct (Z.eq_dec (p + 1) P) as [P1|P1].
    + rewrite (at_end 0 l (zlen all) (p + 1)) by lia. destruct (Q p ltac:(lia)) as [? _]. lia.
    + destruct (Q p ltac:(lia)) as [A1 A2]. destruct (Q (p + 1) ltac:(lia)) as [B1 B2].
      set (a := at_ _ p) in *. set (b := at_ _ (p + 1)) in *.
      destruct (Z.le_gt_cases a b) as [|G]; [assumption|exfalso].
      pose proof (pre_mono all (b + 1) a F ltac:(lia)). nia.
Qed.

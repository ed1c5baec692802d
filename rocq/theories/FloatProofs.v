(** Double precision operations round the exact result (from Flocq), and what follows for the balanced offsets. *)
From Coq Require Import Reals Lra SpecFloat.
From Flocq Require Import Core.Zaux Core.Raux Core.Defs Core.Float_prop Core.Generic_fmt Core.FLT Core.Round_NE Core.Ulp Relative
  IEEE754.BinarySingleNaN.
From Verif Require Import Prelude PartitionModel PartitionSpec FloatModel.
#[local] Unset Implicit Arguments.
#[local] Open Scope R_scope.

#[local] Instance p53 : FLX.Prec_gt_0 53 := eq_refl.
#[local] Instance e1024 : Prec_lt_emax 53 1024 := eq_refl.
Definition fx : Z -> Z := FLT_exp (-1074) 53.
Definition rnd (x : R) : R := round radix2 fx ZnearestE x.
#[local] Instance vfx : Valid_exp fx := FLT_exp_valid (-1074) 53.
Lemma fexp_fx : SpecFloat.fexp 53 1024 = fx.
Proof. reflexivity. Qed.

(** x is a finite double and its value is r *)
Definition dbl (x : spec_float) (r : R) : Prop :=
  exists b : binary_float 53 1024, B2SF b = x /\ is_finite b = true /\ B2R b = r.

Lemma rne_equiv s m l : round_nearest_even m l = choice_mode mode_NE s m l.
Proof. case l; [reflexivity|intro c]. case c; [ | reflexivity..]. now simpl; unfold Round.cond_incr; case Z.even. Qed.
Lemma round_aux_equiv sx mx ex lx :
  SpecFloat.binary_round_aux 53 1024 sx mx ex lx = binary_round_aux 53 1024 mode_NE sx mx ex lx.
Proof.
  unfold SpecFloat.binary_round_aux, binary_round_aux.
  set (mrse' := shr_fexp _ _ _). case mrse'; intros mrs' e'; simpl.
  now rewrite (rne_equiv sx).
Qed.
Lemma round_equiv s m e : SpecFloat.binary_round 53 1024 s m e = binary_round 53 1024 mode_NE s m e.
Proof.
  unfold SpecFloat.binary_round, binary_round, shl_align_fexp.
  set (mez := shl_align _ _ _); case mez as [mz ez]. apply round_aux_equiv.
Qed.
Lemma normalize_equiv m e z :
  SpecFloat.binary_normalize 53 1024 m e z = B2SF (binary_normalize 53 1024 p53 e1024 mode_NE m e z).
Proof. case m as [ | p | p]; simpl; [easy| |]; rewrite B2SF_SF2B; apply round_equiv. Qed.

Definition big : R := bpow radix2 1024.

Lemma d_of_int_spec n : Rabs (rnd (IZR n)) < big -> dbl (d_of_int n) (rnd (IZR n)).
Proof.
  intros H. unfold d_of_int. rewrite normalize_equiv.
  exists (binary_normalize 53 1024 p53 e1024 mode_NE n 0 false). split; [reflexivity|].
  pose proof (binary_normalize_correct 53 1024 p53 e1024 mode_NE n 0 false) as C. cbv zeta in C.
  rewrite fexp_fx in C. cbn [round_mode] in C.
  assert (E : F2R (Float radix2 n 0) = IZR n) by (unfold F2R; simpl; ring).
  rewrite E in C. fold (rnd (IZR n)) in C. rewrite Rlt_bool_true in C by exact H. tauto.
Qed.
Lemma d_mul_spec x y a b : dbl x a -> dbl y b -> Rabs (rnd (a * b)) < big -> dbl (d_mul x y) (rnd (a * b)).
Proof.
  intros (u & <- & Fu & <-) (v & <- & Fv & <-) H.
  exists (Bmult mode_NE u v).
  pose proof (Bmult_correct 53 1024 p53 e1024 mode_NE u v) as C. rewrite fexp_fx in C. cbn [round_mode] in C.
  fold (rnd (B2R u * B2R v)) in C. rewrite Rlt_bool_true in C by exact H. destruct C as (C1 & C2 & _).
  rewrite Fu, Fv in C2. split; [|tauto].
  unfold d_mul. destruct u as [su|su| |su mu eu Bu], v as [sv|sv| |sv mv ev Bv]; try easy.
  simpl. rewrite B2SF_SF2B. symmetry. apply round_aux_equiv.
Qed.
Lemma d_div_spec x y a b : dbl x a -> dbl y b -> b <> 0 -> Rabs (rnd (a / b)) < big -> dbl (d_div x y) (rnd (a / b)).
Proof.
  intros (u & <- & Fu & <-) (v & <- & Fv & <-) N H.
  exists (Bdiv mode_NE u v).
  pose proof (Bdiv_correct 53 1024 p53 e1024 mode_NE u v N) as C. rewrite fexp_fx in C. cbn [round_mode] in C.
  fold (rnd (B2R u / B2R v)) in C. rewrite Rlt_bool_true in C by exact H. destruct C as (C1 & C2 & _).
  rewrite Fu in C2. split; [|tauto].
  unfold d_div. destruct u as [su|su| |su mu eu Bu], v as [sv|sv| |sv mv ev Bv]; try easy.
  simpl. rewrite B2SF_SF2B. set (melz := SFdiv_core_binary _ _ _ _ _ _). case melz as [[mz ez] lz]. symmetry. apply round_aux_equiv.
Qed.
Lemma d_add_spec x y a b : dbl x a -> dbl y b -> Rabs (rnd (a + b)) < big -> dbl (d_add x y) (rnd (a + b)).
Proof.
  intros (u & <- & Fu & <-) (v & <- & Fv & <-) H.
  exists (Bplus mode_NE u v).
  pose proof (Bplus_correct 53 1024 p53 e1024 mode_NE u v Fu Fv) as C. rewrite fexp_fx in C. cbn [round_mode] in C.
  fold (rnd (B2R u + B2R v)) in C. rewrite Rlt_bool_true in C by exact H. destruct C as (C1 & C2 & _).
  split; [|tauto].
  unfold d_add. destruct u as [su|su| |su mu eu Bu], v as [sv|sv| |sv mv ev Bv]; try easy.
  - simpl. now case Bool.eqb.
  - symmetry. apply normalize_equiv.
Qed.
Lemma d_ltb_spec x y a b : dbl x a -> dbl y b -> d_ltb x y = Rlt_bool a b.
Proof. intros (u & <- & Fu & <-) (v & <- & Fv & <-). unfold d_ltb. apply (Bltb_correct 53 1024 u v Fu Fv). Qed.

Lemma d_floor_spec x a : dbl x a -> d_floor x = Some (Zfloor a).
Proof.
  intros (u & <- & Fu & <-). destruct u as [s|s| |s m e B]; try easy.
  - simpl. f_equal. symmetry. apply Zfloor_imp. simpl. lra.
  - simpl B2SF. simpl d_floor. f_equal. simpl B2R.
    replace (cond_Zopp s (Z.pos m)) with (if s then Z.neg m else Z.pos m) by (now destruct s).
    set (k := if s then Z.neg m else Z.pos m). clearbody k.
    unfold F2R; simpl Fnum; simpl Fexp.
    destruct (Z.le_gt_cases 0 e) as [He|He].
    + rewrite Z.shiftl_mul_pow2 by exact He. symmetry.
      rewrite <- (IZR_Zpower radix2) by exact He. rewrite <- mult_IZR. change (Zpower radix2 e) with (2 ^ e)%Z. now rewrite Zfloor_IZR.
    + rewrite <- (Z.opp_involutive e) at 1. rewrite Z.shiftl_opp_r, Z.shiftr_div_pow2 by lia.
      rewrite <- (Z.opp_involutive e) at 2. rewrite bpow_opp.
      rewrite <- (IZR_Zpower radix2) by lia. change (Zpower radix2 (-e)) with (2 ^ (-e))%Z.
      change (IZR k * / IZR (2 ^ - e)) with (IZR k / IZR (2 ^ - e)).
      symmetry. apply Zfloor_div. assert (0 < 2 ^ - e)%Z by (apply Z.pow_pos_nonneg; lia). lia.
Qed.

(** * Facts about rounding *)
Lemma rnd_le x y : x <= y -> rnd x <= rnd y.
Proof. apply round_le; auto with typeclass_instances. Qed.
Lemma rnd_0 : rnd 0 = 0.
Proof. apply round_0; auto with typeclass_instances. Qed.
Lemma rnd_int n : (Z.abs n <= 2 ^ 53)%Z -> rnd (IZR n) = IZR n.
Proof.
  intros H. apply round_generic; [auto with typeclass_instances|].
  destruct (Z.eq_dec (Z.abs n) (2 ^ 53)) as [E|E].
  - assert (G : generic_format radix2 fx (bpow radix2 53)).
    { apply generic_format_bpow. vm_compute. discriminate. }
    assert (B : bpow radix2 53 = IZR (2 ^ 53)) by (rewrite <- (IZR_Zpower radix2) by lia; reflexivity).
    destruct (Z.abs_eq_or_opp n) as [A|A].
    + rewrite <- A, E, <- B. exact G.
    + assert (N : n = (- 2 ^ 53)%Z) by lia. rewrite N, opp_IZR, <- B. now apply generic_format_opp.
  - apply generic_format_FLT. exists (Float radix2 n 0).
    + unfold F2R; simpl; ring.
    + simpl Fnum. change (Zpower radix2 53) with (2 ^ 53)%Z. lia.
    + simpl. lia.
Qed.
Definition u : R := / 9007199254740992.
Lemma u_bpow : / 2 * bpow radix2 (-53 + 1) = u.
Proof. unfold u. simpl. lra. Qed.
Lemma rnd_err x : bpow radix2 (-1022) <= Rabs x -> Rabs (rnd x - x) <= u * Rabs x.
Proof. intros H. rewrite <- u_bpow. apply (relative_error_N_FLT radix2 (-1074) 53); [reflexivity|exact H]. Qed.
Lemma tiny x : / 1099511627776 <= x -> bpow radix2 (-1022) <= x.
Proof.
  intros H. apply Rle_trans with (bpow radix2 (-40)); [now apply bpow_le|]. simpl. lra.
Qed.
(** 0 or not very small *)
Definition okr (x : R) : Prop := x = 0 \/ / 1099511627776 <= x.
Lemma rnd_rel x : okr x -> x - u * x <= rnd x <= x + u * x.
Proof.
  intros [->|H].
  - rewrite rnd_0. lra.
  - assert (P : 0 <= x) by lra.
    pose proof (@rnd_err x) as E. rewrite (Rabs_pos_eq x P) in E. specialize (E (tiny x H)). apply Rabs_le_inv in E. lra.
Qed.
Lemma rnd_ge0 x : 0 <= x -> 0 <= rnd x.
Proof. intros H. rewrite <- rnd_0. now apply rnd_le. Qed.
Lemma big_ge : 340282366920938463463374607431768211456 <= big.
Proof.
  unfold big. apply Rle_trans with (bpow radix2 128); [|now apply bpow_le]. rewrite <- (IZR_Zpower radix2) by lia. apply IZR_le. vm_compute. discriminate.
Qed.

(** * The entries of the table *)
Section entry.
Variables N P : Z.
Hypothesis HN : (0 <= N < 2 ^ 63)%Z.
Hypothesis HP : (1 <= P < 2 ^ 31)%Z.
Definition ent_real (i : Z) : R := rnd (rnd (rnd (IZR N) * IZR i) / IZR P).

Lemma iz_P : 1 <= IZR P <= 2147483648.
Proof. split; apply IZR_le; lia. Qed.
Lemma iz_N : 0 <= IZR N <= 9223372036854775808.
Proof. split; apply IZR_le; lia. Qed.
Lemma ok_N : okr (IZR N).
Proof. destruct (Z.eq_dec N 0) as [->|]; [now left|right]. apply Rle_trans with 1; [lra|]. apply IZR_le. lia. Qed.

Lemma rel_nonneg x : okr x -> 0 <= x.
Proof. intros [->|H]; lra. Qed.

Lemma first_bounds : IZR N - u * IZR N <= rnd (IZR N) <= IZR N + u * IZR N /\ (rnd (IZR N) = 0 \/ / 2 <= rnd (IZR N)).
Proof.
  pose proof (rnd_rel _ ok_N) as B. split; [exact B|].
  destruct (Z.eq_dec N 0) as [E|E]; [left; rewrite E; apply rnd_0|right].
  assert (1 <= IZR N) by (apply IZR_le; lia). unfold u in B. lra.
Qed.
Lemma ok_prod i : (0 <= i)%Z -> rnd (IZR N) * IZR i = 0 \/ / 2 <= rnd (IZR N) * IZR i.
Proof.
  intros Hi. destruct (proj2 first_bounds) as [->|H]; [left; ring|].
  destruct (Z.eq_dec i 0) as [->|]; [left; ring|right].
  assert (1 <= IZR i) by (apply IZR_le; lia). nra.
Qed.
Lemma ok_quot i : (0 <= i)%Z -> okr (rnd (rnd (IZR N) * IZR i) / IZR P).
Proof.
  intros Hi. pose proof iz_P as BP.
  destruct (ok_prod i Hi) as [E|H].
  - left. rewrite E, rnd_0. unfold Rdiv. ring.
  - right. assert (B : okr (rnd (IZR N) * IZR i)) by (right; lra).
    apply rnd_rel in B. unfold u in B.
    apply Rmult_le_reg_r with (IZR P); [lra|].
    unfold Rdiv. rewrite (Rmult_assoc _ (/ IZR P)), Rinv_l by lra. lra.
Qed.
(** the three roundings together *)
Lemma ent_rel i : (0 <= i)%Z ->
  IZR N * IZR i / IZR P * ((1 - u) * (1 - u) * (1 - u)) <= ent_real i <= IZR N * IZR i / IZR P * ((1 + u) * (1 + u) * (1 + u)).
Proof.
  intros Hi. pose proof iz_P as BP. pose proof iz_N as BN.
  assert (Bi : 0 <= IZR i) by (apply IZR_le; lia).
  assert (IP : 0 < / IZR P) by (apply Rinv_0_lt_compat; lra).
  assert (B2 : okr (rnd (IZR N) * IZR i)) by (destruct (ok_prod i Hi); [now left|right; lra]).
  pose proof (rnd_rel _ ok_N) as [L1 U1]. pose proof (rnd_rel _ B2) as [L2 U2]. pose proof (rnd_rel _ (ok_quot i Hi)) as [L3 U3].
  fold (ent_real i) in L3, U3.
  assert (Uu : 0 < u < 1) by (unfold u; lra).
  set (a := rnd (IZR N)) in *. set (b := rnd (a * IZR i)) in *. unfold Rdiv in *.
  assert (La : IZR N * (1 - u) * IZR i <= a * IZR i) by (apply Rmult_le_compat_r; lra).
  assert (Ua : a * IZR i <= IZR N * (1 + u) * IZR i) by (apply Rmult_le_compat_r; lra).
  assert (Lb : IZR N * (1 - u) * IZR i * (1 - u) <= b).
  { apply Rle_trans with (a * IZR i * (1 - u)); [apply Rmult_le_compat_r; lra|lra]. }
  assert (Ub : b <= IZR N * (1 + u) * IZR i * (1 + u)).
  { apply Rle_trans with (a * IZR i * (1 + u)); [lra|apply Rmult_le_compat_r; lra]. }
  assert (Lc : IZR N * (1 - u) * IZR i * (1 - u) * / IZR P <= b * / IZR P) by (apply Rmult_le_compat_r; lra).
  assert (Uc : b * / IZR P <= IZR N * (1 + u) * IZR i * (1 + u) * / IZR P) by (apply Rmult_le_compat_r; lra).
  split.
  - apply Rle_trans with (b * / IZR P * (1 - u)); [|lra].
    apply Rle_trans with (IZR N * (1 - u) * IZR i * (1 - u) * / IZR P * (1 - u)); [right; ring|apply Rmult_le_compat_r; lra].
  - apply Rle_trans with (b * / IZR P * (1 + u)); [lra|].
    apply Rle_trans with (IZR N * (1 + u) * IZR i * (1 + u) * / IZR P * (1 + u)); [apply Rmult_le_compat_r; lra|right; ring].
Qed.

(** i < P: i / P is so much smaller than 1 that no rounding leaves the interval *)
Lemma frac_le i : (0 <= i < P)%Z -> 0 <= IZR i / IZR P <= 1 - / 2147483648.
Proof.
  intros Hi. pose proof iz_P as BP.
  assert (IP : 0 < / IZR P) by (apply Rinv_0_lt_compat; lra).
  assert (0 <= IZR i) by (apply IZR_le; lia).
  assert (IZR i <= IZR P - 1) by (change 1 with (IZR 1); rewrite <- minus_IZR; apply IZR_le; lia).
  split; [unfold Rdiv; nra|].
  apply Rmult_le_reg_r with (IZR P); [lra|]. unfold Rdiv. rewrite Rmult_assoc, Rinv_l by lra. lra.
Qed.
Lemma ent_range i : (0 <= i < P)%Z -> 0 <= ent_real i <= IZR N.
Proof.
  intros Hi. pose proof iz_N as BN. pose proof (frac_le i Hi) as F.
  split.
  - apply rnd_ge0. apply rel_nonneg, ok_quot. lia.
  - apply Rle_trans with (1 := proj2 (ent_rel i ltac:(lia))).
    apply Rle_trans with (IZR N * ((1 - / 2147483648) * ((1 + u) * (1 + u) * (1 + u)))).
    + replace (IZR N * IZR i / IZR P * ((1 + u) * (1 + u) * (1 + u)))
        with (IZR N * (IZR i / IZR P * ((1 + u) * (1 + u) * (1 + u)))) by (unfold Rdiv; ring).
      apply Rmult_le_compat_l; [lra|]. apply Rmult_le_compat_r; [unfold u; lra|lra].
    + rewrite <- (Rmult_1_r (IZR N)) at 2. apply Rmult_le_compat_l; [lra|]. unfold u. lra.
Qed.
Lemma ent_mono i j : (0 <= i <= j)%Z -> ent_real i <= ent_real j.
Proof.
  intros Hi. pose proof iz_P as BP.
  assert (IP : 0 < / IZR P) by (apply Rinv_0_lt_compat; lra).
  apply rnd_le. unfold Rdiv. apply Rmult_le_compat_r; [lra|]. apply rnd_le.
  apply Rmult_le_compat_l; [|apply IZR_le; lia].
  apply rnd_ge0. apply iz_N.
Qed.
Lemma offset_entry_spec i : (0 <= i < P)%Z -> offset_entry N P i = Ok (Zfloor (ent_real i)).
Proof.
  intros Hi. pose proof iz_P as BP. pose proof iz_N as BN. pose proof big_ge as BG.
  pose proof (ent_range i Hi) as [E0 E1].
  assert (Bi : 0 <= IZR i <= 2147483648) by (split; apply IZR_le; lia).
  pose proof first_bounds as [[_ F1] _].
  assert (F0 : 0 <= rnd (IZR N)) by (apply rnd_ge0; lra).
  assert (F2 : rnd (IZR N) <= 18446744073709551616) by (unfold u in F1; lra).
  assert (D1 : dbl (d_of_int N) (rnd (IZR N))).
  { apply d_of_int_spec. rewrite Rabs_pos_eq by exact F0. lra. }
  assert (D2 : dbl (d_of_int i) (IZR i)).
  { rewrite <- (rnd_int i) at 1 by lia. apply d_of_int_spec. rewrite rnd_int by lia. rewrite Rabs_pos_eq by lra. lra. }
  assert (D3 : dbl (d_of_int P) (IZR P)).
  { rewrite <- (rnd_int P) at 1 by lia. apply d_of_int_spec. rewrite rnd_int by lia. rewrite Rabs_pos_eq by lra. lra. }
  assert (G2 : okr (rnd (IZR N) * IZR i)) by (destruct (ok_prod i ltac:(lia)); [now left|right; lra]).
  assert (G3 : rnd (IZR N) * IZR i <= 18446744073709551616 * 2147483648).
  { apply Rmult_le_compat; lra. }
  pose proof (rnd_rel _ G2) as [_ G4].
  assert (G5 : 0 <= rnd (rnd (IZR N) * IZR i)) by (apply rnd_ge0, rel_nonneg, G2).
  assert (D4 : dbl (d_mul (d_of_int N) (d_of_int i)) (rnd (rnd (IZR N) * IZR i))).
  { apply d_mul_spec; auto. rewrite Rabs_pos_eq by exact G5. unfold u in G4. lra. }
  assert (D5 : dbl (d_div (d_mul (d_of_int N) (d_of_int i)) (d_of_int P)) (ent_real i)).
  { apply d_div_spec; auto; [lra|]. fold (ent_real i). rewrite Rabs_pos_eq by exact E0. lra. }
  unfold offset_entry. rewrite (d_floor_spec _ _ D5). unfold to_int.
  assert (0 <= Zfloor (ent_real i))%Z by (apply Zfloor_lub; exact E0).
  assert (Zfloor (ent_real i) <= N)%Z by (rewrite <- (Zfloor_IZR N); apply Zfloor_le; exact E1).
  replace ((- 2 ^ (64 - 1) <=? Zfloor (ent_real i)) && (Zfloor (ent_real i) <? 2 ^ (64 - 1)))%Z with true; [reflexivity|].
  symmetry. apply andb_true_intro. split; [apply Z.leb_le|apply Z.ltb_lt]; lia.
Qed.
Lemma offset_entries_spec n lo : (0 <= lo)%Z -> (lo + Z.of_nat n <= P)%Z ->
  offset_entries N P (zseq lo n) = Ok (map (fun i => Zfloor (ent_real i)) (zseq lo n)).
Proof.
  revert lo; induction n as [|n IH]; intros lo H0 H1; [reflexivity|].
  cbn [zseq offset_entries map]. rewrite offset_entry_spec by lia. cbn [obind]. rewrite IH by lia. reflexivity.
Qed.
Lemma ent_0 : ent_real 0 = 0.
Proof. unfold ent_real. rewrite Rmult_0_r, rnd_0. unfold Rdiv. rewrite Rmult_0_l. apply rnd_0. Qed.

Definition table : list Z := map (fun i => Zfloor (ent_real i)) (zseq 0 (Z.to_nat P)) ++ [N].
Lemma balanced_eq : (0 < N)%Z -> balanced_offsets N P = Ok table.
Proof.
  intros H. unfold balanced_offsets. rewrite (proj2 (Z.eqb_neq N 0)) by lia.
  rewrite offset_entries_spec by lia. reflexivity.
Qed.
Lemma table_at i : (0 <= i < P)%Z -> at_ table i = Zfloor (ent_real i).
Proof.
  intros Hi. unfold at_, table. rewrite app_nth1 by (rewrite map_length, zseq_length; lia).
  rewrite (nth_indep _ 0%Z (Zfloor (ent_real 0))) by (rewrite map_length, zseq_length; lia).
  rewrite (map_nth (fun i => Zfloor (ent_real i)) _ 0%Z). rewrite nth_zseq by lia. do 2 f_equal. lia.
Qed.
Lemma table_last : at_ table P = N.
Proof.
  unfold at_, table. rewrite app_nth2 by (rewrite map_length, zseq_length; lia).
  rewrite map_length, zseq_length. replace (Z.to_nat P - Z.to_nat P)%nat with O by lia. reflexivity.
Qed.
Lemma table_ok : element_table P N table.
Proof.
  split; [lia|]. split; [unfold zlen, table; rewrite app_length, map_length, zseq_length; simpl; lia|].
  split; [rewrite table_at, ent_0 by lia; apply (Zfloor_IZR 0)|]. split; [exact table_last|].
  intros p Hp. rewrite (table_at p) by lia.
  destruct (Z.eq_dec (p + 1) P) as [->|].
  - rewrite table_last. rewrite <- (Zfloor_IZR N). apply Zfloor_le. now apply ent_range.
  - rewrite table_at by lia. apply Zfloor_le, ent_mono. lia.
Qed.

(** exact quotients as long as the products fit into 53 bits *)
Lemma ent_exact i : (0 <= i < P)%Z -> (N * P <= 2 ^ 53)%Z -> Zfloor (ent_real i) = (N * i / P)%Z.
Proof.
  intros Hi HM. pose proof iz_P as BP.
  assert (IP : 0 < / IZR P) by (apply Rinv_0_lt_compat; lra).
  assert (M0 : (0 <= N * i)%Z) by nia. assert (M1 : (N * i < 2 ^ 53)%Z) by nia.
  unfold ent_real. rewrite (rnd_int N) by nia. rewrite <- mult_IZR. rewrite rnd_int by lia.
  set (k := (N * i / P)%Z).
  assert (K0 : (0 <= k)%Z) by (apply Z.div_pos; lia).
  assert (K1 : (P * k <= N * i)%Z) by (apply Z.mul_div_le; lia).
  assert (K2 : (N * i < P * (k + 1))%Z).
  { pose proof (Z.mul_succ_div_gt (N * i) P). unfold k. lia. }
  set (m := (N * i)%Z) in *.
  assert (Q : (IZR m / IZR P) * IZR P = IZR m) by (unfold Rdiv; rewrite Rmult_assoc, Rinv_l by lra; ring).
  set (q := IZR m / IZR P) in *.
  assert (R1 : IZR P * IZR k <= IZR m) by (rewrite <- mult_IZR; apply IZR_le; lia).
  assert (R2 : IZR m + 1 <= IZR P * (IZR k + 1)) by (rewrite <- !plus_IZR, <- mult_IZR; apply IZR_le; lia).
  apply Zfloor_imp. split.
  - rewrite <- (rnd_int k) by (assert (k <= m)%Z by nia; lia). apply rnd_le.
    apply Rmult_le_reg_r with (IZR P); lra.
  - rewrite plus_IZR.
    assert (O : okr q).
    { destruct (Z.eq_dec m 0) as [E|E]; [left; unfold q; rewrite E; unfold Rdiv; ring|right].
      assert (1 <= IZR m) by (apply IZR_le; lia). apply Rmult_le_reg_r with (IZR P); lra. }
    apply rnd_rel in O.
    assert (M2 : IZR m < 9007199254740992) by (apply IZR_lt; lia).
    assert (UM : u * IZR m < 1) by (unfold u; lra).
    apply Rle_lt_trans with (1 := proj2 O).
    apply Rmult_lt_reg_r with (IZR P); [lra|].
    rewrite Rmult_plus_distr_r, Rmult_assoc, Q. lra.
Qed.

(** beyond that, an entry is off by one at most *)
Lemma ent_close i : (0 <= i < P)%Z -> (N <= 2 ^ 50)%Z ->
  IZR N * IZR i / IZR P - / 2 <= ent_real i <= IZR N * IZR i / IZR P + / 2.
Proof.
  intros Hi HB. pose proof (ent_rel i ltac:(lia)) as [L U]. pose proof (frac_le i Hi) as F. pose proof iz_N as BN.
  assert (B : 0 <= IZR N <= 1125899906842624) by (split; [lra|apply IZR_le; lia]).
  set (x := IZR N * IZR i / IZR P) in *.
  assert (X : 0 <= x <= 1125899906842624).
  { unfold x. unfold Rdiv. rewrite Rmult_assoc. fold (IZR i / IZR P). nra. }
  unfold u in *. lra.
Qed.
End entry.

#[local] Open Scope Z_scope.
Lemma zero_table P : 1 <= P -> balanced_offsets 0 P = Ok (repeat 0 (Z.to_nat (P + 1))) /\ element_table P 0 (repeat 0 (Z.to_nat (P + 1))).
Proof.
  intros H. split; [reflexivity|].
  assert (A : forall i, at_ (repeat 0 (Z.to_nat (P + 1))) i = 0).
  { intros i. unfold at_. apply nth_repeat. }
  split; [lia|]. split; [unfold zlen; rewrite repeat_length; lia|]. rewrite !A. split; [reflexivity|]. split; [reflexivity|].
  intros p _. rewrite !A. lia.
Qed.
Lemma balanced_table N P : 0 <= N < 2 ^ 63 -> 1 <= P < 2 ^ 31 -> exists o, balanced_offsets N P = Ok o /\ element_table P N o.
Proof.
  intros HN HP. destruct (Z.eq_dec N 0) as [->|].
  - exists (repeat 0 (Z.to_nat (P + 1))). apply zero_table. lia.
  - exists (table N P). split; [apply balanced_eq; lia|apply table_ok; auto].
Qed.
Lemma balanced_exact N P o : 0 <= N < 2 ^ 63 -> 1 <= P < 2 ^ 31 -> N * P <= 2 ^ 53 -> balanced_offsets N P = Ok o ->
  forall p, 0 <= p <= P -> at_ o p = N * p / P.
Proof.
  intros HN HP HM E p Hp.
  assert (L : N * P / P = N) by (apply Z.div_mul; lia).
  destruct (Z.eq_dec N 0) as [->|].
  - rewrite (proj1 (zero_table P ltac:(lia))) in E. injection E as <-. unfold at_. rewrite nth_repeat. now rewrite Z.mul_0_l, Z.div_0_l by lia.
  - rewrite balanced_eq in E by lia. injection E as <-.
    destruct (Z.eq_dec p P) as [->|].
    + rewrite L. apply table_last. lia.
    + rewrite table_at by lia. apply ent_exact; lia.
Qed.
(** floor (N (p+1) / P) - floor (N p / P) is N / P rounded down or up *)
Lemma count_exact N P p : 0 <= N -> 1 <= P -> N / P <= N * (p + 1) / P - N * p / P <= (N + P - 1) / P.
Proof.
  intros HN HP. set (q := N / P). set (a := N * p / P). set (b := N * (p + 1) / P). set (c := (N + P - 1) / P).
  assert (P * q <= N < P * q + P).
  { unfold q. pose proof (Z.div_mod N P ltac:(lia)). pose proof (Z.mod_pos_bound N P ltac:(lia)). nia. }
  assert (P * a <= N * p < P * a + P).
  { unfold a. pose proof (Z.div_mod (N * p) P ltac:(lia)). pose proof (Z.mod_pos_bound (N * p) P ltac:(lia)). nia. }
  assert (P * b <= N * (p + 1) < P * b + P).
  { unfold b. pose proof (Z.div_mod (N * (p + 1)) P ltac:(lia)). pose proof (Z.mod_pos_bound (N * (p + 1)) P ltac:(lia)). nia. }
  assert (P * c <= N + P - 1 < P * c + P).
  { unfold c. pose proof (Z.div_mod (N + P - 1) P ltac:(lia)). pose proof (Z.mod_pos_bound (N + P - 1) P ltac:(lia)). nia. }
  clearbody q a b c. split; nia.
Qed.
Lemma ceil_floor N P : 0 <= N -> 1 <= P -> (N + P - 1) / P = N / P \/ (N + P - 1) / P = N / P + 1.
Proof.
  intros. pose proof (Z.div_mod N P ltac:(lia)). pose proof (Z.mod_pos_bound N P ltac:(lia)).
  pose proof (Z.div_mod (N + P - 1) P ltac:(lia)). pose proof (Z.mod_pos_bound (N + P - 1) P ltac:(lia)). nia.
Qed.
(** entries are off by less than 3/2 below and 1/2 above when the products do not fit into 53 bits *)
Lemma balanced_near N P o : 0 <= N <= 2 ^ 50 -> 1 <= P < 2 ^ 31 -> balanced_offsets N P = Ok o ->
  forall p, 0 <= p <= P -> 2 * N * p - 3 * P < 2 * P * at_ o p <= 2 * N * p + P.
Proof.
  intros HN HP E p Hp. destruct (Z.eq_dec N 0) as [->|N0].
  - rewrite (proj1 (zero_table P ltac:(lia))) in E. injection E as <-. unfold at_. rewrite nth_repeat. lia.
  - rewrite balanced_eq in E by lia. injection E as <-.
    destruct (Z.eq_dec p P) as [->|].
    + rewrite table_last by lia. lia.
    + rewrite table_at by lia.
      pose proof (ent_close N P ltac:(lia) HP p ltac:(lia) ltac:(lia)) as [L U].
      pose proof (Zfloor_lb (ent_real N P p)) as F1. pose proof (Zfloor_ub (ent_real N P p)) as F2.
      set (z := Zfloor (ent_real N P p)) in *. set (r := ent_real N P p) in *. clearbody z r.
      assert (BP : (1 <= IZR P)%R) by (apply IZR_le; lia).
      assert (Q : (IZR N * IZR p / IZR P * IZR P = IZR N * IZR p)%R) by (unfold Rdiv; rewrite Rmult_assoc, Rinv_l by lra; ring).
      set (x := (IZR N * IZR p / IZR P)%R) in *. clearbody x.
      split; [apply lt_IZR|apply le_IZR]; repeat (rewrite ?minus_IZR, ?plus_IZR, ?mult_IZR); nra.
Qed.
Lemma count_near N P p a b : 0 <= N -> 1 <= P ->
  2 * N * p - 3 * P < 2 * P * a <= 2 * N * p + P -> 2 * N * (p + 1) - 3 * P < 2 * P * b <= 2 * N * (p + 1) + P ->
  N / P - 1 <= b - a <= (N + P - 1) / P + 1.
Proof.
  intros HN HP A B. set (q := N / P). set (c := (N + P - 1) / P).
  assert (P * q <= N < P * q + P).
  { unfold q. pose proof (Z.div_mod N P ltac:(lia)). pose proof (Z.mod_pos_bound N P ltac:(lia)). nia. }
  assert (P * c <= N + P - 1 < P * c + P).
  { unfold c. pose proof (Z.div_mod (N + P - 1) P ltac:(lia)). pose proof (Z.mod_pos_bound (N + P - 1) P ltac:(lia)). nia. }
  clearbody q c. split; nia.
Qed.

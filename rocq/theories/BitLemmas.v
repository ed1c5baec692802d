(** Facts about the bit operations used by the element code on dyadic coordinates. *)
From Verif Require Import Prelude SimplexModel.

Definition al (k v : Z) : Prop := exists q, v = q * 2 ^ k.

Lemma shiftl1_pow k : 0 <= k -> Z.shiftl 1 k = 2 ^ k.
Proof. intros. rewrite Z.shiftl_mul_pow2 by lia. lia. Qed.

Lemma pow2_pos k : 0 <= k -> 0 < 2 ^ k.
Proof. intros. apply Z.pow_pos_nonneg; lia. Qed.

Lemma pow2_S k : 0 <= k -> 2 ^ (k + 1) = 2 * 2 ^ k.
Proof. intros. rewrite Z.pow_add_r by lia. lia. Qed.

Lemma pow2_split k j : 0 <= k <= j -> 2 ^ j = 2 ^ (j - k) * 2 ^ k.
Proof. intros. rewrite <- Z.pow_add_r by lia. f_equal. lia. Qed.

Lemma al_weaken k j v : 0 <= k <= j -> al j v -> al k v.
Proof. intros H (q & ->). exists (q * 2 ^ (j - k)). rewrite (pow2_split H). lia. Qed.

Lemma al_add k v w : al k v -> al k w -> al k (v + w).
Proof. intros (q & ->) (r & ->). exists (q + r). lia. Qed.
Lemma al_sub k v w : al k v -> al k w -> al k (v - w).
Proof. intros (q & ->) (r & ->). exists (q - r). lia. Qed.
Lemma al_mul k v b : al k v -> al k (b * v).
Proof. intros (q & ->). exists (b * q). lia. Qed.
Lemma al_pow k : al k (2 ^ k).
Proof. exists 1. lia. Qed.
Lemma al_0 k : al k 0.
Proof. exists 0. lia. Qed.

Lemma testbit_div v k : 0 <= k -> Z.testbit v k = Z.odd (v / 2 ^ k).
Proof. intros. rewrite Z.testbit_odd, Z.shiftr_div_pow2 by lia. reflexivity. Qed.

Lemma tb_al_low k j v : 0 <= j < k -> al k v -> Z.testbit v j = false.
Proof.
  intros H (q & ->). rewrite testbit_div by lia.
  assert (E : 2 ^ k = 2 ^ (k - j - 1) * 2 * 2 ^ j).
  { rewrite (@pow2_split j k) by lia.
    assert (E1 : 2 ^ (k - j) = 2 * 2 ^ (k - j - 1)) by (rewrite <- pow2_S by lia; f_equal; lia). rewrite E1. lia. }
  rewrite E. replace (q * (2 ^ (k - j - 1) * 2 * 2 ^ j)) with ((q * 2 ^ (k - j - 1) * 2) * 2 ^ j) by lia.
  pose proof (@pow2_pos j ltac:(lia)).
  rewrite Z.div_mul by lia. rewrite Z.odd_mul. cbn. apply andb_false_r.
Qed.

Lemma tb_add_same k v b : 0 <= k -> al (k + 1) v -> Z.testbit (v + Z.b2z b * 2 ^ k) k = b.
Proof.
  intros Hk (q & ->). rewrite testbit_div, pow2_S by lia.
  pose proof (pow2_pos Hk).
  replace (q * (2 * 2 ^ k) + Z.b2z b * 2 ^ k) with ((2 * q + Z.b2z b) * 2 ^ k) by lia.
  rewrite Z.div_mul by lia. rewrite Z.odd_add, Z.odd_mul. destruct b; reflexivity.
Qed.

Lemma div_add_low k j v b : 0 <= k < j -> al (k + 1) v -> (v + Z.b2z b * 2 ^ k) / 2 ^ j = v / 2 ^ j.
Proof.
  intros Hk (q & ->). pose proof (@pow2_pos k ltac:(lia)).
  assert (E : 2 ^ j = 2 ^ (k + 1) * 2 ^ (j - k - 1)) by (rewrite <- Z.pow_add_r by lia; f_equal; lia). rewrite E.
  pose proof (@pow2_pos (j - k - 1) ltac:(lia)).
  rewrite <- !Z.div_div by (rewrite ?pow2_S; lia).
  f_equal. rewrite pow2_S by lia. rewrite Z.div_mul by lia.
  rewrite Z.div_add_l by lia. rewrite (Z.div_small (Z.b2z b * 2 ^ k)); [lia|]. destruct b; cbn [Z.b2z]; lia.
Qed.

Lemma tb_add_hi k j v b : 0 <= k < j -> al (k + 1) v -> Z.testbit (v + Z.b2z b * 2 ^ k) j = Z.testbit v j.
Proof. intros. rewrite !testbit_div by lia. now rewrite div_add_low by assumption. Qed.

Lemma land_pow2 v k : 0 <= k -> (Z.land v (2 ^ k) =? 0) = negb (Z.testbit v k).
Proof.
  intros Hk. destruct (Z.testbit v k) eqn:E; cbn.
  - apply Z.eqb_neq. intros H. apply (f_equal (fun w => Z.testbit w k)) in H.
    rewrite Z.land_spec, E, Z.bits_0, Z.pow2_bits_true in H by lia. discriminate.
  - apply Z.eqb_eq. apply Z.bits_inj'. intros n Hn. rewrite Z.land_spec, Z.bits_0.
    destruct (Z.eq_dec n k) as [->|Hne]; [rewrite E; reflexivity|].
    rewrite Z.pow2_bits_false by lia. apply andb_false_r.
Qed.

Lemma bit_or0_pow v k a : 0 <= k -> bit_or0 v (2 ^ k) a = if Z.testbit v k then a else 0.
Proof. intros. unfold bit_or0. rewrite land_pow2 by lia. destruct (Z.testbit v k); reflexivity. Qed.

Lemma lor_add_disjoint a b : Z.land a b = 0 -> Z.lor a b = a + b.
Proof. intros H. rewrite Z.add_nocarry_lxor by exact H. symmetry. now apply Z.lxor_lor. Qed.

Lemma land_al_low k a b : 0 <= k -> 0 <= a < 2 ^ k -> al k b -> Z.land a b = 0.
Proof.
  intros Hk Ha Hb. apply Z.bits_inj'. intros n Hn. rewrite Z.land_spec, Z.bits_0.
  destruct (Z_lt_dec n k) as [Hlt|Hge].
  - rewrite (@tb_al_low k n b) by (auto; lia). apply andb_false_r.
  - destruct (Z.eq_dec a 0) as [->|Hz]; [rewrite Z.bits_0; reflexivity|].
    rewrite (Z.bits_above_log2 a n); [reflexivity|lia|].
    apply Z.log2_lt_pow2; [lia|]. pose proof (Z.pow_le_mono_r 2 k n ltac:(lia) ltac:(lia)). lia.
Qed.

Lemma lor_low_shift a d k : 0 <= k -> 0 <= a < 2 ^ k -> Z.lor a (Z.shiftl d k) = a + d * 2 ^ k.
Proof.
  intros Hk Ha. rewrite Z.shiftl_mul_pow2 by lia. apply lor_add_disjoint.
  apply land_al_low with (k := k); auto. exists d. lia.
Qed.

Lemma lor_high_low a b k : 0 <= k -> 0 <= b < 2 ^ k -> al k a -> Z.lor a b = a + b.
Proof. intros Hk Hb Ha. apply lor_add_disjoint. rewrite Z.land_comm. now apply land_al_low with (k := k). Qed.

Lemma clear_pow_bits v k n : 0 <= k -> 0 <= n -> Z.testbit (clear v (2 ^ k)) n = Z.testbit v n && negb (n =? k).
Proof.
  intros. unfold clear. rewrite Z.land_spec, Z.lnot_spec by lia. rewrite Z.pow2_bits_eqb by lia.
  rewrite (Z.eqb_sym k n). reflexivity.
Qed.

Lemma clear_add k v b : 0 <= k -> al (k + 1) v -> clear (v + Z.b2z b * 2 ^ k) (2 ^ k) = v.
Proof.
  intros Hk Hv. apply Z.bits_inj'. intros n Hn. rewrite clear_pow_bits by lia.
  destruct (Z.eqb_spec n k) as [->|Hne]; cbn.
  - rewrite andb_false_r. symmetry. apply tb_al_low with (k := k + 1); auto. lia.
  - rewrite andb_true_r. destruct (Z_lt_dec n k).
    + rewrite (@tb_al_low (k + 1) n v) by (auto; lia).
      apply tb_al_low with (k := k); [lia|]. apply al_add; [apply al_weaken with (j := k + 1); auto; lia|].
      apply al_mul, al_pow.
    + apply tb_add_hi; auto. lia.
Qed.

Lemma land_ones_low v k : 0 <= k -> Z.land v (2 ^ k - 1) = v mod 2 ^ k.
Proof. intros. replace (2 ^ k - 1) with (Z.ones k) by (rewrite Z.ones_equiv; lia). apply Z.land_ones. lia. Qed.

Lemma clear_ones v k : 0 <= k -> clear v (2 ^ k - 1) = v - v mod 2 ^ k.
Proof.
  intros Hk. unfold clear. rewrite <- Z.ldiff_land.
  replace (2 ^ k - 1) with (Z.ones k) by (rewrite Z.ones_equiv; lia).
  rewrite Z.ldiff_ones_r by lia. rewrite Z.shiftr_div_pow2, Z.shiftl_mul_pow2 by lia.
  pose proof (Z.div_mod v (2 ^ k) ltac:(pose proof (pow2_pos Hk); lia)). lia.
Qed.

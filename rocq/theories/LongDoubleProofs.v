(** The long double computation of the process of an element is exact for powers of two. *)
From Verif Require Import Prelude OwnerModel UniformModel UniformSpec UniformProofs PartBoundsModel PartBoundsSpec.
#[local] Unset Implicit Arguments.
#[local] Arguments u64_small : clear implicits.
#[local] Arguments i64_small : clear implicits.

Lemma log2_64 n : 0 < n < 2 ^ 64 -> 0 <= Z.log2 n <= 63.
Proof. intros H. split; [apply Z.log2_nonneg|]. assert (Z.log2 n < 64); [|lia]. apply Z.log2_lt_pow2; lia. Qed.
Lemma ld_round_exact n j k : 0 < n < 2 ^ 64 -> 0 <= j <= k -> ld_round (n * 2 ^ j) (2 ^ k) = (n * 2 ^ (63 - Z.log2 n), 63 - Z.log2 n + k - j).
Proof.
  intros Hn Hj. assert (LB := log2_64 n Hn). assert (PJ : 0 < 2 ^ j) by (apply Z.pow_pos_nonneg; lia). assert (PK : 0 < 2 ^ k) by (apply Z.pow_pos_nonneg; lia).
  unfold ld_round. destruct (Z.eqb_spec (n * 2 ^ j) 0) as [E|_]; [apply Z.mul_eq_0 in E; lia|]. rewrite Z.log2_mul_pow2, Z.log2_pow2 by lia. set (L := Z.log2 n) in *. set (e := j + L - k).
  assert (PE : 2 ^ k * 2 ^ Z.max e 0 <= n * 2 ^ j * 2 ^ Z.max (- e) 0).
  { assert (Q : 2 ^ L <= n) by (apply Z.log2_spec; lia). destruct (Z.le_ge_cases 0 e) as [G|G].
    - rewrite (Z.max_l e 0), (Z.max_r (- e) 0) by lia. rewrite Z.mul_1_r, <- Z.pow_add_r by lia. replace (k + e) with (L + j) by lia. rewrite Z.pow_add_r by lia. apply Z.mul_le_mono_nonneg_r; lia.
    - rewrite (Z.max_r e 0), (Z.max_l (- e) 0) by lia. rewrite Z.mul_1_r, <- Z.mul_assoc, <- Z.pow_add_r by lia. replace k with (L + (j + - e)) by lia. rewrite Z.pow_add_r by lia. apply Z.mul_le_mono_nonneg_r; [|exact Q]. apply Z.pow_nonneg. lia. }
  rewrite (proj2 (Z.leb_le _ _) PE). cbv zeta. rewrite (Z.max_l (63 - e) 0), (Z.max_r (- (63 - e)) 0) by lia. rewrite Z.mul_1_r.
  assert (NN : n * 2 ^ j * 2 ^ (63 - e) = n * 2 ^ (63 - L) * 2 ^ k). { rewrite <- !Z.mul_assoc, <- !Z.pow_add_r by lia. f_equal. f_equal. lia. }
  rewrite NN, Z.div_mul, Z.mod_mul by lia. rewrite (proj2 (Z.ltb_lt (2 * 0) (2 ^ k))) by lia. cbn [orb]. destruct (Z.ltb_spec (63 - e) 0); [lia|]. f_equal. lia.
Qed.
Lemma ld_zero d : ld_round 0 d = (0, 0). Proof. reflexivity. Qed.

Lemma times_over_exact checks A B k : 0 <= k -> 0 < A < 2 ^ 31 -> 0 <= B < 2 ^ k -> A * B < 2 ^ 64 -> a_times_b_over_c checks A B (2 ^ k) = Ok (A * B / 2 ^ k).
Proof.
  intros Hk HA HB HAB. assert (PK : 0 < 2 ^ k) by (apply Z.pow_pos_nonneg; lia). unfold a_times_b_over_c. set (N := 2 ^ k) in *. set (u := A / N). set (r := A mod N).
  assert (DM : A = N * u + r) by (apply Z.div_mod; lia). assert (R : 0 <= r < N) by (apply Z.mod_pos_bound; lia). assert (U : 0 <= u) by (apply Z.div_pos; lia).
  assert (NU : 0 <= N * u) by (apply Z.mul_nonneg_nonneg; lia). assert (UB1 : 0 <= u * B) by (apply Z.mul_nonneg_nonneg; lia).
  assert (UB2 : u * B <= A). { assert (u * B <= u * N) by (apply Z.mul_le_mono_nonneg_l; lia). lia. }
  rewrite (i64_small (u * B)) by lia.
  assert (CK : checks && negb ((u =? 0) || (u * B / u =? B)) = false). { destruct (Z.eqb_spec u 0) as [|NZ]; [now rewrite andb_false_r|]. rewrite Z.mul_comm, Z.div_mul by lia. rewrite Z.eqb_refl. now rewrite andb_false_r. }
  rewrite CK. assert (AB : A * B = (u * B) * N + r * B) by (rewrite DM; ring).
  assert (UB64 : u * B < 2 ^ 64) by lia.
  assert (INT : forall x, 0 <= x < 2 ^ 64 -> let '(m, j) := ld_round x 1 in m / 2 ^ j = x).
  { intros x Hx. destruct (Z.eq_dec x 0) as [->|NZ]; [reflexivity|]. assert (E := ld_round_exact x 0 0 ltac:(lia) ltac:(lia)). rewrite Z.mul_1_r in E. change (2 ^ 0) with 1 in E. rewrite E. assert (LB := log2_64 x ltac:(lia)).
    replace (63 - Z.log2 x + 0 - 0) with (63 - Z.log2 x) by lia. apply Z.div_mul. apply Z.pow_nonzero; lia. }
  destruct (Z.eq_dec r 0) as [R0|R1]; [|destruct (Z.eq_dec B 0) as [B0|B1]].
  - rewrite R0, ld_zero. rewrite Z.mul_0_l, ld_zero. change (2 ^ 0) with 1. rewrite Z.mul_1_r, Z.add_0_r. specialize (INT (u * B) ltac:(lia)). destruct (ld_round (u * B) 1) as [m j]. rewrite INT. f_equal. rewrite AB, R0, Z.mul_0_l, Z.add_0_r. now rewrite Z.div_mul by lia.
  - rewrite B0. destruct (ld_round r N) as [m1 k1]. rewrite Z.mul_0_r, ld_zero. rewrite !Z.mul_0_r. reflexivity.
  - assert (E1 := ld_round_exact r 0 k ltac:(lia) ltac:(lia)). fold N in E1. rewrite Z.mul_1_r in E1. rewrite E1. assert (L1 := log2_64 r ltac:(lia)). set (l1 := 63 - Z.log2 r) in *.
    assert (RB1 : 0 < r * B) by (apply Z.mul_pos_pos; lia). assert (UBN : 0 <= u * B * N) by (apply Z.mul_nonneg_nonneg; lia).
    replace (r * 2 ^ l1 * B) with (r * B * 2 ^ l1) by ring. rewrite (ld_round_exact (r * B) l1 (l1 + k - 0)) by lia. assert (L2 := log2_64 (r * B) ltac:(lia)). set (l2 := 63 - Z.log2 (r * B)) in *. replace (l2 + (l1 + k - 0) - l1) with (l2 + k) by lia.
    replace (u * B * 2 ^ (l2 + k) + r * B * 2 ^ l2) with (A * B * 2 ^ l2) by (rewrite Z.pow_add_r by lia; fold N; rewrite AB; ring).
    rewrite (ld_round_exact (A * B) l2 (l2 + k)) by lia. assert (L3 := log2_64 (A * B) ltac:(lia)). set (l3 := 63 - Z.log2 (A * B)) in *. replace (l3 + (l2 + k) - l2) with (k + l3) by lia. f_equal. rewrite Z.pow_add_r by lia. fold N. apply Z.div_mul_cancel_r; [lia|]. apply Z.pow_nonzero; lia.
Qed.
Lemma owner_cut N P g : 0 < N -> 0 < P -> 0 <= g < N -> has_element N P (P - 1 - P * (N - g - 1) / N) g.
Proof.
  intros HN HP Hg. set (M := N - g - 1). set (v := P * M / N). assert (V1 : N * v <= P * M) by (apply Z.mul_div_le; lia). assert (V2 : P * M < N * (v + 1)) by (apply Z.mul_succ_div_gt; lia).
  assert (PM : 0 <= P * M) by (apply Z.mul_nonneg_nonneg; lia). assert (V0 : 0 <= v) by (apply Z.div_pos; lia). assert (PM2 : P * M < P * N) by (apply Z.mul_lt_mono_pos_l; lia).
  assert (V3 : v < P). { apply Z.div_lt_upper_bound; lia. }
  assert (Q : P * (g + 1) = P * N - P * M) by (unfold M; ring). split; [lia|]. unfold cut. split.
  - assert ((P - 1 - v) * N / P < g + 1); [|lia]. apply Z.div_lt_upper_bound; [lia|]. rewrite Q. replace ((P - 1 - v) * N) with (P * N - N * (v + 1)) by ring. lia.
  - assert (g + 1 <= (P - 1 - v + 1) * N / P); [|lia]. apply Z.div_le_lower_bound; [lia|]. rewrite Q. replace ((P - 1 - v + 1) * N) with (P * N - N * v) by ring. lia.
Qed.
Theorem determine_pow2 : forall checks k g P, 0 <= k <= 62 -> 0 <= g < 2 ^ k -> 0 < P < 2 ^ 31 -> P * 2 ^ k <= 2 ^ 64 ->
  exists p, determine_partition checks g (2 ^ k) P 0 = Ok p /\ has_element (2 ^ k) P p g.
Proof.
  intros checks k g P Hk Hg HP HPN. set (N := 2 ^ k) in *. assert (NB : N <= 2 ^ 62) by (apply Z.pow_le_mono_r; lia). assert (O := owner_cut N P g ltac:(lia) ltac:(lia) Hg). exists (P - 1 - P * (N - g - 1) / N). split; [|exact O].
  unfold determine_partition. destruct (Z.eqb_spec g N); [lia|]. cbv zeta. assert (PM2 : P * (N - g - 1) < P * N) by (apply Z.mul_lt_mono_pos_l; lia). assert (TX := times_over_exact checks P (N - g - 1) k ltac:(lia) ltac:(lia) ltac:(fold N; lia) ltac:(lia)). fold N in TX. rewrite TX. cbn [obind].
  set (p := P - 1 - P * (N - g - 1) / N) in *. destruct O as [O1 O2]. rewrite (proj2 (Z.leb_le 0 p)), (proj2 (Z.ltb_lt p P)) by lia. cbn [andb negb]. rewrite andb_false_r. rewrite Z.sub_0_r, u64_small by lia. destruct checks; cbn [negb]; [|reflexivity].
  rewrite (proj1 (first_element_ok p P N ltac:(lia) ltac:(lia) ltac:(lia))). cbn [obind]. fold (cut N P p).
  assert (BB : (if p =? P - 1 then Ok (g + 1) else first_element_of_process (p + 1) P N) = Ok (if p =? P - 1 then g + 1 else cut N P (p + 1))).
  { destruct (p =? P - 1) eqn:E; [reflexivity|]. exact (proj1 (first_element_ok (p + 1) P N ltac:(lia) ltac:(lia) ltac:(lia))). }
  rewrite BB. cbn [obind]. rewrite (proj2 (Z.leb_le (cut N P p) g)) by lia. rewrite (proj2 (Z.ltb_lt g _)); [reflexivity|]. destruct (p =? P - 1); lia.
Qed.

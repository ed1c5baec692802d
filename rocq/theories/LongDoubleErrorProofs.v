(** The rounding error of the long double computation of the process of an element. *)
From Verif Require Import Prelude OwnerModel UniformModel UniformSpec UniformProofs PartBoundsModel PartBoundsSpec LongDoubleProofs.
#[local] Unset Implicit Arguments.
#[local] Arguments u64_small : clear implicits.
#[local] Arguments i64_small : clear implicits.

Lemma pow_pos k : 0 <= k -> 0 < 2 ^ k. Proof. intros. apply Z.pow_pos_nonneg; lia. Qed.
Lemma max_cases e : (0 <= e /\ Z.max e 0 = e /\ Z.max (- e) 0 = 0) \/ (e < 0 /\ Z.max e 0 = 0 /\ Z.max (- e) 0 = - e).
Proof. lia. Qed.
(** the exponent *)
Lemma exponent_ok n d : 0 < n -> 0 < d -> let k := Z.log2 n - Z.log2 d in let e := if d * 2 ^ Z.max k 0 <=? n * 2 ^ Z.max (- k) 0 then k else k - 1 in
  d * 2 ^ Z.max e 0 <= n * 2 ^ Z.max (- e) 0.
Proof.
  intros Hn Hd k e. unfold e. destruct (Z.leb_spec (d * 2 ^ Z.max k 0) (n * 2 ^ Z.max (- k) 0)) as [L|_]; [exact L|].
  destruct (Z.log2_spec n Hn) as [N1 _]. destruct (Z.log2_spec d Hd) as [_ D2]. assert (LN := Z.log2_nonneg n). assert (LD := Z.log2_nonneg d). unfold Z.succ in D2.
  destruct (max_cases (k - 1)) as [(C1 & -> & ->)|(C1 & -> & ->)].
  - rewrite Z.mul_1_r. apply Z.le_trans with (2 ^ Z.log2 n); [|exact N1]. replace (Z.log2 n) with ((Z.log2 d + 1) + (k - 1)) by (unfold k; lia). rewrite Z.pow_add_r by lia. apply Z.mul_le_mono_nonneg_r; [pose proof (pow_pos (k - 1) ltac:(lia)); lia|lia].
  - rewrite Z.mul_1_r. apply Z.le_trans with (2 ^ Z.log2 n * 2 ^ (- (k - 1))).
    + rewrite <- Z.pow_add_r by lia. replace (Z.log2 n + - (k - 1)) with (Z.log2 d + 1) by (unfold k; lia). lia.
    + apply Z.mul_le_mono_nonneg_r; [pose proof (pow_pos (- (k - 1)) ltac:(lia)); lia|exact N1].
Qed.
(** the relative error is at most 2^-64 *)
Lemma ld_round_error n d : 0 <= n -> 0 < d -> exists m s, ld_round n d = (m, s) /\ 0 <= m /\ 0 <= s /\ 2 ^ 64 * Z.abs (m * d - n * 2 ^ s) <= n * 2 ^ s.
Proof.
  intros Hn Hd. destruct (Z.eq_dec n 0) as [->|NZ]; [exists 0, 0; repeat split; lia|]. unfold ld_round. destruct (Z.eqb_spec n 0); [lia|].
  assert (E := exponent_ok n d ltac:(lia) Hd). cbv zeta in *. set (e := if _ <=? _ then _ else _) in *. clearbody e. set (s := 63 - e).
  set (nn := n * 2 ^ Z.max s 0). set (dd := d * 2 ^ Z.max (- s) 0). set (q := nn / dd). set (r := nn mod dd).
  assert (DD : 0 < dd) by (apply Z.mul_pos_pos; [exact Hd|apply pow_pos; lia]). assert (NP : 0 < nn) by (apply Z.mul_pos_pos; [lia|apply pow_pos; lia]).
  assert (BIG : 2 ^ 63 * dd <= nn).
  { unfold nn, dd. destruct (max_cases s) as [(C1 & -> & ->)|(C1 & -> & ->)]; destruct (max_cases e) as [(C2 & E1 & E2)|(C2 & E1 & E2)]; rewrite E1, E2, ?Z.mul_1_r in *; try (exfalso; unfold s in *; lia).
    - replace 63 with (e + s) by (unfold s; lia). rewrite Z.pow_add_r by lia. apply Z.le_trans with (d * 2 ^ e * 2 ^ s); [lia|]. apply Z.mul_le_mono_nonneg_r; [pose proof (pow_pos s ltac:(lia)); lia|exact E].
    - replace s with (- e + 63) by (unfold s; lia). rewrite Z.pow_add_r by lia. rewrite Z.mul_assoc, (Z.mul_comm (2 ^ 63)). apply Z.mul_le_mono_nonneg_r; [pose proof (pow_pos 63 ltac:(lia)); lia|exact E].
    - replace (2 ^ 63 * (d * 2 ^ (- s))) with (d * (2 ^ 63 * 2 ^ (- s))) by ring. rewrite <- Z.pow_add_r by lia. replace (63 + - s) with e by (unfold s; lia). exact E. }
  assert (DM : nn = dd * q + r) by (apply Z.div_mod; lia). assert (RB : 0 <= r < dd) by (apply Z.mod_pos_bound; lia). assert (Q0 : 0 <= q) by (apply Z.div_pos; lia).
  set (m := if (2 * r <? dd) || ((2 * r =? dd) && Z.even q) then q else q + 1).
  assert (ME : 0 <= m /\ 2 * Z.abs (m * dd - nn) <= dd).
  { unfold m. destruct (Z.ltb_spec (2 * r) dd) as [L|L]; cbn [orb].
    - split; [exact Q0|]. replace (q * dd - nn) with (- r) by lia. lia.
    - destruct (Z.eqb_spec (2 * r) dd) as [L2|L2]; destruct (Z.even q); cbn [andb]; split; try lia; try (replace (q * dd - nn) with (- r) by lia; lia); replace ((q + 1) * dd - nn) with (dd - r) by lia; lia. }
  destruct ME as [M0 ME].
  assert (FIN : 2 ^ 64 * Z.abs (m * dd - nn) <= nn).
  { apply Z.le_trans with (2 ^ 63 * dd); [|exact BIG]. replace (2 ^ 64 * Z.abs (m * dd - nn)) with (2 ^ 63 * (2 * Z.abs (m * dd - nn))) by (change (2 ^ 64) with (2 ^ 63 * 2); ring). apply Z.mul_le_mono_nonneg_l; [lia|exact ME]. }
  destruct (Z.ltb_spec s 0) as [S0|S0].
  - exists (m * 2 ^ (- s)), 0. split; [reflexivity|]. split; [apply Z.mul_nonneg_nonneg; [exact M0|pose proof (pow_pos (- s) ltac:(lia)); lia]|]. split; [lia|].
    unfold nn, dd in FIN. destruct (max_cases s) as [(C1 & _)|(_ & E1 & E2)]; [lia|]. rewrite E1, E2 in FIN. change (2 ^ 0) with 1 in *. rewrite !Z.mul_1_r in *. replace (m * 2 ^ (- s) * d) with (m * (d * 2 ^ (- s))) by ring. exact FIN.
  - exists m, s. split; [reflexivity|]. split; [exact M0|]. split; [exact S0|]. unfold nn, dd in FIN. destruct (max_cases s) as [(_ & E1 & E2)|(C1 & _)]; [|lia]. rewrite E1, E2 in FIN. change (2 ^ 0) with 1 in FIN. rewrite Z.mul_1_r in FIN. exact FIN.
Qed.


Lemma abs_scale x y k : 0 <= k -> 2 ^ 64 * Z.abs x <= y -> 2 ^ 64 * Z.abs (x * k) <= y * k.
Proof. intros H1 H2. rewrite Z.abs_mul, (Z.abs_eq k) by exact H1. rewrite Z.mul_assoc. apply Z.mul_le_mono_nonneg_r; assumption. Qed.
(** three roundings one after the other, all values scaled to integers *)
Lemma chain_error a b c U x : 0 <= a -> 0 <= b -> 0 <= U -> 2 ^ 64 * Z.abs (b - a) <= a -> 2 ^ 64 * Z.abs (c - b) <= b -> 2 ^ 64 * Z.abs (x - (U + c)) <= U + c -> 2 ^ 62 * Z.abs (x - (U + a)) <= U + a.
Proof. intros. lia. Qed.
Lemma chain_real A B C u r m1 p1 m2 p2 m3 p3 : 0 < A -> 0 <= B < C -> A * C <= 2 ^ 60 -> 0 <= u -> 0 <= r -> A = C * u + r -> 0 <= m1 -> 0 < p1 -> 0 < p2 -> 0 < p3 ->
  2 ^ 64 * Z.abs (m1 * C - r * p1) <= r * p1 -> 2 ^ 64 * Z.abs (m2 * p1 - m1 * B * p2) <= m1 * B * p2 -> 2 ^ 64 * Z.abs (m3 * p2 - (u * B * p2 + m2) * p3) <= (u * B * p2 + m2) * p3 ->
  Z.abs (m3 * C - A * B * p3) < p3.
Proof.
  intros HA HB HAC HU HR DM M1 P1 P2 P3 E1 E2 E3.
  assert (PP : 0 < p1 * p2) by (apply Z.mul_pos_pos; assumption).
  assert (CC : 2 ^ 62 * Z.abs (m3 * C * (p1 * p2) - (u * B * p1 * p2 * C * p3 + r * B * p1 * p2 * p3)) <= u * B * p1 * p2 * C * p3 + r * B * p1 * p2 * p3).
  { apply (chain_error (r * B * p1 * p2 * p3) (m1 * B * p2 * C * p3) (m2 * p1 * C * p3) (u * B * p1 * p2 * C * p3)).
    - repeat apply Z.mul_nonneg_nonneg; lia.
    - repeat apply Z.mul_nonneg_nonneg; lia.
    - repeat apply Z.mul_nonneg_nonneg; lia.
    - apply (abs_scale _ _ (B * p2 * p3)) in E1; [|repeat apply Z.mul_nonneg_nonneg; lia]. replace (m1 * B * p2 * C * p3 - r * B * p1 * p2 * p3) with ((m1 * C - r * p1) * (B * p2 * p3)) by ring. replace (r * B * p1 * p2 * p3) with (r * p1 * (B * p2 * p3)) by ring. exact E1.
    - apply (abs_scale _ _ (C * p3)) in E2; [|repeat apply Z.mul_nonneg_nonneg; lia]. replace (m2 * p1 * C * p3 - m1 * B * p2 * C * p3) with ((m2 * p1 - m1 * B * p2) * (C * p3)) by ring. replace (m1 * B * p2 * C * p3) with (m1 * B * p2 * (C * p3)) by ring. exact E2.
    - apply (abs_scale _ _ (C * p1)) in E3; [|repeat apply Z.mul_nonneg_nonneg; lia]. replace (m3 * C * (p1 * p2) - (u * B * p1 * p2 * C * p3 + m2 * p1 * C * p3)) with ((m3 * p2 - (u * B * p2 + m2) * p3) * (C * p1)) by ring.
      replace (u * B * p1 * p2 * C * p3 + m2 * p1 * C * p3) with ((u * B * p2 + m2) * p3 * (C * p1)) by ring. exact E3. }
  clear E1 E2 E3. replace (u * B * p1 * p2 * C * p3 + r * B * p1 * p2 * p3) with (A * B * p3 * (p1 * p2)) in CC by (rewrite DM; ring). replace (m3 * C * (p1 * p2) - A * B * p3 * (p1 * p2)) with ((m3 * C - A * B * p3) * (p1 * p2)) in CC by ring.
  rewrite Z.abs_mul, (Z.abs_eq (p1 * p2)) in CC by lia. rewrite Z.mul_assoc in CC. apply Z.mul_le_mono_pos_r in CC; [|exact PP].
  assert (AB : A * B <= 2 ^ 60) by (assert (A * B <= A * C) by (apply Z.mul_le_mono_nonneg_l; lia); lia). assert (ABP : A * B * p3 <= 2 ^ 60 * p3) by (apply Z.mul_le_mono_nonneg_r; lia). clear - CC ABP P3. lia.
Qed.
Lemma floor_close m p X C : 0 < p -> 0 < C -> X mod C <> 0 -> Z.abs (m * C - X * p) < p -> m / p = X / C.
Proof.
  intros Hp HC ND KEY. set (v := X / C). set (z := X mod C) in *. assert (VZ : X = C * v + z) by (apply Z.div_mod; lia). assert (ZB : 0 <= z < C) by (apply Z.mod_pos_bound; lia). clearbody v z.
  assert (Z1 : p * 1 <= p * z) by (apply Z.mul_le_mono_nonneg_l; lia). assert (Z2 : p * (z + 1) <= p * C) by (apply Z.mul_le_mono_nonneg_l; lia).
  replace (X * p) with (C * (p * v) + p * z) in KEY by (rewrite VZ; ring). symmetry. apply (Z.div_unique m p v (m - p * v)); [left|lia]. split.
  - assert (Q : C * (p * v) <= C * m) by lia. apply Z.mul_le_mono_pos_l in Q; lia.
  - assert (Q : C * m < C * (p * v + p)) by (rewrite Z.mul_add_distr_l; lia). apply Z.mul_lt_mono_pos_l in Q; lia.
Qed.
Lemma times_over_error checks A B C : 0 < A < 2 ^ 31 -> 0 <= B < C -> A * C <= 2 ^ 60 -> (A * B) mod C <> 0 -> a_times_b_over_c checks A B C = Ok (A * B / C).
Proof.
  intros HA HB HAC HND. unfold a_times_b_over_c. set (u := A / C). set (r := A mod C).
  assert (DM : A = C * u + r) by (apply Z.div_mod; lia). assert (R : 0 <= r < C) by (apply Z.mod_pos_bound; lia). assert (U : 0 <= u) by (apply Z.div_pos; lia).
  assert (CU : 0 <= C * u) by (apply Z.mul_nonneg_nonneg; lia). assert (UB1 : 0 <= u * B) by (apply Z.mul_nonneg_nonneg; lia).
  assert (UB2 : u * B <= A). { assert (u * B <= u * C) by (apply Z.mul_le_mono_nonneg_l; lia). lia. }
  rewrite (i64_small (u * B)) by lia.
  assert (CK : checks && negb ((u =? 0) || (u * B / u =? B)) = false). { destruct (Z.eqb_spec u 0) as [|NZ]; [now rewrite andb_false_r|]. rewrite Z.mul_comm, Z.div_mul by lia. rewrite Z.eqb_refl. now rewrite andb_false_r. }
  rewrite CK. clear CK.
  destruct (ld_round_error r C (proj1 R) (Z.le_lt_trans _ _ _ (proj1 HB) (proj2 HB))) as (m1 & k1 & -> & M1 & K1 & E1). assert (PK1 := pow_pos k1 K1). assert (MB : 0 <= m1 * B) by exact (Z.mul_nonneg_nonneg _ _ M1 (proj1 HB)).
  destruct (ld_round_error (m1 * B) (2 ^ k1) MB PK1) as (m2 & k2 & -> & M2 & K2 & E2). assert (PK2 := pow_pos k2 K2).
  assert (W : 0 <= u * B * 2 ^ k2 + m2) by exact (Z.add_nonneg_nonneg _ _ (Z.mul_nonneg_nonneg _ _ UB1 (Z.lt_le_incl _ _ PK2)) M2).
  destruct (ld_round_error (u * B * 2 ^ k2 + m2) (2 ^ k2) W PK2) as (m3 & k3 & -> & M3 & K3 & E3). assert (PK3 := pow_pos k3 K3).
  f_equal. apply floor_close; [exact PK3|exact (Z.le_lt_trans _ _ _ (proj1 HB) (proj2 HB))|exact HND|].
  exact (chain_real A B C u r m1 (2 ^ k1) m2 (2 ^ k2) m3 (2 ^ k3) (proj1 HA) HB HAC U (proj1 R) DM M1 PK1 PK2 PK3 E1 E2 E3).
Qed.
Theorem determine_interior : forall checks g N P, 0 <= g < N -> N < 2 ^ 63 -> 0 < P < 2 ^ 31 -> P * N <= 2 ^ 60 -> (P * (g + 1)) mod N <> 0 ->
  exists p, determine_partition checks g N P 0 = Ok p /\ has_element N P p g.
Proof.
  intros checks g N P Hg HN HP HPN ND. assert (O := owner_cut N P g ltac:(lia) ltac:(lia) Hg). exists (P - 1 - P * (N - g - 1) / N). split; [|exact O].
  assert (ND' : (P * (N - g - 1)) mod N <> 0).
  { intros E. apply ND. replace (P * (g + 1)) with (P * N - P * (N - g - 1)) by ring. rewrite Zminus_mod, E, Z.mod_mul by lia. reflexivity. }
  assert (TX := times_over_error checks P (N - g - 1) N HP ltac:(lia) HPN ND'). unfold determine_partition. destruct (Z.eqb_spec g N); [lia|]. cbv zeta. rewrite TX. cbn [obind]. clear TX ND ND'.
  set (p := P - 1 - P * (N - g - 1) / N) in *. destruct O as [O1 O2]. rewrite (proj2 (Z.leb_le 0 p)), (proj2 (Z.ltb_lt p P)) by lia. cbn [andb negb]. rewrite andb_false_r. rewrite Z.sub_0_r, u64_small by lia. destruct checks; cbn [negb]; [|reflexivity].
  rewrite (proj1 (first_element_ok p P N ltac:(lia) ltac:(lia) ltac:(lia))). cbn [obind]. fold (cut N P p).
  assert (BB : (if p =? P - 1 then Ok (g + 1) else first_element_of_process (p + 1) P N) = Ok (if p =? P - 1 then g + 1 else cut N P (p + 1))).
  { destruct (p =? P - 1) eqn:E; [reflexivity|]. exact (proj1 (first_element_ok (p + 1) P N ltac:(lia) ltac:(lia) ltac:(lia))). }
  rewrite BB. cbn [obind]. rewrite (proj2 (Z.leb_le (cut N P p) g)) by lia. rewrite (proj2 (Z.ltb_lt g _)); [reflexivity|]. destruct (p =? P - 1); lia.
Qed.
(** if c divides the numbers of elements of all trees and not P, no tree starts at a last element at which the computation can fail *)
Theorem owners_coarse : forall checks counts P c, Forall (fun x => 0 < x) counts -> Forall (fun x => (c | x)) counts -> 0 < P < c -> P < 2 ^ 31 -> P * total counts <= 2 ^ 60 -> tree_owners_exact checks counts P.
Proof.
  intros checks counts P c F Dc HP HP2 HPN t Ht. assert (A := psum_le counts 0 t (F0 counts F) ltac:(lia) ltac:(lia) ltac:(lia)). assert (B := psum_le counts (t + 1) (zlen counts) (F0 counts F) ltac:(lia) ltac:(lia) ltac:(lia)).
  rewrite psum_0 in A. rewrite psum_all, psum_step in B by lia. assert (CT : 0 < count_of counts t). { rewrite Forall_forall in F. apply F. apply nth_In. unfold zlen in *. lia. }
  assert (DS : forall l, Forall (fun x => (c | x)) l -> (c | total l)). { induction l as [|x l IH]; intros H; [exists 0; reflexivity|]. inversion H; subst. change (total (x :: l)) with (x + total l). apply Z.divide_add_r; auto. }
  assert (DP : (c | psum counts t)). { unfold psum. apply DS. rewrite <- (firstn_skipn (Z.to_nat t) counts) in Dc. apply Forall_app in Dc. exact (proj1 Dc). }
  assert (DN := DS counts Dc). assert (NB : total counts <= P * total counts) by (rewrite <- (Z.mul_1_l (total counts)) at 1; apply Z.mul_le_mono_nonneg_r; lia).
  apply determine_interior; try lia. intros E. apply Z.mod_divide in E; [|lia]. assert (Q : (c | P * (psum counts t + 1))) by (eapply Z.divide_trans; eassumption).
  rewrite Z.mul_add_distr_l, Z.mul_1_r in Q. assert (Q2 : (c | P * psum counts t)) by (apply Z.divide_mul_r; exact DP). assert (Q3 := Z.divide_add_cancel_r _ _ _ Q2 Q). apply Z.divide_pos_le in Q3; lia.
Qed.

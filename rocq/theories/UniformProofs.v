(** Proofs about the bounds of uniform partitions. *)
From Verif Require Import Prelude SchemeModel OffsetModel PartitionModel OwnerModel UniformModel UniformSpec.
#[local] Unset Implicit Arguments.
#[local] Arguments u64_small : clear implicits.
#[local] Arguments i64_small : clear implicits.

Lemma first_element_ok p P N : 0 < P < 2 ^ 32 -> 0 <= p <= P -> 0 <= N < 2 ^ 63 ->
  first_element_of_process p P N = Ok (cut N P p) /\ 0 <= cut N P p <= N.
Proof.
  intros HP Hp HN. unfold first_element_of_process, cut.
  rewrite (proj2 (Z.ltb_lt 0 P)) by lia. rewrite (proj2 (Z.leb_le p P)) by lia. cbn [andb negb].
  assert (D : N = P * (N / P) + N mod P) by (apply Z.div_mod; lia). assert (R := Z.mod_pos_bound N P ltac:(lia)).
  assert (Q0 : 0 <= N / P) by (apply Z.div_pos; lia).
  assert (B : 0 <= p * N / P <= N).
  { split; [apply Z.div_pos; nia|]. apply Z.div_le_upper_bound; nia. }
  split; [|exact B]. f_equal. destruct (Z.eq_dec p P) as [->|NE].
  - rewrite Z.div_same, Z.mod_same by lia. rewrite !Z.mul_1_r, !Z.mul_1_l, !Z.mul_0_r. rewrite (Z.mul_comm P N), Z.div_mul by lia.
    assert (M0 : 0 <= N / P <= N) by nia. assert (M1 : 0 <= N / P * P <= N) by nia. assert (M2 : N / P * P + N mod P = N) by lia.
    rewrite (u64_small (N / P)) by lia. change (u64 0) with 0. rewrite Z.div_0_l by lia.
    rewrite (u64_small (N mod P)) by lia. rewrite !Z.add_0_r. rewrite (u64_small (N / P * P)) by lia. rewrite (u64_small (N / P * P)) by lia. rewrite M2. rewrite (u64_small N) by lia. apply u64_small. lia.
  - rewrite (Z.div_small p P), (Z.mod_small p P) by lia. rewrite !Z.mul_0_r, !Z.mul_0_l. change (u64 0) with 0.
    assert (M1 : 0 <= N / P * p <= N) by nia. assert (M2 : 0 <= N mod P * p < 2 ^ 64) by nia.
    rewrite (u64_small (N / P * p)) by lia. rewrite (u64_small _ M2).
    assert (E : p * N / P = N / P * p + N mod P * p / P).
    { rewrite D at 1. replace (p * (P * (N / P) + N mod P)) with (N mod P * p + (N / P * p) * P) by ring. rewrite Z.div_add by lia. lia. }
    rewrite E. rewrite !Z.add_0_l, !Z.add_0_r. rewrite (u64_small (N / P * p)) by lia. rewrite (u64_small (N / P * p)) by lia. apply u64_small. lia.
Qed.
Lemma cut_0 N P : 0 < P -> cut N P 0 = 0. Proof. intros H. unfold cut. rewrite Z.mul_0_l. now apply Z.div_0_l; lia. Qed.
Lemma cut_P N P : 0 < P -> cut N P P = N. Proof. intros H. unfold cut. rewrite Z.mul_comm. now apply Z.div_mul; lia. Qed.
Lemma cut_mono N P p q : 0 < P -> 0 <= N -> p <= q -> cut N P p <= cut N P q.
Proof. intros. unfold cut. apply Z.div_le_mono; nia. Qed.

(** sums *)
Lemma psum_0 l : psum l 0 = 0. Proof. reflexivity. Qed.
Lemma total_app a b : total (a ++ b) = total a + total b.
Proof. unfold total. induction a as [|x a IH]; cbn [app fold_right]; lia. Qed.
Lemma psum_step l t : 0 <= t < zlen l -> psum l (t + 1) = psum l t + count_of l t.
Proof.
  unfold psum, count_of, zlen. intros H. replace (Z.to_nat (t + 1)) with (S (Z.to_nat t)) by lia.
  assert (G : forall n, (n < length l)%nat -> firstn (S n) l = firstn n l ++ [nth n l 0]).
  { clear H. induction l as [|x l IH]; intros n Hn; [cbn in Hn; lia|]. destruct n; [reflexivity|]. cbn [firstn app nth]. cbn in Hn. now rewrite <- IH by lia. }
  rewrite G by lia. rewrite total_app. cbn. unfold total. lia.
Qed.
Lemma psum_all l : psum l (zlen l) = total l.
Proof. unfold psum, zlen. rewrite Nat2Z.id, firstn_all. reflexivity. Qed.
Lemma psum_app_l a b t : 0 <= t <= zlen a -> psum (a ++ b) t = psum a t.
Proof. intros H. unfold psum, zlen in *. rewrite firstn_app. replace (Z.to_nat t - length a)%nat with 0%nat by lia. cbn [firstn]. now rewrite app_nil_r. Qed.
Lemma psum_le l s t : Forall (fun c => 0 <= c) l -> 0 <= s -> s <= t -> t <= zlen l -> psum l s <= psum l t.
Proof.
  intros F Hs Hst Ht. replace t with (s + Z.of_nat (Z.to_nat (t - s))) by lia. assert (L : s + Z.of_nat (Z.to_nat (t - s)) <= zlen l) by lia. revert L.
  generalize (Z.to_nat (t - s)) as n. intros n. induction n as [|n IH]; intros L; [rewrite Z.add_0_r; lia|].
  replace (s + Z.of_nat (S n)) with ((s + Z.of_nat n) + 1) by lia. rewrite psum_step by (unfold zlen in *; lia).
  assert (0 <= count_of l (s + Z.of_nat n)). { unfold count_of. rewrite Forall_forall in F. apply F, nth_In. unfold zlen in *. lia. }
  specialize (IH ltac:(lia)). lia.
Qed.
Lemma sum_counts_ok l : Forall (fun c => 0 <= c) l -> total l < 2 ^ 63 -> sum_counts l = total l.
Proof.
  unfold sum_counts. intros F H. assert (G : forall l a, Forall (fun c => 0 <= c) l -> 0 <= a -> a + total l < 2 ^ 63 -> fold_left (fun s c => i64 (s + c)) l a = a + total l).
  { clear. induction l as [|c l IH]; intros a F Ha H; cbn [fold_left total fold_right]; [lia|]. apply Forall_cons_iff in F as [Fc F].
    assert (0 <= total l). { clear -F. induction F; cbn; unfold total in *; lia. } cbn [total fold_right] in H. fold (total l) in *.
    rewrite i64_small by lia. rewrite IH by (auto; lia). lia. }
  rewrite G by (auto; lia). lia.
Qed.
Lemma total_nonneg l : Forall (fun c => 0 <= c) l -> 0 <= total l.
Proof. intros F. induction F; cbn; unfold total in *; lia. Qed.

(** what the bounds have to be for the elements number a to b - 1 *)
Definition bounds_for (counts : list Z) (a b : Z) (x : bounds) : Prop :=
  (a < b -> exists f s l e, x = Bounds (Some f) (Some s) l (Some e) (Some (0 <? s)) /\ f <= l /\ position counts a f s /\ position counts (b - 1) l (e - 1)) /\
  (b <= a -> exists f, b_first x = Some f /\ b_last x = f - 1).

Lemma position_exists l g : Forall (fun c => 0 <= c) l -> 0 <= g < total l -> exists t j, position l g t j.
Proof.
  intros F. assert (G : forall n, (n <= length l)%nat -> 0 <= g < psum l (Z.of_nat n) -> exists t j, position l g t j).
  { induction n as [|n IH]; intros Hn H; [rewrite psum_0 in H; lia|].
    replace (Z.of_nat (S n)) with (Z.of_nat n + 1) in H by lia. rewrite psum_step in H by (unfold zlen; lia).
    destruct (Z.lt_ge_cases g (psum l (Z.of_nat n))) as [C|C]; [apply IH; lia|].
    exists (Z.of_nat n), (g - psum l (Z.of_nat n)). unfold position, zlen. split; [lia|]. split; [lia|lia]. }
  intros H. apply (G (length l)); [lia|]. fold (zlen l). now rewrite psum_all.
Qed.
Lemma position_le l g h t j t' j' : Forall (fun c => 0 <= c) l -> position l g t j -> position l h t' j' -> g <= h -> t <= t'.
Proof.
  intros F (H1 & H2 & H3) (H4 & H5 & H6) H. destruct (Z.le_gt_cases t t') as [C|C]; [exact C|exfalso].
  assert (P := psum_le l (t' + 1) t F ltac:(lia) ltac:(lia) ltac:(lia)). rewrite psum_step in P by lia. lia.
Qed.
Lemma position_unique l g t j t' j' : Forall (fun c => 0 <= c) l -> position l g t j -> position l g t' j' -> t = t' /\ j = j'.
Proof.
  intros F A B. assert (t <= t') by (eapply position_le; eauto; lia). assert (t' <= t) by (eapply position_le; eauto; lia).
  assert (t = t') by lia. subst t'. destruct A as (_ & _ & A), B as (_ & _ & B). split; [reflexivity|lia].
Qed.

(** equal numbers of elements per tree *)
Lemma psum_equal l c t : Forall (fun x => x = c) l -> 0 <= t <= zlen l -> psum l t = t * c.
Proof.
  intros F [H1 H2]. replace t with (Z.of_nat (Z.to_nat t)) by lia. assert (H : Z.of_nat (Z.to_nat t) <= zlen l) by lia. clear H1 H2. revert H. generalize (Z.to_nat t) as n.
  induction n as [|n IH]; intros H; [reflexivity|]. replace (Z.of_nat (S n)) with (Z.of_nat n + 1) by lia. rewrite psum_step by lia. rewrite IH by lia.
  unfold count_of. rewrite Forall_forall in F. rewrite (F (nth (Z.to_nat (Z.of_nat n)) l 0)) by (apply nth_In; unfold zlen in H; lia). lia.
Qed.
Lemma forallb_eq c l : forallb (fun x => x =? c) l = true <-> Forall (fun x => x = c) l.
Proof. rewrite forallb_forall, Forall_forall. split; intros H x Hx; specialize (H x Hx); lia. Qed.

Section ranks.
Variables (P : Z) (counts : list Z).
Hypothesis HP : 0 < P < 2 ^ 32.
Hypothesis F : Forall (fun c => 0 < c) counts.
Hypothesis HT : total counts < 2 ^ 63.
Hypothesis HK : 0 < zlen counts.
Notation N := (total counts).
Lemma F0 : Forall (fun c => 0 <= c) counts. Proof. eapply Forall_impl; [|exact F]. intros c Hc; cbn beta in *; lia. Qed.
Lemma N_range : 0 <= N < 2 ^ 63. Proof. pose proof (total_nonneg _ F0). lia. Qed.
Lemma N_pos : 0 < N.
Proof. destruct counts as [|c l]; [cbn in HK; lia|]. apply Forall_cons_iff in F as [Fc Fl]. cbn. assert (0 <= total l) by (apply total_nonneg; eapply Forall_impl; [|exact Fl]; intros z Hz; cbn beta in *; lia). unfold total in *. lia. Qed.
Lemma u64N : u64 N = N. Proof. pose proof N_range. apply u64_small. lia. Qed.
Lemma num_ok : sum_counts counts = N. Proof. apply sum_counts_ok; [apply F0|exact HT]. Qed.
Lemma first_ok p : 0 <= p <= P -> first_element_of_process p P N = Ok (cut N P p) /\ i64 (cut N P p) = cut N P p /\ 0 <= cut N P p <= N.
Proof.
  intros Hp. destruct (first_element_ok p P N HP Hp N_range) as [E B]. split; [exact E|]. split; [|exact B]. apply i64_small. pose proof N_range. lia.
Qed.

Lemma bounds_equal_ok p c : 0 <= p < P -> Forall (fun x => x = c) counts ->
  exists x, bounds_equal p P counts = Ok x /\ bounds_for counts (cut N P p) (cut N P (p + 1)) x /\
    (cut N P (p + 1) <= cut N P p -> exists f, b_first x = Some f /\ (f - 1) * c < cut N P p <= f * c).
Proof.
  intros Hp Fc. unfold bounds_equal.
  assert (EL : last counts 0 = c).
  { rewrite Forall_forall in Fc. destruct counts as [|x l]; [cbn in HK; lia|]. apply Fc. destruct (@exists_last _ (x :: l) ltac:(discriminate)) as (l' & z & E). rewrite E. rewrite last_last. apply in_or_app. right. now left. }
  rewrite EL. rewrite (proj2 (forallb_eq c counts) Fc). cbn [negb].
  assert (C0 : 0 < c). { destruct counts as [|x l]; [cbn in HK; lia|]. apply Forall_cons_iff in Fc as [Fx _]. apply Forall_cons_iff in F as [Fy _]. rewrite <- Fx. exact Fy. }
  destruct (Z.ltb_spec c 0); [lia|]. destruct (Z.eqb_spec c 0); [lia|]. cbn [orb]. rewrite num_ok, u64N.
  assert (E1 : (if p =? 0 then Ok 0 else do v <- first_element_of_process p P N; Ok (i64 v)) = Ok (cut N P p)).
  { destruct (Z.eqb_spec p 0) as [->|]; [now rewrite cut_0 by lia|]. destruct (first_ok p ltac:(lia)) as (E & E' & _). rewrite E. cbn [obind]. now rewrite E'. }
  assert (E2 : (if p =? P - 1 then Ok N else do v <- first_element_of_process (p + 1) P N; Ok (i64 v)) = Ok (cut N P (p + 1))).
  { destruct (Z.eqb_spec p (P - 1)) as [->|]; [replace (P - 1 + 1) with P by lia; now rewrite cut_P by lia|]. destruct (first_ok (p + 1) ltac:(lia)) as (E & E' & _). rewrite E. cbn [obind]. now rewrite E'. }
  rewrite E1, E2. cbn [obind]. set (a := cut N P p). set (b := cut N P (p + 1)).
  assert (Ba : 0 <= a <= N) by (apply first_ok; lia). assert (Bb : 0 <= b <= N) by (apply first_ok; lia). assert (AB : a <= b) by (apply cut_mono; pose proof N_range; lia).
  rewrite (proj2 (Z.leb_le 0 a)), (proj2 (Z.leb_le a N)), (proj2 (Z.leb_le 0 b)), (proj2 (Z.leb_le b N)) by lia. cbn [andb negb].
  assert (TN : N = zlen counts * c) by (rewrite <- psum_all; apply psum_equal; [exact Fc|unfold zlen; lia]).
  assert (QA := Z.quot_rem' a c). assert (RA := Z.rem_bound_pos a c ltac:(lia) ltac:(lia)).
  set (f := Z.quot a c) in *. 
  destruct (Z.le_gt_cases b a) as [EB|NB].
  - assert (Eab : a = b) by lia. rewrite <- Eab in *.
    assert (LT : (Z.quot (a - 1) c <=? f) = true). { apply Z.leb_le. unfold f. apply Z.quot_le_mono; lia. }
    rewrite LT, (proj2 (Z.leb_le a a)) by lia. cbn [andb negb]. eexists. split; [reflexivity|]. split.
    + split; [lia|]. intros _. eexists. split; reflexivity.
    + intros _. eexists. split; [reflexivity|]. fold f. destruct (Z.eqb_spec (Z.rem a c) 0) as [R0|R0]; nia.
  - rewrite (proj2 (Z.leb_gt b a)) by lia. rewrite andb_false_r. cbn [negb andb].
    eexists. split; [reflexivity|]. split; [|lia]. split; [|lia]. intros _.
    assert (QB := Z.quot_rem' (b - 1) c). assert (RB := Z.rem_bound_pos (b - 1) c ltac:(lia) ltac:(lia)). set (l := Z.quot (b - 1) c) in *.
    assert (FL : f <= l) by (unfold f, l; apply Z.quot_le_mono; lia).
    assert (l < zlen counts) by nia. assert (0 <= f) by nia.
    assert (CO : forall t, 0 <= t < zlen counts -> count_of counts t = c).
    { intros t Ht. rewrite Forall_forall in Fc. apply Fc. apply nth_In. unfold zlen in Ht. lia. }
    exists f, (a - f * c), l, (b - l * c). split.
    + f_equal. f_equal. destruct (Z.ltb_spec 0 p); [reflexivity|]. assert (p = 0) by lia. subst p. unfold a in *. rewrite cut_0 in * by lia. replace f with 0 by nia. reflexivity.
    + split; [exact FL|]. unfold position. rewrite !CO by lia. rewrite !(psum_equal counts c) by (auto; lia). split; [split; [lia|split; nia]|]. split; [lia|split; nia].
Qed.

(** trees one by one *)
Lemma empty_loop_ok l pre g x : pre ++ l = counts -> 
  let y := empty_loop l (zlen pre) (psum counts (zlen pre)) g x in
  (psum counts (zlen pre) <= g < N -> exists t j, position counts g t j /\ y = Bounds (Some t) (Some j) (t - 1) (b_end x) (Some (0 <? j))) /\
  (g < psum counts (zlen pre) -> y = x).
Proof.
  revert pre x. induction l as [|c l IH]; intros pre x E; cbn [empty_loop].
  - split; [|reflexivity]. intros H. exfalso. rewrite app_nil_r in E. subst pre. rewrite psum_all in H. lia.
  - assert (Hp : 0 <= zlen pre < zlen counts) by (rewrite <- E; unfold zlen; rewrite app_length; cbn [length]; lia).
    assert (Cc : count_of counts (zlen pre) = c). { unfold count_of, zlen. rewrite Nat2Z.id, <- E. rewrite app_nth2, Nat.sub_diag by lia. reflexivity. }
    assert (S := psum_step counts (zlen pre) Hp). rewrite Cc in S.
    assert (E' : (pre ++ [c]) ++ l = counts) by (now rewrite <- app_assoc).
    assert (ZL : zlen (pre ++ [c]) = zlen pre + 1) by (unfold zlen; rewrite app_length; cbn [length]; lia).
    cbn zeta. match goal with |- context [empty_loop l _ _ g ?X] => specialize (IH _ X E') end. cbn zeta in IH. rewrite ZL, S in IH. destruct IH as [I1 I2]. split.
    + intros H. destruct (Z.lt_ge_cases g (psum counts (zlen pre) + c)) as [C|C].
      * rewrite I2 by lia. rewrite (proj2 (Z.leb_le _ _)), (proj2 (Z.ltb_lt _ _)) by lia. cbn [andb].
        exists (zlen pre), (g - psum counts (zlen pre)). split; [unfold position; rewrite Cc; split; [lia|split; lia]|]. f_equal. f_equal. apply eq_true_iff_eq. rewrite !Z.ltb_lt. lia.
      * rewrite (proj2 (Z.ltb_ge g (psum counts (zlen pre) + c))) in * by lia. rewrite andb_false_r in *. apply I1. lia.
    + intros H. assert (0 < c). { rewrite Forall_forall in F. apply F. rewrite <- E. apply in_or_app. right. now left. } rewrite I2 by lia. rewrite (proj2 (Z.leb_gt (psum counts (zlen pre)) g)) by lia. reflexivity.
Qed.
Lemma nonempty_loop_ok l pre a b x : pre ++ l = counts -> 0 <= a -> a < b -> b <= N -> psum counts (zlen pre) < b ->
  (psum counts (zlen pre) <= a \/ exists t j, position counts a t j /\ t < zlen pre /\ b_first x = Some t /\ b_begin x = Some j /\ b_shared x = Some (0 <? j)) ->
  exists f s lt e, nonempty_loop l (zlen counts) (zlen pre) (psum counts (zlen pre)) a b x = Ok (Bounds (Some f) (Some s) lt (Some e) (Some (0 <? s))) /\
    f <= lt /\ position counts a f s /\ position counts (b - 1) lt (e - 1).
Proof.
  revert pre x. induction l as [|c l IH]; intros pre x E Ha Hab Hb Hlt HX; cbn [nonempty_loop].
  - exfalso. rewrite app_nil_r in E. subst pre. rewrite psum_all in Hlt. lia.
  - assert (Hp : 0 <= zlen pre < zlen counts) by (rewrite <- E; unfold zlen; rewrite app_length; cbn [length]; lia).
    assert (Cc : count_of counts (zlen pre) = c). { unfold count_of, zlen. rewrite Nat2Z.id, <- E. rewrite app_nth2, Nat.sub_diag by lia. reflexivity. }
    assert (C0 : 0 < c). { rewrite Forall_forall in F. apply F. rewrite <- E. apply in_or_app. right. now left. }
    assert (S := psum_step counts (zlen pre) Hp). rewrite Cc in S.
    assert (E' : (pre ++ [c]) ++ l = counts) by (now rewrite <- app_assoc).
    assert (ZL : zlen (pre ++ [c]) = zlen pre + 1) by (unfold zlen; rewrite app_length; cbn [length]; lia).
    cbn zeta. set (x1 := if (psum counts (zlen pre) <=? a) && (a <? psum counts (zlen pre) + c) then _ else x).
    assert (HX1 : psum counts (zlen pre) + c <= a \/ exists t j, position counts a t j /\ t < zlen pre + 1 /\ b_first x1 = Some t /\ b_begin x1 = Some j /\ b_shared x1 = Some (0 <? j)).
    { destruct HX as [HX|(t & j & H1 & H2 & H3)].
      - destruct (Z.le_gt_cases (psum counts (zlen pre) + c) a) as [C|C]; [now left|right].
        unfold x1. rewrite (proj2 (Z.leb_le _ _)), (proj2 (Z.ltb_lt _ _)) by lia. cbn [andb b_first b_begin b_shared].
        exists (zlen pre), (a - psum counts (zlen pre)). split; [unfold position; rewrite Cc; split; [lia|split; lia]|]. split; [lia|]. split; [reflexivity|]. split; [reflexivity|]. f_equal. apply eq_true_iff_eq. rewrite !Z.ltb_lt. lia.
      - right. exists t, j. split; [exact H1|]. split; [lia|]. assert (L : a < psum counts (zlen pre)).
        { destruct H1 as (P1 & P2 & P3). pose proof (psum_le counts (t + 1) (zlen pre) F0 ltac:(lia) ltac:(lia) ltac:(lia)). rewrite psum_step in H by lia. lia. }
        unfold x1. rewrite (proj2 (Z.leb_gt _ _)) by lia. exact H3. }
    rewrite (proj2 (Z.ltb_lt _ b)) by lia. cbn [andb]. destruct (Z.leb_spec b (psum counts (zlen pre) + c)) as [C|C].
    + destruct HX1 as [HX1|(t & j & H1 & H2 & H3 & H4 & H5)]; [lia|]. rewrite H3, H4, H5. assert (T := proj1 H1).
      rewrite (proj2 (Z.leb_le t _)), (proj2 (Z.leb_le 0 t)), (proj2 (Z.ltb_lt t _)), (proj2 (Z.leb_le 0 (zlen pre))), (proj2 (Z.ltb_lt (zlen pre) _)) by lia. cbn [andb].
      exists t, j, (zlen pre), (b - psum counts (zlen pre)). split; [reflexivity|]. split; [lia|]. split; [exact H1|]. unfold position. rewrite Cc. split; [lia|]. split; lia.
    + rewrite <- S, <- ZL. apply IH; auto; rewrite ZL, ?S; [lia|]. exact HX1.
Qed.

Notation empty p := (cut N P (p + 1) <= cut N P p).
Lemma next_non_empty_ok n q : 0 <= q -> q < P -> (Z.to_nat (P - q) <= n)%nat -> exists next a b, next_non_empty n P N q = Ok (next, a, b) /\ q < next <= P /\
  (forall r, q <= r < next - 1 -> empty r) /\ (next < P - 1 -> a = cut N P (next - 1) /\ b = cut N P next /\ a < b).
Proof.
  revert q. induction n as [|n IH]; intros q H0 H1 H2; [lia|]. cbn [next_non_empty].
  destruct (first_ok q ltac:(lia)) as (E1 & E2 & _). destruct (first_ok (q + 1) ltac:(lia)) as (E3 & E4 & _). rewrite E1, E3. cbn [obind]. rewrite E2, E4.
  destruct (Z.leb_spec (cut N P (q + 1)) (cut N P q)) as [L|L]; cbn [andb].
  - destruct (Z.ltb_spec (q + 1) (P - 1)).
    + destruct (IH (q + 1)) as (next & a & b & E & R & G & Q); [lia|lia|lia|]. exists next, a, b. split; [exact E|]. split; [lia|]. split; [|exact Q]. intros r Hr. destruct (Z.eq_dec r q) as [->|]; [exact L|]. apply G. lia.
    + eexists _, _, _. split; [reflexivity|]. split; [lia|]. split; [intros; lia|lia].
  - eexists _, _, _. split; [reflexivity|]. split; [lia|]. split; [intros; lia|]. intros _. replace (q + 1 - 1) with q by lia. auto.
Qed.
Lemma last_nonempty : cut N P (P - 1) < cut N P P.
Proof.
  rewrite cut_P by lia. unfold cut. pose proof N_pos. apply Z.div_lt_upper_bound; nia.
Qed.
Lemma bounds_unpartitioned_ok p : 0 <= p < P ->
  exists x, bounds_unpartitioned p P counts = Ok x /\ bounds_for counts (cut N P p) (cut N P (p + 1)) x /\
    (cut N P (p + 1) <= cut N P p -> exists q t j, p < q < P /\ position counts (cut N P q) t j /\ b_first x = Some t /\ b_last x = t - 1 /\ b_shared x = Some (0 <? j) /\ cut N P q < cut N P (q + 1) /\
       ((forall r, p <= r < q -> empty r) \/ (q = P - 1 /\ (forall r, p <= r < P - 2 -> empty r) /\ p < P - 2 /\ ~ empty (P - 2)))).
Proof.
  intros Hp. unfold bounds_unpartitioned. rewrite num_ok, u64N.
  destruct (first_ok p ltac:(lia)) as (E1 & E2 & B1). destruct (first_ok (p + 1) ltac:(lia)) as (E3 & E4 & B2). rewrite E1, E3. cbn [obind]. rewrite E2, E4.
  destruct (Z.leb_spec (cut N P (p + 1)) (cut N P p)) as [L|L].
  - assert (PL : p < P - 1). { destruct (Z.eq_dec p (P - 1)) as [->|]; [|lia]. pose proof last_nonempty. replace (P - 1 + 1) with P in L by lia. lia. }
    destruct (next_non_empty_ok (Z.to_nat P) (p + 1)) as (next & a & b & E & R & GE & Q); [lia|lia|lia|]. rewrite E. cbn [obind].
    assert (G : exists q, p < q < P /\ ((forall r, p <= r < q -> empty r) \/ (q = P - 1 /\ (forall r, p <= r < P - 2 -> empty r) /\ p < P - 2 /\ ~ empty (P - 2))) /\ cut N P q < cut N P (q + 1) /\ (if P - 1 <=? next then do fn <- first_element_of_process (P - 1) P N; do ln <- first_element_of_process P P N; Ok (i64 fn, i64 ln) else Ok (a, b)) = Ok (cut N P q, cut N P (q + 1))).
    { destruct (Z.leb_spec (P - 1) next) as [C|C].
      - exists (P - 1). split; [lia|]. split.
        { destruct (Z.le_gt_cases (P - 1) (p + 1)) as [C2|C2]; [left; intros r Hr; replace r with p by lia; exact L|].
          assert (A2 : forall r, p <= r < P - 2 -> empty r). { intros r Hr. destruct (Z.eq_dec r p) as [->|]; [exact L|]. apply GE. lia. }
          destruct (Z_le_gt_dec (cut N P (P - 2 + 1)) (cut N P (P - 2))) as [C1|C1].
          - left. intros r Hr. destruct (Z.eq_dec r (P - 2)) as [->|]; [exact C1|]. apply A2. lia.
          - right. split; [reflexivity|]. split; [exact A2|]. lia. }
        replace (P - 1 + 1) with P by lia. split; [apply last_nonempty|]. destruct (first_ok (P - 1) ltac:(lia)) as (G1 & G2 & _). destruct (first_ok P ltac:(lia)) as (G3 & G4 & _). rewrite G1, G3. cbn [obind]. now rewrite G2, G4.
      - destruct (Q ltac:(lia)) as (-> & -> & Q3). exists (next - 1). replace (next - 1 + 1) with next by lia. split; [lia|]. split; [left; intros r Hr; destruct (Z.eq_dec r p) as [->|]; [exact L|]; apply GE; lia|]. split; [exact Q3|reflexivity]. }
    destruct G as (q & Hq & NXq & Lq & ->). cbn [obind fst snd]. rewrite (proj2 (Z.ltb_lt _ _) Lq). cbn [negb].
    destruct (first_ok q ltac:(lia)) as (_ & _ & Bq). destruct (first_ok (q + 1) ltac:(lia)) as (_ & _ & Bq1).
    destruct (empty_loop_ok counts [] (cut N P q) (Bounds None None (-1) None None) eq_refl) as [Y _]. change (zlen (@nil Z)) with 0 in Y. rewrite psum_0 in Y.
    destruct (Y ltac:(lia)) as (t & j & Pt & Ey). rewrite Ey. eexists. split; [reflexivity|]. split.
    + split; [lia|]. intros _. exists t. split; reflexivity.
    + intros _. exists q, t, j. cbn [b_first b_last b_shared]. auto 10.
  - destruct (nonempty_loop_ok counts [] (cut N P p) (cut N P (p + 1)) (Bounds None None (-1) None None) eq_refl) as (f & s & l & e & E & FL & P1 & P2); [lia|lia|lia|change (zlen (@nil Z)) with 0; rewrite psum_0; lia|left; change (zlen (@nil Z)) with 0; rewrite psum_0; lia|].
    change (zlen (@nil Z)) with 0 in E. rewrite psum_0 in E. rewrite E. eexists. split; [reflexivity|]. split; [|lia]. split; [|lia]. intros _. exists f, s, l, e. auto.
Qed.
End ranks.

(** The hypercubes of the standalone scheme: ancestors, ids, order, successors and families in terms of paths. *)
From Verif Require Import Prelude PathSpec SchemeModel SchemeSpec SchemeProofs BitLemmas SimplexModel SimplexPathProofs SimplexOrderProofs LineModel LineSpec LineProofs.
From Verif Require Import HyperModel HyperSpec HyperProofs.

Lemma zlen_firstn {A} (p : list A) L : 0 <= L <= zlen p -> zlen (firstn (Z.to_nat L) p) = L.
Proof. intros H. unfold zlen in *. rewrite firstn_length. lia. Qed.

Lemma h_is_ancestor_walk c p q : h_path c p -> h_path c q -> (h_is_ancestor c (h_walk c p) (h_walk c q) = true <-> prefix p q).
Proof.
  intros Hp Hq. unfold h_is_ancestor. rewrite !h_walk_level by (apply Hp || apply Hq). rewrite prefix_firstn.
  destruct (Z.ltb_spec (zlen q) (zlen p)) as [L|L].
  - split; [discriminate|]. intros [H _]. unfold zlen in L. lia.
  - rewrite h_ancestor_walk by (auto; pose proof (zlen_nonneg p); lia). rewrite h_equal_walk by (auto; now apply h_path_firstn).
    replace (Z.to_nat (zlen p)) with (length p) by (unfold zlen; lia). split; [intros H; split; [unfold zlen in L; lia|exact H]|tauto].
Qed.

(** ** the nearest common ancestor *)
Lemma xor_bits_cut t a b m : length a = length b ->
  (Z.shiftr (xor_bits m a b) t = 0 <-> Z.shiftr m t = 0 /\ Forall2 (fun x y => Z.shiftr x t = Z.shiftr y t) a b).
Proof.
  revert b m. induction a as [|x a IH]; intros [|y b] m HL; try discriminate HL; cbn [xor_bits].
  - split; [intros H; split; [exact H|constructor]|tauto].
  - cbn [length] in HL. rewrite IH by lia. rewrite Z.shiftr_lor, Z.lor_eq_0_iff, Z.shiftr_lxor, Z.lxor_eq_0_iff. split.
    + intros [[A B] C]. split; [exact A|]. constructor; auto.
    + intros [A B]. inversion B; subst. auto.
Qed.
Lemma xor_bits_nonneg a b m : 0 <= m -> Forall (fun x => 0 <= x) a -> Forall (fun x => 0 <= x) b -> 0 <= xor_bits m a b.
Proof.
  revert b m. induction a as [|x a IH]; intros [|y b] m Hm Ha Hb; cbn [xor_bits]; auto. inversion Ha; subst. inversion Hb; subst. apply IH; auto.
  apply Z.lor_nonneg. split; [exact Hm|]. apply Z.lxor_nonneg. tauto.
Qed.
Lemma leading_zeros_iff c v L : 0 <= v < 2 ^ hbits c -> 0 <= L <= hmax c -> (L <= h_leading_zeros c v <-> Z.shiftr v (hbits c - L) = 0).
Proof.
  intros Hv HL. unfold h_leading_zeros, log2_32. rewrite Z.shiftr_div_pow2 by lia. pose proof (@pow2_pos (hbits c - L) ltac:(lia)) as P.
  assert (E : v / 2 ^ (hbits c - L) = 0 <-> v < 2 ^ (hbits c - L)).
  { split; intros H; [|apply Z.div_small; lia]. apply Z.div_small_iff in H; lia. }
  rewrite E. destruct (Z.eqb_spec v 0) as [->|NZ]; [split; intros; lia|]. rewrite (Z.log2_lt_pow2 v (hbits c - L)) by lia. lia.
Qed.
Lemma leading_zeros_nonneg c v : 0 <= v < 2 ^ hbits c -> 0 <= h_leading_zeros c v <= hbits c.
Proof.
  intros Hv. pose proof (hmax_pos c). split.
  - apply leading_zeros_iff; [lia|lia|]. rewrite Z.sub_0_r, Z.shiftr_div_pow2 by lia. apply Z.div_small. lia.
  - unfold h_leading_zeros, log2_32. destruct (Z.eqb_spec v 0); [lia|]. pose proof (Z.log2_nonneg v). lia.
Qed.
Lemma Forall2_map_zseq (R : Z -> Z -> Prop) f g a n : Forall2 R (map f (zseq a n)) (map g (zseq a n)) <-> forall k, a <= k < a + Z.of_nat n -> R (f k) (g k).
Proof.
  revert a. induction n as [|n IH]; intros a; cbn [zseq map].
  - split; [intros _ k Hk; lia|constructor].
  - split.
    + intros H k Hk. inversion H; subst. destruct (Z.eq_dec k a) as [->|]; [assumption|]. apply (proj1 (IH (a + 1))); [assumption|lia].
    + intros H. constructor; [apply H; lia|]. apply IH. intros k Hk. apply H. lia.
Qed.
Lemma coords_nonneg c p : zlen p <= hmax c -> Forall (fun x => 0 <= x) (coords c p).
Proof. intros H. apply Forall_map, Forall_forall. intros k _. apply X_range. lia. Qed.
Lemma xor_range c p q : h_path c p -> h_path c q -> 0 <= xor_bits 0 (coords c p) (coords c q) < 2 ^ hbits c.
Proof.
  intros [_ Lp] [_ Lq]. split; [apply xor_bits_nonneg; [lia|now apply coords_nonneg..]|].
  assert (E : Z.shiftr (xor_bits 0 (coords c p) (coords c q)) (hbits c) = 0).
  { apply xor_bits_cut; [now rewrite !coords_length|]. split; [apply Z.shiftr_0_l|]. apply Forall2_map_zseq. intros k Hk.
    rewrite !Z.shiftr_div_pow2 by (pose proof (hmax_pos c); lia). rewrite !Z.div_small; [reflexivity| |].
    - destruct (@X_range (hbits c) k q ltac:(lia)). pose proof (@pow2_pos (hbits c - zlen q) ltac:(lia)). lia.
    - destruct (@X_range (hbits c) k p ltac:(lia)). pose proof (@pow2_pos (hbits c - zlen p) ltac:(lia)). lia. }
  pose proof (hmax_pos c). rewrite Z.shiftr_div_pow2 in E by lia. apply Z.div_small_iff in E; [lia|]. pose proof (@pow2_pos (hbits c) ltac:(lia)). lia.
Qed.
Lemma common_iff c p q L : h_path c p -> h_path c q -> 0 <= L <= Z.min (zlen p) (zlen q) ->
  (L <= h_leading_zeros c (xor_bits 0 (coords c p) (coords c q)) <-> firstn (Z.to_nat L) p = firstn (Z.to_nat L) q).
Proof.
  intros Hp Hq HL. destruct (Hp) as [Vp Lp]. destruct (Hq) as [Vq Lq]. rewrite leading_zeros_iff by (try lia; now apply xor_range).
  rewrite xor_bits_cut by (now rewrite !coords_length). rewrite Z.shiftr_0_l. unfold coords. rewrite Forall2_map_zseq. split.
  - intros [_ H]. apply (@paths_inj c); try now apply valid_firstn.
    + rewrite !firstn_length. unfold zlen in *. lia.
    + intros k Hk. specialize (H k ltac:(lia)). cbv beta in H. rewrite !X_cut in H by lia. revert H. apply num_inj; try lia; try apply bitk_valid.
      rewrite !map_length, !firstn_length. unfold zlen in *. lia.
  - intros E. split; [reflexivity|]. intros k Hk. rewrite !X_cut by lia. now rewrite E.
Qed.
Lemma h_nca_walk c p q : h_path c p -> h_path c q -> h_nca c (h_walk c p) (h_walk c q) = h_walk c (lcp p q).
Proof.
  intros Hp Hq. unfold h_nca, h_nca_level. rewrite !(@h_walk_eq c p), !(@h_walk_eq c q) by (apply Hp || apply Hq). cbn [hl hx].
  rewrite <- (@h_walk_eq c p) by apply Hp. set (z := h_leading_zeros c _). pose proof (zlen_nonneg p). pose proof (zlen_nonneg q).
  assert (Z0 : 0 <= z) by (apply leading_zeros_nonneg; now apply xor_range).
  set (L := Z.min z (Z.min (zlen p) (zlen q))). assert (HL : 0 <= L <= Z.min (zlen p) (zlen q)) by lia.
  assert (E := proj1 (common_iff Hp Hq HL) ltac:(fold z; lia)).
  assert (P1 := @lcp_prefix_l p q). assert (P2 := @lcp_prefix_r p q).
  apply prefix_firstn in P1, P2. destruct P1 as [A1 A2]. destruct P2 as [B1 B2].
  assert (U : (length (lcp p q) <= Z.to_nat L)%nat).
  { assert (HC : 0 <= zlen (lcp p q) <= Z.min (zlen p) (zlen q)) by (unfold zlen; lia).
    assert (C := proj2 (common_iff Hp Hq HC)). replace (Z.to_nat (zlen (lcp p q))) with (length (lcp p q)) in C by (unfold zlen; lia).
    rewrite A2, B2 in C. specialize (C eq_refl). fold z in C. unfold zlen in *. lia. }
  assert (W : prefix (firstn (Z.to_nat L) p) (lcp p q)).
  { apply lcp_greatest; [exists (skipn (Z.to_nat L) p)|exists (skipn (Z.to_nat L) q); rewrite E]; symmetry; apply firstn_skipn. }
  apply prefix_firstn in W. destruct W as [W1 W2]. rewrite firstn_length in W1.
  rewrite h_ancestor_walk by (auto; lia). f_equal. rewrite <- A2 at 1. rewrite <- A2. f_equal. unfold zlen in *. rewrite A2. lia.
Qed.

(** ** descendants *)
Lemma map_repeat {A B} (f : A -> B) a n : map f (repeat a n) = repeat (f a) n.
Proof. induction n as [|n IH]; cbn [repeat map]; [reflexivity|]. now rewrite IH. Qed.
Lemma h_first_descendant_walk c p L : h_path c p -> zlen p <= L <= hmax c ->
  h_first_descendant c (h_walk c p) L = h_walk c (p ++ repeat 0 (Z.to_nat (L - zlen p))).
Proof.
  intros [V HM] HL. assert (E : zlen (p ++ repeat 0 (Z.to_nat (L - zlen p))) = L) by (rewrite zlen_app, zlen_repeat; lia).
  rewrite !h_walk_eq by lia. unfold h_first_descendant. cbn [hx]. rewrite E. f_equal. apply map_zseq_ext. intros k Hk.
  rewrite X_app by (rewrite zlen_repeat; lia). rewrite map_repeat. replace (bitk k 0) with 0 by (unfold bitk; now rewrite Z.bits_0).
  rewrite num_repeat0. lia.
Qed.
Lemma h_last_descendant_walk c p L : h_path c p -> zlen p <= L <= hmax c ->
  h_last_descendant c (h_walk c p) L = h_walk c (p ++ repeat (hchildren c - 1) (Z.to_nat (L - zlen p))).
Proof.
  intros [V HM] HL. assert (E : zlen (p ++ repeat (hchildren c - 1) (Z.to_nat (L - zlen p))) = L) by (rewrite zlen_app, zlen_repeat; lia).
  rewrite !h_walk_eq by lia. unfold h_last_descendant. cbn [hl hx]. rewrite E. f_equal. unfold coords. rewrite map_map. apply map_zseq_ext. intros k Hk.
  rewrite X_app by (rewrite zlen_repeat; lia). rewrite map_repeat, zlen_repeat. replace (bitk k (hchildren c - 1)) with (2 - 1).
  2: { unfold bitk. rewrite hN. replace (2 ^ Z.of_nat (hdim c) - 1) with (Z.ones (Z.of_nat (hdim c))) by (rewrite Z.ones_equiv; lia).
       rewrite Z.ones_spec_low by lia. reflexivity. }
  rewrite num_repeat_last by lia. rewrite Z2Nat.id by lia. rewrite !h_len_pow by lia.
  assert (P := @pow2_pos (hbits c - L) ltac:(lia)). rewrite (@lor_high_low _ _ (hbits c - zlen p)); [|lia| |apply X_al].
  - f_equal. rewrite (@pow2_split (hbits c - L) (hbits c - zlen p)) by lia. replace (hbits c - zlen p - (hbits c - L)) with (L - zlen p) by lia.
    replace (hbits c - zlen p - (L - zlen p)) with (hbits c - L) by lia. ring.
  - assert (2 ^ (hbits c - L) <= 2 ^ (hbits c - zlen p)) by (apply Z.pow_le_mono_r; lia). lia.
Qed.

(** ** numbers of descendants *)
Lemma h_count_leaves_walk c p L : h_path c p -> 1 <= zlen p <= L -> L <= hmax c -> h_count_leaves c (h_walk c p) L = hchildren c ^ (L - zlen p).
Proof.
  intros [V HM] HL HX. unfold h_count_leaves. rewrite h_walk_level by auto. destruct (Z.ltb_spec L (zlen p)); [lia|]. unfold h_num_descendants.
  rewrite shiftl1_pow by nia. rewrite hpow by lia. pose proof (@hpow_small c (L - zlen p) ltac:(lia)).
  rewrite u64_small by lia. rewrite i64_small by lia. reflexivity.
Qed.
Lemma h_sum_children_walk c p L n from : h_path c p -> zlen p < L <= hmax c -> 0 <= from -> from + Z.of_nat n <= hchildren c ->
  h_sum_children c (h_walk c p) L n from = Z.of_nat n * hchildren c ^ (L - zlen p - 1).
Proof.
  intros H HL. revert from. induction n as [|n IH]; intros from Hf Hn; cbn [h_sum_children]; [lia|].
  assert (HP : h_path c (p ++ [from])) by (apply h_path_snoc; split; [exact H|]; lia).
  rewrite <- h_walk_snoc, h_count_leaves_walk by (auto; rewrite ?zlen_snoc; pose proof (zlen_nonneg p); lia). rewrite IH by lia. rewrite zlen_snoc.
  replace (L - (zlen p + 1)) with (L - zlen p - 1) by lia. pose proof (zlen_nonneg p).
  pose proof (@hpow_small c (L - zlen p - 1) ltac:(lia)) as B.
  assert (T : (Z.of_nat n + 1) * hchildren c ^ (L - zlen p - 1) <= 2 ^ 63).
  { transitivity (hchildren c * hchildren c ^ (L - zlen p - 1)); [apply Z.mul_le_mono_nonneg_r; lia|]. rewrite <- Z.pow_succ_r by lia. apply hpow_bound. lia. }
  rewrite (u64_small (z := hchildren c ^ _)) by lia. rewrite u64_small by lia. lia.
Qed.

(** ** ids *)
Lemma h_linear_loop_walk c L fuel p id : h_path c p -> zlen p <= L <= hmax c -> (length p <= fuel)%nat -> 0 <= id ->
  id + num (hchildren c) p * hchildren c ^ (L - zlen p) < 2 ^ 64 ->
  h_linear_loop c L fuel (h_walk c p) id = Ok (id + num (hchildren c) p * hchildren c ^ (L - zlen p)).
Proof.
  revert p id. induction fuel as [|fuel IH]; intros p id H HL HF Hid Hb.
  - destruct p; [|cbn [length] in HF; lia]. change (h_linear_loop c L 0 (h_walk c []) id) with (Ok id). rewrite num_nil. f_equal. lia.
  - destruct p as [|i p _] using rev_ind.
    + change (h_linear_loop c L (S fuel) (h_walk c []) id) with (Ok id). rewrite num_nil. f_equal. lia.
    + assert (HQ := H). apply h_path_snoc in HQ. destruct HQ as (HQ & Hi & HM). cbn [h_linear_loop]. rewrite h_walk_level by apply H.
      rewrite zlen_snoc in *. pose proof (zlen_nonneg p). rewrite (proj2 (Z.eqb_neq _ 0)) by lia. rewrite h_parent_child, h_child_id_walk by auto.
      rewrite num_snoc in *. rewrite h_sum_children_walk by (auto; lia). rewrite Z2Nat.id by lia.
      replace (L - (zlen p + 1)) with (L - zlen p - 1) in * by lia. set (B := hchildren c ^ (L - zlen p - 1)) in *.
      assert (EB : hchildren c ^ (L - zlen p) = hchildren c * B) by (unfold B; rewrite <- Z.pow_succ_r by lia; f_equal; lia).
      assert (BP : 0 < B) by (apply Z.pow_pos_nonneg; [apply hN_pos|lia]). pose proof (hN_pos c).
      pose proof (num_range (hN_pos c) (proj1 HQ)) as NR. assert (0 <= i * B) by (apply Z.mul_nonneg_nonneg; lia).
      assert (0 <= num (hchildren c) p * hchildren c * B) by (apply Z.mul_nonneg_nonneg; [apply Z.mul_nonneg_nonneg|]; lia).
      rewrite u64_small by lia. rewrite IH; auto; try lia.
      * f_equal. rewrite EB. lia.
      * rewrite app_length in HF. cbn [length] in HF. lia.
Qed.
Lemma h_linear_id_fine_o c p L : h_path c p -> zlen p <= L <= hmax c ->
  h_linear_id_o c (h_walk c p) L = Ok (num (hchildren c) p * hchildren c ^ (L - zlen p)).
Proof.
  intros H HL. unfold h_linear_id_o. rewrite h_walk_level by apply H. destruct (Z.ltb_spec L (zlen p)); [lia|]. rewrite h_walk_level by apply H.
  rewrite h_linear_loop_walk; auto; [unfold zlen; lia|lia|]. rewrite Z.add_0_l.
  pose proof (num_range (hN_pos c) (proj1 H)) as NR. pose proof (zlen_nonneg p). pose proof (@hpow_bound c (L - zlen p) ltac:(lia)).
  assert (num (hchildren c) p * hchildren c ^ (L - zlen p) <= hchildren c ^ L); [|pose proof (@hpow_bound c L ltac:(lia)); lia].
  replace L with (zlen p + (L - zlen p)) at 2 by lia. rewrite Z.pow_add_r by lia. apply Z.mul_le_mono_nonneg_r; lia.
Qed.
Lemma h_linear_id_coarse_o c p L : h_path c p -> 0 <= L <= zlen p -> h_linear_id_o c (h_walk c p) L = Ok (num (hchildren c) (firstn (Z.to_nat L) p)).
Proof.
  intros H HL. destruct (Z.eq_dec L (zlen p)) as [->|NE].
  - rewrite h_linear_id_fine_o by (auto; destruct H; lia). rewrite Z.sub_diag, Z.pow_0_r, Z.mul_1_r.
    rewrite firstn_all2 by (unfold zlen; lia). reflexivity.
  - assert (HF := h_path_firstn (Z.to_nat L) H). assert (E := @zlen_firstn _ p L HL). rewrite <- (Z.mul_1_r (num _ _)), <- (Z.pow_0_r (hchildren c)).
    replace 0 with (L - zlen (firstn (Z.to_nat L) p)) by lia. rewrite <- (h_linear_id_fine_o HF) by (destruct HF; lia).
    unfold h_linear_id_o. rewrite h_walk_level by apply H. destruct (Z.ltb_spec L (zlen p)); [|lia]. rewrite h_ancestor_walk by (auto; lia).
    rewrite (@h_walk_level c (firstn (Z.to_nat L) p)) by apply HF. rewrite E. destruct (Z.ltb_spec L L); [lia|]. now rewrite h_walk_level, E by apply HF.
Qed.
Lemma h_linear_id_fine c p L : h_path c p -> zlen p <= L <= hmax c -> h_linear_id c (h_walk c p) L = num (hchildren c) p * hchildren c ^ (L - zlen p).
Proof. intros H HL. unfold h_linear_id. now rewrite h_linear_id_fine_o. Qed.
Lemma h_linear_id_coarse c p L : h_path c p -> 0 <= L <= zlen p -> h_linear_id c (h_walk c p) L = num (hchildren c) (firstn (Z.to_nat L) p).
Proof. intros H HL. unfold h_linear_id. now rewrite h_linear_id_coarse_o. Qed.

Lemma h_find_child_walk c p L fuel i r index : h_path c p -> zlen p < L <= hmax c -> 0 <= r < hchildren c ^ (L - zlen p - 1) ->
  0 <= index <= i -> i < hchildren c -> index + Z.of_nat fuel = hchildren c ->
  let B := hchildren c ^ (L - zlen p - 1) in
  h_find_child c (h_walk c p) L (i * B + r) fuel index (index * B) = Ok (i, i * B).
Proof.
  intros H HL Hr. cbv zeta. set (B := hchildren c ^ (L - zlen p - 1)) in *. revert index. induction fuel as [|fuel IH]; intros index HI Hi HF; [lia|]. cbn [h_find_child].
  assert (HP : h_path c (p ++ [index])) by (apply h_path_snoc; split; [exact H|]; lia). pose proof (zlen_nonneg p).
  rewrite <- h_walk_snoc, h_count_leaves_walk by (auto; rewrite ?zlen_snoc; lia). rewrite zlen_snoc. replace (L - (zlen p + 1)) with (L - zlen p - 1) by lia. fold B.
  assert (BS : 1 <= B < 2 ^ 63) by (apply hpow_small; lia).
  assert (T : (index + 1) * B <= 2 ^ 63).
  { transitivity (hchildren c * B); [apply Z.mul_le_mono_nonneg_r; lia|]. unfold B. rewrite <- Z.pow_succ_r by lia. apply hpow_bound. lia. }
  assert (0 <= index * B) by (apply Z.mul_nonneg_nonneg; lia).
  rewrite (u64_small (z := B)) by lia. rewrite u64_small by lia. replace (index * B + B) with ((index + 1) * B) by lia.
  destruct (Z.leb_spec ((index + 1) * B) (i * B + r)) as [LE|GT].
  - apply IH; try lia. destruct (Z.eq_dec index i) as [->|]; [nia|lia].
  - assert (E : index = i) by nia. subst. reflexivity.
Qed.
Lemma h_set_loop_walk c L fuel p r : h_path c p -> valid_path (hchildren c) r -> zlen p + zlen r = L -> L <= hmax c -> (length r <= fuel)%nat ->
  h_set_loop c L fuel (h_walk c p) (num (hchildren c) r) = Ok (h_walk c (p ++ r)).
Proof.
  intros H. revert p r H. induction fuel as [|fuel IH]; intros p r H V HL HM HF.
  - destruct r; [|cbn [length] in HF; lia]. cbn [h_set_loop]. rewrite h_walk_level by apply H. change (zlen (@nil Z)) with 0 in HL.
    destruct (Z.ltb_spec (zlen p) L); [lia|]. cbn [negb]. now rewrite app_nil_r.
  - cbn [h_set_loop]. rewrite h_walk_level by apply H. destruct r as [|i r].
    + change (zlen (@nil Z)) with 0 in HL. destruct (Z.ltb_spec (zlen p) L); [lia|]. cbn [negb]. now rewrite app_nil_r.
    + assert (EL : zlen (i :: r) = zlen r + 1) by (unfold zlen; cbn [length]; lia). pose proof (zlen_nonneg r).
      destruct (Z.ltb_spec (zlen p) L); [|lia]. cbn [negb]. destruct (Z.eqb_spec (num (hchildren c) (i :: r)) 0) as [Z0|NZ].
      * f_equal. rewrite h_first_descendant_walk by (auto; lia). do 2 f_equal. replace (Z.to_nat (L - zlen p)) with (length (i :: r)) by (unfold zlen in *; lia).
        apply num_inj with (N := hchildren c); auto; [apply hN_pos|apply valid_repeat; pose proof (hN_pos c); lia|apply repeat_length|]. now rewrite num_repeat0.
      * inversion V; subst. rewrite num_cons. assert (R : zlen r = (zlen p + zlen (i :: r)) - zlen p - 1) by lia.
        pose proof (@num_range (hchildren c) r (hN_pos c) ltac:(assumption)) as NR. rewrite R in NR |- *.
        change 0 with (0 * hchildren c ^ (zlen p + zlen (i :: r) - zlen p - 1)) at 4 || idtac.
        assert (FC := @h_find_child_walk c p (zlen p + zlen (i :: r)) (Z.to_nat (hchildren c)) i (num (hchildren c) r) 0 H ltac:(lia) NR ltac:(lia) ltac:(lia) ltac:(pose proof (hN_pos c); lia)).
        cbv zeta in FC. rewrite Z.mul_0_l in FC. rewrite FC. cbn [obind fst snd]. rewrite <- h_walk_snoc.
        replace (i * hchildren c ^ (zlen p + zlen (i :: r) - zlen p - 1) + num (hchildren c) r - i * hchildren c ^ (zlen p + zlen (i :: r) - zlen p - 1))
          with (num (hchildren c) r) by lia.
        rewrite IH; [now rewrite <- app_assoc| |assumption| |assumption|cbn [length] in HF; lia].
        -- apply h_path_snoc. split; [exact H|]. split; [assumption|lia].
        -- rewrite zlen_snoc. lia.
Qed.
Lemma h_set_linear_id_num c p : h_path c p -> h_set_linear_id c (zlen p) (num (hchildren c) p) = Ok (h_walk c p).
Proof.
  intros [V HM]. unfold h_set_linear_id. destruct (Z.eqb_spec (zlen p) 0) as [E|NE].
  - destruct p; [reflexivity|]. unfold zlen in E. cbn [length] in E. lia.
  - change (h_root c) with (h_walk c []). rewrite (@h_set_loop_walk c (zlen p) (Z.to_nat (zlen p)) [] p); auto.
    + split; [constructor|]. pose proof (hmax_pos c). unfold zlen; cbn; lia.
    + unfold zlen. lia.
Qed.

(** ** order and successors *)
Lemma h_linear_id_pad c p L : h_path c p -> zlen p <= L <= hmax c ->
  h_linear_id c (h_walk c p) L = num (hchildren c) (p ++ repeat 0 (Z.to_nat (L - zlen p))).
Proof. intros H HL. rewrite h_linear_id_fine by auto. rewrite num_pad0. rewrite Z2Nat.id by lia. reflexivity. Qed.
Lemma h_compare_walk c p q : h_path c p -> h_path c q -> (h_compare c (h_walk c p) (h_walk c q) ?= 0) = path_cmp p q.
Proof.
  intros Hp Hq. unfold h_compare. rewrite !h_walk_level by (apply Hp || apply Hq).
  set (n := Nat.max (length p) (length q)).
  assert (E : Z.max (zlen p) (zlen q) = Z.of_nat n) by (unfold zlen; lia). rewrite E.
  assert (N : Z.of_nat n <= hmax c) by (rewrite <- E; destruct Hp, Hq; lia).
  rewrite !h_linear_id_pad by (auto; unfold zlen in *; lia).
  replace (Z.to_nat (Z.of_nat n - zlen p)) with (n - length p)%nat by (unfold zlen; lia).
  replace (Z.to_nat (Z.of_nat n - zlen q)) with (n - length q)%nat by (unfold zlen; lia).
  rewrite (@path_cmp_num_aux (hchildren c) n p q); try apply Hp; try apply Hq; try lia; [|apply hN_pos].
  set (a := num (hchildren c) (p ++ _)). set (b := num (hchildren c) (q ++ _)).
  destruct (Z.compare_spec a b) as [->|Hlt|Hgt].
  - rewrite Z.eqb_refl. destruct (Z.compare_spec (zlen p) (zlen q)) as [->|L|L].
    + now rewrite Z.eqb_refl.
    + rewrite (proj2 (Z.eqb_neq _ _)) by lia. apply Z.compare_lt_iff. lia.
    + rewrite (proj2 (Z.eqb_neq _ _)) by lia. apply Z.compare_gt_iff. lia.
  - rewrite (proj2 (Z.eqb_neq a b)) by lia. rewrite (proj2 (Z.ltb_lt _ _) Hlt). reflexivity.
  - rewrite (proj2 (Z.eqb_neq a b)) by lia. rewrite (proj2 (Z.ltb_ge _ _)) by lia. reflexivity.
Qed.
Lemma h_compare_zero c p q : h_path c p -> h_path c q -> (h_compare c (h_walk c p) (h_walk c q) = 0 <-> p = q).
Proof. intros Hp Hq. rewrite <- path_cmp_eq, <- (h_compare_walk Hp Hq). rewrite Z.compare_eq_iff. tauto. Qed.

Lemma h_num_siblings_walk c p i : h_path c (p ++ [i]) -> h_num_siblings c (h_walk c (p ++ [i])) = hchildren c.
Proof.
  intros H. unfold h_num_siblings. rewrite h_walk_level by apply H. rewrite zlen_snoc. pose proof (zlen_nonneg p).
  now rewrite (proj2 (Z.eqb_neq _ 0)) by lia.
Qed.
Lemma h_path_next c p : h_path c p -> h_path c (next_path (hchildren c) p).
Proof. intros [V L]. split; [apply digits_valid, hN_pos|]. unfold zlen in *. now rewrite next_path_length. Qed.
Lemma h_successor_rec_walk c fuel p : h_path c p -> (length p <= fuel)%nat -> num (hchildren c) p + 1 < hchildren c ^ zlen p ->
  h_successor_rec c fuel (h_walk c p) = Ok (h_walk c (next_path (hchildren c) p)).
Proof.
  revert p. induction fuel as [|fuel IH]; intros p H HF Hb.
  - destruct p; [|cbn [length] in HF; lia]. cbn in Hb. lia.
  - destruct p as [|i p _] using rev_ind; [cbn in Hb; lia|]. assert (HQ := H). apply h_path_snoc in HQ. destruct HQ as (HQ & Hi & HM). cbn [h_successor_rec].
    rewrite h_child_id_walk, h_num_siblings_walk, h_parent_child by auto. rewrite num_snoc, zlen_snoc in Hb. pose proof (zlen_nonneg p).
    rewrite Z.pow_add_r, Z.pow_1_r in Hb by lia. pose proof (hN_pos c) as NP.
    destruct (Z.eqb_spec i (hchildren c - 1)) as [->|NE].
    + assert (B : num (hchildren c) p + 1 < hchildren c ^ zlen p) by nia.
      rewrite IH; [cbn [obind]|exact HQ|rewrite app_length in HF; cbn [length] in HF; lia|exact B].
      rewrite <- h_walk_snoc. rewrite next_path_snoc_wrap; auto. apply HQ.
    + rewrite <- h_walk_snoc. rewrite next_path_snoc_in; auto; [apply H|lia].
Qed.
Lemma h_successor_walk c p : h_path c p -> num (hchildren c) p + 1 < hchildren c ^ zlen p ->
  h_successor c (h_walk c p) = Ok (h_walk c (next_path (hchildren c) p)).
Proof. intros H Hb. unfold h_successor. rewrite h_walk_level by apply H. apply h_successor_rec_walk; auto. unfold zlen. lia. Qed.
(** the last element of its level has no successor: an assertion fails *)
Lemma h_successor_last c p : h_path c p -> num (hchildren c) p + 1 = hchildren c ^ zlen p -> h_successor c (h_walk c p) = AssertFail.
Proof.
  intros H Hb. unfold h_successor. rewrite h_walk_level by apply H. assert (HF : (Z.to_nat (zlen p) = length p)%nat) by (unfold zlen; lia). rewrite HF. clear HF.
  induction p as [|i p IH] using rev_ind; [reflexivity|]. assert (HQ := H). apply h_path_snoc in HQ. destruct HQ as (HQ & Hi & HM).
  rewrite app_length. cbn [length]. rewrite Nat.add_1_r. cbn [h_successor_rec]. rewrite h_child_id_walk, h_num_siblings_walk, h_parent_child by auto.
  rewrite num_snoc, zlen_snoc in Hb. pose proof (zlen_nonneg p). rewrite Z.pow_add_r, Z.pow_1_r in Hb by lia. pose proof (hN_pos c) as NP.
  pose proof (num_range NP (proj1 HQ)) as NR.
  assert (E : i = hchildren c - 1) by nia. rewrite E, Z.eqb_refl. rewrite IH; [reflexivity|exact HQ|nia].
Qed.

(** ** families *)
Definition h_valid (c : hclass) (e : hcube) : Prop := exists p, h_path c p /\ e = h_walk c p.
Lemma h_family_loop_iff c fam p n i : h_path c p -> zlen p < hmax c -> Forall (h_valid c) fam -> zlen fam = hchildren c -> 0 <= i -> i + Z.of_nat n <= hchildren c ->
  (h_family_loop c fam (h_walk c p) n i = Ok true <-> forall j, i <= j < i + Z.of_nat n -> znth cube0 fam j = h_child c (h_walk c p) j).
Proof.
  intros H HM HV HL. revert i. induction n as [|n IH]; intros i Hi Hn; cbn [h_family_loop].
  - split; [intros _ j Hj; lia|reflexivity].
  - assert (IN : h_valid c (znth cube0 fam i)).
    { apply (proj1 (Forall_forall _ _) HV). unfold znth. apply nth_In. unfold zlen in HL. lia. }
    destruct IN as (q & Hq & Eq). assert (HP : h_path c (p ++ [i])) by (apply h_path_snoc; split; [exact H|]; lia).
    assert (CH : h_child c (h_walk c p) i = h_walk c (p ++ [i])) by (symmetry; apply h_walk_snoc).
    rewrite Eq, CH, h_walk_level by apply Hq. destruct (Z.leb_spec (zlen q) 0) as [L0|L0].
    + split; [discriminate|]. intros A. specialize (A i ltac:(lia)). rewrite Eq, CH in A. apply (h_walk_inj Hq HP) in A. subst q. rewrite zlen_snoc in L0.
      pose proof (zlen_nonneg p). lia.
    + destruct q as [|k q _] using rev_ind; [unfold zlen in L0; cbn in L0; lia|]. rewrite h_parent_child by auto.
      assert (HQ := proj1 (proj1 (@h_path_snoc c q k) Hq)).
      destruct (Z.eqb_spec (h_compare c (h_walk c p) (h_walk c q)) 0) as [E1|E1]; cbn [negb].
      * apply (h_compare_zero H HQ) in E1. subst q. destruct (Z.eqb_spec (h_compare c (h_walk c (p ++ [k])) (h_walk c (p ++ [i]))) 0) as [E2|E2]; cbn [negb].
        -- apply (h_compare_zero Hq HP) in E2. rewrite IH by lia. split.
           ++ intros A j Hj. destruct (Z.eq_dec j i) as [->|]; [|apply A; lia]. now rewrite Eq, CH, E2.
           ++ intros A j Hj. apply A. lia.
        -- split; [discriminate|]. intros A. exfalso. specialize (A i ltac:(lia)). rewrite Eq, CH in A. apply E2. rewrite A. now apply h_compare_zero.
      * split; [discriminate|]. intros A. exfalso. specialize (A i ltac:(lia)). rewrite Eq, CH in A. apply (h_walk_inj Hq HP) in A. apply app_inj_tail in A. destruct A as [-> _].
        apply E1. now apply h_compare_zero.
Qed.
Lemma list_znth_ext {A} (d : A) (a b : list A) : length a = length b -> (forall j, 0 <= j < zlen a -> znth d a j = znth d b j) -> a = b.
Proof.
  intros HL H. apply nth_ext with (d := d) (d' := d); [exact HL|]. intros n Hn. specialize (H (Z.of_nat n) ltac:(unfold zlen; lia)). unfold znth in H. now rewrite !Nat2Z.id in H.
Qed.
Lemma h_children_of_nth c e j : 0 <= j < hchildren c -> znth cube0 (h_children_of c e) j = h_child c e j.
Proof.
  intros Hj. unfold h_children_of, znth. rewrite (nth_indep _ cube0 (h_child c e 0)) by (rewrite map_length, zseq_length; lia). rewrite map_nth, nth_zseq by lia. f_equal. lia.
Qed.
Lemma h_children_of_len c e : length (h_children_of c e) = Z.to_nat (hchildren c).
Proof. unfold h_children_of. now rewrite map_length, zseq_length. Qed.
Lemma h_is_family_iff c fam : Forall (h_valid c) fam -> zlen fam = hchildren c ->
  (h_is_family c fam = Ok true <-> exists p, h_path c p /\ zlen p < hmax c /\ fam = h_children_of c (h_walk c p)).
Proof.
  intros HV HL. pose proof (hN_pos c) as NP. unfold h_is_family.
  assert (IN : h_valid c (znth cube0 fam 0)).
  { apply (proj1 (Forall_forall _ _) HV). unfold znth. apply nth_In. unfold zlen in HL. lia. }
  destruct IN as (q & Hq & Eq). rewrite Eq, h_walk_level by apply Hq. destruct (Z.leb_spec (zlen q) 0) as [L0|L0].
  - split; [discriminate|]. intros (p & Hp & HM & ->). rewrite h_children_of_nth in Eq by lia. rewrite <- h_walk_snoc in Eq.
    assert (HP : h_path c (p ++ [0])) by (apply h_path_snoc; split; [exact Hp|]; lia). apply (h_walk_inj HP Hq) in Eq. subst q.
    rewrite zlen_snoc in L0. pose proof (zlen_nonneg p). lia.
  - destruct q as [|k q _] using rev_ind; [unfold zlen in L0; cbn in L0; lia|]. rewrite h_parent_child by auto.
    destruct (proj1 (@h_path_snoc c q k) Hq) as (HQ & Hk & HM). rewrite (@h_family_loop_iff c fam q) by (auto; lia). split.
    + intros A. exists q. split; [exact HQ|]. split; [exact HM|]. apply (@list_znth_ext _ cube0); [rewrite h_children_of_len; unfold zlen in HL; lia|].
      intros j Hj. rewrite HL in Hj. rewrite h_children_of_nth by lia. apply A. lia.
    + intros (p & Hp & HMp & E) j Hj. assert (P : p = q).
      { rewrite E, h_children_of_nth in Eq by lia. rewrite <- h_walk_snoc in Eq.
        assert (HP : h_path c (p ++ [0])) by (apply h_path_snoc; split; [exact Hp|]; lia).
        apply (h_walk_inj HP Hq) in Eq. now apply app_inj_tail in Eq. }
      subst p. rewrite E. apply h_children_of_nth. lia.
Qed.

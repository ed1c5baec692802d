(** The hypercubes of the standalone scheme: elements in terms of their paths. *)
From Verif Require Import Prelude PathSpec SchemeModel SchemeSpec SchemeProofs BitLemmas SimplexModel SimplexPathProofs SimplexOrderProofs LineModel LineSpec LineProofs HyperModel HyperSpec.

(** ** classes *)
Lemma hmax_pos c : 0 < hmax c. Proof. destruct c; cbn; lia. Qed.
Lemma hmax_bits c : hmax c <= hbits c. Proof. destruct c; cbn; lia. Qed.
Ltac hb := repeat match goal with c : hclass |- _ => lazymatch goal with _ : hmax c <= hbits c |- _ => fail | _ => pose proof (@hmax_bits c) end end.
Ltac lia := hb; Lia.lia.
Ltac nia := hb; Lia.nia.
Lemma hN c : hchildren c = 2 ^ Z.of_nat (hdim c). Proof. destruct c; reflexivity. Qed.
Lemma hN_pos c : 0 < hchildren c. Proof. destruct c; cbn; lia. Qed.
Lemma hpow c n : 0 <= n -> 2 ^ (Z.of_nat (hdim c) * n) = hchildren c ^ n.
Proof. intros H. rewrite hN, Z.pow_mul_r by lia. reflexivity. Qed.
Lemma hpow_bound c n : 0 <= n <= hmax c -> 1 <= hchildren c ^ n <= 2 ^ 63.
Proof.
  intros H. split; [pose proof (hN_pos c); pose proof (Z.pow_pos_nonneg (hchildren c) n ltac:(lia) ltac:(lia)); lia|]. rewrite <- hpow by lia.
  apply Z.pow_le_mono_r; [lia|]. destruct c; cbn [hdim hmax] in *; change (Z.of_nat 3) with 3; change (Z.of_nat 2) with 2; lia.
Qed.
Lemma hpow_small c n : 0 <= n < hmax c -> 1 <= hchildren c ^ n < 2 ^ 63.
Proof.
  intros H. split; [apply hpow_bound; lia|]. rewrite <- hpow by lia.
  apply Z.pow_lt_mono_r; [lia|lia|]. destruct c; cbn [hdim hmax] in *; change (Z.of_nat 3) with 3; change (Z.of_nat 2) with 2; change (Z.of_nat 1) with 1; change (Z.of_nat 0) with 0; lia.
Qed.
Lemma h_len_pow c l : l <= hmax c -> h_len c l = 2 ^ (hbits c - l).
Proof. intros. unfold h_len. rewrite shiftl1_pow by lia. reflexivity. Qed.

(** ** coordinates of a path *)
Definition bitk (k i : Z) : Z := Z.b2z (Z.testbit i k).
Definition X (M k : Z) (p : list Z) : Z := num 2 (map (bitk k) p) * 2 ^ (M - zlen p).
Definition coords (c : hclass) (p : list Z) : list Z := map (fun k => X (hbits c) k p) (zseq 0 (hdim c)).

Lemma bitk_range k i : 0 <= bitk k i < 2. Proof. unfold bitk. destruct (Z.testbit i k); cbn; lia. Qed.
Lemma bitk_valid k p : valid_path 2 (map (bitk k) p).
Proof. apply Forall_map, Forall_forall. intros i _. apply bitk_range. Qed.
Lemma zlen_map {A B} (f : A -> B) l : zlen (map f l) = zlen l. Proof. unfold zlen. now rewrite map_length. Qed.
Lemma X_range M k p : zlen p <= M -> 0 <= X M k p /\ X M k p + 2 ^ (M - zlen p) <= 2 ^ M.
Proof.
  intros H. pose proof (zlen_nonneg p). pose proof (@num_range 2 (map (bitk k) p) ltac:(lia) (bitk_valid k p)) as R. rewrite zlen_map in R.
  unfold X. pose proof (@pow2_pos (M - zlen p) ltac:(lia)). rewrite (@pow2_split (M - zlen p) M) by lia.
  replace (M - (M - zlen p)) with (zlen p) by lia. nia.
Qed.
Lemma X_al M k p : al (M - zlen p) (X M k p). Proof. now exists (num 2 (map (bitk k) p)). Qed.
Lemma X_snoc M k p i : zlen p < M -> X M k (p ++ [i]) = X M k p + bitk k i * 2 ^ (M - zlen p - 1).
Proof.
  intros H. pose proof (zlen_nonneg p). unfold X. rewrite map_app, zlen_snoc. cbn [map]. rewrite num_snoc.
  replace (M - (zlen p + 1)) with (M - zlen p - 1) by lia.
  replace (2 ^ (M - zlen p)) with (2 * 2 ^ (M - zlen p - 1)); [ring|]. rewrite <- pow2_S by lia. f_equal. lia.
Qed.
Lemma X_nil M k : X M k [] = 0. Proof. reflexivity. Qed.
Lemma X_bit M k p L : zlen p <= M -> 1 <= L <= zlen p -> Z.testbit (X M k p) (M - L) = Z.testbit (nth (Z.to_nat (L - 1)) p 0) k.
Proof.
  induction p as [|i p IH] using rev_ind; intros HM HL; [unfold zlen in *; cbn in *; lia|]. rewrite zlen_snoc in *. rewrite X_snoc by lia. unfold bitk.
  assert (A : al (M - zlen p - 1 + 1) (X M k p)) by (replace (M - zlen p - 1 + 1) with (M - zlen p) by lia; apply X_al).
  destruct (Z.eq_dec L (zlen p + 1)) as [->|NE].
  - replace (M - (zlen p + 1)) with (M - zlen p - 1) by lia. rewrite tb_add_same by (auto; lia). rewrite app_nth2 by (unfold zlen; lia).
    replace (Z.to_nat (zlen p + 1 - 1) - length p)%nat with 0%nat by (unfold zlen; lia). reflexivity.
  - rewrite tb_add_hi by (auto; lia). rewrite IH by lia. rewrite app_nth1 by (unfold zlen in *; lia). reflexivity.
Qed.
Lemma X_cut M k p L : zlen p <= M -> 0 <= L <= zlen p -> Z.shiftr (X M k p) (M - L) = num 2 (map (bitk k) (firstn (Z.to_nat L) p)).
Proof.
  intros HM HL. rewrite Z.shiftr_div_pow2 by lia. rewrite <- firstn_map, (@num_firstn 2) by (try lia; apply bitk_valid).
  rewrite firstn_map, !zlen_map. unfold X. rewrite (@pow2_split (M - zlen p) (M - L)) by lia.
  assert (E : zlen (firstn (Z.to_nat L) p) = L) by (unfold zlen in *; rewrite firstn_length; lia). rewrite E.
  replace (M - L - (M - zlen p)) with (zlen p - L) by lia. rewrite Z.div_mul_cancel_r; [reflexivity| |]; apply Z.neq_sym, Z.lt_neq, pow2_pos; lia.
Qed.
Lemma X_app M k p r : zlen p + zlen r <= M -> X M k (p ++ r) = X M k p + num 2 (map (bitk k) r) * 2 ^ (M - zlen p - zlen r).
Proof.
  intros H. pose proof (zlen_nonneg p). pose proof (zlen_nonneg r). unfold X. rewrite map_app, num_app, zlen_app, zlen_map.
  rewrite (@pow2_split (M - zlen p - zlen r) (M - zlen p)) by lia.
  replace (M - zlen p - (M - zlen p - zlen r)) with (zlen r) by lia. replace (M - (zlen p + zlen r)) with (M - zlen p - zlen r) by lia. ring.
Qed.

(** ** loops over the coordinates *)
Lemma imap_zseq f g k n : imap f k (map g (zseq k n)) = map (fun j => f j (g j)) (zseq k n).
Proof. revert k. induction n as [|n IH]; intros k; cbn [zseq map imap]; [reflexivity|]. now rewrite IH. Qed.
Lemma map_zseq_ext {A} (f g : Z -> A) a n : (forall k, a <= k < a + Z.of_nat n -> f k = g k) -> map f (zseq a n) = map g (zseq a n).
Proof. intros H. apply map_ext_in. intros k Hk. apply in_zseq in Hk. apply H. lia. Qed.
Lemma map_zseq_inj {A} (f g : Z -> A) a n : map f (zseq a n) = map g (zseq a n) -> forall k, a <= k < a + Z.of_nat n -> f k = g k.
Proof.
  revert a. induction n as [|n IH]; intros a H k Hk; [lia|]. cbn [zseq map] in H.
  assert (H1 : f a = g a) by congruence. assert (H2 : map f (zseq (a + 1) n) = map g (zseq (a + 1) n)) by congruence.
  destruct (Z.eq_dec k a) as [->|]; [exact H1|]. apply (IH (a + 1)); [exact H2|lia].
Qed.
Lemma coords_equal_iff a b : length a = length b -> (coords_equal a b = true <-> a = b).
Proof.
  revert b. induction a as [|x a IH]; intros [|y b] HL; try discriminate HL; cbn [coords_equal]; [tauto|].
  cbn [length] in HL. rewrite andb_true_iff, Z.eqb_eq, IH by lia. split; [intros [-> ->]; reflexivity|]. intros E.
  split; [exact (f_equal (hd 0) E)|exact (f_equal (@tl Z) E)].
Qed.
Lemma coords_length c p : length (coords c p) = hdim c.
Proof. unfold coords. now rewrite map_length, zseq_length. Qed.

(** ** walks *)
Lemma h_walk_snoc c p i : h_walk c (p ++ [i]) = h_child c (h_walk c p) i.
Proof. unfold h_walk. now rewrite fold_left_app. Qed.
Lemma h_walk_eq c p : zlen p <= hmax c -> h_walk c p = Cube (zlen p) (coords c p).
Proof.
  induction p as [|i p IH] using rev_ind; intros H.
  - unfold h_walk, h_root, coords. cbn [fold_left]. f_equal. destruct c; reflexivity.
  - rewrite zlen_snoc in H. rewrite h_walk_snoc, IH by lia. unfold h_child. cbn [hl hx]. rewrite zlen_snoc. f_equal.
    unfold coords. rewrite imap_zseq. apply map_zseq_ext. intros k Hk. rewrite X_snoc by lia. rewrite shiftl1_pow by lia.
    rewrite land_pow2 by lia. rewrite h_len_pow by lia. replace (hbits c - (zlen p + 1)) with (hbits c - zlen p - 1) by lia.
    unfold bitk. destruct (Z.testbit i k); cbn [negb Z.b2z]; lia.
Qed.
Lemma h_walk_level c p : zlen p <= hmax c -> hl (h_walk c p) = zlen p.
Proof. intros. now rewrite h_walk_eq. Qed.
Lemma h_path_snoc c p i : h_path c (p ++ [i]) <-> h_path c p /\ 0 <= i < hchildren c /\ zlen p < hmax c.
Proof.
  unfold h_path. rewrite valid_app, zlen_snoc. split.
  - intros [[H1 H2] H3]. inversion H2; subst. split; [split; [auto|lia]|]. split; [auto|lia].
  - intros [[H1 H2] [H3 H4]]. split; [split; [auto|constructor; auto]|lia].
Qed.
Lemma h_path_app c p r : h_path c (p ++ r) <-> h_path c p /\ valid_path (hchildren c) r /\ zlen p + zlen r <= hmax c.
Proof.
  unfold h_path. rewrite valid_app, zlen_app. pose proof (zlen_nonneg r). split.
  - intros [[H1 H2] H3]. split; [split; [auto|lia]|]. split; [auto|lia].
  - intros [[H1 H2] [H3 H4]]. split; [split; auto|lia].
Qed.
Lemma h_path_firstn c p n : h_path c p -> h_path c (firstn n p).
Proof. intros [V L]. split; [now apply valid_firstn|]. unfold zlen in *. rewrite firstn_length. lia. Qed.

Lemma testbit_above i d k : 0 <= d <= k -> 0 <= i < 2 ^ d -> Z.testbit i k = false.
Proof. intros H Hi. rewrite <- (Z.mod_small i (2 ^ d)) by lia. apply Z.mod_pow2_bits_high. lia. Qed.
Lemma bits_inj_range i j d : 0 <= d -> 0 <= i < 2 ^ d -> 0 <= j < 2 ^ d -> (forall k, 0 <= k < d -> bitk k i = bitk k j) -> i = j.
Proof.
  intros Hd Hi Hj H. apply Z.bits_inj'. intros n Hn. destruct (Z.lt_ge_cases n d) as [L|L].
  - specialize (H n ltac:(lia)). unfold bitk in H. now apply Z.b2z_inj.
  - rewrite !(@testbit_above _ d n) by lia. reflexivity.
Qed.
Lemma paths_inj c p q : valid_path (hchildren c) p -> valid_path (hchildren c) q -> length p = length q ->
  (forall k, 0 <= k < Z.of_nat (hdim c) -> map (bitk k) p = map (bitk k) q) -> p = q.
Proof.
  revert q. induction p as [|i p IH]; intros [|j q] Hp Hq HL H; try discriminate HL; [reflexivity|]. inversion Hp; subst. inversion Hq; subst.
  cbn [length map] in *. f_equal.
  - apply (@bits_inj_range i j (Z.of_nat (hdim c))); [lia|rewrite <- hN; lia|rewrite <- hN; lia|]. intros k Hk. specialize (H k Hk). congruence.
  - apply IH; auto. intros k Hk. specialize (H k Hk). congruence.
Qed.
Lemma coords_inj c p q : h_path c p -> h_path c q -> zlen p = zlen q -> coords c p = coords c q -> p = q.
Proof.
  intros [Vp Lp] [Vq Lq] HL E. apply (@paths_inj c); auto; [unfold zlen in HL; lia|]. intros k Hk.
  apply num_inj with (N := 2); try lia; try apply bitk_valid; [rewrite !map_length; unfold zlen in HL; lia|].
  assert (XE := @map_zseq_inj _ _ _ 0 (hdim c) E k ltac:(lia)). cbv beta in XE. unfold X in XE. rewrite HL in XE.
  apply Z.mul_cancel_r in XE; [exact XE|]. pose proof (@pow2_pos (hbits c - zlen q) ltac:(lia)). lia.
Qed.
Lemma h_walk_inj c p q : h_path c p -> h_path c q -> h_walk c p = h_walk c q -> p = q.
Proof.
  intros Hp Hq E. rewrite !h_walk_eq in E by (apply Hp || apply Hq). apply (@coords_inj c); auto; [exact (f_equal hl E)|exact (f_equal hx E)].
Qed.
Lemma h_equal_walk c p q : h_path c p -> h_path c q -> (h_equal (h_walk c p) (h_walk c q) = true <-> p = q).
Proof.
  intros Hp Hq. unfold h_equal. rewrite !h_walk_eq by (apply Hp || apply Hq). cbn [hl hx]. rewrite andb_true_iff, Z.eqb_eq.
  rewrite coords_equal_iff by (now rewrite !coords_length). split; [intros [A B]; now apply (@coords_inj c)|intros ->; auto].
Qed.

(** ** parents and child numbers *)
Lemma h_parent_child c p i : h_path c (p ++ [i]) -> h_parent c (h_walk c (p ++ [i])) = h_walk c p.
Proof.
  intros H. apply h_path_snoc in H. destruct H as ((V & L) & Hi & HL). pose proof (zlen_nonneg p).
  rewrite !h_walk_eq by (rewrite ?zlen_snoc; lia). unfold h_parent. cbn [hl hx]. rewrite zlen_snoc. f_equal; [lia|]. unfold coords. rewrite map_map.
  apply map_zseq_ext. intros k Hk. rewrite h_len_pow, X_snoc by lia. replace (hbits c - (zlen p + 1)) with (hbits c - zlen p - 1) by lia.
  unfold bitk. apply clear_add; [lia|]. replace (hbits c - zlen p - 1 + 1) with (hbits c - zlen p) by lia. apply X_al.
Qed.
Lemma cube_bits_eq s k n g i : 0 <= s -> 0 <= k -> 0 <= i < 2 ^ (k + Z.of_nat n) -> (forall j, k <= j < k + Z.of_nat n -> Z.testbit (g j) s = Z.testbit i j) ->
  cube_bits (2 ^ s) k (i mod 2 ^ k) (map g (zseq k n)) = i.
Proof.
  intros Hs. revert k. induction n as [|n IH]; intros k Hk Hi H; cbn [zseq map cube_bits].
  - apply Z.mod_small. rewrite Z.add_0_r in Hi. lia.
  - rewrite land_pow2 by lia. rewrite H by lia. rewrite shiftl1_pow by lia.
    replace (Z.lor (i mod 2 ^ k) (if negb (Z.testbit i k) then 0 else 2 ^ k)) with (i mod 2 ^ (k + 1)).
    + apply IH; [lia| |intros j Hj; apply H; lia]. replace (k + 1 + Z.of_nat n) with (k + Z.of_nat (S n)) by lia. exact Hi.
    + symmetry. apply Z.bits_inj'. intros m Hm. rewrite Z.lor_spec.
      replace (Z.testbit (if negb (Z.testbit i k) then 0 else 2 ^ k) m) with ((m =? k) && Z.testbit i k).
      2: { destruct (Z.testbit i k); cbn [negb]; rewrite ?andb_true_r, ?andb_false_r, ?Z.bits_0; [|reflexivity].
           rewrite Z.pow2_bits_eqb by lia. apply Z.eqb_sym. }
      destruct (Z.lt_trichotomy m k) as [L|[->|L]].
      * rewrite !Z.mod_pow2_bits_low by lia. rewrite (proj2 (Z.eqb_neq m k)) by lia. apply orb_false_r.
      * rewrite Z.mod_pow2_bits_high, Z.mod_pow2_bits_low, Z.eqb_refl by lia. reflexivity.
      * rewrite !Z.mod_pow2_bits_high by lia. rewrite (proj2 (Z.eqb_neq m k)) by lia. reflexivity.
Qed.
Lemma h_cubeid_walk c p L : h_path c p -> 1 <= L <= zlen p -> h_cubeid c (h_walk c p) L = nth (Z.to_nat (L - 1)) p 0.
Proof.
  intros [V HM] HL. unfold h_cubeid. rewrite (proj2 (Z.eqb_neq L 0)) by lia. rewrite h_walk_eq by lia. cbn [hx]. unfold coords. rewrite h_len_pow by lia.
  set (i := nth (Z.to_nat (L - 1)) p 0). change 0 with (i mod 2 ^ 0) at 2 || idtac.
  assert (R : 0 <= i < hchildren c).
  { unfold i. apply (proj1 (Forall_forall _ _) V). apply nth_In. unfold zlen in *. lia. }
  replace (cube_bits (2 ^ (hbits c - L)) 0 0 (map (fun k => X (hbits c) k p) (zseq 0 (hdim c))))
    with (cube_bits (2 ^ (hbits c - L)) 0 (i mod 2 ^ 0) (map (fun k => X (hbits c) k p) (zseq 0 (hdim c)))) by (rewrite Z.pow_0_r, Z.mod_1_r; reflexivity).
  apply cube_bits_eq; [lia|lia|rewrite Z.add_0_l, <- hN; exact R|]. intros j Hj. apply X_bit; lia.
Qed.
Lemma h_child_id_walk c p i : h_path c (p ++ [i]) -> h_child_id c (h_walk c (p ++ [i])) = i.
Proof.
  intros H. unfold h_child_id. rewrite h_walk_level by apply H. rewrite zlen_snoc. pose proof (zlen_nonneg p).
  rewrite (proj2 (Z.eqb_neq _ 0)) by lia. rewrite h_cubeid_walk by (auto; rewrite zlen_snoc; lia).
  rewrite app_nth2 by (unfold zlen; lia). replace (Z.to_nat (zlen p + 1 - 1) - length p)%nat with 0%nat by (unfold zlen; lia). reflexivity.
Qed.

(** ** ancestors *)
Lemma h_ancestor_walk c p L : h_path c p -> 0 <= L <= zlen p -> h_ancestor c (h_walk c p) L = h_walk c (firstn (Z.to_nat L) p).
Proof.
  intros H HL. destruct H as [V HM]. unfold h_ancestor. rewrite h_walk_level by auto. destruct (Z.eqb_spec (zlen p) L) as [E|NE].
  - rewrite firstn_all2; [reflexivity|]. unfold zlen in *. lia.
  - assert (E : zlen (firstn (Z.to_nat L) p) = L) by (unfold zlen in *; rewrite firstn_length; lia).
    rewrite !h_walk_eq by lia. cbn [hx]. rewrite E. f_equal. unfold coords. rewrite map_map. apply map_zseq_ext. intros k Hk.
    rewrite X_cut by lia. rewrite Z.shiftl_mul_pow2 by lia. unfold X. now rewrite E.
Qed.
Lemma h_ancestor_id_walk c p L : h_path c p -> 1 <= L <= zlen p -> h_ancestor_id c (h_walk c p) L = nth (Z.to_nat (L - 1)) p 0.
Proof.
  intros H HL. unfold h_ancestor_id. rewrite h_ancestor_walk by (auto; lia).
  assert (E : firstn (Z.to_nat L) p = firstn (Z.to_nat (L - 1)) p ++ [nth (Z.to_nat (L - 1)) p 0]).
  { replace (Z.to_nat L) with (S (Z.to_nat (L - 1))) by lia. apply firstn_S. unfold zlen in *. lia. }
  rewrite E. apply h_child_id_walk. rewrite <- E. now apply h_path_firstn.
Qed.

From Verif Require Import Prelude PathSpec SimplexModel BitLemmas SimplexProofs SimplexPathProofs SimplexOrderProofs SimplexAncProofs LineModel LineSpec.

Lemma LLEN_pow l : l <= LMAX -> LLEN l = 2 ^ (LMAX - l).
Proof. intros H. unfold LLEN. apply shiftl1_pow. lia. Qed.
Lemma LROOT_pow : LROOT = 2 ^ LMAX. Proof. reflexivity. Qed.

(** closed form *)
Definition l_elem (L id : Z) : dline := Line L (id * 2 ^ (LMAX - L)).

Lemma l_walk_elem p : l_path p -> l_walk p = l_elem (zlen p) (num 2 p).
Proof.
  intros [V L]. induction p as [|i p IH] using rev_ind; [reflexivity|].
  apply valid_app in V. destruct V as [V Vi]. inversion Vi; subst. rewrite zlen_app in L. change (zlen [i]) with 1 in L.
  unfold l_walk in *. rewrite fold_left_app, IH by (auto; lia). cbn [fold_left]. unfold l_child, l_elem. cbn [ll lx].
  rewrite zlen_app, num_snoc. change (zlen [i]) with 1. f_equal. rewrite LLEN_pow by lia.
  replace (LMAX - zlen p) with (LMAX - (zlen p + 1) + 1) by lia. rewrite pow2_S by (unfold zlen in *; lia).
  assert (i = 0 \/ i = 1) as [-> | ->] by lia; cbn [Z.eqb]; lia.
Qed.

Lemma l_path_snoc p i : l_path (p ++ [i]) <-> l_path p /\ 0 <= i < 2 /\ zlen p < LMAX.
Proof.
  unfold l_path. rewrite valid_app, zlen_app. change (zlen [i]) with 1. split.
  - intros [[H1 H2] H3]. inversion H2; subst. repeat split; auto; lia.
  - intros [[H1 H2] [H3 H4]]. repeat split; auto; [constructor; auto; constructor|lia].
Qed.
Lemma l_path_range p : l_path p -> 0 <= num 2 p < 2 ^ zlen p. Proof. intros [V _]. apply num_range; auto; lia. Qed.
Lemma zlen_nonneg {A} (p : list A) : 0 <= zlen p. Proof. unfold zlen; lia. Qed.
Arguments zlen_nonneg {A} p.

Lemma pw a b : 0 <= a -> 0 <= b -> 2 ^ (a + b) = 2 ^ a * 2 ^ b. Proof. intros. apply Z.pow_add_r; lia. Qed.

(** arithmetic description of lines inside the root *)
Lemma LMAX_split l : 0 <= l <= LMAX -> 2 ^ LMAX = 2 ^ l * 2 ^ (LMAX - l).
Proof. intros H. rewrite <- pw by lia. f_equal. lia. Qed.
Record lwf (e : dline) : Prop := LWf {
  lwf_l : 0 <= ll e <= LMAX; lwf_a : al (LMAX - ll e) (lx e); lwf_r : 0 <= lx e < 2 ^ LMAX }.
Lemma l_walk_wf p : l_path p -> lwf (l_walk p) /\ ll (l_walk p) = zlen p.
Proof.
  intros H. rewrite l_walk_elem by auto. pose proof (l_path_range H). destruct H as [V L]. pose proof (zlen_nonneg p).
  split; [|reflexivity]. constructor; cbn [l_elem ll lx]; [lia|eexists; reflexivity|].
  rewrite (@LMAX_split (zlen p)) by lia.
  assert (0 < 2 ^ (LMAX - zlen p)) by (apply pow2_pos; lia). nia.
Qed.
Lemma l_wf_walk e : lwf e -> exists p, l_path p /\ e = l_walk p.
Proof.
  intros [L (q & A) R]. assert (0 < 2 ^ (LMAX - ll e)) by (apply pow2_pos; lia).
  assert (Q : 0 <= q < 2 ^ ll e).
  { rewrite (@LMAX_split (ll e)) in R by lia. nia. }
  exists (digits 2 (Z.to_nat (ll e)) q). assert (P : l_path (digits 2 (Z.to_nat (ll e)) q)).
  { split; [apply digits_valid; lia|]. unfold zlen. rewrite digits_length. lia. }
  split; [exact P|]. rewrite l_walk_elem by exact P. unfold l_elem, zlen. rewrite digits_length, num_digits by (rewrite ?Z2Nat.id by lia; lia).
  rewrite Z2Nat.id by lia. destruct e; cbn in *. congruence.
Qed.

Lemma l_child_walk p i : l_walk (p ++ [i]) = l_child (l_walk p) i.
Proof. unfold l_walk. now rewrite fold_left_app. Qed.

Lemma l_parent_child e i : lwf e -> ll e < LMAX -> 0 <= i < 2 ->
  lwf (l_child e i) /\ l_parent (l_child e i) = e /\ l_child_id (l_child e i) = i /\ ll (l_child e i) = ll e + 1.
Proof.
  intros [L (q & A) R] Hl Hi. destruct e as [l x]; cbn [ll lx] in *. set (k := LMAX - l - 1). assert (0 <= k) by lia.
  assert (P := pow2_pos H). assert (E : 2 ^ (LMAX - l) = 2 * 2 ^ k) by (rewrite <- pow2_S by lia; f_equal; lia).
  assert (R2 : x + 2 ^ (LMAX - l) <= 2 ^ LMAX).
  { apply al_range_room; [lia| |lia]. exists q. exact A. }
  assert (C : l_child (Line l x) i = Line (l + 1) (x + Z.b2z (negb (i =? 0)) * 2 ^ k)).
  { unfold l_child; cbn [ll lx]. rewrite LLEN_pow by lia. f_equal. replace (LMAX - (l + 1)) with k by lia.
    destruct (Z.eqb_spec i 0); cbn [negb Z.b2z]; lia. }
  rewrite C. assert (AL : al (k + 1) x) by (exists q; rewrite A; f_equal; f_equal; lia). repeat split; cbn [ll lx]; try lia.
  - replace (LMAX - (l + 1)) with k by lia. exists (2 * q + Z.b2z (negb (i =? 0))). rewrite A, E. lia.
  - unfold l_parent; cbn [ll lx]. f_equal; [lia|]. rewrite LLEN_pow by lia. replace (LMAX - (l + 1)) with k by lia. now apply clear_add.
  - unfold l_child_id; cbn [ll lx]. replace (LMAX - (l + 1)) with k by lia. rewrite Z.shiftr_div_pow2 by lia.
    change 1 with (Z.ones 1). rewrite Z.land_ones by lia. change (2 ^ 1) with 2.
    rewrite A, E. replace (q * (2 * 2 ^ k) + Z.b2z (negb (i =? 0)) * 2 ^ k) with ((2 * q + Z.b2z (negb (i =? 0))) * 2 ^ k) by lia.
    rewrite Z.div_mul by lia. assert (i = 0 \/ i = 1) as [-> | ->] by lia; cbn [Z.eqb negb Z.b2z]; lia.
Qed.

Lemma l_child_parent e : lwf e -> 0 < ll e ->
  lwf (l_parent e) /\ ll (l_parent e) = ll e - 1 /\ 0 <= l_child_id e < 2 /\ l_child (l_parent e) (l_child_id e) = e.
Proof.
  intros W H. destruct (l_wf_walk W) as (p & Hp & E). assert (NE : p <> []). { intros ->. rewrite E in H. cbn in H. lia. }
  destruct (exists_last NE) as (q & i & ->). rewrite l_child_walk in E. apply l_path_snoc in Hp. destruct Hp as (Hq & Hi & HL).
  destruct (l_walk_wf Hq) as [Wq Lq]. destruct (@l_parent_child (l_walk q) i Wq ltac:(lia) Hi) as (A & B & C & D).
  subst e. rewrite B, C. repeat split; auto; try apply Wq; lia.
Qed.

(** linear ids *)
Lemma l_linear_id_coarse p L : l_path p -> 0 <= L <= zlen p -> l_linear_id (l_walk p) L = num 2 (firstn (Z.to_nat L) p).
Proof.
  intros Hp HL. rewrite l_walk_elem by auto. unfold l_linear_id, l_elem. cbn [lx]. destruct Hp as [V Hl].
  rewrite Z.shiftr_div_pow2 by lia. rewrite num_firstn by (auto; lia). rewrite zlen_firstn.
  replace (zlen p - Z.min (Z.of_nat (Z.to_nat L)) (zlen p)) with (zlen p - L) by lia.
  replace (LMAX - L) with ((zlen p - L) + (LMAX - zlen p)) by lia. rewrite pw by lia.
  assert (0 < 2 ^ (LMAX - zlen p)) by (apply pow2_pos; lia). assert (0 < 2 ^ (zlen p - L)) by (apply pow2_pos; lia).
  rewrite Z.div_mul_cancel_r; lia.
Qed.
Lemma l_linear_id_fine p L : l_path p -> zlen p <= L <= LMAX -> l_linear_id (l_walk p) L = num 2 p * 2 ^ (L - zlen p).
Proof.
  intros Hp HL. rewrite l_walk_elem by auto. unfold l_linear_id, l_elem. cbn [lx]. pose proof (zlen_nonneg p).
  rewrite Z.shiftr_div_pow2 by lia. replace (LMAX - zlen p) with ((L - zlen p) + (LMAX - L)) by lia. rewrite pw by lia.
  assert (0 < 2 ^ (LMAX - L)) by (apply pow2_pos; lia). rewrite Z.mul_assoc, Z.div_mul; lia.
Qed.
Lemma l_init_linear_id_num p : l_path p -> l_init_linear_id (zlen p) (num 2 p) = l_walk p.
Proof.
  intros Hp. rewrite l_walk_elem by auto. unfold l_init_linear_id, l_elem. f_equal. apply Z.shiftl_mul_pow2. destruct Hp; lia.
Qed.
Lemma l_path_digits L id : 0 <= L <= LMAX -> l_path (digits 2 (Z.to_nat L) id).
Proof. intros H. split; [apply digits_valid; lia|]. unfold zlen. rewrite digits_length. lia. Qed.
Lemma l_init_linear_id_walk L id : 0 <= L <= LMAX -> 0 <= id < 2 ^ L -> l_init_linear_id L id = l_walk (digits 2 (Z.to_nat L) id).
Proof.
  intros HL Hi. rewrite <- l_init_linear_id_num by (now apply l_path_digits). unfold zlen. rewrite digits_length, num_digits by (rewrite ?Z2Nat.id; lia).
  f_equal. lia.
Qed.

Lemma l_walk_inj p q : l_path p -> l_path q -> l_walk p = l_walk q -> p = q.
Proof.
  intros Hp Hq E. rewrite !l_walk_elem in E by auto. assert (E1 := f_equal ll E). assert (E2 := f_equal lx E). unfold l_elem in E1, E2. cbn [ll lx] in E1, E2. destruct Hp as [Vp Lp], Hq as [Vq Lq].
  apply (@num_inj 2); auto; [lia|unfold zlen in E1; lia|]. rewrite E1 in E2. apply Z.mul_reg_r in E2; auto.
  assert (0 < 2 ^ (LMAX - zlen q)) by (apply pow2_pos; lia). lia.
Qed.

Lemma l_compare_walk p q : l_path p -> l_path q -> (l_compare (l_walk p) (l_walk q) ?= 0) = path_cmp p q.
Proof.
  intros Hp Hq. rewrite (@path_cmp_num_aux 2 30%nat p q); try lia; try apply Hp; try apply Hq;
    try (destruct Hp as [_ Hp], Hq as [_ Hq]; unfold zlen, LMAX in *; lia).
  rewrite !num_pad0. rewrite !l_walk_elem by auto. unfold l_compare, l_elem. cbn [ll lx].
  assert (forall r, l_path r -> Z.of_nat (30 - length r) = LMAX - zlen r) as R.
  { intros r [_ Hr]. unfold zlen, LMAX in *. lia. }
  rewrite !R by auto. set (a := num 2 p * _). set (b := num 2 q * _).
  destruct (Z.eqb_spec a b) as [->|N].
  - rewrite Z.compare_refl. symmetry; apply Z.compare_sub.
  - destruct (Z.ltb_spec a b).
    + replace (a ?= b) with Lt by (symmetry; now apply Z.compare_lt_iff). reflexivity.
    + replace (a ?= b) with Gt by (symmetry; apply Z.compare_gt_iff; lia). reflexivity.
Qed.

Lemma l_ancestor_walk p L : l_path p -> 0 <= L <= zlen p -> l_ancestor (l_walk p) L = l_walk (firstn (Z.to_nat L) p).
Proof.
  intros Hp HL. assert (Hf : l_path (firstn (Z.to_nat L) p)).
  { destruct Hp as [V Hl]. split; [now apply valid_firstn|]. rewrite zlen_firstn. lia. }
  rewrite !l_walk_elem by auto. unfold l_ancestor, l_elem. cbn [ll lx]. rewrite zlen_firstn.
  replace (Z.min (Z.of_nat (Z.to_nat L)) (zlen p)) with L by lia. f_equal. destruct Hp as [V Hl].
  rewrite LLEN_pow, clear_ones by lia. rewrite num_firstn, zlen_firstn by (auto; lia).
  replace (zlen p - Z.min (Z.of_nat (Z.to_nat L)) (zlen p)) with (zlen p - L) by lia.
  replace (LMAX - L) with ((zlen p - L) + (LMAX - zlen p)) by lia. rewrite pw by lia.
  assert (0 < 2 ^ (LMAX - zlen p)) by (apply pow2_pos; lia). assert (0 < 2 ^ (zlen p - L)) by (apply pow2_pos; lia).
  set (g := 2 ^ (LMAX - zlen p)) in *. set (h := 2 ^ (zlen p - L)) in *.
  rewrite Z.mul_mod_distr_r by lia. pose proof (Z.div_mod (num 2 p) h). nia.
Qed.

Lemma l_ancestor_id_walk p L : l_path p -> 1 <= L <= zlen p -> l_ancestor_id (l_walk p) L = nth (Z.to_nat (L - 1)) p 0.
Proof.
  intros Hp HL. assert (E := @l_linear_id_coarse p L Hp ltac:(lia)). unfold l_linear_id in E. unfold l_ancestor_id.
  destruct (Z.eqb_spec L 0); [lia|]. assert (Hm : zlen p <= LMAX) by apply Hp. rewrite LLEN_pow, land_pow2, testbit_div by lia.
  rewrite Z.shiftr_div_pow2 in E by lia. rewrite E. destruct Hp as [V _]. unfold zlen in HL.
  assert (EN : firstn (Z.to_nat L) p = firstn (Z.to_nat (L - 1)) p ++ [nth (Z.to_nat (L - 1)) p 0]).
  { replace (Z.to_nat L) with (S (Z.to_nat (L - 1))) by lia. assert (HN : (Z.to_nat (L - 1) < length p)%nat) by lia. revert HN. generalize (Z.to_nat (L - 1)).
    clear. induction p as [|x p IH]; intros n HN; cbn [length] in HN; [lia|]. destruct n as [|n]; [reflexivity|]. cbn [firstn nth app]. f_equal.
    apply IH. lia. }
  rewrite EN, num_snoc. assert (B : 0 <= nth (Z.to_nat (L - 1)) p 0 < 2).
  { unfold valid_path in V. rewrite Forall_forall in V. apply V, nth_In. lia. }
  rewrite Z.mul_comm, Z.odd_add_mul_2 || rewrite Z.add_comm, Z.mul_comm, Z.odd_add_mul_2.
  assert (nth (Z.to_nat (L - 1)) p 0 = 0 \/ nth (Z.to_nat (L - 1)) p 0 = 1) as [-> | ->] by lia; reflexivity.
Qed.
Lemma l_is_ancestor_walk p q : l_path p -> l_path q -> l_element_is_ancestor (l_walk p) (l_walk q) = true <-> prefix p q.
Proof.
  intros Hp Hq. unfold l_element_is_ancestor. destruct (l_walk_wf Hp) as [_ ->]. destruct (l_walk_wf Hq) as [_ ->].
  destruct (Z.ltb_spec (zlen q) (zlen p)).
  - split; [discriminate|]. intros (r & ->). rewrite zlen_app in H. pose proof (zlen_nonneg r). lia.
  - rewrite Z.eqb_eq, !l_linear_id_coarse by (auto; pose proof (zlen_nonneg p); lia). rewrite firstn_zlen_all. unfold zlen in *.
    rewrite Nat2Z.id. rewrite prefix_firstn. split.
    + intros E. split; [lia|]. symmetry. apply (@num_inj 2); auto; [lia|apply Hp|apply valid_firstn, Hq|]. rewrite firstn_length. lia.
    + intros [_ ->]. reflexivity.
Qed.

Lemma l_first_descendant_walk p L : l_path p -> zlen p <= L <= LMAX ->
  l_first_descendant (l_walk p) L = l_walk (p ++ repeat 0 (Z.to_nat (L - zlen p))).
Proof.
  intros Hp HL. pose proof (zlen_nonneg p). assert (HP : l_path (p ++ repeat 0 (Z.to_nat (L - zlen p)))).
  { destruct Hp. split; [apply valid_app; split; auto; apply valid_repeat; lia|]. rewrite zlen_app, zlen_repeat. lia. }
  rewrite !l_walk_elem by auto. unfold l_first_descendant, l_elem. cbn [lx ll]. rewrite zlen_app, zlen_repeat, num_pad0.
  f_equal; [lia|]. rewrite <- Z.mul_assoc, <- pw by lia. do 2 f_equal. lia.
Qed.
Lemma l_last_descendant_walk p L : l_path p -> zlen p <= L <= LMAX ->
  l_last_descendant (l_walk p) L = l_walk (p ++ repeat 1 (Z.to_nat (L - zlen p))).
Proof.
  intros Hp HL. pose proof (zlen_nonneg p). assert (HP : l_path (p ++ repeat 1 (Z.to_nat (L - zlen p)))).
  { destruct Hp. split; [apply valid_app; split; auto; apply valid_repeat; lia|]. rewrite zlen_app, zlen_repeat. lia. }
  rewrite !l_walk_elem by auto. unfold l_last_descendant, l_elem. cbn [lx ll]. rewrite zlen_app, zlen_repeat, num_app.
  rewrite (@num_repeat_last 2) by lia. rewrite zlen_repeat. f_equal; [lia|]. rewrite !LLEN_pow by lia. rewrite Z2Nat.id by lia.
  replace (zlen p + (L - zlen p)) with L by lia.
  replace (LMAX - zlen p) with ((L - zlen p) + (LMAX - L)) by lia. rewrite pw by lia. lia.
Qed.

Lemma l_next_path p : l_path p -> num 2 p + 1 < 2 ^ zlen p -> l_successor (l_walk p) (zlen p) = l_walk (next_path 2 p).
Proof.
  intros Hp H. pose proof (zlen_nonneg p). pose proof (l_path_range Hp). assert (HP : l_path (next_path 2 p)).
  { split; [apply digits_valid; lia|]. unfold zlen. rewrite next_path_length. apply Hp. }
  rewrite !l_walk_elem by auto. unfold l_successor, l_elem. cbn [lx ll]. assert (ZN : zlen (next_path 2 p) = zlen p) by (unfold zlen; now rewrite next_path_length). rewrite ZN.
  f_equal. destruct Hp as [V L]. rewrite LLEN_pow, clear_ones by lia. rewrite Z.mod_mul by (apply Z.pow_nonzero; lia).
  unfold next_path. rewrite num_digits by (unfold zlen in *; lia). lia.
Qed.

Lemma tb_small v n k : 0 <= v < 2 ^ k -> 0 <= k <= n -> Z.testbit v n = false.
Proof.
  intros H K. rewrite testbit_div by lia. rewrite Z.div_small; [reflexivity|]. assert (2 ^ k <= 2 ^ n) by (apply Z.pow_le_mono_r; lia). lia.
Qed.
Arguments tb_small [v n k].
Lemma l_nca_walk p q : l_path p -> l_path q -> l_nca (l_walk p) (l_walk q) = l_walk (lcp p q).
Proof.
  intros Hp Hq. destruct (l_walk_wf Hp) as [Wp Lp]. destruct (l_walk_wf Hq) as [Wq Lq].
  set (a := l_walk p) in *. set (b := l_walk q) in *. unfold l_nca.
  set (xo := Z.lxor (lx a) (lx b)). assert (X0 : 0 <= xo) by (apply Z.lxor_nonneg; destruct Wp, Wq; lia).
  destruct (log2_32_bound X0) as (B1 & B2 & B3). set (m := log2_32 xo + 1) in *.
  assert (ML : m <= LMAX).
  { destruct (Z.le_gt_cases m LMAX); auto. exfalso. assert (T : Z.testbit xo (log2_32 xo) = true) by (apply B3; unfold m, LMAX in *; lia).
    unfold xo in T at 1. rewrite Z.lxor_spec in T. assert (L0 : 0 <= LMAX <= log2_32 xo) by (unfold m, LMAX in *; lia).
    rewrite (tb_small (lwf_r Wp) L0), (tb_small (lwf_r Wq) L0) in T. discriminate. }
  assert (SB : forall n, m <= n -> Z.testbit (lx a) n = Z.testbit (lx b) n).
  { intros n Hn. assert (T := B2 n ltac:(unfold m in *; lia)). unfold xo in T. rewrite Z.lxor_spec in T.
    destruct (Z.testbit (lx a) n), (Z.testbit (lx b) n); cbn in T; congruence. }
  (* bit at position LMAX - j is the j-th child number *)
  set (L := Z.min (LMAX - m) (Z.min (ll a) (ll b))). assert (HL : 0 <= L <= zlen p /\ L <= zlen q) by (destruct Wp, Wq; lia).
  assert (FE : forall j, 0 <= j <= zlen p -> j <= zlen q ->
     (firstn (Z.to_nat j) p = firstn (Z.to_nat j) q <-> forall n, LMAX - j <= n -> Z.testbit (lx a) n = Z.testbit (lx b) n)).
  { intros j H1 H2. assert (K : 0 <= LMAX - j) by (destruct Hp; lia). rewrite (same_clear _ _ K).
    assert (P1 := @l_ancestor_walk p j Hp ltac:(lia)). assert (P2 := @l_ancestor_walk q j Hq ltac:(lia)).
    unfold l_ancestor in P1, P2. rewrite LLEN_pow, clear_ones in P1, P2 by (destruct Hp; lia). fold a in P1. fold b in P2.
    split.
    - intros E. rewrite E in P1. rewrite <- P2 in P1. exact (f_equal lx P1).
    - intros E. rewrite E in P1. rewrite P1 in P2. apply l_walk_inj in P2; auto.
      + destruct Hp as [V Hl]. split; [now apply valid_firstn|]. rewrite zlen_firstn. lia.
      + destruct Hq as [V Hl]. split; [now apply valid_firstn|]. rewrite zlen_firstn. lia. }
  assert (E : firstn (Z.to_nat L) p = lcp p q).
  { apply lcp_unique; try (unfold zlen in *; lia).
    - apply FE; try lia. intros n Hn. apply SB. lia.
    - intros r' Hr Hr1 Hr2 F. assert (F2 : firstn (Z.to_nat (Z.of_nat r')) p = firstn (Z.to_nat (Z.of_nat r')) q) by (now rewrite Nat2Z.id).
      assert (LT : LMAX - m < Z.of_nat r') by (unfold zlen in *; lia).
      rewrite (FE (Z.of_nat r')) in F2 by (unfold zlen in *; lia).
      assert (M1 : 0 <= log2_32 xo). { destruct Hp as [_ Hp]. unfold m, zlen in *. lia. }
      specialize (B3 M1). specialize (F2 (log2_32 xo)). unfold xo in B3 at 1. rewrite Z.lxor_spec, F2 in B3 by (unfold m in *; lia).
      now rewrite xorb_nilpotent in B3. }
  rewrite <- E, <- l_ancestor_walk by (auto; lia). fold a. unfold l_ancestor. f_equal.
  rewrite LLEN_pow by lia. rewrite shiftl1_pow by (unfold m; lia). rewrite !clear_ones by (unfold m in *; lia).
  (* both clear the same: below m everything of a above level L is zero or m = LMAX - L *)
  destruct (Z.eq_dec L (LMAX - m)) as [EL|NL]; [rewrite EL; do 3 f_equal; lia|].
  assert (LA : m < LMAX - L) by lia.
  assert (forall n, 0 <= n < LMAX - L -> m <= n -> Z.testbit (lx a) n = false).
  { intros n Hn Hm. assert (L = ll a \/ L = ll b) as [T|T] by lia.
    - apply (@tb_al_low (LMAX - ll a)); [lia|]. apply Wp.
    - rewrite SB by lia. apply (@tb_al_low (LMAX - ll b)); [lia|]. apply Wq. }
  apply Z.bits_inj'. intros n Hn. assert (D : forall k, 0 <= k -> Z.testbit (lx a - lx a mod 2 ^ k) n = if n <? k then false else Z.testbit (lx a) n).
  { intros k Hk. rewrite <- clear_ones by lia. unfold clear. rewrite Z.land_spec, Z.lnot_spec by lia.
    replace (2 ^ k - 1) with (Z.ones k) by (rewrite Z.ones_equiv; lia). rewrite Z.testbit_ones_nonneg by lia. destruct (n <? k); [apply andb_false_r|apply andb_true_r]. }
  rewrite !D by (unfold m in *; lia). destruct (Z.ltb_spec n m), (Z.ltb_spec n (LMAX - L)); auto; try lia.
Qed.

(** families *)
Definition l_children_of (e : dline) : list dline := [l_child e 0; l_child e 1].
Lemma l_childrenpv_eq e : l_childrenpv e = l_children_of e.
Proof. unfold l_childrenpv, l_children_of, l_child. cbn. now rewrite Z.add_0_r. Qed.

Lemma l_is_family_iff a b : lwf a -> lwf b ->
  l_is_family [a; b] = true <-> exists e, lwf e /\ ll e < LMAX /\ [a; b] = l_children_of e.
Proof.
  intros Wa Wb. unfold l_is_family. change (znth dline0 [a; b] 0) with a. change (znth dline0 [a; b] 1) with b. split.
  - destruct (Z.eqb_spec (ll a) 0), (Z.eqb_spec (ll a) (ll b)); cbn [orb negb]; try discriminate.
    rewrite !Z.shiftr_div_pow2 by (destruct Wa; lia). destruct (Z.eqb_spec (lx a / 2 ^ (LMAX - ll a + 1)) (lx b / 2 ^ (LMAX - ll a + 1))); cbn [negb]; [|discriminate].
    rewrite Z.eqb_eq, LLEN_pow by (destruct Wa; lia). intros E. assert (0 < ll a) by (destruct Wa; lia).
    destruct (l_child_parent Wa H) as (W1 & W2 & W3 & W4). exists (l_parent a). split; [auto|]. split; [destruct Wa; lia|].
    set (k := LMAX - ll a) in *. assert (0 <= k) by (destruct Wa; lia). assert (P := pow2_pos H0).
    destruct (lwf_a Wa) as (u & A). fold k in A.
    assert (EV : u mod 2 = 0).
    { rewrite pw in e0 by lia. change (2 ^ 1) with 2 in e0. rewrite <- !Z.div_div in e0 by lia. rewrite <- E in e0.
      replace (lx a + 2 ^ k) with ((u + 1) * 2 ^ k) in e0 by lia. rewrite A in e0. rewrite !Z.div_mul in e0 by lia.
      pose proof (Z.div_mod u 2). pose proof (Z.mod_pos_bound u 2). pose proof (Z.div_mod (u+1) 2). pose proof (Z.mod_pos_bound (u+1) 2). lia. }
    assert (C : l_child_id a = 0).
    { unfold l_child_id. fold k. rewrite Z.shiftr_div_pow2, A, Z.div_mul by lia. change 1 with (Z.ones 1). rewrite Z.land_ones by lia. exact EV. }
    rewrite C in W4. unfold l_children_of. rewrite W4. f_equal. f_equal. destruct b as [lb xb]. cbn [ll lx] in *. unfold l_child. cbn [Z.eqb].
    rewrite W2. f_equal; [lia|]. rewrite LLEN_pow by (destruct Wa; lia). replace (LMAX - (ll a - 1 + 1)) with k by lia.
    assert (lx (l_parent a) = lx a). { rewrite <- W4 at 2. unfold l_child. cbn [Z.eqb lx]. lia. } lia.
  - intros (e & W & HL & E). injection E as -> ->. destruct (@l_parent_child e 0 W HL ltac:(lia)) as (A0 & B0 & C0 & D0).
    destruct (@l_parent_child e 1 W HL ltac:(lia)) as (A1 & B1 & C1 & D1). rewrite D0, D1. assert (0 <= ll e) by apply W.
    destruct (Z.eqb_spec (ll e + 1) 0); [lia|]. rewrite Z.eqb_refl. cbn [orb negb].
    unfold l_child. cbn [Z.eqb lx ll]. rewrite Z.add_0_r. rewrite !Z.shiftr_div_pow2 by lia. destruct W as [W1 (u & W2) W3].
    replace (LMAX - (ll e + 1) + 1) with (LMAX - ll e) by lia. rewrite LLEN_pow by lia. rewrite W2.
    replace (LMAX - ll e) with (LMAX - (ll e + 1) + 1) by lia. set (k := LMAX - (ll e + 1)) in *. assert (0 <= k) by lia. assert (P := pow2_pos H0).
    rewrite pw by lia. change (2 ^ 1) with 2. rewrite <- !Z.div_div by lia. replace (u * (2 ^ k * 2) + 2 ^ k) with ((2 * u + 1) * 2 ^ k) by lia.
    replace (u * (2 ^ k * 2)) with ((2 * u) * 2 ^ k) at 1 by lia. rewrite !Z.div_mul by lia.
    replace ((2 * u) / 2) with u by (apply Z.div_unique with 0; lia).
    replace ((2 * u + 1) / 2) with u by (apply Z.div_unique with 1; lia). rewrite Z.eqb_refl. cbn [negb]. lia.
Qed.

(** the root interval, faces *)
Definition laligned (e : dline) : Prop := 0 <= ll e <= LMAX /\ al (LMAX - ll e) (lx e).
Lemma l_is_inside_root_iff e : laligned e -> l_is_inside_root e = true <-> exists p, l_path p /\ e = l_walk p.
Proof.
  intros [H1 H2]. unfold l_is_inside_root. rewrite LROOT_pow. split.
  - intros H. apply l_wf_walk. constructor; auto; lia.
  - intros (p & Hp & ->). destruct (l_walk_wf Hp) as [[] _]. lia.
Qed.
Lemma l_face_neighbour_spec e f : laligned e -> 0 <= f < 2 ->
  let (n, g) := l_face_neighbour e f in
  laligned n /\ ll n = ll e /\ 0 <= g < 2 /\ l_coords n g = l_coords e f /\ n <> e /\ l_face_neighbour n g = (e, f).
Proof.
  intros [H1 H2] Hf. unfold l_face_neighbour, l_coords, laligned. cbn [ll lx]. rewrite LLEN_pow by lia.
  assert (P := @pow2_pos (LMAX - ll e) ltac:(lia)). destruct e as [l x]. cbn [ll lx] in *.
  assert (f = 0 \/ f = 1) as [-> | ->] by lia; cbn [Z.eqb Z.sub Z.opp Z.add Z.pos_sub]; repeat split; try lia.
  - apply al_sub; auto; apply al_pow.
  - intros E; apply (f_equal lx) in E; cbn [lx] in E; lia.
  - do 2 f_equal. lia.
  - apply al_add; auto; apply al_pow.
  - intros E; apply (f_equal lx) in E; cbn [lx] in E; lia.
  - do 2 f_equal. lia.
Qed.
(** face f of e lies on the end f of the root interval *)
Lemma l_root_boundary_iff p f : l_path p -> 0 <= f < 2 -> l_is_root_boundary (l_walk p) f = true <-> l_coords (l_walk p) f = f * LROOT.
Proof.
  intros Hp Hf. destruct (l_walk_wf Hp) as [W L]. unfold l_is_root_boundary, l_coords. assert (f = 0 \/ f = 1) as [-> | ->] by lia; cbn [Z.eqb]; lia.
Qed.
Lemma l_root_boundary_neighbour p f : l_path p -> 0 <= f < 2 ->
  l_is_root_boundary (l_walk p) f = true <-> l_is_inside_root (fst (l_face_neighbour (l_walk p) f)) = false.
Proof.
  intros Hp Hf. destruct (l_walk_wf Hp) as [[W1 W2 W3] L]. unfold l_is_root_boundary, l_is_inside_root, l_face_neighbour. cbn [fst lx].
  rewrite LROOT_pow. rewrite LLEN_pow by lia.
  assert (P := @pow2_pos (LMAX - ll (l_walk p)) ltac:(lia)).
  assert (R : lx (l_walk p) + 2 ^ (LMAX - ll (l_walk p)) <= 2 ^ LMAX) by (apply al_range_room; auto; lia).
  assert (f = 0 \/ f = 1) as [-> | ->] by lia; cbn [Z.eqb]; [|lia].
  destruct W2 as (u & W2). split; [lia|]. intros H. assert (lx (l_walk p) < 2 ^ (LMAX - ll (l_walk p))) by lia.
  assert (u = 0) by nia. subst u. lia.
Qed.

(** child face coincidence *)
Lemma l_child_face e f : 0 <= ll e < LMAX -> 0 <= f < 2 -> forall i, 0 <= i < 2 ->
  (In i (l_child_ids_at_face f) <-> l_coords (l_child e i) f = l_coords e f) /\
  (l_coords (l_child e i) f = l_coords e f -> l_coords (l_child e i) (l_face_child_face f) = l_coords e f).
Proof.
  intros He Hf i Hi. unfold l_child_ids_at_face, l_coords, l_child, l_face_child_face. cbn [ll lx In].
  rewrite !LLEN_pow by lia. assert (P := @pow2_pos (LMAX - (ll e + 1)) ltac:(lia)).
  assert (E : 2 ^ (LMAX - ll e) = 2 * 2 ^ (LMAX - (ll e + 1))) by (rewrite <- pow2_S by lia; f_equal; lia).
  assert (f = 0 \/ f = 1) as [-> | ->] by lia; assert (i = 0 \/ i = 1) as [-> | ->] by lia; cbn [Z.eqb]; split; try split; intros; try lia.
Qed.
Lemma l_face_parent_face_child e i f : lwf e -> ll e < LMAX -> 0 <= i < 2 -> 0 <= f < 2 ->
  l_face_parent_face (l_child e i) f = if i =? f then f else -1.
Proof.
  intros W H Hi Hf. destruct (@l_parent_child e i W H Hi) as (A & B & C & D). unfold l_face_parent_face. rewrite C, D.
  destruct W. destruct (Z.eqb_spec (ll e + 1) 0); [lia|reflexivity].
Qed.

(** orientation reversal *)
Lemma l_transform_face_spec e o v : 0 <= o < 2 -> 0 <= v < 2 ->
  l_coords (l_transform_face e o) v = if o =? 0 then l_coords e v else LROOT - l_coords e (1 - v).
Proof.
  intros Ho Hv. unfold l_transform_face, l_coords. cbn [ll lx]. assert (o = 0 \/ o = 1) as [-> | ->] by lia; assert (v = 0 \/ v = 1) as [-> | ->] by lia;
    change (1 - 0) with 1; change (1 - 1) with 0; cbn [Z.eqb]; lia.
Qed.
Lemma l_transform_face_invol e o : l_transform_face (l_transform_face e o) o = e.
Proof. destruct e as [l x]. unfold l_transform_face. cbn [ll lx]. f_equal. destruct (Z.eqb_spec o 0); lia. Qed.
Lemma l_transform_face_wf e o : lwf e -> lwf (l_transform_face e o).
Proof.
  intros [W1 W2 W3]. assert (R : lx e + 2 ^ (LMAX - ll e) <= 2 ^ LMAX) by (apply al_range_room; auto; lia).
  constructor; cbn [l_transform_face ll lx]; auto; destruct (o =? 0); auto; rewrite LROOT_pow, LLEN_pow by lia.
  - apply al_sub; [apply al_sub; auto|apply al_pow]. apply (@al_weaken _ LMAX); [lia|apply al_pow].
  - pose proof (@pow2_pos (LMAX - ll e) ltac:(lia)). lia.
Qed.
Lemma l_transform_face_child e o i : lwf e -> ll e < LMAX -> 0 <= o < 2 -> 0 <= i < 2 ->
  l_transform_face (l_child e i) o = l_child (l_transform_face e o) (if o =? 0 then i else 1 - i).
Proof.
  intros [W1 W2 W3] H Ho Hi. unfold l_transform_face, l_child. cbn [ll lx]. f_equal. rewrite !LLEN_pow by lia.
  assert (E : 2 ^ (LMAX - ll e) = 2 * 2 ^ (LMAX - (ll e + 1))) by (rewrite <- pow2_S by lia; f_equal; lia).
  assert (o = 0 \/ o = 1) as [-> | ->] by lia; assert (i = 0 \/ i = 1) as [-> | ->] by lia; change (1 - 0) with 1; change (1 - 1) with 0; cbn [Z.eqb]; lia.
Qed.

(** children tile the parent *)
Lemma l_children_tile e x : 0 <= ll e < LMAX ->
  (l_coords e 0 <= x <= l_coords e 1 <-> exists i, 0 <= i < 2 /\ l_coords (l_child e i) 0 <= x <= l_coords (l_child e i) 1).
Proof.
  intros He. unfold l_coords, l_child. cbn [ll lx Z.eqb]. rewrite !LLEN_pow by lia. assert (P := @pow2_pos (LMAX - (ll e + 1)) ltac:(lia)).
  assert (E : 2 ^ (LMAX - ll e) = 2 * 2 ^ (LMAX - (ll e + 1))) by (rewrite <- pow2_S by lia; f_equal; lia).
  split.
  - intros H. destruct (Z.le_gt_cases x (lx e + 2 ^ (LMAX - (ll e + 1)))); [exists 0|exists 1]; cbn [Z.eqb]; lia.
  - intros (i & Hi & H). assert (i = 0 \/ i = 1) as [-> | ->] by lia; cbn [Z.eqb] in H; lia.
Qed.
Lemma l_interiors_disjoint p q x : l_path p -> l_path q -> ~ prefix p q -> ~ prefix q p ->
  ~ (l_coords (l_walk p) 0 < x < l_coords (l_walk p) 1 /\ l_coords (l_walk q) 0 < x < l_coords (l_walk q) 1).
Proof.
  intros Hp Hq N1 N2. rewrite <- l_is_ancestor_walk in N1, N2 by auto. unfold l_element_is_ancestor in N1, N2.
  destruct (l_walk_wf Hp) as [[P1 P2 P3] Lp]. destruct (l_walk_wf Hq) as [[Q1 Q2 Q3] Lq]. unfold l_linear_id in *.
  unfold l_coords. cbn [Z.eqb]. rewrite !LLEN_pow by lia. rewrite !Z.shiftr_div_pow2 in N1, N2 by lia.
  set (a := l_walk p) in *. set (b := l_walk q) in *. intros [X1 X2].
  assert (G : forall u v, 0 <= u <= LMAX -> 0 <= v <= u -> al u (lx a) \/ True -> forall y z, al u y -> al v z -> y < x < y + 2 ^ u -> z < x < z + 2 ^ v -> y / 2 ^ u = z / 2 ^ u).
  { intros u v Hu Hv _ y z (m & Y) Z1 A1 A2. assert (PU := @pow2_pos u ltac:(lia)). assert (PV := @pow2_pos v ltac:(lia)).
    rewrite Y, Z.div_mul by lia. apply Z.div_unique with (z - m * 2 ^ u); [|lia]. left.
    destruct Z1 as (n & ->). rewrite (@pow2_split v u) in * by lia. set (w := 2 ^ (u - v)) in *. set (g := 2 ^ v) in *. subst y.
    assert (0 < w) by (apply pow2_pos; lia). assert (m * w <= n) by nia. assert (n < (m + 1) * w) by nia.
    replace (n * g - m * (w * g)) with ((n - m * w) * g) by ring. split; [apply Z.mul_nonneg_nonneg; lia|apply Z.mul_lt_mono_pos_r; lia]. }
  destruct (Z.ltb_spec (ll b) (ll a)).
  - destruct (Z.ltb_spec (ll a) (ll b)); [lia|]. apply N2. apply Z.eqb_eq. apply (G (LMAX - ll b) (LMAX - ll a)); auto; lia.
  - apply N1. apply Z.eqb_eq. apply (G (LMAX - ll a) (LMAX - ll b)); auto; lia.
Qed.

Lemma l_count_leaves_num p L : l_path p -> zlen p <= L <= LMAX -> l_count_leaves (l_walk p) L = 2 ^ (L - zlen p).
Proof.
  intros Hp H. destruct (l_walk_wf Hp) as [_ E]. unfold l_count_leaves, count_leaves_from_level. rewrite E.
  destruct (Z.ltb_spec L (zlen p)); [lia|]. rewrite Z.mul_1_l, shiftl1_pow by lia. apply i64_small.
  assert (zlen p >= 0) by (unfold zlen; lia). change LMAX with 30 in H.
  pose proof (Z.pow_le_mono_r 2 (L - zlen p) 30 ltac:(lia) ltac:(lia)). pose proof (Z.pow_pos_nonneg 2 (L - zlen p) ltac:(lia) ltac:(lia)). lia.
Qed.

(** extrusion of the end points *)
Lemma l_extrude_spec v rf : 0 <= v <= LMAX -> 0 <= rf < 2 ->
  let (l, f) := l_extrude_face v rf in
  lwf l /\ l_boundary_face l f = v /\ 0 <= f < 2 /\ l_is_root_boundary l f = true /\ l_coords l f = rf * LROOT.
Proof.
  intros Hv Hr. unfold l_extrude_face, l_boundary_face, l_is_root_boundary, l_coords. cbn [ll lx]. rewrite LROOT_pow, LLEN_pow by lia.
  assert (P := @pow2_pos (LMAX - v) ltac:(lia)). assert (Q : 2 ^ (LMAX - v) <= 2 ^ LMAX) by (apply Z.pow_le_mono_r; lia).
  assert (rf = 0 \/ rf = 1) as [-> | ->] by lia; cbn [Z.eqb]; repeat split; cbn [ll lx]; try lia.
  - apply al_0.
  - apply al_sub; [apply (@al_weaken _ LMAX); [lia|apply al_pow]|apply al_pow].
Qed.
Lemma l_boundary_extrude p f : l_path p -> 0 <= f < 2 -> l_is_root_boundary (l_walk p) f = true ->
  l_extrude_face (l_boundary_face (l_walk p) f) f = (l_walk p, f).
Proof.
  intros Hp Hf. unfold l_is_root_boundary, l_extrude_face, l_boundary_face. destruct (l_walk p) as [l x]. cbn [ll lx].
  destruct (f =? 0); intros H; do 2 f_equal; lia.
Qed.

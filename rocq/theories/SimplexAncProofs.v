(** Ancestors, nearest common ancestors, membership in the root for triangles and tetrahedra. *)
From Verif Require Import Prelude PathSpec SimplexModel SimplexSpec BitLemmas SimplexProofs SimplexPathProofs SimplexOrderProofs SimplexGeoProofs.

Lemma anc_type_tri ta te dx dy : 0 <= ta < 2 -> 0 <= te < 2 -> rel (gxy false ta) (gxy false te) dx dy ->
  ancestor_type_tri dx dy te = ta.
Proof.
  intros Ha He R. unfold ancestor_type_tri, rel, gxy in *.
  assert (ta = 0 \/ ta = 1) as [-> | ->] by lia; assert (te = 0 \/ te = 1) as [-> | ->] by lia; cbn in R;
  destruct (Z.ltb_spec 0 (dx - dy)); destruct (Z.ltb_spec (dx - dy) 0); try lia; destruct R as [R|[R R']]; try discriminate; lia.
Qed.

Lemma kill_rel ga ge d1 d2 (k1 k2 : bool) : rel ga ge d1 d2 ->
  (if 0 <? d1 - d2 then k1 else if d1 - d2 <? 0 then k2 else if ge then k1 else k2) = (if ga then k1 else k2).
Proof.
  unfold rel. intros R. destruct (Z.ltb_spec 0 (d1 - d2)); destruct (Z.ltb_spec (d1 - d2) 0); destruct ga, ge; auto; lia.
Qed.

Lemma anc_type_tet ta te dx dy dz : 0 <= ta < 6 -> 0 <= te < 6 -> rel (gxy true ta) (gxy true te) dx dy ->
  rel (gxz ta) (gxz te) dx dz -> rel (gyz ta) (gyz te) dy dz -> ancestor_type_tet dx dy dz te = ta.
Proof.
  intros Ha He R1 R2 R3. unfold ancestor_type_tet, ancestor_type_alive.
  assert (E : forall f g l r0, (forall i, f i = g i) ->
     fold_left (fun (r i : Z) => if f i : bool then i else r) l r0 = fold_left (fun r i => if g i : bool then i else r) l r0).
  { intros f g l. induction l as [|a l IH]; intros r0 Hfg; cbn [fold_left]; auto. rewrite Hfg. now apply IH. }
  erewrite E.
  2:{ intros i. cbn zeta. fold (gxy true te) (gxz te) (gyz te).
      change ((te =? 0) || (te =? 1) || (te =? 5)) with (gxy true te).
      change ((te =? 0) || (te =? 1) || (te =? 2)) with (gxz te).
      change ((te =? 1) || (te =? 2) || (te =? 3)) with (gyz te).
      rewrite (kill_rel _ _ R1), (kill_rel _ _ R2), (kill_rel _ _ R3). reflexivity. }
  clear - Ha. assert (C : In ta (zseq 0 6)) by (apply range_cases; lia).
  cbn in C. repeat (destruct C as [<-|C]; [vm_compute; reflexivity|]). destruct C.
Qed.

Lemma ancestor_inside tet a e : wf tet a -> wf tet e -> inside_of tet a e -> ancestor tet e (lv a) = a.
Proof.
  intros Wa We [I1 I2 I3 I4 I5 I6]. unfold ancestor. assert (Hl := wf_lv Wa). rewrite LEN_pow by lia.
  destruct (@clear_delta (MAXLEVEL tet - lv a) (sx e) (sx a) ltac:(lia) (wf_ax Wa) I1) as [E1 D1].
  destruct (@clear_delta (MAXLEVEL tet - lv a) (sy e) (sy a) ltac:(lia) (wf_ay Wa) I2) as [E2 D2].
  rewrite E1, E2, D1, D2. assert (Ha := wf_ty Wa). assert (He := wf_ty We). destruct tet.
  - destruct (@clear_delta (MAXLEVEL true - lv a) (sz e) (sz a) ltac:(lia) (wf_az Wa) (I3 eq_refl)) as [E3 D3].
    rewrite E3, D3, (@anc_type_tet (ty a)); auto. apply simp_eta.
  - rewrite (@anc_type_tri (ty a)); auto. rewrite (wf_z0 We eq_refl), <- (wf_z0 Wa eq_refl). apply simp_eta.
Qed.

Lemma prefix_firstn_l (p : list Z) n : prefix (firstn n p) p.
Proof. exists (skipn n p). symmetry. apply firstn_skipn. Qed.

Lemma ancestor_walk tet p L : tree_path tet p -> 0 <= L <= zlen p ->
  ancestor tet (walk tet p) L = walk tet (firstn (Z.to_nat L) p).
Proof.
  intros H HL. assert (Hf := tree_path_firstn (Z.to_nat L) H). destruct (walk_wf Hf) as [Wf Lf]. destruct (walk_wf H) as [W Lp].
  assert (E : lv (walk tet (firstn (Z.to_nat L) p)) = L) by (rewrite Lf, zlen_firstn; lia).
  rewrite <- E at 1. apply ancestor_inside; auto. apply inside_walk; auto; [rewrite zlen_firstn; lia|]. apply prefix_firstn_l.
Qed.

(** ** nearest common ancestor *)
Lemma log2_32_bound v : 0 <= v -> -1 <= log2_32 v /\ (forall n, log2_32 v < n -> Z.testbit v n = false) /\
  (0 <= log2_32 v -> Z.testbit v (log2_32 v) = true).
Proof.
  intros Hv. unfold log2_32. destruct (Z.eqb_spec v 0) as [->|Hne].
  - split; [lia|]. split; [intros; apply Z.bits_0|lia].
  - pose proof (Z.log2_nonneg v). split; [lia|]. split.
    + intros. apply Z.bits_above_log2; lia.
    + intros. apply Z.bit_log2; lia.
Qed.

Lemma same_clear k x y : 0 <= k -> (forall n, k <= n -> Z.testbit x n = Z.testbit y n) <-> x - x mod 2 ^ k = y - y mod 2 ^ k.
Proof.
  intros Hk. assert (P := pow2_pos Hk). assert (E : x - x mod 2 ^ k = y - y mod 2 ^ k <-> x / 2 ^ k = y / 2 ^ k).
  { pose proof (Z.div_mod x (2 ^ k) ltac:(lia)). pose proof (Z.div_mod y (2 ^ k) ltac:(lia)). nia. }
  rewrite E, <- !Z.shiftr_div_pow2 by lia. split.
  - intros B. apply Z.bits_inj'. intros n Hn. rewrite !Z.shiftr_spec by lia. apply B. lia.
  - intros S n Hn. replace n with ((n - k) + k) by lia. rewrite <- !Z.shiftr_spec by lia. now rewrite S.
Qed.

(** anchor of the ancestor at level j *)
Lemma anchor_firstn tet p j f b : coordfn tet f b -> tree_path tet p -> (j <= length p)%nat ->
  f (walk tet (firstn j p)) = f (walk tet p) - f (walk tet p) mod 2 ^ (MAXLEVEL tet - Z.of_nat j).
Proof.
  intros F H Hj. assert (R := low_range F H Hj). unfold low in R. assert (Hf := tree_path_firstn j H).
  destruct (walk_wf Hf) as [W L]. rewrite zlen_firstn in L. unfold zlen in L. assert (HM := proj2 H). unfold zlen in HM, R.
  assert (A : al (MAXLEVEL tet - Z.of_nat j) (f (walk tet (firstn j p)))).
  { replace (Z.of_nat j) with (lv (walk tet (firstn j p))) by lia. now apply F. }
  pose proof (@pow2_pos (MAXLEVEL tet - Z.of_nat (length p)) ltac:(lia)).
  destruct (@clear_delta (MAXLEVEL tet - Z.of_nat j) (f (walk tet p)) _ ltac:(lia) A ltac:(lia)) as [E _].
  rewrite clear_ones in E by lia. lia.
Qed.

(** same ancestor at level j iff same high bits and same type there *)
Lemma firstn_eq_iff tet p q j : tree_path tet p -> tree_path tet q -> (j <= length p)%nat -> (j <= length q)%nat ->
  firstn j p = firstn j q <->
  (ty (walk tet (firstn j p)) = ty (walk tet (firstn j q)) /\
   (forall n, MAXLEVEL tet - Z.of_nat j <= n ->
     Z.testbit (sx (walk tet p)) n = Z.testbit (sx (walk tet q)) n /\
     Z.testbit (sy (walk tet p)) n = Z.testbit (sy (walk tet q)) n /\
     (tet = true -> Z.testbit (sz (walk tet p)) n = Z.testbit (sz (walk tet q)) n))).
Proof.
  intros Hp Hq Jp Jq. assert (HM := proj2 Hp). unfold zlen in HM.
  assert (K : 0 <= MAXLEVEL tet - Z.of_nat j) by lia. split.
  - intros E. split; [now rewrite E|]. intros n Hn.
    assert (B : forall f b, coordfn tet f b -> Z.testbit (f (walk tet p)) n = Z.testbit (f (walk tet q)) n).
    { intros f b F. apply (proj2 (@same_clear _ (f (walk tet p)) (f (walk tet q)) K)); auto.
      rewrite <- (anchor_firstn F Hp Jp), <- (anchor_firstn F Hq Jq). now rewrite E. }
    repeat split; [apply (B sx 0), coordfn_x|apply (B sy 1), coordfn_y|]. intros ->. apply (B sz 2), coordfn_z.
  - intros [Et Eb]. assert (Fp := tree_path_firstn j Hp). assert (Fq := tree_path_firstn j Hq).
    apply (@walk_inj tet); auto. destruct (walk_wf Fp) as [Wp Lp]. destruct (walk_wf Fq) as [Wq Lq].
    assert (B : forall f b, coordfn tet f b -> (forall n, MAXLEVEL tet - Z.of_nat j <= n -> Z.testbit (f (walk tet p)) n = Z.testbit (f (walk tet q)) n)
                -> f (walk tet (firstn j p)) = f (walk tet (firstn j q))).
    { intros f b F HB. rewrite (anchor_firstn F Hp Jp), (anchor_firstn F Hq Jq). now apply same_clear. }
    assert (Ex : sx (walk tet (firstn j p)) = sx (walk tet (firstn j q))) by (apply (B sx 0); [apply coordfn_x|intros; now apply Eb]).
    assert (Ey : sy (walk tet (firstn j p)) = sy (walk tet (firstn j q))) by (apply (B sy 1); [apply coordfn_y|intros; now apply Eb]).
    assert (Ez : sz (walk tet (firstn j p)) = sz (walk tet (firstn j q))).
    { destruct tet; [apply (B sz 2); [apply coordfn_z|intros; now apply Eb]|].
      now rewrite (wf_z0 Wp eq_refl), (wf_z0 Wq eq_refl). }
    assert (El : lv (walk tet (firstn j p)) = lv (walk tet (firstn j q))).
    { rewrite Lp, Lq, !zlen_firstn. unfold zlen. lia. }
    destruct (walk tet (firstn j p)), (walk tet (firstn j q)); cbn in *; congruence.
Qed.

Lemma nca_loop_walk tet p q fuel c : tree_path tet p -> tree_path tet q -> (c <= length p)%nat -> (c <= length q)%nat -> (c <= fuel)%nat ->
  exists r, nca_loop tet (walk tet p) (walk tet q) fuel (Z.of_nat c) (ty (walk tet (firstn c p))) (ty (walk tet (firstn c q))) = Ok (Z.of_nat r)
    /\ (r <= c)%nat /\ ty (walk tet (firstn r p)) = ty (walk tet (firstn r q))
    /\ (forall r', (r < r' <= c)%nat -> ty (walk tet (firstn r' p)) <> ty (walk tet (firstn r' q))).
Proof.
  intros Hp Hq. revert c. induction fuel as [|fuel IH]; intros c Cp Cq Cf.
  - assert (c = 0)%nat by lia. subst. exists 0%nat. cbn. repeat split; auto. lia.
  - cbn [nca_loop]. destruct (Z.eqb_spec (ty (walk tet (firstn c p))) (ty (walk tet (firstn c q)))) as [E|E].
    + exists c. repeat split; auto. lia.
    + destruct c as [|c]; [cbn in E; contradiction|].
      replace (Z.of_nat (S c) - 1) with (Z.of_nat c) by lia. replace (Z.of_nat c + 1) with (Z.of_nat (S c)) by lia.
      rewrite !compute_type_ext_walk by (auto; lia).
      destruct (IH c ltac:(lia) ltac:(lia) ltac:(lia)) as (r & E1 & E2 & E3 & E4).
      exists r. repeat split; auto. intros r' Hr'. destruct (Nat.eq_dec r' (S c)) as [->|]; auto. apply E4. lia.
Qed.

Lemma lcp_unique p q r : (r <= length p)%nat -> (r <= length q)%nat -> firstn r p = firstn r q ->
  (forall r', (r < r')%nat -> (r' <= length p)%nat -> (r' <= length q)%nat -> firstn r' p <> firstn r' q) -> firstn r p = lcp p q.
Proof.
  revert q r. induction p as [|i p IH]; intros q r Hp Hq E G.
  - cbn. now rewrite firstn_nil.
  - destruct q as [|j q]. { cbn in Hq. assert (r = 0)%nat by lia. now subst. }
    cbn in Hp, Hq. destruct r as [|r].
    + cbn. destruct (Z.eqb_spec i j) as [->|]; [|reflexivity].
      exfalso. apply (G 1%nat); [lia|cbn; lia|cbn; lia|reflexivity].
    + cbn in E. inversion E. cbn. rewrite Z.eqb_refl. f_equal. apply IH; auto; try lia.
      intros r' K1 K2 K3 E'. apply (G (S r')); cbn; try lia. rewrite E'. now f_equal.
Qed.

Lemma nca_walk tet p q : tree_path tet p -> tree_path tet q -> nca tet (walk tet p) (walk tet q) = Ok (walk tet (lcp p q)).
Proof.
  intros Hp Hq. destruct (walk_wf Hp) as [Wp Lp]. destruct (walk_wf Hq) as [Wq Lq]. unfold nca.
  set (X := Z.lxor (sx (walk tet p)) (sx (walk tet q))). set (Y := Z.lxor (sy (walk tet p)) (sy (walk tet q))).
  set (Zd := Z.lxor (sz (walk tet p)) (sz (walk tet q))).
  set (M := if tet then Z.lor (Z.lor X Y) Zd else Z.lor X Y).
  assert (HMnn : 0 <= M).
  { assert (0 <= X) by (apply Z.lxor_nonneg; destruct Wp, Wq; lia). assert (0 <= Y) by (apply Z.lxor_nonneg; destruct Wp, Wq; lia).
    assert (0 <= Zd) by (apply Z.lxor_nonneg; destruct Wp, Wq; lia). unfold M. destruct tet; rewrite ?Z.lor_nonneg; auto. }
  assert (MB : forall n, Z.testbit M n = false <->
     (Z.testbit (sx (walk tet p)) n = Z.testbit (sx (walk tet q)) n /\
      Z.testbit (sy (walk tet p)) n = Z.testbit (sy (walk tet q)) n /\
      (tet = true -> Z.testbit (sz (walk tet p)) n = Z.testbit (sz (walk tet q)) n))).
  { intros n. assert (LX : forall a b, Z.testbit (Z.lxor a b) n = false <-> Z.testbit a n = Z.testbit b n).
    { intros a b. rewrite Z.lxor_spec. destruct (Z.testbit a n), (Z.testbit b n); cbn; intuition. }
    unfold M, X, Y, Zd. destruct tet; rewrite !Z.lor_spec, !orb_false_iff, !LX; intuition (auto; discriminate). }
  destruct (log2_32_bound HMnn) as (B1 & B2 & B3). set (lg := log2_32 M) in *.
  rewrite Lp, Lq.
  assert (HLM : lg < MAXLEVEL tet).
  { destruct (Z_lt_le_dec lg (MAXLEVEL tet)); auto. exfalso. assert (T := B3 ltac:(pose proof (MAXLEVEL_pos tet); lia)).
    assert (F : Z.testbit M lg = false).
    { apply MB. assert (S : forall v, 0 <= v < 2 ^ MAXLEVEL tet -> Z.testbit v lg = false).
      { intros v Hv. rewrite testbit_div by (pose proof (MAXLEVEL_pos tet); lia). rewrite Z.div_small; auto. split; [lia|].
        apply Z.lt_le_trans with (2 ^ MAXLEVEL tet); [lia|]. apply Z.pow_le_mono_r; lia. }
      repeat split; intros; rewrite !S; auto; try apply Wp; try apply Wq. }
    congruence. }
  set (cl := Z.min (MAXLEVEL tet - (lg + 1)) (Z.min (zlen p) (zlen q))).
  assert (Hcl : 0 <= cl) by (unfold cl, zlen; lia).
  set (c := Z.to_nat cl). assert (Ecl : cl = Z.of_nat c) by (unfold c; lia).
  assert (Cp : (c <= length p)%nat) by (unfold c, cl, zlen; lia). assert (Cq : (c <= length q)%nat) by (unfold c, cl, zlen; lia).
  rewrite !compute_type_walk by (auto; unfold cl, zlen; lia). fold c. rewrite Ecl.
  destruct (@nca_loop_walk tet p q c c Hp Hq Cp Cq (le_n _)) as (r & E1 & E2 & E3 & E4).
  rewrite E1. cbn [obind]. f_equal. rewrite ancestor_walk by (auto; unfold zlen; lia). rewrite Nat2Z.id. f_equal.
  apply lcp_unique; try lia.
  - apply (@firstn_eq_iff tet); auto; try lia. split; auto. intros n Hn. apply MB. apply B2.
    assert (Z.of_nat r <= MAXLEVEL tet - (lg + 1)) by (unfold cl in Ecl; lia). lia.
  - intros r' H1 H2 H3 E. apply (@firstn_eq_iff tet) in E; auto. destruct E as [Et Eb].
    destruct (le_lt_dec r' c) as [Hc|Hc]; [apply (E4 r'); auto|].
    assert (MAXLEVEL tet - Z.of_nat r' <= lg) by (unfold cl, zlen in Ecl; lia).
    assert (Hr : Z.of_nat r' <= MAXLEVEL tet) by (destruct Hp as [_ Hp]; unfold zlen in Hp; lia).
    assert (T := B3 ltac:(lia)). apply Eb in H. apply MB in H. congruence.
Qed.

(** ** membership in the root *)
(** an element whose anchor is anywhere in the lattice of its level *)
Record aligned (tet : bool) (e : simp) : Prop := Aligned {
  ag_lv : 0 <= lv e <= MAXLEVEL tet;
  ag_ty : 0 <= ty e < NUM_TYPES tet;
  ag_ax : al (MAXLEVEL tet - lv e) (sx e);
  ag_ay : al (MAXLEVEL tet - lv e) (sy e);
  ag_az : al (MAXLEVEL tet - lv e) (sz e);
  ag_z0 : tet = false -> sz e = 0 }.
Lemma wf_aligned tet e : wf tet e -> aligned tet e. Proof. intros []; constructor; auto. Qed.

Lemma ROOT_pow tet : ROOT_LEN tet = 2 ^ MAXLEVEL tet.
Proof. unfold ROOT_LEN. apply shiftl1_pow. pose proof (MAXLEVEL_pos tet). lia. Qed.

Lemma al_top tet v : al (MAXLEVEL tet) v -> 0 <= v < 2 ^ MAXLEVEL tet -> v = 0.
Proof. intros (q & ->) Hv. pose proof (@pow2_pos (MAXLEVEL tet) ltac:(pose proof (MAXLEVEL_pos tet); lia)). assert (q = 0) by nia. subst; lia. Qed.

Ltac split_ifs := repeat match goal with
  | H : context [if ?b then _ else _] |- _ => lazymatch b with context [if _ then _ else _] => fail | _ => destruct b eqn:? end
  | |- context [if ?b then _ else _] => lazymatch b with context [if _ then _ else _] => fail | _ => destruct b eqn:? end
  end.

Lemma is_inside_root_iff tet e : aligned tet e ->
  is_inside_root tet e = true <-> (wf tet e /\ inside_of tet init_root e).
Proof.
  intros A. unfold is_inside_root. rewrite ROOT_pow.
  pose proof (@pow2_pos (MAXLEVEL tet) ltac:(pose proof (MAXLEVEL_pos tet); lia)) as P. destruct (Z.eqb_spec (lv e) 0) as [E|E].
  - split.
    + intros H. assert (e = init_root) as ->.
      { destruct e as [l t x y z]. cbn in *. unfold init_root. assert (z = 0) by (destruct tet; [lia|now apply A]). f_equal; lia. }
      split; [apply wf_root|apply inside_refl, wf_root].
    + intros [W I]. apply inside_same_level in I; auto using wf_root. rewrite I. cbn. now destruct tet.
  - split.
    + intros H. assert (At := ag_ty A). destruct tet; cbn [NUM_TYPES] in At.
      * split; [destruct A; constructor; auto; split_ifs; lia|]. constructor; cbn [init_root lv ty sx sy sz]; rewrite ?Z.sub_0_r; intros; try (split_ifs; lia);
          unfold rel; [change (gxy true 0) with true|change (gxz 0) with true|change (gyz 0) with false]; unfold gxy, gxz, gyz; cbv iota; split_ifs; lia.
      * assert (Z0 := ag_z0 A eq_refl). split; [destruct A; constructor; auto; split_ifs; lia|].
        constructor; cbn [init_root lv ty sx sy sz]; rewrite ?Z.sub_0_r; intros; try discriminate; try (split_ifs; lia).
        unfold rel. change (gxy false 0) with true. unfold gxy. cbv iota. split_ifs; lia.
    + intros [W [I1 I2 I3 I4 I5 I6]]. cbn [init_root lv ty sx sy sz] in *. rewrite ?Z.sub_0_r in *. assert (At := ag_ty A). destruct tet.
      * specialize (I3 eq_refl). specialize (I5 eq_refl). specialize (I6 eq_refl). unfold rel in *.
        change (gxy true 0) with true in I4. change (gxz 0) with true in I5. change (gyz 0) with false in I6. unfold gxy, gxz, gyz in *. cbv iota in *.
        cbn [NUM_TYPES] in At. split_ifs; lia.
      * unfold rel in I4. change (gxy false 0) with true in I4. unfold gxy in I4. cbv iota in I4. cbn [NUM_TYPES] in At. split_ifs; lia.
Qed.

Lemma is_inside_root_walk tet e : aligned tet e ->
  is_inside_root tet e = true <-> exists p, tree_path tet p /\ e = walk tet p.
Proof.
  intros A. rewrite (is_inside_root_iff A). split.
  - intros [W I]. now apply inside_root_walk.
  - intros (p & Hp & ->). destruct (walk_wf Hp) as [W L]. split; auto.
    apply (@inside_walk tet [] p); auto; [split; [constructor|unfold zlen; cbn; pose proof (MAXLEVEL_pos tet); lia]|unfold zlen; cbn; lia|].
    exists p. reflexivity.
Qed.

(** Nearest common ancestors in pyramid trees. *)
From Verif Require Import Prelude PathSpec BitLemmas SimplexModel SimplexSpec SimplexProofs SimplexPathProofs SimplexOrderProofs SimplexGeoProofs SimplexAncProofs.
From Verif Require Import PyramidModel PyramidSpec PyramidProofs PyramidAncProofs PyramidIdProofs PyramidOrderProofs.

Definition same_cube (p q : list Z) (j : nat) : Prop :=
  yx (y_walk (firstn j p)) = yx (y_walk (firstn j q)) /\ yy (y_walk (firstn j p)) = yy (y_walk (firstn j q)) /\ yz (y_walk (firstn j p)) = yz (y_walk (firstn j q)).
Lemma same_cube_bits p q j : y_path p -> y_path q -> (j <= length p)%nat -> (j <= length q)%nat ->
  same_cube p q j <-> forall n, 21 - Z.of_nat j <= n -> Z.testbit (yx (y_walk p)) n = Z.testbit (yx (y_walk q)) n /\ Z.testbit (yy (y_walk p)) n = Z.testbit (yy (y_walk q)) n /\ Z.testbit (yz (y_walk p)) n = Z.testbit (yz (y_walk q)) n.
Proof.
  intros Hp Hq Jp Jq. assert (LP := y_path_len Hp). unfold zlen in LP. unfold same_cube. rewrite <- !y_cut_firstn by (unfold ycoord; auto). rewrite !cutc_val by lia.
  rewrite <- !same_clear by lia. split; [intros (A & B & C) n Hn; auto|intros A; repeat split; intros n Hn; apply A; exact Hn].
Qed.
Lemma firstn_same p q j : y_path p -> y_path q -> (j <= length p)%nat -> (j <= length q)%nat ->
  firstn j p = firstn j q <-> same_cube p q j /\ yty (y_walk (firstn j p)) = yty (y_walk (firstn j q)).
Proof.
  intros Hp Hq Jp Jq. split; [intros E; unfold same_cube; rewrite E; auto|]. intros ((X & Y & Zz) & T).
  assert (HPj := y_path_firstn j Hp). assert (HQj := y_path_firstn j Hq).
  apply y_walk_inj; auto. apply y_walk_yt; auto. destruct (y_walk_wf HPj) as [_ L1]. destruct (y_walk_wf HQj) as [_ L2].
  assert (LL : ylv (y_walk (firstn j p)) = ylv (y_walk (firstn j q))) by (rewrite L1, L2; unfold zlen; rewrite !firstn_length, !Nat.min_l by lia; reflexivity).
  unfold ylv, yty, yx, yy, yz in *. destruct (yt (y_walk (firstn j p))) as [a1 a2 a3 a4 a5], (yt (y_walk (firstn j q))) as [b1 b2 b3 b4 b5]. cbn [lv ty sx sy sz] in *. congruence.
Qed.
Lemma y_cube_level_walk p q : y_path p -> y_path q -> exists c, y_cube_level (y_walk p) (y_walk q) = Z.of_nat c /\ (c <= length p)%nat /\ (c <= length q)%nat /\
  forall j, (j <= length p)%nat -> (j <= length q)%nat -> (j <= c)%nat <-> same_cube p q j.
Proof.
  intros Hp Hq. destruct (y_walk_wf Hp) as [Wp Lp]. destruct (y_walk_wf Hq) as [Wq Lq]. unfold y_cube_level. assert (LP := y_path_len Hp).
  set (M := Z.lor _ _). assert (B : forall f r, ycoord f -> y_path r -> 0 <= f (y_walk r) < 2 ^ 21) by (intros f r F Hr; destruct (y_walk_wf Hr) as [Wr _]; apply (ywf_coord F Wr)).
  assert (Bx := fun r => @B yx r ltac:(unfold ycoord; auto)). assert (By := fun r => @B yy r ltac:(unfold ycoord; auto)). assert (Bz := fun r => @B yz r ltac:(unfold ycoord; auto)).
  assert (HMnn : 0 <= M).
  { unfold M. rewrite !Z.lor_nonneg, !Z.lxor_nonneg. pose proof (Bx _ Hp). pose proof (Bx _ Hq). pose proof (By _ Hp). pose proof (By _ Hq). pose proof (Bz _ Hp). pose proof (Bz _ Hq). lia. }
  assert (MB : forall n, Z.testbit M n = false <-> Z.testbit (yx (y_walk p)) n = Z.testbit (yx (y_walk q)) n /\ Z.testbit (yy (y_walk p)) n = Z.testbit (yy (y_walk q)) n /\ Z.testbit (yz (y_walk p)) n = Z.testbit (yz (y_walk q)) n).
  { intros n. assert (LX : forall a b, Z.testbit (Z.lxor a b) n = false <-> Z.testbit a n = Z.testbit b n).
    { intros a b. rewrite Z.lxor_spec. destruct (Z.testbit a n), (Z.testbit b n); cbn; intuition. }
    unfold M. rewrite !Z.lor_spec, !orb_false_iff, !LX. tauto. }
  destruct (log2_32_bound HMnn) as (B1 & B2 & B3). set (lg := log2_32 M) in *.
  assert (HLM : lg < 21).
  { destruct (Z_lt_le_dec lg 21); auto. exfalso. assert (T := B3 ltac:(lia)).
    assert (F : Z.testbit M lg = false).
    { apply MB. assert (S : forall v, 0 <= v < 2 ^ 21 -> Z.testbit v lg = false).
      { intros v Hv. rewrite testbit_div by lia. rewrite Z.div_small; auto. split; [lia|].
        apply Z.lt_le_trans with (2 ^ 21); [lia|]. apply Z.pow_le_mono_r; lia. }
      rewrite !S by auto. auto. }
    congruence. }
  rewrite Lp, Lq. change YMAX with 21. set (cl := Z.min (21 - (lg + 1)) (Z.min (zlen p) (zlen q))).
  exists (Z.to_nat cl). assert (Hcl : 0 <= cl) by (unfold cl, zlen; lia). unfold zlen in *. split; [lia|]. split; [lia|]. split; [lia|].
  intros j Jp Jq. rewrite same_cube_bits by auto. split.
  - intros Hj n Hn. apply MB, B2. lia.
  - intros A. destruct (Z_le_gt_dec (Z.of_nat j) cl) as [|G]; [lia|]. exfalso. specialize (A lg ltac:(lia)). apply MB in A. specialize (B3 ltac:(lia)). congruence.
Qed.
Lemma y_cut_result p r t : y_path p -> (r <= length p)%nat -> t = yty (y_walk (firstn r p)) -> ysw (y_walk p) = ysw (y_walk (firstn r p)) ->
  set_ty (y_cut (set_lv (y_walk p) (Z.of_nat r)) (YMAX - Z.of_nat r)) t = y_walk (firstn r p).
Proof.
  intros Hp Hr -> S. change YMAX with 21. assert (Hr' := y_path_firstn r Hp). destruct (y_walk_wf Hr') as [_ L].
  assert (E : set_ty (y_cut (set_lv (y_walk p) (Z.of_nat r)) (21 - Z.of_nat r)) (yty (y_walk (firstn r p))) =
    Pyr (Simp (Z.of_nat r) (yty (y_walk (firstn r p))) (cutc (yx (y_walk p)) (21 - Z.of_nat r)) (cutc (yy (y_walk p)) (21 - Z.of_nat r)) (cutc (yz (y_walk p)) (21 - Z.of_nat r))) (ysw (y_walk p))) by reflexivity.
  rewrite E, !y_cut_firstn, S by (unfold ycoord; auto). replace (Z.of_nat r) with (ylv (y_walk (firstn r p))) by (rewrite L; unfold zlen; rewrite firstn_length, Nat.min_l by lia; reflexivity).
  unfold ylv, yty, yx, yy, yz. destruct (y_walk (firstn r p)) as [[? ? ? ? ?] ?]. reflexivity.
Qed.
Lemma y_nca_loop_walk p q c : y_path p -> y_path q -> is_pyra (y_walk p) = true -> is_pyra (y_walk q) = true -> (c <= length p)%nat -> (c <= length q)%nat ->
  exists r, y_nca_loop (y_walk p) (y_walk q) c (yty (y_walk (firstn c p))) (yty (y_walk (firstn c q))) = Ok (Z.of_nat r, yty (y_walk (firstn r p)))
    /\ (r <= c)%nat /\ yty (y_walk (firstn r p)) = yty (y_walk (firstn r q))
    /\ (forall r', (r < r' <= c)%nat -> yty (y_walk (firstn r' p)) <> yty (y_walk (firstn r' q))).
Proof.
  intros Hp Hq Pp Pq. induction c as [|c IH]; intros Cp Cq; cbn [y_nca_loop].
  - exists 0%nat. change (yty (y_walk (firstn 0 p)) =? yty (y_walk (firstn 0 q))) with true. repeat split; auto. lia.
  - destruct (Z.eqb_spec (yty (y_walk (firstn (S c) p))) (yty (y_walk (firstn (S c) q)))) as [E|E].
    + exists (S c). repeat split; auto. lia.
    + replace (Z.of_nat c + 1) with (Z.of_nat (S c)) by lia. rewrite !y_type_ext_walk by (auto; try lia; intros; rewrite !y_pyra_earlier by auto; reflexivity).
      destruct (IH ltac:(lia) ltac:(lia)) as (r & E1 & E2 & E3 & E4). exists r. repeat split; auto. intros r' Hr'. destruct (Nat.eq_dec r' (S c)) as [->|]; auto. apply E4. lia.
Qed.
Lemma pyra_sw p : y_path p -> is_pyra (y_walk p) = true -> ysw (y_walk p) = -1.
Proof. intros H P. destruct (y_walk_wf H) as [W _]. assert (A := yw_sw W). rewrite P in A. exact A. Qed.
Lemma y_nca_pyra_walk p q : y_path p -> y_path q -> is_pyra (y_walk p) = true -> is_pyra (y_walk q) = true -> y_nca_pyra (y_walk p) (y_walk q) = Ok (y_walk (lcp p q)).
Proof.
  intros Hp Hq Pp Pq. destruct (y_cube_level_walk Hp Hq) as (c & Ec & Cp & Cq & A). unfold y_nca_pyra. rewrite Ec, Nat2Z.id.
  rewrite !y_type_same_walk by (auto; intros; rewrite y_pyra_earlier by auto; auto).
  destruct (y_nca_loop_walk Hp Hq Pp Pq Cp Cq) as (r & E1 & E2 & E3 & E4). rewrite E1. cbn [obind fst snd]. f_equal.
  rewrite y_cut_result by (auto; try lia; rewrite !pyra_sw by (auto using y_path_firstn, y_pyra_earlier); reflexivity). f_equal. apply lcp_unique; try lia.
  - apply firstn_same; auto; try lia. split; [apply A; lia|exact E3].
  - intros r' K1 K2 K3 E. apply firstn_same in E; auto. destruct E as [SC ET]. apply A in SC; auto. apply (E4 r'); auto.
Qed.
Lemma y_nca_tet_loop_walk p q c t1 t2 : y_path p -> y_path q -> is_pyra (y_walk p) = false -> is_pyra (y_walk q) = false -> (c <= length p)%nat -> (c <= length q)%nat ->
  (ysw (y_walk p) <= Z.of_nat c -> t1 = yty (y_walk (firstn c p))) -> (ysw (y_walk q) <= Z.of_nat c -> t2 = yty (y_walk (firstn c q))) ->
  exists r, y_nca_tet_loop (y_walk p) (y_walk q) c t1 t2 = Ok (Z.of_nat r) /\ (r <= c)%nat /\
    (ysw (y_walk p) <= Z.of_nat r -> ysw (y_walk q) <= Z.of_nat r -> yty (y_walk (firstn r p)) = yty (y_walk (firstn r q))) /\
    (forall r', (r < r' <= c)%nat -> ysw (y_walk p) <= Z.of_nat r' /\ ysw (y_walk q) <= Z.of_nat r' /\ yty (y_walk (firstn r' p)) <> yty (y_walk (firstn r' q))).
Proof.
  intros Hp Hq Pp Pq. destruct (y_sw_spec Hp Pp) as [Sp SP]. destruct (y_sw_spec Hq Pq) as [Sq SQ]. revert t1 t2. induction c as [|c IH]; intros t1 t2 Cp Cq T1 T2; cbn [y_nca_tet_loop].
  - exists 0%nat. change (Z.of_nat 0) with 0. destruct (Z.leb_spec (ysw (y_walk p)) 0); [lia|]. rewrite andb_false_r. cbn [andb]. split; [reflexivity|]. split; [lia|]. split; [lia|intros; lia].
  - destruct (Z.leb_spec (ysw (y_walk p)) (Z.of_nat (S c))) as [C1|C1]; destruct (Z.leb_spec (ysw (y_walk q)) (Z.of_nat (S c))) as [C2|C2]; rewrite ?andb_false_r, ?andb_true_r; cbn [andb];
      try (exists (S c); split; [reflexivity|]; split; [lia|]; split; [lia|intros; lia]).
    destruct (Z.eqb_spec t1 t2) as [E|E]; cbn [negb].
    + exists (S c). split; [reflexivity|]. split; [lia|]. split; [intros _ _; rewrite <- T1, <- T2 by auto; exact E|intros; lia].
    + assert (G : forall u t, y_path u -> is_pyra (y_walk u) = false -> (S c <= length u)%nat -> (ysw (y_walk u) <= Z.of_nat (S c) -> t = yty (y_walk (firstn (S c) u))) ->
        ysw (y_walk u) <= Z.of_nat c -> y_type_ext (y_walk u) (Z.of_nat c) t (Z.of_nat c + 1) = yty (y_walk (firstn c u))).
      { intros u t Hu Pu Cu Tu Su. rewrite Tu by lia. replace (Z.of_nat c + 1) with (Z.of_nat (S c)) by lia. destruct (y_sw_spec Hu Pu) as [_ SU]. apply y_type_ext_walk; auto.
        intros j Hj. rewrite (proj1 (SU j ltac:(lia))), (proj1 (SU (S c) ltac:(lia))). destruct (Z.ltb_spec (Z.of_nat j) (ysw (y_walk u))); destruct (Z.ltb_spec (Z.of_nat (S c)) (ysw (y_walk u))); try lia; reflexivity. }
      destruct (IH (y_type_ext (y_walk p) (Z.of_nat c) t1 (Z.of_nat c + 1)) (y_type_ext (y_walk q) (Z.of_nat c) t2 (Z.of_nat c + 1)) ltac:(lia) ltac:(lia) ltac:(auto) ltac:(auto)) as (r & E1 & E2 & E3 & E4).
      exists r. split; [exact E1|]. split; [lia|]. split; [exact E3|]. intros r' Hr'. destruct (Nat.eq_dec r' (S c)) as [->|]; [|apply E4; lia].
      split; [exact C1|]. split; [exact C2|]. rewrite <- T1, <- T2 by auto. exact E.
Qed.
Lemma firstn_lcp p q : exists r, (r <= length p)%nat /\ (r <= length q)%nat /\ lcp p q = firstn r p /\ firstn r p = firstn r q /\ (forall r', (r' <= length p)%nat -> (r' <= length q)%nat -> firstn r' p = firstn r' q -> (r' <= r)%nat).
Proof.
  revert q. induction p as [|i p IH]; intros q; [exists 0%nat; cbn; repeat split; auto; lia|]. destruct q as [|j q]; [exists 0%nat; cbn; repeat split; auto; lia|]. cbn [lcp].
  destruct (Z.eqb_spec i j) as [->|Hne].
  - destruct (IH q) as (r & R1 & R2 & R3 & R4 & R5). exists (S r). cbn [length firstn]. split; [lia|]. split; [lia|]. split; [now rewrite R3|]. split; [now rewrite R4|].
    intros r' K1 K2 E. destruct r' as [|r']; [lia|]. cbn [firstn] in E. injection E as E. specialize (R5 r' ltac:(lia) ltac:(lia) E). lia.
  - exists 0%nat. cbn [length firstn]. repeat split; auto; try lia. intros r' K1 K2 E. destruct r' as [|r']; [lia|]. cbn [firstn] in E. injection E as E _. contradiction.
Qed.
Lemma lcp_firstn p q a b : (a <= length p)%nat -> (b <= length q)%nat -> (length (lcp p q) <= a)%nat -> (length (lcp p q) <= b)%nat -> lcp (firstn a p) (firstn b q) = lcp p q.
Proof.
  revert q a b. induction p as [|i p IH]; intros q a b Ha Hb La Lb; [now rewrite firstn_nil|]. destruct q as [|j q]; [rewrite firstn_nil; destruct (firstn a (i :: p)); reflexivity|].
  cbn [lcp] in *. destruct (Z.eqb_spec i j) as [->|Hne].
  - cbn [length] in *. destruct a as [|a]; [lia|]. destruct b as [|b]; [lia|]. cbn [firstn lcp]. rewrite Z.eqb_refl. f_equal. apply IH; lia.
  - destruct a as [|a]; [reflexivity|]. destruct b as [|b]; [reflexivity|]. cbn [firstn lcp]. destruct (Z.eqb_spec i j); [contradiction|reflexivity].
Qed.
Lemma sw_prev p : y_path p -> is_pyra (y_walk p) = false -> let a := Z.to_nat (ysw (y_walk p) - 1) in (a <= length p)%nat /\ Z.of_nat a = ysw (y_walk p) - 1 /\
  y_ancestor (y_walk p) (ysw (y_walk p) - 1) = y_walk (firstn a p) /\ is_pyra (y_walk (firstn a p)) = true.
Proof.
  intros Hp Pp a. destruct (y_sw_spec Hp Pp) as [Sp SP]. assert (Ea : Z.of_nat a = ysw (y_walk p) - 1) by (unfold a; lia). assert (La : (a <= length p)%nat) by (unfold a, zlen in *; lia).
  split; [exact La|]. split; [exact Ea|]. split; [rewrite <- Ea; now apply y_ancestor_walk|]. rewrite (proj1 (SP a La)). destruct (Z.ltb_spec (Z.of_nat a) (ysw (y_walk p))); [reflexivity|lia].
Qed.
Lemma tet_ancestor p r : y_path p -> (r <= length p)%nat -> is_pyra (y_walk (firstn r p)) = false -> ancestor true (yt (y_walk p)) (Z.of_nat r) = yt (y_walk (firstn r p)).
Proof.
  intros Hp Hr Pr. assert (Hr' := y_path_firstn r Hp). destruct (y_walk_wf Hr') as [Wr Lr]. destruct (y_walk_wf Hp) as [Wp Lp].
  assert (E : p = firstn r p ++ skipn r p) by (symmetry; apply firstn_skipn). assert (WR := ywf_tet Wr Pr).
  assert (PP : is_pyra (y_walk p) = false) by (rewrite <- (firstn_all p); apply (@y_tet_later p r (length p)); auto).
  assert (EW : yt (y_walk p) = fold_left (child true) (skipn r p) (yt (y_walk (firstn r p)))).
  { rewrite E at 1. rewrite y_walk_tet; [reflexivity|exact Pr|now rewrite <- E]. }
  assert (VS : valid_path 8 (skipn r p)).
  { apply (@vpath_tet (yty (y_walk (firstn r p)))); [assert (A := yw_ty Wr); apply is_tet_iff in Pr; lia|]. rewrite y_walk_tend by exact Hr'. rewrite E in Hp at 1. apply y_path_iff in Hp. rewrite vpath_app in Hp. apply Hp. }
  assert (LL : lv (yt (y_walk (firstn r p))) = Z.of_nat r) by (change (ylv (y_walk (firstn r p)) = Z.of_nat r); rewrite Lr; unfold zlen; rewrite firstn_length, Nat.min_l by lia; reflexivity).
  rewrite <- LL. apply ancestor_inside; [exact WR|exact (ywf_tet Wp PP)|]. rewrite EW. apply descends_inside; [exact WR|exact VS|]. rewrite LL. change (MAXLEVEL true) with 21.
  assert (LP := y_path_len Hp). unfold zlen in *. rewrite skipn_length. lia.
Qed.
Lemma y_nca_walk p q : y_path p -> y_path q -> y_nca (y_walk p) (y_walk q) = Ok (y_walk (lcp p q)).
Proof.
  intros Hp Hq. destruct (firstn_lcp p q) as (r0 & R1 & R2 & R3 & R4 & R5). assert (LL : length (lcp p q) = r0) by (rewrite R3, firstn_length; lia).
  unfold y_nca. destruct (is_pyra (y_walk p)) eqn:Pp; destruct (is_pyra (y_walk q)) eqn:Pq.
  - now apply y_nca_pyra_walk.
  - destruct (sw_prev Hq Pq) as (A1 & A2 & A3 & A4). rewrite A3. rewrite y_nca_pyra_walk by (auto using y_path_firstn). f_equal. f_equal. rewrite <- (firstn_all p) at 1. apply lcp_firstn; auto; try lia.
    destruct (y_sw_spec Hq Pq) as [_ SQ]. assert (B := y_pyra_earlier r0 Hp Pp). rewrite R4, (proj1 (SQ r0 R2)) in B. lia.
  - destruct (sw_prev Hp Pp) as (A1 & A2 & A3 & A4). rewrite A3. rewrite y_nca_pyra_walk by (auto using y_path_firstn). f_equal. f_equal. rewrite <- (firstn_all q) at 1. apply lcp_firstn; auto; try lia.
    destruct (y_sw_spec Hp Pp) as [_ SP]. assert (B := y_pyra_earlier r0 Hq Pq). rewrite <- R4, (proj1 (SP r0 R1)) in B. lia.
  - destruct (y_sw_spec Hp Pp) as [Sp SP]. destruct (y_sw_spec Hq Pq) as [Sq SQ]. unfold y_nca_tet. destruct (y_cube_level_walk Hp Hq) as (c & Ec & Cp & Cq & A). rewrite Ec, Nat2Z.id, !y_ancestor_walk by auto.
    destruct (@y_nca_tet_loop_walk p q c _ _ Hp Hq Pp Pq Cp Cq (fun _ => eq_refl) (fun _ => eq_refl)) as (r & E1 & E2 & E3 & E4). rewrite E1. cbn [obind].
    assert (C0 : (r0 <= c)%nat) by (apply A; auto; apply firstn_same in R4; auto; apply R4).
    assert (SE : ysw (y_walk p) <= Z.of_nat r0 \/ ysw (y_walk q) <= Z.of_nat r0 -> ysw (y_walk p) = ysw (y_walk q)).
    { intros D. destruct (SP r0 R1) as [I1 J1]. destruct (SQ r0 R2) as [I2 J2]. rewrite R4 in I1. rewrite I1 in I2. rewrite R4 in J1.
      assert (ysw (y_walk p) <= Z.of_nat r0 /\ ysw (y_walk q) <= Z.of_nat r0) as [D1 D2] by lia. rewrite <- (J1 D1), <- (J2 D2). reflexivity. }
    assert (RR : (r0 <= r)%nat).
    { destruct (le_lt_dec r0 r); auto. exfalso. destruct (E4 r0 ltac:(lia)) as (_ & _ & N). apply N. now rewrite R4. }
    destruct ((Z.of_nat r <? ysw (y_walk p)) || (Z.of_nat r <? ysw (y_walk q))) eqn:D.
    + destruct (sw_prev Hp Pp) as (A1 & A2 & A3 & A4). destruct (sw_prev Hq Pq) as (B1 & B2 & B3 & B4). rewrite A3, B3. rewrite y_nca_pyra_walk by (auto using y_path_firstn). f_equal. f_equal.
      apply lcp_firstn; auto; lia.
    + f_equal. assert (S1 : ysw (y_walk p) <= Z.of_nat r) by lia. assert (S2 : ysw (y_walk q) <= Z.of_nat r) by lia.
      assert (r <= r0)%nat by (apply R5; try lia; apply firstn_same; auto; try lia; split; [apply A; lia|auto]). assert (r = r0) by lia. subst r. rewrite R3.
      rewrite tet_ancestor by (auto; rewrite (proj1 (SP r0 R1)); lia). destruct (SP r0 R1) as [_ J]. rewrite <- (J S1). now destruct (y_walk (firstn r0 p)).
Qed.

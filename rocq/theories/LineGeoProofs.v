(** The geometry of lines, for rational points. *)
From Verif Require Import Prelude PathSpec BitLemmas SimplexModel LineModel LineSpec SimplexProofs SimplexPathProofs LineProofs.
From Coq Require Import QArith Lqa.
Open Scope Z_scope.

Lemma l_half e : ll e < LMAX -> 0 <= ll e -> exists h, 0 < h /\ LLEN (ll e) = 2 * h /\ LLEN (ll e + 1) = h.
Proof.
  intros H H0. exists (LLEN (ll e + 1)). rewrite !LLEN_pow by lia. assert (P := @pow2_pos (LMAX - (ll e + 1)) ltac:(lia)).
  split; [exact P|]. split; [|reflexivity]. rewrite <- pow2_S by lia. f_equal. lia.
Qed.
Lemma l_tile e (x : Q) : 0 <= ll e < LMAX ->
  (inject_Z (l_coords e 0) <= x <= inject_Z (l_coords e 1) <->
   exists i, (0 <= i < 2)%Z /\ inject_Z (l_coords (l_child e i) 0) <= x <= inject_Z (l_coords (l_child e i) 1))%Q.
Proof.
  intros He. destruct (@l_half e ltac:(lia) ltac:(lia)) as (h & Hh & E1 & E2). unfold l_coords, l_child. cbn [ll lx Z.eqb]. rewrite E1, E2.
  rewrite Zlt_Qlt in Hh. change (inject_Z 0) with 0%Q in Hh. split.
  - intros H. destruct (Qlt_le_dec x (inject_Z (lx e + h))) as [L|L]; [exists 0|exists 1]; (split; [lia|]); cbn [Z.eqb]; rewrite ?inject_Z_plus, ?inject_Z_mult in *; change (inject_Z 2) with 2%Q in *; change (inject_Z 0) with 0%Q in *; lra.
  - intros (i & Hi & H). assert (i = 0 \/ i = 1) as [-> | ->] by lia; cbn [Z.eqb] in H; rewrite ?inject_Z_plus, ?inject_Z_mult in *; change (inject_Z 2) with 2%Q in *; change (inject_Z 0) with 0%Q in *; lra.
Qed.
Lemma l_tile_interior e i (x : Q) : 0 <= ll e < LMAX -> 0 <= i < 2 ->
  (inject_Z (l_coords (l_child e i) 0) < x < inject_Z (l_coords (l_child e i) 1) -> inject_Z (l_coords e 0) < x < inject_Z (l_coords e 1))%Q.
Proof.
  intros He Hi. destruct (@l_half e ltac:(lia) ltac:(lia)) as (h & Hh & E1 & E2). unfold l_coords, l_child. cbn [ll lx Z.eqb]. rewrite E1, E2.
  rewrite Zlt_Qlt in Hh. change (inject_Z 0) with 0%Q in Hh.
  assert (i = 0 \/ i = 1) as [-> | ->] by lia; cbn [Z.eqb]; rewrite ?inject_Z_plus, ?inject_Z_mult in *; change (inject_Z 2) with 2%Q in *; change (inject_Z 0) with 0%Q in *; lra.
Qed.
Lemma l_tile_disjoint e i j (x : Q) : 0 <= ll e < LMAX -> 0 <= i < 2 -> 0 <= j < 2 -> i <> j ->
  ~ (inject_Z (l_coords (l_child e i) 0) < x < inject_Z (l_coords (l_child e i) 1) /\ inject_Z (l_coords (l_child e j) 0) < x < inject_Z (l_coords (l_child e j) 1))%Q.
Proof.
  intros He Hi Hj N. destruct (@l_half e ltac:(lia) ltac:(lia)) as (h & Hh & E1 & E2). unfold l_coords, l_child. cbn [ll lx Z.eqb]. rewrite E2.
  rewrite Zlt_Qlt in Hh. change (inject_Z 0) with 0%Q in Hh.
  assert (i = 0 \/ i = 1) as [-> | ->] by lia; assert (j = 0 \/ j = 1) as [-> | ->] by lia; try lia; cbn [Z.eqb]; rewrite ?inject_Z_plus, ?inject_Z_mult in *; change (inject_Z 0) with 0%Q in *; lra.
Qed.
(** unrelated lines have disjoint interiors *)
Lemma l_separated p q : l_path p -> l_path q -> ~ prefix p q -> ~ prefix q p ->
  l_coords (l_walk p) 1 <= l_coords (l_walk q) 0 \/ l_coords (l_walk q) 1 <= l_coords (l_walk p) 0.
Proof.
  intros Hp Hq N1 N2. rewrite <- l_is_ancestor_walk in N1, N2 by auto. unfold l_element_is_ancestor in N1, N2.
  destruct (l_walk_wf Hp) as [[P1 P2 P3] Lp]. destruct (l_walk_wf Hq) as [[Q1 Q2 Q3] Lq]. unfold l_linear_id in *.
  unfold l_coords. cbn [Z.eqb]. rewrite !LLEN_pow by lia. rewrite !Z.shiftr_div_pow2 in N1, N2 by lia.
  set (a := l_walk p) in *. set (b := l_walk q) in *.
  assert (G : forall u v, 0 <= u <= LMAX -> 0 <= v <= u -> forall y z, al u y -> al v z -> y < z + 2 ^ v -> z < y + 2 ^ u -> y / 2 ^ u = z / 2 ^ u).
  { intros u v Hu Hv y z (m & Y) (n & Z1) A1 A2. assert (PU := @pow2_pos u ltac:(lia)). assert (PV := @pow2_pos v ltac:(lia)).
    rewrite Y, Z.div_mul by lia. apply Z.div_unique with (z - m * 2 ^ u); [|lia]. left. rewrite Z1 in *.
    rewrite (@pow2_split v u) in * by lia. set (w := 2 ^ (u - v)) in *. set (g := 2 ^ v) in *. subst y.
    assert (0 < w) by (apply pow2_pos; lia). assert (m * w <= n) by nia. assert (n < (m + 1) * w) by nia.
    replace (n * g - m * (w * g)) with ((n - m * w) * g) by ring. split; [apply Z.mul_nonneg_nonneg; lia|apply Z.mul_lt_mono_pos_r; lia]. }
  assert (PA := @pow2_pos (LMAX - ll a) ltac:(lia)). assert (PB := @pow2_pos (LMAX - ll b) ltac:(lia)).
  destruct (Z.le_gt_cases (lx a + 2 ^ (LMAX - ll a)) (lx b)) as [|X1]; [now left|]. destruct (Z.le_gt_cases (lx b + 2 ^ (LMAX - ll b)) (lx a)) as [|X2]; [now right|]. exfalso.
  destruct (Z.ltb_spec (ll b) (ll a)).
  - destruct (Z.ltb_spec (ll a) (ll b)); [lia|]. apply N2. apply Z.eqb_eq. apply (G (LMAX - ll b) (LMAX - ll a)); auto; lia.
  - apply N1. apply Z.eqb_eq. apply (G (LMAX - ll a) (LMAX - ll b)); auto; lia.
Qed.
Lemma l_disjoint p q (x : Q) : l_path p -> l_path q -> ~ prefix p q -> ~ prefix q p ->
  ~ (inject_Z (l_coords (l_walk p) 0) < x < inject_Z (l_coords (l_walk p) 1) /\ inject_Z (l_coords (l_walk q) 0) < x < inject_Z (l_coords (l_walk q) 1))%Q.
Proof. intros Hp Hq N1 N2. destruct (l_separated Hp Hq N1 N2) as [H|H]; rewrite Zle_Qle in H; lra. Qed.

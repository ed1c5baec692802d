(** The geometry of prisms: a prism is the product of its triangle and its line. *)
From Coq Require Import QArith Lqa.
From Verif Require Import Prelude PathSpec GeoSpec BitLemmas SimplexModel SimplexSpec LineModel LineSpec SimplexPathProofs SimplexProofs SimplexOrderProofs
  SimplexGeoProofs SimplexAncProofs SimplexTileProofs SimplexFaceProofs SimplexFaceChildProofs LineProofs LineGeoProofs PrismModel PrismSpec PrismProofs.
Open Scope Z_scope.

(** prisms that are aligned to their grid, inside or outside of the root *)
Definition p_aligned (e : prism) : Prop :=
  aligned false (ptri e) /\ laligned (pline e) /\ ll (pline e) = lv (ptri e) /\ lv (ptri e) <= PMAX.
Lemma p_walk_aligned p : p_path p -> p_aligned (p_walk p).
Proof.
  intros Hp. rewrite p_walk_eq. destruct (walk_wf (p_t_path Hp)) as [WT LT]. destruct (l_walk_wf (p_l_path Hp)) as [WL LL]. unfold p_aligned. cbn [pline ptri].
  split; [now apply wf_aligned|]. split; [destruct WL; split; auto|]. rewrite LT, LL, lpart_len, tpart_len. split; [reflexivity|apply Hp].
Qed.

(** ** the vertices in units of the length *)
Definition p_h (e : prism) : Z := 2 ^ (PMAX - lv (ptri e)).
Definition p_a (e : prism) : ipt := (sx (ptri e) / 256, sy (ptri e) / 256, lx (pline e) / 512).
Definition p_unit (t v : Z) : ipt := (ix (ucoord false t (v mod 3)), iy (ucoord false t (v mod 3)), v / 3).
Lemma p_div e : p_aligned e -> LEN false (lv (ptri e)) = 256 * p_h e /\ LLEN (ll (pline e)) = 512 * p_h e /\
  sx (ptri e) = 256 * ix (p_a e) /\ sy (ptri e) = 256 * iy (p_a e) /\ lx (pline e) = 512 * iz (p_a e).
Proof.
  intros (A & [B1 B2] & E & M). unfold p_h, p_a. cbn [ix iy iz fst snd]. change PMAX with 21 in *. destruct A as [A1 A2 A3 A4 _ _]. change (MAXLEVEL false) with 29 in *. change LMAX with 30 in *.
  set (l := lv (ptri e)) in *. rewrite E in *.
  assert (E1 : 2 ^ (29 - l) = 256 * 2 ^ (21 - l)) by (change 256 with (2 ^ 8); rewrite <- Z.pow_add_r by lia; f_equal; lia).
  assert (E2 : 2 ^ (30 - l) = 512 * 2 ^ (21 - l)) by (change 512 with (2 ^ 9); rewrite <- Z.pow_add_r by lia; f_equal; lia).
  split. { rewrite LEN_pow by (change (MAXLEVEL false) with 29; lia). exact E1. }
  split. { rewrite LLEN_pow by (change LMAX with 30; lia). exact E2. }
  assert (D : forall a u v k, a = u * v -> v = k * 2 ^ (21 - l) -> 0 < k -> a = k * (a / k)).
  { intros a u v k -> -> Hk. replace (u * (k * 2 ^ (21 - l))) with ((u * 2 ^ (21 - l)) * k) by ring. rewrite Z.div_mul by lia. ring. }
  destruct A3 as (u & A3). destruct A4 as (w & A4). destruct B2 as (z & B2). rewrite E1 in A3, A4. rewrite E2 in B2.
  split; [|split]; eapply D; try eassumption; try reflexivity; lia.
Qed.
Lemma p_h_pos e : p_aligned e -> 0 < p_h e.
Proof. intros (A & _ & _ & M). unfold p_h. apply pow2_pos. destruct A. lia. Qed.
Lemma p_vertex_unit e v : p_aligned e -> 0 <= v < 6 -> p_vertex e v = scale (p_h e) (p_a e) (p_unit (ty (ptri e)) v).
Proof.
  intros A Hv. destruct (p_div A) as (E1 & E2 & E3 & E4 & E5). unfold p_vertex. rewrite coords_unit by (try apply A; change (CORNERS false) with 3; lia).
  change (Z.shiftl 1 (MAXLEVEL false - PMAX)) with 256. change (Z.shiftl 1 (LMAX - PMAX)) with 512. unfold scale, p_unit. cbn [ix iy iz fst snd].
  rewrite E1, E3, E4. unfold l_coords. rewrite E2, E5. set (h := p_h e). set (a := p_a e). set (u := ucoord false (ty (ptri e)) (v mod 3)). clearbody h a u.
  f_equal; [f_equal|].
  - symmetry. apply Z.div_unique with 0; [lia|ring].
  - symmetry. apply Z.div_unique with 0; [lia|ring].
  - destruct (Z.eqb_spec (v / 3) 0) as [Z0|Z0]; [rewrite Z0|replace (v / 3) with 1 by lia]; symmetry; apply Z.div_unique with 0; try lia; ring.
Qed.

(** ** products *)
Lemma len6 {A} (ws : list A) : length ws = 6%nat -> exists a b c d e f, ws = [a; b; c; d; e; f].
Proof. destruct ws as [|a [|b [|c [|d [|e [|f [|g ws]]]]]]]; cbn; try discriminate. eauto 10. Qed.
Lemma hull_product (x0 x1 x2 y0 y1 y2 z h k m : Z) P : 0 < h -> 0 < k -> 0 < m ->
  let V := [(x0, y0, z); (x1, y1, z); (x2, y2, z); (x0, y0, z + h); (x1, y1, z + h); (x2, y2, z + h)] in
  let T := [(k * x0, k * y0, 0); (k * x1, k * y1, 0); (k * x2, k * y2, 0)] in
  let P' := (inject_Z k * px P, inject_Z k * py P, 0)%Q in
  (hull V P <-> hull T P' /\ (inject_Z (m * z) <= inject_Z m * pz P <= inject_Z (m * (z + h)))%Q) /\
  (interior V P <-> interior T P' /\ (inject_Z (m * z) < inject_Z m * pz P < inject_Z (m * (z + h)))%Q).
Proof.
  intros Hh Hk Hm. cbn zeta. apply inject_Z_lt0 in Hh, Hk, Hm. rewrite !inject_Z_mult, inject_Z_plus.
  assert (C : forall w0 w1 w2 w3 w4 w5, (w0 + w1 + w2 + w3 + w4 + w5 == 1)%Q ->
    (px P == wsum [w0; w1; w2; w3; w4; w5] [x0; x1; x2; x0; x1; x2] -> inject_Z k * px P == wsum [w0 + w3; w1 + w4; w2 + w5] [k * x0; k * x1; k * x2]%Z)%Q /\
    (py P == wsum [w0; w1; w2; w3; w4; w5] [y0; y1; y2; y0; y1; y2] -> inject_Z k * py P == wsum [w0 + w3; w1 + w4; w2 + w5] [k * y0; k * y1; k * y2]%Z)%Q /\
    (pz P == wsum [w0; w1; w2; w3; w4; w5] [z; z; z; z + h; z + h; z + h]%Z -> pz P == inject_Z z + inject_Z h * (w3 + w4 + w5))%Q).
  { intros w0 w1 w2 w3 w4 w5 S. cbn [wsum]. rewrite !inject_Z_mult, inject_Z_plus. split; [intros ->; ring|]. split; [intros ->; ring|]. intros ->.
    transitivity (inject_Z z * (w0 + w1 + w2 + w3 + w4 + w5) + inject_Z h * (w3 + w4 + w5))%Q; [ring|]. rewrite S. ring. }
  assert (D : forall a b c (t : Q), (a + b + c == 1)%Q ->
    (inject_Z k * px P == wsum [a; b; c] [k * x0; k * x1; k * x2]%Z -> px P == wsum [a * (1 - t); b * (1 - t); c * (1 - t); a * t; b * t; c * t] [x0; x1; x2; x0; x1; x2])%Q /\
    (inject_Z k * py P == wsum [a; b; c] [k * y0; k * y1; k * y2]%Z -> py P == wsum [a * (1 - t); b * (1 - t); c * (1 - t); a * t; b * t; c * t] [y0; y1; y2; y0; y1; y2])%Q /\
    (pz P == inject_Z z + inject_Z h * t -> pz P == wsum [a * (1 - t); b * (1 - t); c * (1 - t); a * t; b * t; c * t] [z; z; z; z + h; z + h; z + h]%Z)%Q).
  { intros a b c t S. cbn [wsum]. rewrite !inject_Z_mult, inject_Z_plus. assert (K : ~ (inject_Z k == 0)%Q) by lra.
    split; [|split].
    - intros E. apply (Qmult_inj_l _ _ _ K). rewrite E. ring.
    - intros E. apply (Qmult_inj_l _ _ _ K). rewrite E. ring.
    - intros ->. transitivity ((a + b + c) * (inject_Z z + inject_Z h * t))%Q; [rewrite S; ring|ring]. }
  split; split.
  - intros (ws & (HL & HS & HX & HY & HZ) & HF). destruct (len6 HL) as (w0 & w1 & w2 & w3 & w4 & w5 & ->). cbn [sumQ fold_right] in HS. cbn [map ix iy iz fst snd] in HX, HY, HZ.
    rewrite !Forall_cons_iff in HF. destruct HF as (F0 & F1 & F2 & F3 & F4 & F5 & _). assert (S : (w0 + w1 + w2 + w3 + w4 + w5 == 1)%Q) by lra. destruct (C _ _ _ _ _ _ S) as (CX & CY & CZ). specialize (CZ HZ).
    split.
    + exists [w0 + w3; w1 + w4; w2 + w5]%Q. split; [split; [reflexivity|]; split; [cbn [sumQ fold_right]; lra|]; cbn [map ix iy iz fst snd px py pz]; split; [exact (CX HX)|]; split; [exact (CY HY)|cbn [wsum]; ring]|].
      repeat (apply Forall_cons; [lra|]). apply Forall_nil.
    + assert (U : (0 <= inject_Z h * (w3 + w4 + w5))%Q) by (apply Qmult_le_0_compat; lra). assert (U2 : (0 <= inject_Z h * (1 - (w3 + w4 + w5)))%Q) by (apply Qmult_le_0_compat; lra).
      split; apply Qmult_le_l; try exact Hm; rewrite CZ; lra.
  - intros ((ws & (HL & HS & HX & HY & _) & HF) & HZ1 & HZ2). destruct (len3 HL) as (a & b & c & ->). cbn [sumQ fold_right] in HS. cbn [map ix iy iz fst snd px py pz] in HX, HY.
    rewrite !Forall_cons_iff in HF. destruct HF as (F0 & F1 & F2 & _). assert (S : (a + b + c == 1)%Q) by lra. set (t := ((pz P - inject_Z z) / inject_Z h)%Q).
    destruct (D _ _ _ t S) as (DX & DY & DZ). apply Qmult_le_l in HZ1, HZ2; try exact Hm. assert (T0 : (0 <= t)%Q) by (apply Qle_shift_div_l; lra). assert (T1 : (t <= 1)%Q) by (apply Qle_shift_div_r; lra).
    assert (EZ : (pz P == inject_Z z + inject_Z h * t)%Q) by (unfold t; field; lra).
    exists [a * (1 - t); b * (1 - t); c * (1 - t); a * t; b * t; c * t]%Q. split; [split; [reflexivity|]; split; [cbn [sumQ fold_right]; transitivity (a + b + c)%Q; [ring|exact S]|]; cbn [map ix iy iz fst snd]; split; [exact (DX HX)|]; split; [exact (DY HY)|exact (DZ EZ)]|].
    repeat (apply Forall_cons; [apply Qmult_le_0_compat; lra|]). apply Forall_nil.
  - intros (ws & (HL & HS & HX & HY & HZ) & HF). destruct (len6 HL) as (w0 & w1 & w2 & w3 & w4 & w5 & ->). cbn [sumQ fold_right] in HS. cbn [map ix iy iz fst snd] in HX, HY, HZ.
    rewrite !Forall_cons_iff in HF. destruct HF as (F0 & F1 & F2 & F3 & F4 & F5 & _). assert (S : (w0 + w1 + w2 + w3 + w4 + w5 == 1)%Q) by lra. destruct (C _ _ _ _ _ _ S) as (CX & CY & CZ). specialize (CZ HZ).
    split.
    + exists [w0 + w3; w1 + w4; w2 + w5]%Q. split; [split; [reflexivity|]; split; [cbn [sumQ fold_right]; lra|]; cbn [map ix iy iz fst snd px py pz]; split; [exact (CX HX)|]; split; [exact (CY HY)|cbn [wsum]; ring]|].
      repeat (apply Forall_cons; [lra|]). apply Forall_nil.
    + assert (U : (0 < inject_Z h * (w3 + w4 + w5))%Q) by (apply Qmult_lt_0_compat; lra). assert (U2 : (0 < inject_Z h * (1 - (w3 + w4 + w5)))%Q) by (apply Qmult_lt_0_compat; lra).
      split; apply Qmult_lt_l; try exact Hm; rewrite CZ; lra.
  - intros ((ws & (HL & HS & HX & HY & _) & HF) & HZ1 & HZ2). destruct (len3 HL) as (a & b & c & ->). cbn [sumQ fold_right] in HS. cbn [map ix iy iz fst snd px py pz] in HX, HY.
    rewrite !Forall_cons_iff in HF. destruct HF as (F0 & F1 & F2 & _). assert (S : (a + b + c == 1)%Q) by lra. set (t := ((pz P - inject_Z z) / inject_Z h)%Q).
    destruct (D _ _ _ t S) as (DX & DY & DZ). apply Qmult_lt_l in HZ1, HZ2; try exact Hm. assert (T0 : (0 < t)%Q) by (apply Qlt_shift_div_l; lra). assert (T1 : (t < 1)%Q) by (apply Qlt_shift_div_r; lra).
    assert (EZ : (pz P == inject_Z z + inject_Z h * t)%Q) by (unfold t; field; lra).
    exists [a * (1 - t); b * (1 - t); c * (1 - t); a * t; b * t; c * t]%Q. split; [split; [reflexivity|]; split; [cbn [sumQ fold_right]; transitivity (a + b + c)%Q; [ring|exact S]|]; cbn [map ix iy iz fst snd]; split; [exact (DX HX)|]; split; [exact (DY HY)|exact (DZ EZ)]|].
    repeat (apply Forall_cons; [apply Qmult_lt_0_compat; lra|]). apply Forall_nil.
Qed.
Definition tri_pt (P : pt) : pt := (256 * px P, 256 * py P, 0)%Q.
Lemma hull_prism e P : p_aligned e ->
  (hull (p_vertices e) P <-> hull (vertices false (ptri e)) (tri_pt P) /\ (inject_Z (l_coords (pline e) 0) <= 512 * pz P <= inject_Z (l_coords (pline e) 1))%Q) /\
  (interior (p_vertices e) P <-> interior (vertices false (ptri e)) (tri_pt P) /\ (inject_Z (l_coords (pline e) 0) < 512 * pz P < inject_Z (l_coords (pline e) 1))%Q).
Proof.
  intros A. destruct (p_div A) as (E1 & E2 & E3 & E4 & E5). assert (Hh := p_h_pos A).
  set (u v := ucoord false (ty (ptri e)) v). set (X v := ix (p_a e) + p_h e * ix (u v)). set (Y v := iy (p_a e) + p_h e * iy (u v)).
  assert (EV : p_vertices e = [(X 0, Y 0, iz (p_a e)); (X 1, Y 1, iz (p_a e)); (X 2, Y 2, iz (p_a e)); (X 0, Y 0, iz (p_a e) + p_h e); (X 1, Y 1, iz (p_a e) + p_h e); (X 2, Y 2, iz (p_a e) + p_h e)]).
  { unfold p_vertices, p_corner_numbers. cbn [map]. rewrite !p_vertex_unit by (auto; lia). unfold scale, p_unit. cbn [ix iy iz fst snd].
    change (0 mod 3) with 0. change (1 mod 3) with 1. change (2 mod 3) with 2. change (3 mod 3) with 0. change (4 mod 3) with 1. change (5 mod 3) with 2.
    change (0 / 3) with 0. change (1 / 3) with 0. change (2 / 3) with 0. change (3 / 3) with 1. change (4 / 3) with 1. change (5 / 3) with 1.
    unfold X, Y, u. replace (iz (p_a e) + p_h e * 0) with (iz (p_a e)) by ring. replace (iz (p_a e) + p_h e * 1) with (iz (p_a e) + p_h e) by ring. reflexivity. }
  assert (ET : vertices false (ptri e) = [(256 * X 0, 256 * Y 0, 0); (256 * X 1, 256 * Y 1, 0); (256 * X 2, 256 * Y 2, 0)]).
  { rewrite vertices_unit by apply A. cbn [map corner_numbers]. rewrite E1, E3, E4. rewrite (ag_z0 (proj1 A) eq_refl). unfold scale. cbn [ix iy iz fst snd]. fold (u 0) (u 1) (u 2). unfold X, Y.
    assert (IZ : forall v, iz (u v) = 0). { intros v. unfold u, ucoord, ucoord2. destruct (v =? 0); [reflexivity|]. destruct (v =? 1); [destruct (ty (ptri e) =? 0); reflexivity|reflexivity]. }
    rewrite !IZ. assert (PQ : forall a b c a' b' c' : Z, a = a' -> b = b' -> c = c' -> (a, b, c) = (a', b', c')) by congruence.
    f_equal; [apply PQ; ring|]. f_equal; [apply PQ; ring|]. f_equal. apply PQ; ring. }
  assert (EL : l_coords (pline e) 0 = 512 * iz (p_a e) /\ l_coords (pline e) 1 = 512 * (iz (p_a e) + p_h e)).
  { unfold l_coords. cbn [Z.eqb]. rewrite E2, E5. split; [reflexivity|ring]. }
  destruct EL as [EL0 EL1]. rewrite EV, ET, EL0, EL1. apply (@hull_product (X 0) (X 1) (X 2) (Y 0) (Y 1) (Y 2) (iz (p_a e)) (p_h e) 256 512 P Hh); lia.
Qed.

(** ** the children tile the element *)
Lemma p_children_tile p : p_path p -> zlen p < PMAX ->
  (forall P, hull (p_vertices (p_walk p)) P <-> exists i, 0 <= i < 8 /\ hull (p_vertices (p_child (p_walk p) i)) P) /\
  (forall P i, 0 <= i < 8 -> interior (p_vertices (p_child (p_walk p) i)) P -> interior (p_vertices (p_walk p)) P) /\
  (forall P i j, 0 <= i < 8 -> 0 <= j < 8 -> i <> j ->
     ~ (interior (p_vertices (p_child (p_walk p) i)) P /\ interior (p_vertices (p_child (p_walk p) j)) P)).
Proof.
  intros Hp Hl. assert (A := p_walk_aligned Hp). assert (AC : forall i, 0 <= i < 8 -> p_aligned (p_child (p_walk p) i)).
  { intros i Hi. rewrite <- p_walk_snoc. apply p_walk_aligned, p_path_snoc. auto. }
  destruct (walk_wf (p_t_path Hp)) as [WT LT]. destruct (l_walk_wf (p_l_path Hp)) as [WL LL]. rewrite tpart_len in LT. rewrite lpart_len in LL.
  assert (EP := p_walk_eq p). assert (HT : lv (ptri (p_walk p)) < MAXLEVEL false) by (rewrite EP; cbn [ptri]; change (MAXLEVEL false) with 29; change PMAX with 21 in *; lia).
  assert (HL : 0 <= ll (pline (p_walk p)) < LMAX) by (rewrite EP; cbn [pline]; change LMAX with 30; change PMAX with 21 in *; assert (H := zlen_nonneg p); lia).
  assert (W : wf false (ptri (p_walk p))) by (rewrite EP; exact WT).
  destruct (children_tile W HT) as (T1 & T2 & T3). change (CHILDREN false) with 4 in *.
  assert (PL : forall i, pline (p_child (p_walk p) i) = l_child (pline (p_walk p)) (i / 4)) by reflexivity.
  assert (PT : forall i, ptri (p_child (p_walk p) i) = child false (ptri (p_walk p)) (i mod 4)) by reflexivity.
  split; [|split].
  - intros P. rewrite (proj1 (hull_prism P A)), T1, (l_tile _ HL). split.
    + intros ((i & Hi & HI) & j & Hj & HJ). exists (4 * j + i). split; [lia|]. rewrite (proj1 (hull_prism P (AC (4 * j + i) ltac:(lia)))), PL, PT.
      replace ((4 * j + i) / 4) with j by lia. replace ((4 * j + i) mod 4) with i by lia. auto.
    + intros (i & Hi & HI). rewrite (proj1 (hull_prism P (AC i Hi))), PL, PT in HI. destruct HI as [H1 H2]. split; [exists (i mod 4)|exists (i / 4)]; split; auto; lia.
  - intros P i Hi. rewrite (proj2 (hull_prism P A)), (proj2 (hull_prism P (AC i Hi))), PL, PT. intros [H1 H2]. split.
    + apply (T2 _ (i mod 4)); [lia|exact H1].
    + apply (@l_tile_interior _ (i / 4)); [exact HL|lia|exact H2].
  - intros P i j Hi Hj N. rewrite (proj2 (hull_prism P (AC i Hi))), (proj2 (hull_prism P (AC j Hj))), !PL, !PT. intros [[H1 H2] [H3 H4]].
    destruct (Z.eq_dec (i mod 4) (j mod 4)) as [E|E].
    + apply (@l_tile_disjoint (pline (p_walk p)) (i / 4) (j / 4) (512 * pz P)%Q HL); auto; lia.
    + apply (T3 (tri_pt P) (i mod 4) (j mod 4)); auto; lia.
Qed.
Lemma p_interiors_disjoint p q P : p_path p -> p_path q -> ~ prefix p q -> ~ prefix q p ->
  ~ (interior (p_vertices (p_walk p)) P /\ interior (p_vertices (p_walk q)) P).
Proof.
  intros Hp Hq N1 N2. rewrite (proj2 (hull_prism P (p_walk_aligned Hp))), (proj2 (hull_prism P (p_walk_aligned Hq))), !p_walk_eq. cbn [pline ptri]. intros [[H1 H2] [H3 H4]].
  destruct (incomparable_split N1 N2) as (c & i & j & p' & q' & Hij & Ep & Eq).
  assert (NP : forall (a : list Z) x y u v, x <> y -> ~ prefix (a ++ x :: u) (a ++ y :: v)).
  { intros a x y u v H [w E]. rewrite <- app_assoc in E. apply app_inv_head in E. cbn in E. congruence. }
  destruct (Z.eq_dec (i mod 4) (j mod 4)) as [E|E].
  - apply (@l_disjoint (lpart p) (lpart q) (512 * pz P)%Q); auto using p_l_path; rewrite Ep, Eq, !lpart_app; apply NP; lia.
  - apply (@interiors_disjoint false (tpart p) (tpart q) (tri_pt P)); auto using p_t_path; rewrite Ep, Eq, !tpart_app; apply NP; lia.
Qed.

(** Children of a triangle or tetrahedron tile their parent. *)
From Verif Require Import Prelude PathSpec GeoSpec SimplexModel SimplexSpec BitLemmas SimplexProofs SimplexPathProofs SimplexOrderProofs SimplexGeoProofs.
From Coq Require Import QArith Lqa.
Open Scope Z_scope.

(** ** the hull as a chain of inequalities *)
Definition chain3 (A B C h : Q) : Prop := (0 <= C /\ C <= B /\ B <= A /\ A <= h)%Q.
Definition chain3o (A B C h : Q) : Prop := (0 < C /\ C < B /\ B < A /\ A < h)%Q.
Definition chain2 (A B h : Q) : Prop := (0 <= B /\ B <= A /\ A <= h)%Q.
Definition chain2o (A B h : Q) : Prop := (0 < B /\ B < A /\ A < h)%Q.

Definition order3 (ch : Q -> Q -> Q -> Q -> Prop) (t : Z) (X Y W h : Q) : Prop :=
  if t =? 0 then ch X W Y h else if t =? 1 then ch X Y W h else if t =? 2 then ch Y X W h
  else if t =? 3 then ch Y W X h else if t =? 4 then ch W Y X h else ch W X Y h.
Definition order2 (ch : Q -> Q -> Q -> Prop) (t : Z) (X Y h : Q) : Prop := if t =? 0 then ch X Y h else ch Y X h.

Lemma weights3 (h A B C : Q) : (0 < h)%Q ->
  chain3 A B C h <-> exists w0 w1 w2 w3, (0 <= w0 /\ 0 <= w1 /\ 0 <= w2 /\ 0 <= w3 /\ w0 + w1 + w2 + w3 == 1 /\
     A == h * (w1 + w2 + w3) /\ B == h * (w2 + w3) /\ C == h * w3)%Q.
Proof.
  intros Hh. split.
  - intros (H1 & H2 & H3 & H4). exists ((h - A) / h)%Q, ((A - B) / h)%Q, ((B - C) / h)%Q, (C / h)%Q.
    assert (D : forall n, (0 <= n)%Q -> (0 <= n / h)%Q) by (intros n Hn; apply Qle_shift_div_l; lra).
    repeat split; try (apply D; lra); field; lra.
  - intros (w0 & w1 & w2 & w3 & H0 & H1 & H2 & H3 & S & EA & EB & EC). unfold chain3.
    assert (D1 := Qmult_le_0_compat h w1 ltac:(lra) H1). assert (D2 := Qmult_le_0_compat h w2 ltac:(lra) H2).
    assert (D3 := Qmult_le_0_compat h w3 ltac:(lra) H3). assert (D0 := Qmult_le_0_compat h w0 ltac:(lra) H0).
    assert (Sh : (h * w0 + h * w1 + h * w2 + h * w3 == h)%Q).
    { transitivity (h * (w0 + w1 + w2 + w3))%Q; [ring|]. rewrite S. ring. }
    lra.
Qed.
Lemma Qmult_pos h w : (0 < h)%Q -> (0 < w)%Q -> (0 < h * w)%Q.
Proof. intros. apply Qmult_lt_0_compat; auto. Qed.
Lemma weights3o (h A B C : Q) : (0 < h)%Q ->
  chain3o A B C h <-> exists w0 w1 w2 w3, (0 < w0 /\ 0 < w1 /\ 0 < w2 /\ 0 < w3 /\ w0 + w1 + w2 + w3 == 1 /\
     A == h * (w1 + w2 + w3) /\ B == h * (w2 + w3) /\ C == h * w3)%Q.
Proof.
  intros Hh. split.
  - intros (H1 & H2 & H3 & H4). exists ((h - A) / h)%Q, ((A - B) / h)%Q, ((B - C) / h)%Q, (C / h)%Q.
    assert (D : forall n, (0 < n)%Q -> (0 < n / h)%Q) by (intros n Hn; apply Qlt_shift_div_l; lra).
    repeat split; try (apply D; lra); field; lra.
  - intros (w0 & w1 & w2 & w3 & H0 & H1 & H2 & H3 & S & EA & EB & EC). unfold chain3o.
    assert (D1 := Qmult_pos Hh H1). assert (D2 := Qmult_pos Hh H2). assert (D3 := Qmult_pos Hh H3). assert (D0 := Qmult_pos Hh H0).
    assert (Sh : (h * w0 + h * w1 + h * w2 + h * w3 == h)%Q).
    { transitivity (h * (w0 + w1 + w2 + w3))%Q; [ring|]. rewrite S. ring. }
    lra.
Qed.
Lemma weights2 (h A B : Q) : (0 < h)%Q ->
  chain2 A B h <-> exists w0 w1 w2, (0 <= w0 /\ 0 <= w1 /\ 0 <= w2 /\ w0 + w1 + w2 == 1 /\ A == h * (w1 + w2) /\ B == h * w2)%Q.
Proof.
  intros Hh. split.
  - intros (H1 & H2 & H3). exists ((h - A) / h)%Q, ((A - B) / h)%Q, (B / h)%Q.
    assert (D : forall n, (0 <= n)%Q -> (0 <= n / h)%Q) by (intros n Hn; apply Qle_shift_div_l; lra).
    repeat split; try (apply D; lra); field; lra.
  - intros (w0 & w1 & w2 & H0 & H1 & H2 & S & EA & EB). unfold chain2.
    assert (D1 := Qmult_le_0_compat h w1 ltac:(lra) H1). assert (D2 := Qmult_le_0_compat h w2 ltac:(lra) H2).
    assert (D0 := Qmult_le_0_compat h w0 ltac:(lra) H0).
    assert (Sh : (h * w0 + h * w1 + h * w2 == h)%Q).
    { transitivity (h * (w0 + w1 + w2))%Q; [ring|]. rewrite S. ring. }
    lra.
Qed.
Lemma weights2o (h A B : Q) : (0 < h)%Q ->
  chain2o A B h <-> exists w0 w1 w2, (0 < w0 /\ 0 < w1 /\ 0 < w2 /\ w0 + w1 + w2 == 1 /\ A == h * (w1 + w2) /\ B == h * w2)%Q.
Proof.
  intros Hh. split.
  - intros (H1 & H2 & H3). exists ((h - A) / h)%Q, ((A - B) / h)%Q, (B / h)%Q.
    assert (D : forall n, (0 < n)%Q -> (0 < n / h)%Q) by (intros n Hn; apply Qlt_shift_div_l; lra).
    repeat split; try (apply D; lra); field; lra.
  - intros (w0 & w1 & w2 & H0 & H1 & H2 & S & EA & EB). unfold chain2o.
    assert (D1 := Qmult_pos Hh H1). assert (D2 := Qmult_pos Hh H2). assert (D0 := Qmult_pos Hh H0).
    assert (Sh : (h * w0 + h * w1 + h * w2 == h)%Q).
    { transitivity (h * (w0 + w1 + w2))%Q; [ring|]. rewrite S. ring. }
    lra.
Qed.

(** ** vertices in unit coordinates *)
Definition ucoord3 (t v : Z) : ipt :=
  let e i := if i =? 0 then (1, 0, 0) else if i =? 1 then (0, 1, 0) else (0, 0, 1) in
  let add (a b : ipt) := (ix a + ix b, iy a + iy b, iz a + iz b) in
  let ei := t / 2 in let ej := (ei + (if t mod 2 =? 0 then 2 else 1)) mod 3 in
  if v =? 0 then (0, 0, 0) else if v =? 1 then e ei else if v =? 2 then add (e ei) (e ej) else (1, 1, 1).
Definition ucoord2 (t v : Z) : ipt :=
  if v =? 0 then (0, 0, 0) else if v =? 1 then (if t =? 0 then (1, 0, 0) else (0, 1, 0)) else (1, 1, 0).
Definition ucoord (tet : bool) (t v : Z) : ipt := if tet then ucoord3 t v else ucoord2 t v.
Definition scale (h : Z) (o u : ipt) : ipt := (ix o + h * ix u, iy o + h * iy u, iz o + h * iz u).

Ltac eval_closed := match goal with
  | |- context [Z.modulo ?a ?b] => let v := eval vm_compute in (Z.modulo a b) in is_lit v; change (Z.modulo a b) with v
  | |- context [Z.sub ?a ?b] => let v := eval vm_compute in (Z.sub a b) in is_lit v; change (Z.sub a b) with v
  | |- context [Z.div ?a ?b] => let v := eval vm_compute in (Z.div a b) in is_lit v; change (Z.div a b) with v
  end.
Lemma coords_unit tet e v : 0 <= ty e < NUM_TYPES tet -> 0 <= v < CORNERS tet ->
  compute_integer_coords tet e v = scale (LEN tet (lv e)) (sx e, sy e, sz e) (ucoord tet (ty e) v).
Proof.
  intros Ht Hv. unfold compute_integer_coords, scale. destruct e as [l t x y z]; cbn [lv ty sx sy sz] in *.
  set (h := LEN tet l). clearbody h. destruct tet; cbn [NUM_TYPES CORNERS] in *; split_range Ht; split_range Hv;
    cbv beta iota zeta delta [ucoord ucoord3 ucoord2 ix iy iz fst snd]; repeat (eval_closed; cbn -[Z.mul Z.add Z.modulo Z.div Z.sub]);
    cbn -[Z.mul Z.add Z.modulo Z.div Z.sub]; repeat f_equal; lia.
Qed.

Lemma vertices_unit tet e : 0 <= ty e < NUM_TYPES tet ->
  vertices tet e = map (fun v => scale (LEN tet (lv e)) (sx e, sy e, sz e) (ucoord tet (ty e) v)) (corner_numbers tet).
Proof.
  intros Ht. unfold vertices. apply map_ext_in. intros v Hv. apply coords_unit; auto.
  destruct tet; cbn in *; intuition lia.
Qed.

Lemma inject_Z_lt0 h : 0 < h -> (0 < inject_Z h)%Q.
Proof. intros. change 0%Q with (inject_Z 0). rewrite <- Zlt_Qlt. exact H. Qed.

Local Ltac inj := rewrite ?inject_Z_plus, ?inject_Z_mult in *.

Lemma len4 {A} (ws : list A) : length ws = 4%nat -> exists a b c d, ws = [a; b; c; d].
Proof. destruct ws as [|a [|b [|c [|d [|e ws]]]]]; cbn; try discriminate. eauto. Qed.
Lemma len3 {A} (ws : list A) : length ws = 3%nat -> exists a b c, ws = [a; b; c].
Proof. destruct ws as [|a [|b [|c [|d ws]]]]; cbn; try discriminate. eauto. Qed.

(** weighted sums of the four vertices of a tetrahedron *)
Lemma comb3 h x (w0 w1 w2 w3 : Q) u0 u1 u2 u3 : (w0 + w1 + w2 + w3 == 1)%Q ->
  (wsum [w0; w1; w2; w3] [x + h * u0; x + h * u1; x + h * u2; x + h * u3]%Z ==
   inject_Z x + inject_Z h * (w0 * inject_Z u0 + w1 * inject_Z u1 + w2 * inject_Z u2 + w3 * inject_Z u3))%Q.
Proof.
  intros S. cbn [wsum]. rewrite !inject_Z_plus, !inject_Z_mult.
  transitivity (inject_Z x * (w0 + w1 + w2 + w3) + inject_Z h * (w0 * inject_Z u0 + w1 * inject_Z u1 + w2 * inject_Z u2 + w3 * inject_Z u3))%Q; [ring|].
  rewrite S. ring.
Qed.
Lemma comb2 h x (w0 w1 w2 : Q) u0 u1 u2 : (w0 + w1 + w2 == 1)%Q ->
  (wsum [w0; w1; w2] [x + h * u0; x + h * u1; x + h * u2]%Z ==
   inject_Z x + inject_Z h * (w0 * inject_Z u0 + w1 * inject_Z u1 + w2 * inject_Z u2))%Q.
Proof.
  intros S. cbn [wsum]. rewrite !inject_Z_plus, !inject_Z_mult.
  transitivity (inject_Z x * (w0 + w1 + w2) + inject_Z h * (w0 * inject_Z u0 + w1 * inject_Z u1 + w2 * inject_Z u2))%Q; [ring|].
  rewrite S. ring.
Qed.

Ltac eval_u := repeat match goal with
  | |- context [inject_Z (?f (ucoord ?b ?t ?v))] => let w := eval vm_compute in (f (ucoord b t v)) in change (f (ucoord b t v)) with w
  end; change (inject_Z 0) with 0%Q; change (inject_Z 1) with 1%Q.
(** ** the hull of an element is a chain of inequalities *)
Lemma hull_tet e P : 0 <= ty e < 6 -> lv e <= MAXLEVEL true ->
  let h := inject_Z (LEN true (lv e)) in
  let X := (px P - inject_Z (sx e))%Q in let Y := (py P - inject_Z (sy e))%Q in let W := (pz P - inject_Z (sz e))%Q in
  (hull (vertices true e) P <-> order3 chain3 (ty e) X Y W h) /\
  (interior (vertices true e) P <-> order3 chain3o (ty e) X Y W h).
Proof.
  intros Ht Hl. cbn zeta. rewrite vertices_unit by exact Ht. rewrite LEN_pow by auto.
  set (h := 2 ^ (MAXLEVEL true - lv e)). assert (Hh : 0 < h) by (apply pow2_pos; lia). apply inject_Z_lt0 in Hh.
  set (t := ty e) in *. clearbody t h. destruct e as [l t0 x y z]. cbn [sx sy sz]. clear t0 l Hl.
  unfold hull, interior, combination, order3, corner_numbers. cbn [map length].
  split; (split; [intros (ws & (HL & HS & HX & HY & HZ) & HF); destruct (len4 HL) as (w0 & w1 & w2 & w3 & ->);
      cbn [sumQ fold_right] in HS; assert (S : (w0 + w1 + w2 + w3 == 1)%Q) by lra;
      inversion HF as [|? ? F0 HF1]; subst; inversion HF1 as [|? ? F1 HF2]; subst; inversion HF2 as [|? ? F2 HF3]; subst; inversion HF3 as [|? ? F3 HF4]; subst;
      unfold scale in *; cbn [map ix iy iz fst snd] in *; rewrite comb3 in HX, HY, HZ by exact S;
      split_range Ht; cbn [Z.eqb Pos.eqb];
      (refine (proj2 (@weights3 _ _ _ _ Hh) _) || refine (proj2 (@weights3o _ _ _ _ Hh) _));
      exists w0, w1, w2, w3; repeat split; auto; rewrite ?HX, ?HY, ?HZ; cbn; ring
    | intros HC; split_range Ht; cbn [Z.eqb Pos.eqb] in HC; (apply (proj1 (@weights3 _ _ _ _ Hh)) in HC || apply (proj1 (@weights3o _ _ _ _ Hh)) in HC);
      destruct HC as (w0 & w1 & w2 & w3 & F0 & F1 & F2 & F3 & S & EA & EB & EC); exists [w0; w1; w2; w3]; (split; [|repeat first [apply Forall_nil | apply Forall_cons; [assumption|]]]);
      (split; [reflexivity|]); (split; [cbn [sumQ fold_right]; lra|]); unfold scale; cbn [map ix iy iz fst snd];
      rewrite !comb3 by exact S; eval_u; repeat split; lra ]).
Qed.

Lemma hull_tri e P : 0 <= ty e < 2 -> lv e <= MAXLEVEL false -> sz e = 0 -> 
  let h := inject_Z (LEN false (lv e)) in
  let X := (px P - inject_Z (sx e))%Q in let Y := (py P - inject_Z (sy e))%Q in
  (hull (vertices false e) P <-> order2 chain2 (ty e) X Y h /\ (pz P == 0)%Q) /\
  (interior (vertices false e) P <-> order2 chain2o (ty e) X Y h /\ (pz P == 0)%Q).
Proof.
  intros Ht Hl Hz. cbn zeta. rewrite vertices_unit by exact Ht. rewrite LEN_pow by auto.
  set (h := 2 ^ (MAXLEVEL false - lv e)). assert (Hh : 0 < h) by (apply pow2_pos; lia). apply inject_Z_lt0 in Hh.
  set (t := ty e) in *. clearbody t h. destruct e as [l t0 x y z]. cbn [sx sy sz] in *. subst z. clear t0 l Hl.
  unfold hull, interior, combination, order2, corner_numbers. cbn [map length].
  split; (split; [intros (ws & (HL & HS & HX & HY & HZ) & HF); destruct (len3 HL) as (w0 & w1 & w2 & ->);
      cbn [sumQ fold_right] in HS; assert (S : (w0 + w1 + w2 == 1)%Q) by lra;
      inversion HF as [|? ? F0 HF1]; subst; inversion HF1 as [|? ? F1 HF2]; subst; inversion HF2 as [|? ? F2 HF3]; subst;
      unfold scale in *; cbn [map ix iy iz fst snd] in *; rewrite comb2 in HX, HY, HZ by exact S;
      split_range Ht; cbn [Z.eqb Pos.eqb]; (split; [|rewrite HZ; cbn; ring]);
      (refine (proj2 (@weights2 _ _ _ Hh) _) || refine (proj2 (@weights2o _ _ _ Hh) _));
      exists w0, w1, w2; repeat split; auto; rewrite ?HX, ?HY; cbn; ring
    | intros [HC HZ]; split_range Ht; cbn [Z.eqb Pos.eqb] in HC; (apply (proj1 (@weights2 _ _ _ Hh)) in HC || apply (proj1 (@weights2o _ _ _ Hh)) in HC);
      destruct HC as (w0 & w1 & w2 & F0 & F1 & F2 & S & EA & EB); exists [w0; w1; w2]; (split; [|repeat first [apply Forall_nil | apply Forall_cons; [assumption|]]]);
      (split; [reflexivity|]); (split; [cbn [sumQ fold_right]; lra|]); unfold scale; cbn [map ix iy iz fst snd];
      rewrite !comb2 by exact S; eval_u; repeat split; lra ]).
Qed.

(** ** tiling *)
Definition bq (b : bool) (g : Q) : Q := if b then g else 0%Q.
(** child i of a parent of type t and length 2g, in coordinates relative to the parent's anchor *)
Definition child_order (ch : Q -> Q -> Q -> Q -> Prop) (t i : Z) (X Y W g : Q) : Prop :=
  let c := Tc true t i in
  order3 ch (Tt true t i) (X - bq (Z.testbit c 0) g) (Y - bq (Z.testbit c 1) g) (W - bq (Z.testbit c 2) g) g.
Definition child_order2 (ch : Q -> Q -> Q -> Prop) (t i : Z) (X Y g : Q) : Prop :=
  let c := Tc false t i in
  order2 ch (Tt false t i) (X - bq (Z.testbit c 0) g) (Y - bq (Z.testbit c 1) g) g.

Ltac red_order H := cbv -[Qminus Qle Qlt Qmult Z.le Z.lt] in H.
Ltac red_goal := cbv -[Qminus Qle Qlt Qmult Z.le Z.lt].
Ltac try_child i := exists i; split; [lia|]; red_goal; repeat split; lra.
Ltac try_children := first [try_child 0 | try_child 1 | try_child 2 | try_child 3 | try_child 4 | try_child 5 | try_child 6 | try_child 7].

Lemma cover_chain (A B C g : Q) (G : Prop) : chain3 A B C (2 * g) ->
  (chain3 A B C g -> G) ->
  (chain3 B C (A - g) g -> G) -> (chain3 B (A - g) C g -> G) -> (chain3 (A - g) B C g -> G) ->
  (chain3 C (A - g) (B - g) g -> G) -> (chain3 (A - g) C (B - g) g -> G) -> (chain3 (A - g) (B - g) C g -> G) ->
  (chain3 (A - g) (B - g) (C - g) g -> G) -> G.
Proof.
  unfold chain3. intros (H1 & H2 & H3 & H4) K1 K2 K3 K4 K5 K6 K7 K8.
  destruct (Qlt_le_dec A g); [apply K1; lra|]. destruct (Qlt_le_dec B g).
  - destruct (Qlt_le_dec (A - g) C); [apply K2; lra|]. destruct (Qlt_le_dec (A - g) B); [apply K3; lra|apply K4; lra].
  - destruct (Qlt_le_dec C g); [|apply K8; lra].
    destruct (Qlt_le_dec (A - g) C); [apply K5; lra|]. destruct (Qlt_le_dec (B - g) C); [apply K6; lra|apply K7; lra].
Qed.
Lemma cover3 t X Y W g : 0 <= t < 6 -> (0 < g)%Q -> order3 chain3 t X Y W (2 * g) -> exists i, 0 <= i < 8 /\ child_order chain3 t i X Y W g.
Proof.
  intros Ht Hg H. split_range Ht; unfold order3 in H; cbn [Z.eqb Pos.eqb] in H; apply (cover_chain H); clear H; intros H; unfold chain3 in H;
    try_children.
Qed.
Lemma cover2 t X Y g : 0 <= t < 2 -> (0 < g)%Q -> order2 chain2 t X Y (2 * g) -> exists i, 0 <= i < 4 /\ child_order2 chain2 t i X Y g.
Proof.
  intros Ht Hg H. split_range Ht; unfold order2, chain2 in H; cbn [Z.eqb Pos.eqb] in H;
    destruct (Qlt_le_dec X g), (Qlt_le_dec Y g), (Qlt_le_dec (X - g) Y), (Qlt_le_dec (Y - g) X); try lra;
    first [try_child 0 | try_child 1 | try_child 2 | try_child 3].
Qed.
Lemma contain3 t i X Y W g : 0 <= t < 6 -> 0 <= i < 8 -> (0 < g)%Q ->
  (child_order chain3 t i X Y W g -> order3 chain3 t X Y W (2 * g)) /\
  (child_order chain3o t i X Y W g -> order3 chain3o t X Y W (2 * g)).
Proof.
  intros Ht Hi Hg. split_range Ht; split_range Hi; split; intros H; red_order H; red_goal; lra.
Qed.
Lemma contain2 t i X Y g : 0 <= t < 2 -> 0 <= i < 4 -> (0 < g)%Q ->
  (child_order2 chain2 t i X Y g -> order2 chain2 t X Y (2 * g)) /\
  (child_order2 chain2o t i X Y g -> order2 chain2o t X Y (2 * g)).
Proof.
  intros Ht Hi Hg. split_range Ht; split_range Hi; split; intros H; red_order H; red_goal; lra.
Qed.
Lemma disjoint3 t i j X Y W g : 0 <= t < 6 -> 0 <= i < 8 -> 0 <= j < 8 -> i < j -> (0 < g)%Q ->
  child_order chain3o t i X Y W g -> child_order chain3o t j X Y W g -> False.
Proof.
  intros Ht Hi Hj Hij Hg. split_range Ht; split_range Hi; split_range Hj; try (exfalso; lia); clear; intros H K; red_order H; red_order K; lra.
Qed.
Lemma disjoint2 t i j X Y g : 0 <= t < 2 -> 0 <= i < 4 -> 0 <= j < 4 -> i < j -> (0 < g)%Q ->
  child_order2 chain2o t i X Y g -> child_order2 chain2o t j X Y g -> False.
Proof.
  intros Ht Hi Hj Hij Hg. split_range Ht; split_range Hi; split_range Hj; try (exfalso; lia); clear; intros H K; red_order H; red_order K; lra.
Qed.

Lemma LEN_half tet l : l < MAXLEVEL tet -> LEN tet l = 2 * LEN tet (l + 1).
Proof. intros. rewrite !LEN_pow by lia. rewrite <- pow2_S by lia. f_equal. lia. Qed.
Lemma LEN_pos tet l : l <= MAXLEVEL tet -> 0 < LEN tet l.
Proof. intros. rewrite LEN_pow by lia. apply pow2_pos. lia. Qed.

Lemma bq_inj b g : (inject_Z (Z.b2z b * g) == bq b (inject_Z g))%Q.
Proof. destruct b; cbn [Z.b2z bq]; [rewrite Z.mul_1_l|]; reflexivity. Qed.

#[global] Instance chain3_proper : Proper (Qeq ==> Qeq ==> Qeq ==> Qeq ==> iff) chain3.
Proof. intros a b E c d F i j G k l H. unfold chain3. rewrite E, F, G, H. reflexivity. Qed.
#[global] Instance chain3o_proper : Proper (Qeq ==> Qeq ==> Qeq ==> Qeq ==> iff) chain3o.
Proof. intros a b E c d F i j G k l H. unfold chain3o. rewrite E, F, G, H. reflexivity. Qed.
#[global] Instance chain2_proper : Proper (Qeq ==> Qeq ==> Qeq ==> iff) chain2.
Proof. intros a b E c d F i j G. unfold chain2. rewrite E, F, G. reflexivity. Qed.
#[global] Instance chain2o_proper : Proper (Qeq ==> Qeq ==> Qeq ==> iff) chain2o.
Proof. intros a b E c d F i j G. unfold chain2o. rewrite E, F, G. reflexivity. Qed.
Lemma order3_proper ch t X Y W h X' Y' W' h' : Proper (Qeq ==> Qeq ==> Qeq ==> Qeq ==> iff) ch ->
  (X == X')%Q -> (Y == Y')%Q -> (W == W')%Q -> (h == h')%Q -> order3 ch t X Y W h <-> order3 ch t X' Y' W' h'.
Proof. intros PR E1 E2 E3 E4. unfold order3. repeat match goal with |- context [if ?b then _ else _] => destruct b end; rewrite E1, E2, E3, E4; reflexivity. Qed.
Lemma order2_proper ch t X Y h X' Y' h' : Proper (Qeq ==> Qeq ==> Qeq ==> iff) ch ->
  (X == X')%Q -> (Y == Y')%Q -> (h == h')%Q -> order2 ch t X Y h <-> order2 ch t X' Y' h'.
Proof. intros PR E1 E2 E4. unfold order2. repeat match goal with |- context [if ?b then _ else _] => destruct b end; rewrite E1, E2, E4; reflexivity. Qed.

Lemma hull_child_tet e i P : wf true e -> lv e < MAXLEVEL true -> 0 <= i < 8 ->
  let g := inject_Z (LEN true (lv e + 1)) in
  let X := (px P - inject_Z (sx e))%Q in let Y := (py P - inject_Z (sy e))%Q in let W := (pz P - inject_Z (sz e))%Q in
  (hull (vertices true (child true e i)) P <-> child_order chain3 (ty e) i X Y W g) /\
  (interior (vertices true (child true e i)) P <-> child_order chain3o (ty e) i X Y W g).
Proof.
  intros We Hl Hi. cbn zeta. assert (W := wf_child We Hl Hi). destruct (@hull_tet (child true e i) P (wf_ty W) (proj2 (wf_lv W))) as [H1 H2].
  cbn zeta in *. rewrite H1, H2. rewrite child_step by (auto; apply We).
  change (lv (step true e (Tt true (ty e) i) (Tc true (ty e) i))) with (lv e + 1).
  change (ty (step true e (Tt true (ty e) i) (Tc true (ty e) i))) with (Tt true (ty e) i).
  rewrite (proj1 (coordfn_x true)), (proj1 (coordfn_y true)), (proj1 coordfn_z).
  replace (2 ^ (MAXLEVEL true - lv e - 1)) with (LEN true (lv e + 1)) by (rewrite LEN_pow by lia; f_equal; lia).
  unfold child_order. split; apply order3_proper; try apply chain3_proper; try apply chain3o_proper; try reflexivity;
    rewrite inject_Z_plus, bq_inj; ring.
Qed.
Lemma hull_child_tri e i P : wf false e -> lv e < MAXLEVEL false -> 0 <= i < 4 ->
  let g := inject_Z (LEN false (lv e + 1)) in
  let X := (px P - inject_Z (sx e))%Q in let Y := (py P - inject_Z (sy e))%Q in
  (hull (vertices false (child false e i)) P <-> child_order2 chain2 (ty e) i X Y g /\ (pz P == 0)%Q) /\
  (interior (vertices false (child false e i)) P <-> child_order2 chain2o (ty e) i X Y g /\ (pz P == 0)%Q).
Proof.
  intros We Hl Hi. cbn zeta. assert (W := wf_child We Hl Hi).
  destruct (@hull_tri (child false e i) P (wf_ty W) (proj2 (wf_lv W)) (wf_z0 W eq_refl)) as [H1 H2].
  cbn zeta in *. rewrite H1, H2. rewrite child_step by (auto; apply We).
  change (lv (step false e (Tt false (ty e) i) (Tc false (ty e) i))) with (lv e + 1).
  change (ty (step false e (Tt false (ty e) i) (Tc false (ty e) i))) with (Tt false (ty e) i).
  rewrite (proj1 (coordfn_x false)), (proj1 (coordfn_y false)).
  replace (2 ^ (MAXLEVEL false - lv e - 1)) with (LEN false (lv e + 1)) by (rewrite LEN_pow by lia; f_equal; lia).
  unfold child_order2. split; (rewrite order2_proper; [reflexivity| | | |]); try apply chain2_proper; try apply chain2o_proper; try reflexivity;
    rewrite inject_Z_plus, bq_inj; ring.
Qed.

Lemma LEN_half_Q tet l : l < MAXLEVEL tet -> (inject_Z (LEN tet l) == 2 * inject_Z (LEN tet (l + 1)))%Q.
Proof. intros. rewrite LEN_half by auto. rewrite inject_Z_mult. reflexivity. Qed.

Lemma children_tile tet e : wf tet e -> lv e < MAXLEVEL tet ->
  (forall P, hull (vertices tet e) P <-> exists i, 0 <= i < CHILDREN tet /\ hull (vertices tet (child tet e i)) P) /\
  (forall P i, 0 <= i < CHILDREN tet -> interior (vertices tet (child tet e i)) P -> interior (vertices tet e) P) /\
  (forall P i j, 0 <= i < CHILDREN tet -> 0 <= j < CHILDREN tet -> i <> j ->
     ~ (interior (vertices tet (child tet e i)) P /\ interior (vertices tet (child tet e j)) P)).
Proof.
  intros W Hl. assert (Hg := @LEN_pos tet (lv e + 1) ltac:(lia)). apply inject_Z_lt0 in Hg. assert (HQ := LEN_half_Q Hl). destruct tet.
  - assert (Ht := wf_ty W). cbn [NUM_TYPES CHILDREN] in *.
    assert (E : forall P, (hull (vertices true e) P <-> order3 chain3 (ty e) (px P - inject_Z (sx e)) (py P - inject_Z (sy e)) (pz P - inject_Z (sz e)) (2 * inject_Z (LEN true (lv e + 1)))) /\
      (interior (vertices true e) P <-> order3 chain3o (ty e) (px P - inject_Z (sx e)) (py P - inject_Z (sy e)) (pz P - inject_Z (sz e)) (2 * inject_Z (LEN true (lv e + 1))))).
    { intros P. destruct (@hull_tet e P Ht ltac:(lia)) as [H1 H2]. cbn zeta in *. rewrite H1, H2.
      split; apply order3_proper; try apply chain3_proper; try apply chain3o_proper; auto; reflexivity. }
    repeat split.
    + intros H. apply E in H. destruct (cover3 Ht Hg H) as (i & Hi & HC). exists i. split; auto.
      now apply hull_child_tet.
    + intros (i & Hi & HC). apply hull_child_tet in HC; auto. apply E. eapply contain3; eauto.
    + intros P i Hi HC. apply hull_child_tet in HC; auto. apply E. eapply contain3; eauto.
    + intros P i j Hi Hj Hij [HC1 HC2]. apply hull_child_tet in HC1; auto. apply hull_child_tet in HC2; auto.
      destruct (Z_lt_le_dec i j); [eapply (@disjoint3 (ty e) i j)|eapply (@disjoint3 (ty e) j i)]; eauto; lia.
  - assert (Ht := wf_ty W). cbn [NUM_TYPES CHILDREN] in *. assert (Z0 := wf_z0 W eq_refl).
    assert (E : forall P, (hull (vertices false e) P <-> order2 chain2 (ty e) (px P - inject_Z (sx e)) (py P - inject_Z (sy e)) (2 * inject_Z (LEN false (lv e + 1))) /\ (pz P == 0)%Q) /\
      (interior (vertices false e) P <-> order2 chain2o (ty e) (px P - inject_Z (sx e)) (py P - inject_Z (sy e)) (2 * inject_Z (LEN false (lv e + 1))) /\ (pz P == 0)%Q)).
    { intros P. destruct (@hull_tri e P Ht ltac:(lia) Z0) as [H1 H2]. cbn zeta in *. rewrite H1, H2.
      split; (rewrite order2_proper; [reflexivity| | | |]); try apply chain2_proper; try apply chain2o_proper; auto; reflexivity. }
    repeat split.
    + intros H. apply E in H. destruct H as [H HZ]. destruct (cover2 Ht Hg H) as (i & Hi & HC). exists i. split; auto.
      now apply hull_child_tri.
    + intros (i & Hi & HC). apply hull_child_tri in HC; auto. destruct HC as [HC HZ]. apply E. split; auto. eapply contain2; eauto.
    + intros P i Hi HC. apply hull_child_tri in HC; auto. destruct HC as [HC HZ]. apply E. split; auto. eapply contain2; eauto.
    + intros P i j Hi Hj Hij [HC1 HC2]. apply hull_child_tri in HC1; auto. apply hull_child_tri in HC2; auto.
      destruct HC1 as [HC1 _], HC2 as [HC2 _].
      destruct (Z_lt_le_dec i j); [eapply (@disjoint2 (ty e) i j)|eapply (@disjoint2 (ty e) j i)]; eauto; lia.
Qed.

(** descendants of any depth *)
Lemma hull_prefix tet p q P : tree_path tet q -> prefix p q ->
  (hull (vertices tet (walk tet q)) P -> hull (vertices tet (walk tet p)) P) /\
  (interior (vertices tet (walk tet q)) P -> interior (vertices tet (walk tet p)) P).
Proof.
  intros Hq (r & ->). induction r as [|i r IH] using rev_ind; [now rewrite app_nil_r|].
  rewrite app_assoc in *. apply tree_path_snoc in Hq. destruct Hq as (Hq & Hi & Hl). destruct (walk_wf Hq) as [W L].
  destruct (@children_tile tet _ W ltac:(lia)) as (C1 & C2 & _). specialize (IH Hq). rewrite walk_snoc. split; intros H; apply IH.
  - apply C1. eauto.
  - eapply C2; eauto.
Qed.

Lemma hull_cover tet p n P : tree_path tet p -> zlen p + Z.of_nat n <= MAXLEVEL tet -> hull (vertices tet (walk tet p)) P ->
  exists r, length r = n /\ tree_path tet (p ++ r) /\ hull (vertices tet (walk tet (p ++ r))) P.
Proof.
  intros Hp. induction n as [|n IH]; intros Hn HP.
  - exists []. rewrite app_nil_r. auto.
  - destruct (IH ltac:(lia) HP) as (r & Lr & Hr & HPr). destruct (walk_wf Hr) as [W L].
    assert (Lz : zlen (p ++ r) = zlen p + Z.of_nat n) by (rewrite zlen_app; unfold zlen; lia).
    destruct (@children_tile tet _ W ltac:(lia)) as (C1 & _). apply C1 in HPr. destruct HPr as (i & Hi & HPi).
    exists (r ++ [i]). rewrite app_length, Lr. split; [cbn; lia|]. rewrite app_assoc, walk_snoc. split; auto.
    apply tree_path_snoc. repeat split; auto; try lia; try apply Hr.
Qed.

(** the first difference of two incomparable paths *)
Lemma incomparable_split (p q : list Z) : ~ prefix p q -> ~ prefix q p ->
  exists c i j p' q', i <> j /\ p = c ++ i :: p' /\ q = c ++ j :: q'.
Proof.
  revert q. induction p as [|i p IH]; intros q Hpq Hqp.
  - exfalso. apply Hpq. now exists q.
  - destruct q as [|j q]. { exfalso. apply Hqp. now exists (i :: p). }
    destruct (Z.eq_dec i j) as [->|Hne].
    + destruct (IH q) as (c & a & b & p' & q' & Hab & -> & ->).
      * intros (r & ->). apply Hpq. now exists r.
      * intros (r & ->). apply Hqp. now exists r.
      * exists (j :: c), a, b, p', q'. auto.
    + exists [], i, j, p, q. auto.
Qed.

Lemma interiors_disjoint tet p q P : tree_path tet p -> tree_path tet q -> ~ prefix p q -> ~ prefix q p ->
  ~ (interior (vertices tet (walk tet p)) P /\ interior (vertices tet (walk tet q)) P).
Proof.
  intros Hp Hq N1 N2 [I1 I2]. destruct (incomparable_split N1 N2) as (c & i & j & p' & q' & Hij & Ep & Eq).
  assert (Hp' : tree_path tet (c ++ [i])).
  { replace (c ++ [i]) with (firstn (length (c ++ [i])) p); [now apply tree_path_firstn|].
    rewrite Ep. replace (c ++ i :: p') with ((c ++ [i]) ++ p') by now rewrite <- app_assoc.
    rewrite firstn_app, Nat.sub_diag, firstn_all. now rewrite app_nil_r. }
  assert (Hq' : tree_path tet (c ++ [j])).
  { replace (c ++ [j]) with (firstn (length (c ++ [j])) q); [now apply tree_path_firstn|].
    rewrite Eq. replace (c ++ j :: q') with ((c ++ [j]) ++ q') by now rewrite <- app_assoc.
    rewrite firstn_app, Nat.sub_diag, firstn_all. now rewrite app_nil_r. }
  apply (@hull_prefix tet (c ++ [i]) p) in I1; [|auto|exists p'; now rewrite Ep, <- app_assoc].
  apply (@hull_prefix tet (c ++ [j]) q) in I2; [|auto|exists q'; now rewrite Eq, <- app_assoc].
  rewrite walk_snoc in *. apply tree_path_snoc in Hp', Hq'. destruct Hp' as (Hc & Hi & Hl), Hq' as (_ & Hj & _).
  destruct (walk_wf Hc) as [W L]. destruct (@children_tile tet _ W ltac:(lia)) as (_ & _ & C3).
  eapply (C3 P i j); eauto.
Qed.

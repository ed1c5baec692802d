(** The geometry of the elements of a pyramid tree: closed and open elements as inequalities, children tile their parent. *)
From Coq Require Import QArith Lqa.
From Verif Require Import Prelude PathSpec GeoSpec SimplexModel SimplexSpec BitLemmas SimplexProofs SimplexPathProofs SimplexOrderProofs SimplexGeoProofs SimplexTileProofs.
From Verif Require Import PyramidModel PyramidSpec PyramidGeoSpec PyramidProofs PyramidIdProofs PyramidOrderProofs.
Open Scope Z_scope.

Definition ch6 (X Y W h : Q) : Prop := (0 <= W /\ W <= X /\ X <= h /\ W <= Y /\ Y <= h)%Q.
Definition ch6o (X Y W h : Q) : Prop := (0 < W /\ W < X /\ X < h /\ W < Y /\ Y < h)%Q.
Definition ch7 (X Y W h : Q) : Prop := (0 <= X /\ X <= W /\ 0 <= Y /\ Y <= W /\ W <= h)%Q.
Definition ch7o (X Y W h : Q) : Prop := (0 < X /\ X < W /\ 0 < Y /\ Y < W /\ W < h)%Q.
Definition reg (t : Z) (X Y W h : Q) : Prop := if t <? 6 then order3 chain3 t X Y W h else if t =? 6 then ch6 X Y W h else ch7 X Y W h.
Definition rego (t : Z) (X Y W h : Q) : Prop := if t <? 6 then order3 chain3o t X Y W h else if t =? 6 then ch6o X Y W h else ch7o X Y W h.

Lemma weights6 (h X Y W : Q) : (0 < h)%Q -> ch6 X Y W h <-> exists w0 w1 w2 w3 w4, (0 <= w0 /\ 0 <= w1 /\ 0 <= w2 /\ 0 <= w3 /\ 0 <= w4 /\ w0 + w1 + w2 + w3 + w4 == 1 /\
     X == h * (w1 + w3 + w4) /\ Y == h * (w2 + w3 + w4) /\ W == h * w4)%Q.
Proof.
  intros Hh. split.
  - intros (H1 & H2 & H3 & H4 & H5). destruct (Qlt_le_dec W h) as [C|C].
    + set (s := (h - W)%Q). assert (Hs : (0 < h * s)%Q) by (apply Qmult_pos; unfold s; lra).
      assert (D : forall n m, (0 <= n)%Q -> (0 <= m)%Q -> (0 <= n * m / (h * s))%Q) by (intros n m Hn Hm; apply Qle_shift_div_l; [exact Hs|]; rewrite Qmult_0_l; now apply Qmult_le_0_compat).
      exists ((h - X) * (h - Y) / (h * s))%Q, ((X - W) * (h - Y) / (h * s))%Q, ((h - X) * (Y - W) / (h * s))%Q, ((X - W) * (Y - W) / (h * s))%Q, (W / h)%Q.
      do 4 (split; [apply D; lra|]). split; [apply Qle_shift_div_l; lra|]. unfold s. split; [|split; [|split]]; field; (lra || (split; lra)).
    + exists 0%Q, 0%Q, 0%Q, 0%Q, 1%Q. repeat split; lra.
  - intros (w0 & w1 & w2 & w3 & w4 & H0 & H1 & H2 & H3 & H4 & S & EX & EY & EW). unfold ch6.
    assert (D1 := Qmult_le_0_compat h w1 ltac:(lra) H1). assert (D2 := Qmult_le_0_compat h w2 ltac:(lra) H2). assert (D4 := Qmult_le_0_compat h w4 ltac:(lra) H4).
    assert (D3 := Qmult_le_0_compat h w3 ltac:(lra) H3). assert (D0 := Qmult_le_0_compat h w0 ltac:(lra) H0).
    assert (Sh : (h * w0 + h * w1 + h * w2 + h * w3 + h * w4 == h)%Q) by (transitivity (h * (w0 + w1 + w2 + w3 + w4))%Q; [ring|]; rewrite S; ring).
    repeat split; lra.
Qed.
Lemma weights6o (h X Y W : Q) : (0 < h)%Q -> ch6o X Y W h <-> exists w0 w1 w2 w3 w4, (0 < w0 /\ 0 < w1 /\ 0 < w2 /\ 0 < w3 /\ 0 < w4 /\ w0 + w1 + w2 + w3 + w4 == 1 /\
     X == h * (w1 + w3 + w4) /\ Y == h * (w2 + w3 + w4) /\ W == h * w4)%Q.
Proof.
  intros Hh. split.
  - intros (H1 & H2 & H3 & H4 & H5). 
    set (s := (h - W)%Q). assert (Hs : (0 < h * s)%Q) by (apply Qmult_pos; unfold s; lra).
    assert (D : forall n m, (0 < n)%Q -> (0 < m)%Q -> (0 < n * m / (h * s))%Q) by (intros n m Hn Hm; apply Qlt_shift_div_l; [exact Hs|]; rewrite Qmult_0_l; now apply Qmult_pos).
    exists ((h - X) * (h - Y) / (h * s))%Q, ((X - W) * (h - Y) / (h * s))%Q, ((h - X) * (Y - W) / (h * s))%Q, ((X - W) * (Y - W) / (h * s))%Q, (W / h)%Q.
    do 4 (split; [apply D; lra|]). split; [apply Qlt_shift_div_l; lra|]. unfold s. split; [|split; [|split]]; field; (lra || (split; lra)).
  - intros (w0 & w1 & w2 & w3 & w4 & H0 & H1 & H2 & H3 & H4 & S & EX & EY & EW). unfold ch6o.
    assert (D1 := Qmult_pos Hh H1). assert (D2 := Qmult_pos Hh H2). assert (D3 := Qmult_pos Hh H3). assert (D0 := Qmult_pos Hh H0). assert (D4 := Qmult_pos Hh H4).
    assert (Sh : (h * w0 + h * w1 + h * w2 + h * w3 + h * w4 == h)%Q) by (transitivity (h * (w0 + w1 + w2 + w3 + w4))%Q; [ring|]; rewrite S; ring).
    repeat split; lra.
Qed.
Lemma weights7 (h X Y W : Q) : (0 < h)%Q -> ch7 X Y W h <-> exists w0 w1 w2 w3 w4, (0 <= w0 /\ 0 <= w1 /\ 0 <= w2 /\ 0 <= w3 /\ 0 <= w4 /\ w0 + w1 + w2 + w3 + w4 == 1 /\
     X == h * (w1 + w3) /\ Y == h * (w2 + w3) /\ W == h * (w0 + w1 + w2 + w3))%Q.
Proof.
  intros Hh. split.
  - intros (H1 & H2 & H3 & H4 & H5). destruct (Qlt_le_dec 0 W) as [C|C].
    + assert (Hs : (0 < h * W)%Q) by (apply Qmult_pos; lra).
      assert (D : forall n m, (0 <= n)%Q -> (0 <= m)%Q -> (0 <= n * m / (h * W))%Q) by (intros n m Hn Hm; apply Qle_shift_div_l; [exact Hs|]; rewrite Qmult_0_l; now apply Qmult_le_0_compat).
      exists ((W - X) * (W - Y) / (h * W))%Q, (X * (W - Y) / (h * W))%Q, ((W - X) * Y / (h * W))%Q, (X * Y / (h * W))%Q, ((h - W) / h)%Q.
      do 4 (split; [apply D; lra|]). split; [apply Qle_shift_div_l; lra|]. split; [|split; [|split]]; field; (lra || (split; lra)).
    + exists 0%Q, 0%Q, 0%Q, 0%Q, 1%Q. repeat split; lra.
  - intros (w0 & w1 & w2 & w3 & w4 & H0 & H1 & H2 & H3 & H4 & S & EX & EY & EW). unfold ch7.
    assert (D1 := Qmult_le_0_compat h w1 ltac:(lra) H1). assert (D2 := Qmult_le_0_compat h w2 ltac:(lra) H2). assert (D4 := Qmult_le_0_compat h w4 ltac:(lra) H4).
    assert (D3 := Qmult_le_0_compat h w3 ltac:(lra) H3). assert (D0 := Qmult_le_0_compat h w0 ltac:(lra) H0).
    assert (Sh : (h * w0 + h * w1 + h * w2 + h * w3 + h * w4 == h)%Q) by (transitivity (h * (w0 + w1 + w2 + w3 + w4))%Q; [ring|]; rewrite S; ring).
    repeat split; lra.
Qed.
Lemma weights7o (h X Y W : Q) : (0 < h)%Q -> ch7o X Y W h <-> exists w0 w1 w2 w3 w4, (0 < w0 /\ 0 < w1 /\ 0 < w2 /\ 0 < w3 /\ 0 < w4 /\ w0 + w1 + w2 + w3 + w4 == 1 /\
     X == h * (w1 + w3) /\ Y == h * (w2 + w3) /\ W == h * (w0 + w1 + w2 + w3))%Q.
Proof.
  intros Hh. split.
  - intros (H1 & H2 & H3 & H4 & H5). assert (Hs : (0 < h * W)%Q) by (apply Qmult_pos; lra).
    assert (D : forall n m, (0 < n)%Q -> (0 < m)%Q -> (0 < n * m / (h * W))%Q) by (intros n m Hn Hm; apply Qlt_shift_div_l; [exact Hs|]; rewrite Qmult_0_l; now apply Qmult_pos).
    exists ((W - X) * (W - Y) / (h * W))%Q, (X * (W - Y) / (h * W))%Q, ((W - X) * Y / (h * W))%Q, (X * Y / (h * W))%Q, ((h - W) / h)%Q.
    do 4 (split; [apply D; lra|]). split; [apply Qlt_shift_div_l; lra|]. split; [|split; [|split]]; field; (lra || (split; lra)).
  - intros (w0 & w1 & w2 & w3 & w4 & H0 & H1 & H2 & H3 & H4 & S & EX & EY & EW). unfold ch7o.
    assert (D1 := Qmult_pos Hh H1). assert (D2 := Qmult_pos Hh H2). assert (D3 := Qmult_pos Hh H3). assert (D0 := Qmult_pos Hh H0). assert (D4 := Qmult_pos Hh H4).
    assert (Sh : (h * w0 + h * w1 + h * w2 + h * w3 + h * w4 == h)%Q) by (transitivity (h * (w0 + w1 + w2 + w3 + w4))%Q; [ring|]; rewrite S; ring).
    repeat split; lra.
Qed.

(** ** vertices in unit coordinates *)
Definition yucoord (t v : Z) : ipt :=
  if t <? 6 then ucoord true t v
  else if t =? 6 then znth (0, 0, 0) [(0,0,0); (1,0,0); (0,1,0); (1,1,0); (1,1,1)] v
  else znth (0, 0, 0) [(0,0,1); (1,0,1); (0,1,1); (1,1,1); (0,0,0)] v.
Lemma y_coords_unit e v : 0 <= yty e < 8 -> 0 <= v < y_num_corners e ->
  y_integer_coords e v = scale (YLEN (ylv e)) (yx e, yy e, yz e) (yucoord (yty e) v).
Proof.
  intros Ht Hv. unfold y_integer_coords, y_num_corners in *. destruct (is_pyra e) eqn:P.
  - apply is_pyra_iff in P. unfold yucoord. destruct (Z.ltb_spec (yty e) 6); [lia|]. change SECOND_TYPE with 7. change FIRST_TYPE with 6.
    set (h := YLEN (ylv e)). clearbody h. assert (C : yty e = 6 \/ yty e = 7) by lia.
    assert (CV : v = 0 \/ v = 1 \/ v = 2 \/ v = 3 \/ v = 4) by lia.
    destruct C as [C|C]; rewrite C; cbn [Z.eqb Pos.eqb]; destruct CV as [->|[->|[->|[->| ->]]]]; cbn [Z.eqb Pos.eqb]; unfold scale;
      match goal with |- context [znth ?d ?l ?k] => let r := eval vm_compute in (znth d l k) in change (znth d l k) with r end; cbn [ix iy iz fst snd]; f_equal; [f_equal| | f_equal| | f_equal| | f_equal| |f_equal| | f_equal| |f_equal| | f_equal| | f_equal| | f_equal|]; lia.
  - apply is_tet_iff in P. unfold yucoord. destruct (Z.ltb_spec (yty e) 6); [|lia]. unfold yty in *. rewrite coords_unit by (change (NUM_TYPES true) with 6; change (CORNERS true) with 4; lia). reflexivity.
Qed.
Lemma zcorners e : zseq 0 (Z.to_nat (y_num_corners e)) = if is_pyra e then [0;1;2;3;4] else [0;1;2;3].
Proof. unfold y_num_corners. destruct (is_pyra e); reflexivity. Qed.
Lemma y_vertices_unit e : 0 <= yty e < 8 -> y_vertices e = map (fun v => scale (YLEN (ylv e)) (yx e, yy e, yz e) (yucoord (yty e) v)) (zseq 0 (Z.to_nat (y_num_corners e))).
Proof. intros Ht. unfold y_vertices. apply map_ext_in. intros v Hv. apply y_coords_unit; auto. apply in_zseq in Hv. unfold y_num_corners in *. destruct (is_pyra e); lia. Qed.
Lemma y_vertices_tet e : is_pyra e = false -> y_vertices e = vertices true (yt e).
Proof. intros P. unfold y_vertices, vertices. rewrite zcorners, P. unfold y_integer_coords. rewrite P. reflexivity. Qed.
Lemma len5 {A} (ws : list A) : length ws = 5%nat -> exists a b c d e, ws = [a; b; c; d; e].
Proof. destruct ws as [|a [|b [|c [|d [|e [|f ws]]]]]]; cbn; try discriminate. eauto 6. Qed.
Lemma comb5 h x (w0 w1 w2 w3 w4 : Q) u0 u1 u2 u3 u4 : (w0 + w1 + w2 + w3 + w4 == 1)%Q ->
  (wsum [w0; w1; w2; w3; w4] [x + h * u0; x + h * u1; x + h * u2; x + h * u3; x + h * u4]%Z ==
   inject_Z x + inject_Z h * (w0 * inject_Z u0 + w1 * inject_Z u1 + w2 * inject_Z u2 + w3 * inject_Z u3 + w4 * inject_Z u4))%Q.
Proof.
  intros S. cbn [wsum]. rewrite !inject_Z_plus, !inject_Z_mult.
  transitivity (inject_Z x * (w0 + w1 + w2 + w3 + w4) + inject_Z h * (w0 * inject_Z u0 + w1 * inject_Z u1 + w2 * inject_Z u2 + w3 * inject_Z u3 + w4 * inject_Z u4))%Q; [ring|].
  rewrite S. ring.
Qed.
Ltac eval_uy := repeat match goal with
  | |- context [inject_Z (?f (yucoord ?t ?v))] => let w := eval vm_compute in (f (yucoord t v)) in change (f (yucoord t v)) with w
  | H : context [inject_Z (?f (yucoord ?t ?v))] |- _ => let w := eval vm_compute in (f (yucoord t v)) in change (f (yucoord t v)) with w in H
  end; change (inject_Z 0) with 0%Q in *; change (inject_Z 1) with 1%Q in *.
Lemma hull_pyr h o P t : 0 < h -> t = 6 \/ t = 7 ->
  let vs := map (fun v => scale h o (yucoord t v)) [0;1;2;3;4] in
  let X := (px P - inject_Z (ix o))%Q in let Y := (py P - inject_Z (iy o))%Q in let W := (pz P - inject_Z (iz o))%Q in
  (hull vs P <-> reg t X Y W (inject_Z h)) /\ (interior vs P <-> rego t X Y W (inject_Z h)).
Proof.
  intros Hh Ht. cbn zeta. apply inject_Z_lt0 in Hh. unfold hull, interior, combination. cbn [map length].
  split; (split; [intros (ws & (HL & HS & HX & HY & HZ) & HF); destruct (len5 HL) as (w0 & w1 & w2 & w3 & w4 & ->);
      cbn [sumQ fold_right] in HS; assert (S : (w0 + w1 + w2 + w3 + w4 == 1)%Q) by lra;
      inversion HF as [|? ? F0 HF1]; subst; inversion HF1 as [|? ? F1 HF2]; subst; inversion HF2 as [|? ? F2 HF3]; subst; inversion HF3 as [|? ? F3 HF4]; subst; inversion HF4 as [|? ? F4 HF5]; subst;
      unfold scale in *; cbn [map ix iy iz fst snd] in *; rewrite comb5 in HX, HY, HZ by exact S;
      destruct Ht as [->| ->]; unfold reg, rego; cbn [Z.ltb Z.compare Pos.compare Pos.compare_cont Z.eqb Pos.eqb]; eval_uy;
      (refine (proj2 (@weights6 _ _ _ _ Hh) _) || refine (proj2 (@weights6o _ _ _ _ Hh) _) || refine (proj2 (@weights7 _ _ _ _ Hh) _) || refine (proj2 (@weights7o _ _ _ _ Hh) _));
      exists w0, w1, w2, w3, w4; (split; [assumption|]); (split; [assumption|]); (split; [assumption|]); (split; [assumption|]); (split; [assumption|]); (split; [assumption|]);
      rewrite ?HX, ?HY, ?HZ; (split; [ring|split; ring])
    | intros HC; destruct Ht as [->| ->]; unfold reg, rego in HC; cbn [Z.ltb Z.compare Pos.compare Pos.compare_cont Z.eqb Pos.eqb] in HC;
      (apply (proj1 (@weights6 _ _ _ _ Hh)) in HC || apply (proj1 (@weights6o _ _ _ _ Hh)) in HC || apply (proj1 (@weights7 _ _ _ _ Hh)) in HC || apply (proj1 (@weights7o _ _ _ _ Hh)) in HC);
      destruct HC as (w0 & w1 & w2 & w3 & w4 & F0 & F1 & F2 & F3 & F4 & S & EA & EB & EC); exists [w0; w1; w2; w3; w4]; (split; [|repeat first [apply Forall_nil | apply Forall_cons; [assumption|]]]);
      (split; [reflexivity|]); (split; [cbn [sumQ fold_right]; lra|]); unfold scale; cbn [map ix iy iz fst snd];
      rewrite !comb5 by exact S; eval_uy; (split; [|split]); lra ]).
Qed.
Lemma y_hull e P : 0 <= yty e < 8 -> ylv e <= 21 -> let h := inject_Z (YLEN (ylv e)) in
  let X := (px P - inject_Z (yx e))%Q in let Y := (py P - inject_Z (yy e))%Q in let W := (pz P - inject_Z (yz e))%Q in
  (hull (y_vertices e) P <-> reg (yty e) X Y W h) /\ (interior (y_vertices e) P <-> rego (yty e) X Y W h).
Proof.
  intros Ht Hl. cbv zeta. destruct (is_pyra e) eqn:PE.
  - rewrite y_vertices_unit by exact Ht. rewrite zcorners, PE. apply is_pyra_iff in PE. apply (@hull_pyr (YLEN (ylv e)) (yx e, yy e, yz e) P (yty e)); [rewrite YLEN_pow by lia; apply pow2_pos; lia|lia].
  - rewrite y_vertices_tet by exact PE. apply is_tet_iff in PE. unfold reg, rego. destruct (Z.ltb_spec (yty e) 6); [|lia]. unfold yty in *. apply (@hull_tet (yt e) P); [lia|exact Hl].
Qed.

(** ** tiling *)
Definition regc (t i : Z) (X Y W g : Q) : Prop :=
  let c := YC t i in reg (YT t i) (X - bq (Z.testbit c 0) g) (Y - bq (Z.testbit c 1) g) (W - bq (Z.testbit c 2) g) g.
Definition regco (t i : Z) (X Y W g : Q) : Prop :=
  let c := YC t i in rego (YT t i) (X - bq (Z.testbit c 0) g) (Y - bq (Z.testbit c 1) g) (W - bq (Z.testbit c 2) g) g.
#[global] Instance ch6_proper : Proper (Qeq ==> Qeq ==> Qeq ==> Qeq ==> iff) ch6.
Proof. intros a b E c d F i j G k l H. unfold ch6. rewrite E, F, G, H. reflexivity. Qed.
#[global] Instance ch6o_proper : Proper (Qeq ==> Qeq ==> Qeq ==> Qeq ==> iff) ch6o.
Proof. intros a b E c d F i j G k l H. unfold ch6o. rewrite E, F, G, H. reflexivity. Qed.
#[global] Instance ch7_proper : Proper (Qeq ==> Qeq ==> Qeq ==> Qeq ==> iff) ch7.
Proof. intros a b E c d F i j G k l H. unfold ch7. rewrite E, F, G, H. reflexivity. Qed.
#[global] Instance ch7o_proper : Proper (Qeq ==> Qeq ==> Qeq ==> Qeq ==> iff) ch7o.
Proof. intros a b E c d F i j G k l H. unfold ch7o. rewrite E, F, G, H. reflexivity. Qed.
Lemma reg_proper t X Y W h X' Y' W' h' : (X == X')%Q -> (Y == Y')%Q -> (W == W')%Q -> (h == h')%Q -> (reg t X Y W h <-> reg t X' Y' W' h') /\ (rego t X Y W h <-> rego t X' Y' W' h').
Proof.
  intros E1 E2 E3 E4. unfold reg, rego. destruct (t <? 6); [split; apply order3_proper; auto; try apply chain3_proper; try apply chain3o_proper|].
  destruct (t =? 6); rewrite E1, E2, E3, E4; split; reflexivity.
Qed.
Ltac tryc i := exists i; split; [split; [discriminate|reflexivity]|]; red_goal; repeat split; lra.
Lemma cover6 X Y W g : (0 < g)%Q -> ch6 X Y W (2 * g) -> exists i, 0 <= i < 10 /\ regc 6 i X Y W g.
Proof.
  intros Hg (H1 & H2 & H3 & H4 & H5). destruct (Qlt_le_dec X g), (Qlt_le_dec Y g), (Qlt_le_dec W g), (Qlt_le_dec (X - g) W), (Qlt_le_dec (Y - g) W); try (exfalso; lra);
    first [tryc 0|tryc 1|tryc 2|tryc 3|tryc 4|tryc 5|tryc 6|tryc 7|tryc 8|tryc 9|idtac].
Qed.
Lemma cover7 X Y W g : (0 < g)%Q -> ch7 X Y W (2 * g) -> exists i, 0 <= i < 10 /\ regc 7 i X Y W g.
Proof.
  intros Hg (H1 & H2 & H3 & H4 & H5). destruct (Qlt_le_dec X g), (Qlt_le_dec Y g), (Qlt_le_dec W g), (Qlt_le_dec X (W - g)), (Qlt_le_dec Y (W - g)); try (exfalso; lra);
    first [tryc 0|tryc 1|tryc 2|tryc 3|tryc 4|tryc 5|tryc 6|tryc 7|tryc 8|tryc 9|idtac].
Qed.
Lemma containp t i X Y W g : 6 <= t < 8 -> 0 <= i < 10 -> (0 < g)%Q ->
  (regc t i X Y W g -> reg t X Y W (2 * g)) /\ (regco t i X Y W g -> rego t X Y W (2 * g)).
Proof.
  intros Ht Hi Hg. assert (C : t = 6 \/ t = 7) by lia. clear Ht. destruct C as [->| ->]; split_range Hi; split; intros H; red_order H; red_goal; repeat split; lra.
Qed.
Lemma disjointp t i j X Y W g : 6 <= t < 8 -> 0 <= i < 10 -> 0 <= j < 10 -> i < j -> (0 < g)%Q -> regco t i X Y W g -> regco t j X Y W g -> False.
Proof.
  intros Ht Hi Hj Hij Hg. assert (C : t = 6 \/ t = 7) by lia. clear Ht. destruct C as [->| ->]; split_range Hi; split_range Hj; try (exfalso; lia); clear; intros H K; red_order H; red_order K; lra.
Qed.
Lemma regc_tet t i X Y W g : 0 <= t < 6 -> 0 <= i < 8 -> (regc t i X Y W g <-> child_order chain3 t i X Y W g) /\ (regco t i X Y W g <-> child_order chain3o t i X Y W g).
Proof.
  intros Ht Hi. unfold regc, regco, reg, rego, child_order. destruct (@tab_tet t i Ht Hi) as [-> ->]. assert (T := @tabT t i ltac:(lia)). unfold nch in T. destruct (Z.ltb_spec t 6); [|lia]. destruct (T Hi) as (_ & B & _). destruct (@tab_tet t i Ht Hi) as [E _]. rewrite E in B.
  destruct (Z.ltb_spec (Tt true t i) 6); [split; reflexivity|lia].
Qed.
Lemma covery t X Y W g : 0 <= t < 8 -> (0 < g)%Q -> reg t X Y W (2 * g) -> exists i, 0 <= i < nch t /\ regc t i X Y W g.
Proof.
  intros Ht Hg H. unfold nch. destruct (Z.ltb_spec t 6) as [C|C].
  - unfold reg in H. destruct (Z.ltb_spec t 6); [|lia]. destruct (@cover3 t X Y W g ltac:(lia) Hg H) as (i & Hi & K). exists i. split; [exact Hi|]. now apply regc_tet.
  - assert (D : t = 6 \/ t = 7) by lia. destruct D as [->| ->]; [exact (cover6 Hg H)|exact (cover7 Hg H)].
Qed.
Lemma contain_y t i X Y W g : 0 <= t < 8 -> 0 <= i < nch t -> (0 < g)%Q ->
  (regc t i X Y W g -> reg t X Y W (2 * g)) /\ (regco t i X Y W g -> rego t X Y W (2 * g)).
Proof.
  intros Ht Hi Hg. unfold nch in Hi. destruct (Z.ltb_spec t 6) as [C|C]; [|apply containp; auto; lia].
  destruct (@regc_tet t i X Y W g ltac:(lia) Hi) as [-> ->]. unfold reg, rego. destruct (Z.ltb_spec t 6); [|lia]. apply contain3; auto; lia.
Qed.
Lemma disjoint_y t i j X Y W g : 0 <= t < 8 -> 0 <= i < nch t -> 0 <= j < nch t -> i <> j -> (0 < g)%Q -> regco t i X Y W g -> regco t j X Y W g -> False.
Proof.
  intros Ht Hi Hj Hij Hg H K. unfold nch in *. destruct (Z.ltb_spec t 6) as [C|C].
  - apply regc_tet in H; [|lia|exact Hi]. apply regc_tet in K; [|lia|exact Hj]. destruct (Z_lt_le_dec i j); [eapply (@disjoint3 t i j)|eapply (@disjoint3 t j i)]; eauto; lia.
  - destruct (Z_lt_le_dec i j); [eapply (@disjointp t i j)|eapply (@disjointp t j i)]; eauto; lia.
Qed.
Lemma YLEN_half l : l < 21 -> YLEN l = 2 * YLEN (l + 1).
Proof. intros. rewrite !YLEN_pow by lia. rewrite <- pow2_S by lia. f_equal. lia. Qed.
Lemma y_hull_child e i P : ywf e -> ylv e < 21 -> 0 <= i < nch (yty e) ->
  let g := inject_Z (YLEN (ylv e + 1)) in
  let X := (px P - inject_Z (yx e))%Q in let Y := (py P - inject_Z (yy e))%Q in let W := (pz P - inject_Z (yz e))%Q in
  (hull (y_vertices (y_child e i)) P <-> regc (yty e) i X Y W g) /\ (interior (y_vertices (y_child e i)) P <-> regco (yty e) i X Y W g).
Proof.
  intros We Hl Hi. cbv zeta. rewrite <- nch_num in Hi. destruct (ywf_child We Hl Hi) as (Wc & Lc & Tc). destruct (@y_hull (y_child e i) P (yw_ty Wc) ltac:(lia)) as [H1 H2]. cbv zeta in H1, H2. rewrite H1, H2, Tc, Lc.
  unfold regc, regco. assert (EP : 2 ^ (MAXLEVEL true - lv (yt e) - 1) = YLEN (ylv e + 1)) by (rewrite YLEN_pow by lia; change (MAXLEVEL true) with 21; unfold ylv; f_equal; lia).
  destruct (@reg_proper (YT (yty e) i) (px P - inject_Z (yx (y_child e i))) (py P - inject_Z (yy (y_child e i))) (pz P - inject_Z (yz (y_child e i))) (inject_Z (YLEN (ylv e + 1)))
    (px P - inject_Z (yx e) - bq (Z.testbit (YC (yty e) i) 0) (inject_Z (YLEN (ylv e + 1)))) (py P - inject_Z (yy e) - bq (Z.testbit (YC (yty e) i) 1) (inject_Z (YLEN (ylv e + 1))))
    (pz P - inject_Z (yz e) - bq (Z.testbit (YC (yty e) i) 2) (inject_Z (YLEN (ylv e + 1)))) (inject_Z (YLEN (ylv e + 1)))) as [R1 R2]; try reflexivity; [| | |split; [exact R1|exact R2]];
  rewrite y_child_step by (auto; apply We); unfold yx, yy, yz; cbn [yt step sx sy sz]; rewrite EP, inject_Z_plus, bq_inj; ring.
Qed.
Lemma y_children_tile e : ywf e -> ylv e < 21 ->
  (forall P, hull (y_vertices e) P <-> exists i, 0 <= i < y_num_children e /\ hull (y_vertices (y_child e i)) P) /\
  (forall P i, 0 <= i < y_num_children e -> interior (y_vertices (y_child e i)) P -> interior (y_vertices e) P) /\
  (forall P i j, 0 <= i < y_num_children e -> 0 <= j < y_num_children e -> i <> j -> ~ (interior (y_vertices (y_child e i)) P /\ interior (y_vertices (y_child e j)) P)).
Proof.
  intros We Hl. assert (Ht := yw_ty We). rewrite nch_num. assert (Hg : 0 < YLEN (ylv e + 1)) by (rewrite YLEN_pow by lia; apply pow2_pos; lia). apply inject_Z_lt0 in Hg.
  assert (HQ : (inject_Z (YLEN (ylv e)) == 2 * inject_Z (YLEN (ylv e + 1)))%Q) by (rewrite YLEN_half by exact Hl; rewrite inject_Z_mult; reflexivity).
  assert (E : forall P, (hull (y_vertices e) P <-> reg (yty e) (px P - inject_Z (yx e)) (py P - inject_Z (yy e)) (pz P - inject_Z (yz e)) (2 * inject_Z (YLEN (ylv e + 1)))) /\
      (interior (y_vertices e) P <-> rego (yty e) (px P - inject_Z (yx e)) (py P - inject_Z (yy e)) (pz P - inject_Z (yz e)) (2 * inject_Z (YLEN (ylv e + 1))))).
  { intros P. destruct (@y_hull e P Ht ltac:(lia)) as [H1 H2]. cbv zeta in H1, H2. rewrite H1, H2. apply reg_proper; auto; reflexivity. }
  split; [|split].
  - intros P. split.
    + intros H. apply E in H. destruct (covery Ht Hg H) as (i & Hi & HC). exists i. split; [exact Hi|]. now apply y_hull_child.
    + intros (i & Hi & HC). apply y_hull_child in HC; auto. apply E. eapply contain_y; eauto.
  - intros P i Hi HC. apply y_hull_child in HC; auto. apply E. eapply contain_y; eauto.
  - intros P i j Hi Hj Hij [HC1 HC2]. apply y_hull_child in HC1; auto. apply y_hull_child in HC2; auto. exact (disjoint_y Ht Hi Hj Hij Hg HC1 HC2).
Qed.
Lemma y_hull_prefix p q P : y_path q -> prefix p q ->
  (hull (y_vertices (y_walk q)) P -> hull (y_vertices (y_walk p)) P) /\ (interior (y_vertices (y_walk q)) P -> interior (y_vertices (y_walk p)) P).
Proof.
  intros Hq (r & ->). induction r as [|i r IH] using rev_ind; [now rewrite app_nil_r|].
  rewrite app_assoc in *. apply y_path_snoc in Hq. destruct Hq as (Hq & Hl & Hi). destruct (y_walk_wf Hq) as [W L].
  destruct (@y_children_tile _ W ltac:(lia)) as (C1 & C2 & _). specialize (IH Hq). rewrite y_walk_snoc. split; intros H; apply IH.
  - apply C1. eauto.
  - eapply C2; eauto.
Qed.
Lemma y_hull_cover n P : Z.of_nat n <= 21 -> hull (y_vertices y_root) P -> exists r, length r = n /\ y_path r /\ hull (y_vertices (y_walk r)) P.
Proof.
  induction n as [|n IH]; intros Hn HP.
  - exists []. split; [reflexivity|]. split; [constructor|exact HP].
  - destruct (IH ltac:(lia) HP) as (r & Lr & Hr & HPr). destruct (y_walk_wf Hr) as [W L]. assert (Lz : zlen r = Z.of_nat n) by (unfold zlen; lia).
    destruct (@y_children_tile _ W ltac:(lia)) as (C1 & _). apply C1 in HPr. destruct HPr as (i & Hi & HPi).
    exists (r ++ [i]). rewrite app_length, Lr. split; [cbn; lia|]. rewrite y_walk_snoc. split; [|exact HPi]. apply y_path_snoc. split; [exact Hr|]. split; [lia|exact Hi].
Qed.
Lemma y_interiors_disjoint p q P : y_path p -> y_path q -> ~ prefix p q -> ~ prefix q p ->
  ~ (interior (y_vertices (y_walk p)) P /\ interior (y_vertices (y_walk q)) P).
Proof.
  intros Hp Hq N1 N2 [I1 I2]. destruct (incomparable_split N1 N2) as (c & i & j & p' & q' & Hij & Ep & Eq).
  replace (c ++ i :: p') with ((c ++ [i]) ++ p') in Ep by now rewrite <- app_assoc. replace (c ++ j :: q') with ((c ++ [j]) ++ q') in Eq by now rewrite <- app_assoc.
  apply (@y_hull_prefix (c ++ [i]) p) in I1; [|exact Hp|exists p'; exact Ep]. apply (@y_hull_prefix (c ++ [j]) q) in I2; [|exact Hq|exists q'; exact Eq].
  subst p q. apply y_path_app in Hp. apply y_path_app in Hq. rewrite y_walk_snoc in *. apply y_path_snoc in Hp, Hq. destruct Hp as (Hc & Hl & Hi), Hq as (_ & _ & Hj).
  destruct (y_walk_wf Hc) as [W L]. destruct (@y_children_tile _ W ltac:(lia)) as (_ & _ & C3). eapply (C3 P i j); eauto.
Qed.

(** Faces of triangles and tetrahedra. *)
From Verif Require Import Prelude PathSpec GeoSpec SimplexModel SimplexSpec BitLemmas SimplexProofs SimplexPathProofs SimplexOrderProofs
  SimplexGeoProofs SimplexAncProofs SimplexTileProofs.
From Coq Require Import QArith Lqa.
Open Scope Z_scope.

Ltac tup := repeat f_equal; lia.
Ltac in_list := first [left; tup | right; in_list].

Lemma FACES_CORNERS tet : FACES tet = CORNERS tet. Proof. destruct tet; reflexivity. Qed.

(** unit-coordinate face vertices *)
Lemma face_vertices_unit tet e f : 0 <= ty e < NUM_TYPES tet ->
  face_vertices tet e f = map (fun v => scale (LEN tet (lv e)) (sx e, sy e, sz e) (ucoord tet (ty e) v)) (face_corner_numbers tet f).
Proof.
  intros Ht. unfold face_vertices. apply map_ext_in. intros v Hv. apply coords_unit; auto.
  unfold face_corner_numbers in Hv. apply filter_In in Hv. destruct tet; cbn in *; intuition lia.
Qed.

(** neighbour: offset of the anchor in units of the length, type and dual face, as tables *)
Definition nb_tab (tet : bool) (t f : Z) : ipt * Z * Z :=
  let '(n, g) := face_neighbour tet (Simp (MAXLEVEL tet) t 0 0 0) f in ((sx n, sy n, sz n), ty n, g).

Lemma LEN_max tet : LEN tet (MAXLEVEL tet) = 1.
Proof. unfold LEN. now rewrite Z.sub_diag. Qed.

Lemma nb_unit tet e f : 0 <= ty e < NUM_TYPES tet -> 0 <= f < FACES tet ->
  face_neighbour tet e f =
  let '(o, t', g) := nb_tab tet (ty e) f in
  (let '(a, b, c) := scale (LEN tet (lv e)) (sx e, sy e, sz e) o in Simp (lv e) t' a b c, g).
Proof.
  intros Ht Hf. unfold nb_tab, face_neighbour, anchor. destruct e as [l t x y z]; cbn [lv ty sx sy sz] in *.
  rewrite LEN_max. set (h := LEN tet l). clearbody h.
  destruct tet; cbn [NUM_TYPES FACES] in *; split_range Ht; split_range Hf;
    cbv beta iota zeta delta [negb]; repeat (eval_closed; cbn -[Z.mul Z.add Z.modulo Z.div Z.sub]);
    cbn -[Z.mul Z.add Z.modulo Z.div Z.sub]; repeat (eval_closed; cbn -[Z.mul Z.add Z.modulo Z.div Z.sub]); repeat f_equal; lia.
Qed.

Definition iadd (a b : ipt) : ipt := (ix a + ix b, iy a + iy b, iz a + iz b).
Definition ieqb (a b : ipt) : bool := (ix a =? ix b) && (iy a =? iy b) && (iz a =? iz b).
Lemma ieqb_eq a b : ieqb a b = true <-> a = b.
Proof.
  destruct a as [[a1 a2] a3], b as [[b1 b2] b3]. unfold ieqb. cbn. rewrite !andb_true_iff, !Z.eqb_eq. split.
  - intros [[-> ->] ->]. reflexivity.
  - intros E. inversion E. auto.
Qed.
Definition inclb (l m : list ipt) : bool := forallb (fun a => existsb (ieqb a) m) l.
Lemma inclb_incl l m : inclb l m = true -> incl l m.
Proof.
  intros H a Ha. unfold inclb in H. rewrite forallb_forall in H. apply H in Ha. apply existsb_exists in Ha.
  destruct Ha as (b & Hb & E). apply ieqb_eq in E. now subst.
Qed.
Lemma scale_scale h a o u : scale h (scale h a o) u = scale h a (iadd o u).
Proof. unfold scale, iadd. cbn. f_equal; [f_equal|]; ring. Qed.
Lemma scale_eta h a o : (let '(x, y, z) := scale h a o in (x, y, z)) = scale h a o. Proof. reflexivity. Qed.

Definition nb_ok (tet : bool) (t f : Z) : bool :=
  let '(o, t', g) := nb_tab tet t f in
  let '(o2, t2, g2) := nb_tab tet t' g in
  (0 <=? t') && (t' <? NUM_TYPES tet) && (0 <=? g) && (g <? FACES tet) && negb (t' =? t)
  && ieqb (iadd o o2) (0, 0, 0) && (t2 =? t) && (g2 =? f) && (tet || (iz o =? 0))
  && inclb (map (ucoord tet t) (face_corner_numbers tet f)) (map (fun v => iadd o (ucoord tet t' v)) (face_corner_numbers tet g))
  && inclb (map (fun v => iadd o (ucoord tet t' v)) (face_corner_numbers tet g)) (map (ucoord tet t) (face_corner_numbers tet f)).
Lemma tab_nb tet t f : 0 <= t < NUM_TYPES tet -> 0 <= f < FACES tet -> nb_ok tet t f = true.
Proof.
  intros Ht Hf. assert (all2 (NUM_TYPES tet) (FACES tet) (nb_ok tet) = true) as A by (destruct tet; vm_compute; reflexivity).
  exact (all2_spec A Ht Hf).
Qed.

Lemma scale_al k h a u : al k h -> al k (ix a) -> al k (iy a) -> al k (iz a) ->
  al k (ix (scale h a u)) /\ al k (iy (scale h a u)) /\ al k (iz (scale h a u)).
Proof.
  intros (q & ->) (r & E1) (s & E2) (w & E3). unfold scale. cbn. rewrite E1, E2, E3.
  repeat split; [exists (r + q * ix u)|exists (s + q * iy u)|exists (w + q * iz u)]; lia.
Qed.

Lemma face_neighbour_spec tet e f : aligned tet e -> 0 <= f < FACES tet ->
  let '(n, g) := face_neighbour tet e f in
  aligned tet n /\ 0 <= g < FACES tet /\ lv n = lv e /\ n <> e /\ face_neighbour tet n g = (e, f) /\
  (forall v, In v (face_vertices tet e f) <-> In v (face_vertices tet n g)).
Proof.
  intros A Hf. rewrite (@nb_unit tet e f (ag_ty A) Hf). assert (T := tab_nb (ag_ty A) Hf). unfold nb_ok in T.
  destruct (nb_tab tet (ty e) f) as [[o t'] g] eqn:E1. destruct (nb_tab tet t' g) as [[o2 t2] g2] eqn:E2.
  rewrite !andb_true_iff in T. destruct T as ((((((((((T1 & T2) & T3) & T4) & T5) & T6) & T7) & T8) & T9) & T10) & T11).
  set (h := LEN tet (lv e)) in *. destruct (scale h (sx e, sy e, sz e) o) as [[a b] c] eqn:Es.
  assert (Hg : 0 <= g < FACES tet) by lia. assert (Ht' : 0 <= t' < NUM_TYPES tet) by lia.
  assert (Hl := ag_lv A). assert (Eh : h = 2 ^ (MAXLEVEL tet - lv e)) by (unfold h; apply LEN_pow; lia).
  destruct (@scale_al (MAXLEVEL tet - lv e) h (sx e, sy e, sz e) o) as (A1 & A2 & A3); try apply A.
  { exists 1. lia. }
  rewrite Es in A1, A2, A3. cbn [ix iy iz fst snd] in *.
  split. { constructor; cbn [lv ty sx sy sz]; auto. intros ->. cbn [orb] in T9. unfold scale in Es. inversion Es.
           rewrite (ag_z0 A eq_refl). cbn [iz snd]. nia. }
  split; auto. split; auto. split. { intros En. apply (f_equal ty) in En. cbn in En. lia. }
  split.
  - rewrite nb_unit by auto. cbn [lv ty sx sy sz]. rewrite E2. fold h. rewrite <- Es, scale_scale. apply ieqb_eq in T6. rewrite T6.
    unfold scale. cbn [ix iy iz fst snd]. rewrite Z.mul_0_r, !Z.add_0_r.
    assert (t2 = ty e) as -> by lia. assert (g2 = f) as -> by lia. now rewrite simp_eta.
  - rewrite (@face_vertices_unit tet e f (ag_ty A)). rewrite (@face_vertices_unit tet (Simp (lv e) t' a b c) g Ht').
    cbn [lv ty sx sy sz]. fold h. rewrite <- Es.
    apply inclb_incl in T10, T11. intros v. split; intros Hv; apply in_map_iff in Hv; destruct Hv as (k & <- & Hk).
    + assert (I := T10 _ (in_map _ _ _ Hk)). apply in_map_iff in I. destruct I as (k' & Ek & Hk'). apply in_map_iff.
      exists k'. split; auto. rewrite scale_scale. now rewrite Ek.
    + assert (I := T11 _ (in_map (fun v => iadd o (ucoord tet t' v)) _ _ Hk)). apply in_map_iff in I. destruct I as (k' & Ek & Hk'). apply in_map_iff.
      exists k'. split; auto. rewrite scale_scale. now rewrite Ek.
Qed.

(** the interiors of neighbours are disjoint *)
Lemma face_neighbour_disjoint tet e f P : aligned tet e -> 0 <= f < FACES tet ->
  ~ (interior (vertices tet e) P /\ interior (vertices tet (fst (face_neighbour tet e f))) P).
Proof.
  intros A Hf [I1 I2]. assert (N := face_neighbour_spec A Hf). destruct (face_neighbour tet e f) as [n g] eqn:En.
  destruct N as (An & Hg & Ln & _). cbn [fst] in I2.
  assert (H1 := ag_ty A). assert (H2 := ag_ty An). assert (HL := ag_lv A).
  assert (Hh := @LEN_pos tet (lv e) ltac:(lia)). apply inject_Z_lt0 in Hh.
  rewrite (@nb_unit tet e f H1 Hf) in En. destruct e as [l t x y z]. cbn [lv ty sx sy sz] in *. unfold scale in En. cbn [ix iy iz fst snd] in En.
  destruct tet.
  - apply hull_tet in I1; [|exact H1|cbn; lia]. apply hull_tet in I2; [|exact H2|lia]. rewrite Ln in I2. cbn [lv ty sx sy sz] in *.
    set (h := LEN true l) in *. clearbody h.
    destruct (nb_tab true t f) as [[o t'] g'] eqn:E1. inversion En; subst n g'. cbn [lv ty sx sy sz] in *.
    rewrite !inject_Z_plus, !inject_Z_mult in I2. cbn [NUM_TYPES FACES] in *.
    split_range H1; split_range Hf; vm_compute in E1; inversion E1; subst; clear E1;
      cbv -[Qminus Qplus Qmult Qle Qlt px py pz inject_Z] in I1, I2; change (inject_Z 0) with 0%Q in I2; change (inject_Z 1) with 1%Q in I2; change (inject_Z (-1)) with (-(1))%Q in I2; lra.
  - apply hull_tri in I1; [|exact H1|cbn; lia|exact (ag_z0 A eq_refl)]. apply hull_tri in I2; [|exact H2|lia|exact (ag_z0 An eq_refl)].
    destruct I1 as [I1 _], I2 as [I2 _]. rewrite Ln in I2. cbn [lv ty sx sy sz] in *.
    set (h := LEN false l) in *. clearbody h.
    destruct (nb_tab false t f) as [[o t'] g'] eqn:E1. inversion En; subst n g'. cbn [lv ty sx sy sz] in *.
    rewrite !inject_Z_plus, !inject_Z_mult in I2. cbn [NUM_TYPES FACES] in *.
    split_range H1; split_range Hf; vm_compute in E1; inversion E1; subst; clear E1;
      cbv -[Qminus Qplus Qmult Qle Qlt px py pz inject_Z] in I1, I2; change (inject_Z 0) with 0%Q in I2; change (inject_Z 1) with 1%Q in I2; change (inject_Z (-1)) with (-(1))%Q in I2; lra.
Qed.

(** ** root boundary *)
Lemma al_gap k a b : 0 <= k -> al k a -> al k b -> a < b -> a + 2 ^ k <= b.
Proof. intros Hk (q & ->) (r & ->) H. pose proof (pow2_pos Hk). assert (q < r) by nia. assert (q + 1 <= r) by lia. nia. Qed.
Lemma al_pow k m : 0 <= k <= m -> al k (2 ^ m).
Proof. intros H. exists (2 ^ (m - k)). rewrite (pow2_split H). lia. Qed.

Lemma if_true (c b : bool) : (if c then b else true) = negb c || b. Proof. now destruct c. Qed.

Ltac red_ifs := repeat match goal with |- context [if ?c then _ else _] => let v := eval vm_compute in c in
  lazymatch v with true => idtac | false => idtac end; change c with v; cbv iota end.
Lemma root_boundary_iff tet e f : aligned tet e -> is_inside_root tet e = true -> 0 <= f < FACES tet ->
  is_root_boundary tet e f = negb (is_inside_root tet (fst (face_neighbour tet e f))).
Proof.
  intros A HI Hf. destruct (Z.eq_dec (lv e) 0) as [L0|L0].
  { apply (is_inside_root_iff A) in HI. destruct HI as [W HI]. apply inside_same_level in HI; auto using wf_root. subst e.
    destruct tet; cbn [FACES] in Hf; split_range Hf; vm_compute; reflexivity. }
  rewrite (@nb_unit tet e f (ag_ty A) Hf) in *. destruct (nb_tab tet (ty e) f) as [[o t'] g] eqn:E1.
  assert (HL := ag_lv A). assert (Ht := ag_ty A).
  set (k := MAXLEVEL tet - lv e). assert (Hk : 0 <= k) by (unfold k; lia). assert (P := pow2_pos Hk).
  assert (G : forall a b, al k a -> al k b -> a <= b -> a = b \/ a + 2 ^ k <= b).
  { intros a b Ha Hb Hab. assert (a = b \/ a < b) as [?|?] by lia; auto. right. now apply al_gap. }
  assert (Ax := ag_ax A). assert (Ay := ag_ay A). assert (Az := ag_az A). fold k in Ax, Ay, Az.
  assert (AR : al k (2 ^ MAXLEVEL tet)) by (apply al_pow; unfold k; lia). assert (A0 : al k 0) by (exists 0; lia).
  assert (AR' : al k (2 ^ MAXLEVEL tet - 2 ^ k)) by (apply al_sub; auto; exists 1; lia).
  unfold is_root_boundary, is_inside_root in *. unfold scale. cbn [fst snd lv ty sx sy sz ix iy iz] in *.
  apply Z.eqb_neq in L0. rewrite L0 in *. rewrite ROOT_pow, LEN_pow in * by lia. fold k. rewrite !if_true in *.
  set (R := 2 ^ MAXLEVEL tet) in *. set (h := 2 ^ k) in *.
  destruct e as [l t x y z]. cbn [lv ty sx sy sz] in *.
  destruct tet; cbn [NUM_TYPES FACES] in *.
  - assert (x + h <= R) by (destruct (G x R); auto; lia).
    assert (B1 := G 0 y A0 Ay ltac:(lia)). assert (B2 := G y z Ay Az ltac:(lia)). assert (B3 := G z x Az Ax ltac:(lia)). assert (B4 := G x (R - h) Ax AR' ltac:(lia)).
    clearbody R h. clear G Ax Ay Az AR A0 A AR'.
    split_range Ht; split_range Hf; vm_compute in E1; inversion E1; subst o t' g; clear E1; cbn [fst snd ix iy iz] in *; red_ifs;
      destruct B1 as [B1|B1], B2 as [B2|B2], B3 as [B3|B3], B4 as [B4|B4]; lia.
  - assert (x + h <= R) by (destruct (G x R); auto; lia).
    assert (B1 := G 0 y A0 Ay ltac:(lia)). assert (B2 := G y x Ay Ax ltac:(lia)). assert (B4 := G x (R - h) Ax AR' ltac:(lia)).
    clearbody R h. clear G Ax Ay Az AR A0 A AR'.
    split_range Ht; split_range Hf; vm_compute in E1; inversion E1; subst o t' g; clear E1; cbn [fst snd ix iy iz] in *; red_ifs;
      destruct B1 as [B1|B1], B2 as [B2|B2], B4 as [B4|B4]; lia.
Qed.

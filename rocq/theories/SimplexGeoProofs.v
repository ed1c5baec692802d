(** Geometric containment of triangles and tetrahedra: an element lies inside another one iff it descends from it. *)
From Verif Require Import Prelude PathSpec SimplexModel SimplexSpec BitLemmas SimplexProofs SimplexPathProofs SimplexOrderProofs.

(** the type decides the order of the coordinates inside the cube *)
Definition gxy (tet : bool) (t : Z) : bool := if tet then (t =? 0) || (t =? 1) || (t =? 5) else t =? 0.
Definition gxz (t : Z) : bool := (t =? 0) || (t =? 1) || (t =? 2).
Definition gyz (t : Z) : bool := (t =? 1) || (t =? 2) || (t =? 3).

Definition rel (ga ge : bool) (d1 d2 : Z) : Prop :=
  if ga then d2 < d1 \/ (d1 = d2 /\ ge = true) else d1 < d2 \/ (d1 = d2 /\ ge = false).

Record inside_of (tet : bool) (a e : simp) : Prop := Inside {
  in_x : 0 <= sx e - sx a < 2 ^ (MAXLEVEL tet - lv a);
  in_y : 0 <= sy e - sy a < 2 ^ (MAXLEVEL tet - lv a);
  in_z : tet = true -> 0 <= sz e - sz a < 2 ^ (MAXLEVEL tet - lv a);
  in_xy : rel (gxy tet (ty a)) (gxy tet (ty e)) (sx e - sx a) (sy e - sy a);
  in_xz : tet = true -> rel (gxz (ty a)) (gxz (ty e)) (sx e - sx a) (sz e - sz a);
  in_yz : tet = true -> rel (gyz (ty a)) (gyz (ty e)) (sy e - sy a) (sz e - sz a) }.

(** pairs of bits and types of a child *)
Definition pair_ok (gp gc b1 b2 : bool) : bool :=
  if Bool.eqb b1 b2 then Bool.eqb gc gp else if b1 then gp else negb gp.
Lemma tab_pairs tet t i : 0 <= t < NUM_TYPES tet -> 0 <= i < CHILDREN tet ->
  let t' := Tt tet t i in let c := Tc tet t i in
  pair_ok (gxy tet t) (gxy tet t') (Z.testbit c 0) (Z.testbit c 1) = true /\
  (tet = true -> pair_ok (gxz t) (gxz t') (Z.testbit c 0) (Z.testbit c 2) = true /\
                 pair_ok (gyz t) (gyz t') (Z.testbit c 1) (Z.testbit c 2) = true).
Proof.
  intros Ht Hi. assert (all2 (NUM_TYPES tet) (CHILDREN tet) (fun t i =>
    let t' := Tt tet t i in let c := Tc tet t i in
    pair_ok (gxy tet t) (gxy tet t') (Z.testbit c 0) (Z.testbit c 1) &&
    (if tet then pair_ok (gxz t) (gxz t') (Z.testbit c 0) (Z.testbit c 2) &&
                 pair_ok (gyz t) (gyz t') (Z.testbit c 1) (Z.testbit c 2) else true)) = true) as A
    by (destruct tet; vm_compute; reflexivity).
  apply (@all2_spec _ _ _ A t i Ht) in Hi. cbn zeta in *. apply andb_prop in Hi. destruct Hi as [H1 H2]. split; auto.
  intros ->. now apply andb_prop in H2.
Qed.

Lemma rel_step k ga gp gc b1 b2 d1 d2 : 0 <= k -> al (k + 1) d1 -> al (k + 1) d2 -> pair_ok gp gc b1 b2 = true ->
  rel ga gp d1 d2 <-> rel ga gc (d1 + Z.b2z b1 * 2 ^ k) (d2 + Z.b2z b2 * 2 ^ k).
Proof.
  intros Hk (q1 & ->) (q2 & ->) Hp. rewrite pow2_S by lia. pose proof (pow2_pos Hk) as P. set (h := 2 ^ k) in *. clearbody h.
  assert (q1 < q2 -> q1 * (2 * h) + 2 * h <= q2 * (2 * h)) by nia.
  assert (q2 < q1 -> q2 * (2 * h) + 2 * h <= q1 * (2 * h)) by nia.
  assert (q1 = q2 \/ q1 < q2 \/ q2 < q1) as C by lia.
  assert (q1 = q2 -> q1 * (2 * h) = q2 * (2 * h)) by (intros ->; reflexivity).
  set (m1 := q1 * (2 * h)) in *. set (m2 := q2 * (2 * h)) in *. clearbody m1 m2.
  assert (D : m1 = m2 \/ m1 + 2 * h <= m2 \/ m2 + 2 * h <= m1) by (destruct C as [C|[C|C]]; auto).
  clear - P Hp D. unfold rel, pair_ok in *.
  destruct ga, gp, gc, b1, b2; cbn [Bool.eqb negb Z.b2z] in *; try discriminate; lia.
Qed.

Lemma box_step k m b d : 0 <= k < m -> al (k + 1) d -> 0 <= d < 2 ^ m <-> 0 <= d + Z.b2z b * 2 ^ k < 2 ^ m.
Proof.
  intros Hk Ha. assert (P := @pow2_pos k ltac:(lia)). split; intros H.
  - now apply (@step_coord k m d b).
  - destruct Ha as (q & ->). rewrite (@pow2_split (k + 1) m) in * by lia. rewrite pow2_S in * by lia.
    assert (0 < 2 ^ (m - (k + 1))) by (apply pow2_pos; lia). set (h := 2 ^ k) in *. set (g := 2 ^ (m - (k + 1))) in *. clearbody h g.
    assert (0 <= q < g) by (destruct b; cbn [Z.b2z] in *; nia). nia.
Qed.

Lemma al_sub k a b : al k a -> al k b -> al k (a - b).
Proof. intros (q & ->) (r & ->). exists (q - r). lia. Qed.
Lemma al_weaken k m a : 0 <= k <= m -> al m a -> al k a.
Proof. intros Hk (q & ->). exists (q * 2 ^ (m - k)). rewrite (pow2_split Hk). lia. Qed.

(** for e of a level not below a's: e is inside a iff child i of e is *)
Lemma inside_step tet a e i : wf tet a -> wf tet e -> lv a <= lv e < MAXLEVEL tet -> 0 <= i < CHILDREN tet ->
  inside_of tet a e <-> inside_of tet a (child tet e i).
Proof.
  intros Wa We Hl Hi. rewrite child_step by (auto; try apply We; lia).
  destruct (@tab_pairs tet (ty e) i (wf_ty We) Hi) as [P1 P23]. set (t' := Tt tet (ty e) i) in *. set (c := Tc tet (ty e) i) in *.
  set (k := MAXLEVEL tet - lv e - 1).
  assert (Hla := wf_lv Wa). assert (Hk : 0 <= k < MAXLEVEL tet - lv a) by (unfold k; lia).
  assert (A : forall f b, coordfn tet f b -> al (k + 1) (f e - f a)).
  { intros f b F. apply al_sub; [|apply (@al_weaken _ (MAXLEVEL tet - lv a)); [lia|now apply F]].
    replace (k + 1) with (MAXLEVEL tet - lv e) by (unfold k; lia). now apply F. }
  assert (Ax := A sx 0 (coordfn_x tet)). assert (Ay := A sy 1 (coordfn_y tet)).
  assert (Ex : sx (step tet e t' c) - sx a = sx e - sx a + Z.b2z (Z.testbit c 0) * 2 ^ k).
  { rewrite (proj1 (coordfn_x tet)). fold k. lia. }
  assert (Ey : sy (step tet e t' c) - sy a = sy e - sy a + Z.b2z (Z.testbit c 1) * 2 ^ k).
  { rewrite (proj1 (coordfn_y tet)). fold k. lia. }
  assert (Et : ty (step tet e t' c) = t') by reflexivity.
  assert (B1 := box_step (Z.testbit c 0) Hk Ax). assert (B2 := box_step (Z.testbit c 1) Hk Ay).
  assert (R1 := @rel_step k (gxy tet (ty a)) _ _ _ _ _ _ (proj1 Hk) Ax Ay P1).
  destruct tet.
  - destruct (P23 eq_refl) as [P2 P3]. assert (Az := A sz 2 coordfn_z).
    assert (Ez : sz (step true e t' c) - sz a = sz e - sz a + Z.b2z (Z.testbit c 2) * 2 ^ k).
    { rewrite (proj1 coordfn_z). fold k. lia. }
    assert (B3 := box_step (Z.testbit c 2) Hk Az).
    assert (R2 := @rel_step k (gxz (ty a)) _ _ _ _ _ _ (proj1 Hk) Ax Az P2).
    assert (R3 := @rel_step k (gyz (ty a)) _ _ _ _ _ _ (proj1 Hk) Ay Az P3).
    split; intros [I1 I2 I3 I4 I5 I6]; specialize (I3 eq_refl); specialize (I5 eq_refl); specialize (I6 eq_refl);
      constructor; intros; rewrite ?Et, ?Ex, ?Ey, ?Ez in *; tauto.
  - split; intros [I1 I2 I3 I4 I5 I6]; constructor; intros; try discriminate; rewrite ?Et, ?Ex, ?Ey in *; tauto.
Qed.

Lemma tab_g_inj tet t t' : 0 <= t < NUM_TYPES tet -> 0 <= t' < NUM_TYPES tet -> gxy tet t = gxy tet t' ->
  (tet = true -> gxz t = gxz t' /\ gyz t = gyz t') -> t = t'.
Proof.
  intros Ht Ht' E1 E2. destruct tet; cbn [NUM_TYPES] in *.
  - destruct (E2 eq_refl) as [E3 E4]. split_range Ht; split_range Ht'; try reflexivity; discriminate.
  - split_range Ht; split_range Ht'; try reflexivity; discriminate.
Qed.

Lemma inside_refl tet a : wf tet a -> inside_of tet a a.
Proof.
  intros W. assert (0 < 2 ^ (MAXLEVEL tet - lv a)) by (apply pow2_pos; destruct W; lia).
  constructor; intros; unfold rel; try lia;
  match goal with |- context[if ?g then _ else _] => destruct g end; right; split; auto; lia.
Qed.
Lemma inside_same_level tet a e : wf tet a -> wf tet e -> lv e = lv a -> inside_of tet a e -> e = a.
Proof.
  intros Wa We El [I1 I2 I3 I4 I5 I6].
  assert (Z0 : forall d, al (MAXLEVEL tet - lv a) d -> 0 <= d < 2 ^ (MAXLEVEL tet - lv a) -> d = 0).
  { intros d (q & ->) Hd. assert (0 < 2 ^ (MAXLEVEL tet - lv a)) by (apply pow2_pos; destruct Wa; lia).
    assert (q = 0) by nia. subst; lia. }
  assert (A : forall f b, coordfn tet f b -> al (MAXLEVEL tet - lv a) (f e - f a)).
  { intros f b F. apply al_sub; [rewrite <- El|]; now apply F. }
  assert (Ex := Z0 _ (A sx 0 (coordfn_x tet)) I1). assert (Ey := Z0 _ (A sy 1 (coordfn_y tet)) I2).
  rewrite Ex, Ey in I4.
  assert (Ez : tet = true -> sz e - sz a = 0).
  { intros ->. apply Z0; auto. apply (A sz 2 coordfn_z). }
  assert (G : forall ga ge, rel ga ge 0 0 -> ge = ga).
  { intros [] [] HR; cbn in HR; auto; destruct HR as [HR|[_ HR]]; auto; lia. }
  assert (ty e = ty a).
  { apply (@tab_g_inj tet); try apply We; try apply Wa; [now apply G|]. intros ->. specialize (Ez eq_refl).
    rewrite Ex, Ez in I5. rewrite Ey, Ez in I6. specialize (I5 eq_refl). specialize (I6 eq_refl). split; now apply G. }
  assert (sz e = sz a).
  { destruct tet; [specialize (Ez eq_refl); lia|]. rewrite (wf_z0 We eq_refl), (wf_z0 Wa eq_refl). reflexivity. }
  destruct e, a; cbn in *. f_equal; lia.
Qed.

(** descending from a = lying inside a; the descending path is found by taking parents *)
Lemma inside_descends tet a e : wf tet a -> wf tet e -> lv a <= lv e -> inside_of tet a e ->
  exists r, valid_path (CHILDREN tet) r /\ zlen r = lv e - lv a /\ e = fold_left (child tet) r a.
Proof.
  intros Wa. remember (Z.to_nat (lv e - lv a)) as n eqn:En. revert e En. induction n as [|n IH]; intros e En We Hl Hin.
  - exists []. repeat split; [constructor|unfold zlen; cbn; lia|]. cbn. apply (@inside_same_level tet); auto. lia.
  - assert (0 < lv e) by (destruct Wa; lia). destruct (parent_inv We H) as (Wp & Lp & Hi & Ec).
    assert (HM := wf_lv We). rewrite <- Ec in Hin. rewrite <- inside_step in Hin by (auto; lia).
    destruct (IH (parent tet e) ltac:(lia) Wp ltac:(lia) Hin) as (r & Vr & Lr & Er).
    exists (r ++ [child_id tet e]). repeat split.
    + apply valid_app. split; auto. constructor; auto.
    + rewrite zlen_app. unfold zlen in *. cbn. lia.
    + rewrite fold_left_app. cbn. rewrite <- Er. now symmetry.
Qed.
Lemma fold_child_wf tet a r : wf tet a -> valid_path (CHILDREN tet) r -> lv a + zlen r <= MAXLEVEL tet ->
  wf tet (fold_left (child tet) r a) /\ lv (fold_left (child tet) r a) = lv a + zlen r.
Proof.
  intros Wa. induction r as [|i r IH] using rev_ind; intros V Hl.
  - split; auto. unfold zlen; cbn; lia.
  - apply valid_app in V. destruct V as [V Vi]. inversion Vi; subst. rewrite zlen_app in *. unfold zlen in *. cbn [length] in *.
    destruct (IH V ltac:(lia)) as [W L]. rewrite fold_left_app. cbn [fold_left]. split.
    + apply wf_child; auto. lia.
    + rewrite child_lv, L. lia.
Qed.
Lemma descends_inside tet a r : wf tet a -> valid_path (CHILDREN tet) r -> lv a + zlen r <= MAXLEVEL tet ->
  inside_of tet a (fold_left (child tet) r a).
Proof.
  intros Wa. induction r as [|i r IH] using rev_ind; intros V Hl.
  - now apply inside_refl.
  - apply valid_app in V. destruct V as [V Vi]. inversion Vi; subst. rewrite zlen_app in *. unfold zlen in *. cbn [length] in *.
    destruct (@fold_child_wf tet a r Wa V ltac:(unfold zlen; lia)) as [W L]. rewrite fold_left_app. cbn [fold_left].
    apply inside_step; auto. { unfold zlen in L. lia. } apply IH; auto. lia.
Qed.

Lemma fold_walk tet p r : fold_left (child tet) r (walk tet p) = walk tet (p ++ r).
Proof. unfold walk. now rewrite fold_left_app. Qed.

Lemma inside_walk tet p q : tree_path tet p -> tree_path tet q -> zlen p <= zlen q ->
  inside_of tet (walk tet p) (walk tet q) <-> prefix p q.
Proof.
  intros Hp Hq Hl. destruct (walk_wf Hp) as [Wp Lp]. destruct (walk_wf Hq) as [Wq Lq]. split.
  - intros Hin. destruct (@inside_descends tet _ _ Wp Wq ltac:(lia) Hin) as (r & V & L & E).
    exists r. apply (@walk_inj tet); auto; [|now rewrite E, fold_walk].
    split; [apply valid_app; split; auto; apply Hp|]. rewrite zlen_app. destruct Hq as [_ Hq]. lia.
  - intros (r & ->). rewrite <- fold_walk. apply descends_inside; auto.
    + destruct Hq as [Hq _]. now apply valid_app in Hq.
    + rewrite Lp. destruct Hq as [_ Hq]. rewrite zlen_app in Hq. lia.
Qed.

(** every well-formed element inside the root is the end of a path *)
Lemma inside_root_walk tet e : wf tet e -> inside_of tet init_root e -> exists p, tree_path tet p /\ e = walk tet p.
Proof.
  intros W Hin. destruct (@inside_descends tet init_root e (wf_root tet) W) as (r & V & L & E); auto.
  { cbn. apply W. }
  exists r. split; [|exact E]. split; auto. rewrite L. cbn. destruct W. lia.
Qed.

(** ** ancestor *)
Lemma clear_delta k v a : 0 <= k -> al k a -> 0 <= v - a < 2 ^ k -> clear v (2 ^ k - 1) = a /\ Z.land v (2 ^ k - 1) = v - a.
Proof.
  intros Hk (q & ->) Hr. rewrite land_ones_low, clear_ones by lia.
  assert (E : v mod 2 ^ k = v - q * 2 ^ k). { symmetry. apply Z.mod_unique with q; lia. }
  rewrite E. lia.
Qed.

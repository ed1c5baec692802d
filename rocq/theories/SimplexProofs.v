(** Core proofs about triangles and tetrahedra: refinement, linear ids, ancestors in terms of refinement paths. *)
From Verif Require Import Prelude PathSpec SimplexModel SimplexSpec BitLemmas.

Lemma MAXLEVEL_pos tet : 0 < MAXLEVEL tet. Proof. destruct tet; reflexivity. Qed.
Lemma CHILDREN_pow tet : CHILDREN tet = 2 ^ DIM tet. Proof. destruct tet; reflexivity. Qed.
Lemma DIM_pos tet : 0 < DIM tet. Proof. destruct tet; reflexivity. Qed.
Lemma CHILDREN_pos tet : 0 < CHILDREN tet. Proof. destruct tet; reflexivity. Qed.
#[global] Opaque MAXLEVEL.

Lemma LEN_pow tet l : l <= MAXLEVEL tet -> LEN tet l = 2 ^ (MAXLEVEL tet - l).
Proof. intros. unfold LEN. apply shiftl1_pow. lia. Qed.

(** ** tables *)
Definition all2 (n m : Z) (f : Z -> Z -> bool) : bool :=
  forallb (fun a => forallb (f a) (zseq 0 (Z.to_nat m))) (zseq 0 (Z.to_nat n)).
Lemma all2_spec n m f : all2 n m f = true -> forall a b, 0 <= a < n -> 0 <= b < m -> f a b = true.
Proof.
  intros H a b Ha Hb. unfold all2 in H. rewrite forallb_forall in H.
  specialize (H a). rewrite forallb_forall in H. apply H; apply in_zseq; lia.
Qed.

Notation Tt := parenttype_Iloc_to_type.
Notation Tc := parenttype_Iloc_to_cid.
Notation Pt := cid_type_to_parenttype.
Notation Li := type_cid_to_Iloc.

Definition cidbit (c k : Z) : bool := Z.testbit c k.

Lemma tab_Tt_range tet t i : 0 <= t < NUM_TYPES tet -> 0 <= i < CHILDREN tet -> 0 <= Tt tet t i < NUM_TYPES tet.
Proof.
  intros. assert (all2 (NUM_TYPES tet) (CHILDREN tet) (fun t i => (0 <=? Tt tet t i) && (Tt tet t i <? NUM_TYPES tet)) = true) as A
    by (destruct tet; vm_compute; reflexivity).
  pose proof (all2_spec A ltac:(eassumption) ltac:(eassumption)) as B. cbn in B. lia.
Qed.
Lemma tab_Tc_range tet t i : 0 <= t < NUM_TYPES tet -> 0 <= i < CHILDREN tet -> 0 <= Tc tet t i < CHILDREN tet.
Proof.
  intros. assert (all2 (NUM_TYPES tet) (CHILDREN tet) (fun t i => (0 <=? Tc tet t i) && (Tc tet t i <? CHILDREN tet)) = true) as A
    by (destruct tet; vm_compute; reflexivity).
  pose proof (all2_spec A ltac:(eassumption) ltac:(eassumption)) as B. cbn in B. lia.
Qed.
Lemma tab_Pt_Tc tet t i : 0 <= t < NUM_TYPES tet -> 0 <= i < CHILDREN tet -> Pt tet (Tc tet t i) (Tt tet t i) = t.
Proof.
  intros. assert (all2 (NUM_TYPES tet) (CHILDREN tet) (fun t i => Pt tet (Tc tet t i) (Tt tet t i) =? t) = true) as A
    by (destruct tet; vm_compute; reflexivity).
  pose proof (all2_spec A ltac:(eassumption) ltac:(eassumption)) as B. cbn in B. lia.
Qed.
Lemma tab_Li_Tc tet t i : 0 <= t < NUM_TYPES tet -> 0 <= i < CHILDREN tet -> Li tet (Tt tet t i) (Tc tet t i) = i.
Proof.
  intros. assert (all2 (NUM_TYPES tet) (CHILDREN tet) (fun t i => Li tet (Tt tet t i) (Tc tet t i) =? i) = true) as A
    by (destruct tet; vm_compute; reflexivity).
  pose proof (all2_spec A ltac:(eassumption) ltac:(eassumption)) as B. cbn in B. lia.
Qed.
(** converse: every (cube id, type) pair is a child *)
Lemma tab_conv tet c b : 0 <= c < CHILDREN tet -> 0 <= b < NUM_TYPES tet ->
  0 <= Pt tet c b < NUM_TYPES tet /\ 0 <= Li tet b c < CHILDREN tet /\
  Tc tet (Pt tet c b) (Li tet b c) = c /\ Tt tet (Pt tet c b) (Li tet b c) = b.
Proof.
  intros. assert (all2 (CHILDREN tet) (NUM_TYPES tet) (fun c b =>
    (0 <=? Pt tet c b) && (Pt tet c b <? NUM_TYPES tet) && (0 <=? Li tet b c) && (Li tet b c <? CHILDREN tet)
    && (Tc tet (Pt tet c b) (Li tet b c) =? c) && (Tt tet (Pt tet c b) (Li tet b c) =? b)) = true) as A
    by (destruct tet; vm_compute; reflexivity).
  pose proof (all2_spec A ltac:(eassumption) ltac:(eassumption)) as B. cbn in B. lia.
Qed.

(** ** one refinement step *)
Definition step (tet : bool) (e : simp) (t c : Z) : simp :=
  let h := 2 ^ (MAXLEVEL tet - lv e - 1) in
  Simp (lv e + 1) t (sx e + Z.b2z (Z.testbit c 0) * h) (sy e + Z.b2z (Z.testbit c 1) * h)
       (if tet then sz e + Z.b2z (Z.testbit c 2) * h else sz e).

Lemma range_cases n x : 0 <= x < Z.of_nat n -> In x (zseq 0 n).
Proof. intros. apply in_zseq. lia. Qed.

Ltac split_range H :=
  match type of H with 0 <= ?x < ?n =>
    let n' := eval compute in (Z.to_nat n) in
    let K := fresh in
    assert (K : In x (zseq 0 n')) by (apply in_zseq; exact H || (vm_compute in H; apply in_zseq; lia) || lia);
    cbv [zseq] in K; cbn [Z.add Pos.add Pos.succ] in K; cbn [In] in K;
    repeat (destruct K as [K|K]; [subst x|]); [..|contradiction]
  end.

(** evaluate table look-ups at literal indices *)
Ltac eval_term t := let v := eval vm_compute in t in change t with v.
Ltac eval_tabs := repeat match goal with
  | |- context [index_to_bey_number ?b ?t ?i] => eval_term (index_to_bey_number b t i)
  | |- context [beyid_to_vertex ?b ?i] => eval_term (beyid_to_vertex b i)
  | |- context [type_of_child ?b ?t ?i] => eval_term (type_of_child b t i)
  | |- context [Tt ?b ?t ?i] => eval_term (Tt b t i)
  | |- context [Tc ?b ?t ?i] => eval_term (Tc b t i)
  | |- context [Pt ?b ?t ?i] => eval_term (Pt b t i)
  | |- context [Li ?b ?t ?i] => eval_term (Li b t i)
  end.
Ltac is_lit z := match z with Z0 => idtac | Zpos _ => idtac | Zneg _ => idtac end.
Ltac eval_divmod := repeat match goal with
  | |- context [Z.modulo ?a ?b] => is_lit a; is_lit b; eval_term (Z.modulo a b)
  | |- context [Z.div ?a ?b] => is_lit a; is_lit b; eval_term (Z.div a b)
  end.

Lemma shiftr_half x h : Z.shiftr (x + (x + 2 * h)) 1 = x + h.
Proof. rewrite Z.shiftr_div_pow2 by lia. change (2 ^ 1) with 2. lia. Qed.
Lemma shiftr_same x : Z.shiftr (x + x) 1 = x.
Proof. rewrite Z.shiftr_div_pow2 by lia. change (2 ^ 1) with 2. lia. Qed.

Lemma child_step tet e i : 0 <= ty e < NUM_TYPES tet -> 0 <= i < CHILDREN tet -> lv e < MAXLEVEL tet ->
  child tet e i = step tet e (Tt tet (ty e) i) (Tc tet (ty e) i).
Proof.
  intros Ht Hi Hl. unfold child, step, compute_integer_coords.
  rewrite LEN_pow by lia.
  assert (E : 2 ^ (MAXLEVEL tet - lv e) = 2 * 2 ^ (MAXLEVEL tet - lv e - 1)).
  { rewrite <- pow2_S by lia. f_equal. lia. }
  rewrite E. set (h := 2 ^ (MAXLEVEL tet - lv e - 1)).
  destruct e as [l t x y z]; cbn [lv ty sx sy sz] in *.
  destruct tet; cbn [NUM_TYPES CHILDREN] in *; split_range Ht; split_range Hi; eval_tabs; cbn -[Z.shiftr h Z.mul];
    eval_divmod; cbn -[Z.shiftr h Z.mul]; eval_divmod; cbn -[Z.shiftr h Z.mul]; rewrite ?shiftr_half, ?shiftr_same; f_equal; lia.
Qed.

(** ** well-formed elements: what every element reached by refinement satisfies *)
Record wf (tet : bool) (e : simp) : Prop := Wf {
  wf_lv : 0 <= lv e <= MAXLEVEL tet;
  wf_ty : 0 <= ty e < NUM_TYPES tet;
  wf_ax : al (MAXLEVEL tet - lv e) (sx e);
  wf_ay : al (MAXLEVEL tet - lv e) (sy e);
  wf_az : al (MAXLEVEL tet - lv e) (sz e);
  wf_rx : 0 <= sx e < 2 ^ MAXLEVEL tet;
  wf_ry : 0 <= sy e < 2 ^ MAXLEVEL tet;
  wf_rz : 0 <= sz e < 2 ^ MAXLEVEL tet;
  wf_z0 : tet = false -> sz e = 0 }.

Lemma wf_root tet : wf tet init_root.
Proof.
  pose proof (MAXLEVEL_pos tet). pose proof (@pow2_pos (MAXLEVEL tet) ltac:(lia)).
  constructor; cbn; try apply al_0; try lia; try (destruct tet; cbn; lia).
Qed.

Lemma al_range_room k m v : 0 <= k <= m -> al k v -> v < 2 ^ m -> v + 2 ^ k <= 2 ^ m.
Proof.
  intros Hk (q & ->) Hlt. rewrite (pow2_split Hk) in *. pose proof (@pow2_pos k ltac:(lia)).
  assert (q < 2 ^ (m - k)) by nia. nia.
Qed.

Lemma step_coord k m v b : 0 <= k < m -> al (k + 1) v -> 0 <= v < 2 ^ m ->
  al k (v + Z.b2z b * 2 ^ k) /\ 0 <= v + Z.b2z b * 2 ^ k < 2 ^ m.
Proof.
  intros Hk Ha Hr. split.
  - apply al_add; [apply al_weaken with (j := k + 1); auto; lia|]. apply al_mul, al_pow.
  - pose proof (@al_range_room (k + 1) m v ltac:(lia) Ha ltac:(lia)) as R. rewrite pow2_S in R by lia.
    pose proof (@pow2_pos k ltac:(lia)). destruct b; cbn [Z.b2z]; lia.
Qed.

Lemma wf_step tet e t c : wf tet e -> lv e < MAXLEVEL tet -> 0 <= t < NUM_TYPES tet -> wf tet (step tet e t c).
Proof.
  intros [Hl Ht Ax Ay Az Rx Ry Rz Z0] Hlt Ht'.
  assert (K : MAXLEVEL tet - lv e = (MAXLEVEL tet - lv e - 1) + 1) by lia. rewrite K in Ax, Ay, Az.
  unfold step. set (k := MAXLEVEL tet - lv e - 1) in *.
  destruct (@step_coord k (MAXLEVEL tet) (sx e) (Z.testbit c 0) ltac:(lia) Ax Rx).
  destruct (@step_coord k (MAXLEVEL tet) (sy e) (Z.testbit c 1) ltac:(lia) Ay Ry).
  destruct (@step_coord k (MAXLEVEL tet) (sz e) (Z.testbit c 2) ltac:(lia) Az Rz).
  assert (K' : MAXLEVEL tet - (lv e + 1) = k) by lia.
  assert (al k (sz e)) by (apply al_weaken with (j := k + 1); auto; lia).
  destruct tet; constructor; cbn [lv ty sx sy sz]; rewrite ?K'; auto; try lia; try discriminate.
Qed.

Lemma wf_child tet e i : wf tet e -> lv e < MAXLEVEL tet -> 0 <= i < CHILDREN tet -> wf tet (child tet e i).
Proof.
  intros W Hl Hi. rewrite child_step by (auto; apply W). apply wf_step; auto. apply tab_Tt_range; auto. apply W.
Qed.

Definition cidof (tet : bool) (bx b_y bz : bool) : Z := Z.b2z bx + 2 * Z.b2z b_y + (if tet then 4 * Z.b2z bz else 0).

Lemma cubeid_bits tet e l : 1 <= l <= MAXLEVEL tet ->
  compute_cubeid tet e l = let k := MAXLEVEL tet - l in cidof tet (Z.testbit (sx e) k) (Z.testbit (sy e) k) (Z.testbit (sz e) k).
Proof.
  intros Hl. unfold compute_cubeid. rewrite LEN_pow by lia. cbn zeta.
  destruct (Z.eqb_spec l 0); [lia|]. rewrite !bit_or0_pow by lia. unfold cidof.
  set (k := MAXLEVEL tet - l).
  destruct tet, (Z.testbit (sx e) k), (Z.testbit (sy e) k), (Z.testbit (sz e) k); reflexivity.
Qed.

Lemma cidof_bits tet c : 0 <= c < CHILDREN tet -> cidof tet (Z.testbit c 0) (Z.testbit c 1) (Z.testbit c 2) = c.
Proof. intros Hc. destruct tet; cbn [CHILDREN] in Hc; split_range Hc; reflexivity. Qed.

Lemma cidof_range tet a b c : 0 <= cidof tet a b c < CHILDREN tet.
Proof. destruct tet, a, b, c; cbn; lia. Qed.

Lemma cubeid_range tet e l : 0 <= l <= MAXLEVEL tet -> 0 <= compute_cubeid tet e l < CHILDREN tet.
Proof.
  intros. destruct (Z.eq_dec l 0) as [->|]; [unfold compute_cubeid; cbn; destruct tet; cbn; lia|].
  rewrite cubeid_bits by lia. apply cidof_range.
Qed.

Lemma cubeid_step_same tet e t c : wf tet e -> lv e < MAXLEVEL tet -> 0 <= c < CHILDREN tet ->
  compute_cubeid tet (step tet e t c) (lv e + 1) = c.
Proof.
  intros [Hl Ht Ax Ay Az _ _ _ _] Hlt Hc. rewrite cubeid_bits by lia. cbn zeta.
  assert (K : MAXLEVEL tet - lv e = (MAXLEVEL tet - lv e - 1) + 1) by lia. rewrite K in Ax, Ay, Az.
  replace (MAXLEVEL tet - (lv e + 1)) with (MAXLEVEL tet - lv e - 1) by lia.
  unfold step. cbn [sx sy sz].
  rewrite !tb_add_same by (auto; lia).
  rewrite <- (cidof_bits Hc) at 4. destruct tet; [rewrite tb_add_same by (auto; lia); reflexivity|reflexivity].
Qed.

Lemma cubeid_step_lo tet e t c l : wf tet e -> lv e < MAXLEVEL tet -> 0 <= l <= lv e ->
  compute_cubeid tet (step tet e t c) l = compute_cubeid tet e l.
Proof.
  intros [Hl Ht Ax Ay Az _ _ _ _] Hlt H. destruct (Z.eq_dec l 0) as [->|]; [reflexivity|].
  rewrite !cubeid_bits by lia. cbn zeta.
  assert (K : MAXLEVEL tet - lv e = (MAXLEVEL tet - lv e - 1) + 1) by lia. rewrite K in Ax, Ay, Az.
  unfold step. cbn [sx sy sz].
  rewrite !tb_add_hi by (auto; lia). destruct tet; [rewrite tb_add_hi by (auto; lia)|]; reflexivity.
Qed.

Lemma simp_eta e : Simp (lv e) (ty e) (sx e) (sy e) (sz e) = e. Proof. destruct e; reflexivity. Qed.

Lemma parent_step tet e t c : wf tet e -> lv e < MAXLEVEL tet -> 0 <= c < CHILDREN tet -> Pt tet c t = ty e ->
  parent tet (step tet e t c) = e.
Proof.
  intros W Hlt Hc HP. unfold parent. change (lv (step tet e t c)) with (lv e + 1).
  rewrite cubeid_step_same by auto. change (ty (step tet e t c)) with t. rewrite HP.
  destruct W as [Hl Ht Ax Ay Az _ _ _ _]. rewrite LEN_pow by lia.
  assert (K : MAXLEVEL tet - lv e = (MAXLEVEL tet - lv e - 1) + 1) by lia. rewrite K in Ax, Ay, Az.
  replace (MAXLEVEL tet - (lv e + 1)) with (MAXLEVEL tet - lv e - 1) by lia.
  unfold step. cbn [sx sy sz]. rewrite !clear_add by (auto; lia).
  etransitivity; [|apply simp_eta]. f_equal; [lia|]. destruct tet; [apply clear_add; auto; lia|reflexivity].
Qed.

Theorem parent_child tet e i : wf tet e -> lv e < MAXLEVEL tet -> 0 <= i < CHILDREN tet -> parent tet (child tet e i) = e.
Proof.
  intros W Hl Hi. rewrite child_step by (auto; apply W). apply parent_step; auto.
  - apply tab_Tc_range; auto; apply W.
  - apply tab_Pt_Tc; auto; apply W.
Qed.

Theorem child_id_child tet e i : wf tet e -> lv e < MAXLEVEL tet -> 0 <= i < CHILDREN tet -> child_id tet (child tet e i) = i.
Proof.
  intros W Hl Hi. rewrite child_step by (auto; apply W). unfold child_id.
  change (lv (step _ _ _ _)) with (lv e + 1). rewrite cubeid_step_same; auto.
  - apply tab_Li_Tc; auto; apply W.
  - apply tab_Tc_range; auto; apply W.
Qed.

Lemma child_lv tet e i : lv (child tet e i) = lv e + 1.
Proof. unfold child. match goal with |- context [if ?b then ?x else ?y] => destruct (if b then x else y) as [[cx cy] cz] end. reflexivity. Qed.

(** the converse: every well-formed element that is not the root is a child of its parent, and the parent is well-formed *)
Lemma clear_wf k m v : 0 <= k < m -> al k v -> 0 <= v < 2 ^ m ->
  al (k + 1) (clear v (2 ^ k)) /\ 0 <= clear v (2 ^ k) < 2 ^ m /\ v = clear v (2 ^ k) + Z.b2z (Z.testbit v k) * 2 ^ k.
Proof.
  intros Hk (q & ->) Hr. pose proof (@pow2_pos k ltac:(lia)) as P.
  assert (A : al (k + 1) (q * 2 ^ k - Z.b2z (Z.odd q) * 2 ^ k)).
  { exists (q / 2). rewrite pow2_S by lia. pose proof (Z.div_mod q 2 ltac:(lia)) as D. rewrite Zmod_odd in D.
    destruct (Z.odd q); cbn [Z.b2z]; nia. }
  assert (B : Z.testbit (q * 2 ^ k) k = Z.odd q).
  { rewrite testbit_div by lia. now rewrite Z.div_mul by lia. }
  assert (C : clear (q * 2 ^ k) (2 ^ k) = q * 2 ^ k - Z.b2z (Z.odd q) * 2 ^ k).
  { rewrite <- (@clear_add k (q * 2 ^ k - Z.b2z (Z.odd q) * 2 ^ k) (Z.odd q)) by (auto; lia). f_equal. lia. }
  rewrite C, B. split; [exact A|]. split; [|lia].
  assert (0 <= q) by nia. destruct (Z.odd q) eqn:O; cbn [Z.b2z]; [|lia].
  assert (q <> 0) by (intros ->; discriminate). nia.
Qed.

Lemma parent_inv tet e : wf tet e -> 0 < lv e ->
  let i := child_id tet e in
  wf tet (parent tet e) /\ lv (parent tet e) = lv e - 1 /\ 0 <= i < CHILDREN tet /\ child tet (parent tet e) i = e.
Proof.
  intros [Hl Ht Ax Ay Az Rx Ry Rz Z0] Hlt i.
  set (k := MAXLEVEL tet - lv e) in *.
  destruct (@clear_wf k (MAXLEVEL tet) (sx e) ltac:(lia) Ax Rx) as (X1 & X2 & X3).
  destruct (@clear_wf k (MAXLEVEL tet) (sy e) ltac:(lia) Ay Ry) as (Y1 & Y2 & Y3).
  destruct (@clear_wf k (MAXLEVEL tet) (sz e) ltac:(lia) Az Rz) as (V1 & V2 & V3).
  assert (Hc := @cubeid_range tet e (lv e) ltac:(lia)).
  destruct (@tab_conv tet _ (ty e) Hc Ht) as (P1 & P2 & P3 & P4).
  assert (W : wf tet (parent tet e)).
  { unfold parent. rewrite LEN_pow by lia. fold k.
    assert (K : MAXLEVEL tet - (lv e - 1) = k + 1) by lia.
    assert (Z00 : tet = false -> al (k + 1) (sz e)) by (intros E; rewrite (Z0 E); apply al_0).
    destruct tet; constructor; cbn [lv ty sx sy sz]; rewrite ?K; auto; try lia; try discriminate. }
  split; [exact W|]. split; [reflexivity|]. split; [exact P2|].
  rewrite child_step; [|apply W|exact P2|change (lv (parent tet e)) with (lv e - 1); lia].
  change (ty (parent tet e)) with (Pt tet (compute_cubeid tet e (lv e)) (ty e)).
  unfold i, child_id. rewrite P3, P4. unfold step, parent. cbn [lv ty sx sy sz]. rewrite LEN_pow by lia. fold k.
  replace (MAXLEVEL tet - (lv e - 1) - 1) with k by lia.
  rewrite cubeid_bits by lia. fold k. cbn zeta.
  etransitivity; [|apply simp_eta].
  assert (B0 : Z.testbit (cidof tet (Z.testbit (sx e) k) (Z.testbit (sy e) k) (Z.testbit (sz e) k)) 0 = Z.testbit (sx e) k).
  { destruct tet, (Z.testbit (sx e) k), (Z.testbit (sy e) k), (Z.testbit (sz e) k); reflexivity. }
  assert (B1 : Z.testbit (cidof tet (Z.testbit (sx e) k) (Z.testbit (sy e) k) (Z.testbit (sz e) k)) 1 = Z.testbit (sy e) k).
  { destruct tet, (Z.testbit (sx e) k), (Z.testbit (sy e) k), (Z.testbit (sz e) k); reflexivity. }
  rewrite B0, B1. f_equal; try lia. destruct tet; [|reflexivity].
  assert (B2 : Z.testbit (cidof true (Z.testbit (sx e) k) (Z.testbit (sy e) k) (Z.testbit (sz e) k)) 2 = Z.testbit (sz e) k).
  { destruct (Z.testbit (sx e) k), (Z.testbit (sy e) k), (Z.testbit (sz e) k); reflexivity. }
  rewrite B2. lia.
Qed.

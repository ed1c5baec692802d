(** The geometry of the hypercubes of the standalone scheme: an element is a box. *)
From Coq Require Import QArith Lqa.
From Verif Require Import Prelude PathSpec GeoSpec SchemeModel SchemeSpec SchemeProofs BitLemmas SimplexModel SimplexPathProofs SimplexOrderProofs LineModel LineSpec LineProofs.
From Verif Require Import HyperModel HyperSpec HyperProofs HyperOrderProofs.
Open Scope Z_scope.

(** ** hulls of V and a shifted copy of V *)
Definition pcoord (k : Z) (P : pt) : Q := if k =? 0 then px P else if k =? 1 then py P else pz P.
Definition setk (k : Z) (a : Q) (P : pt) : pt := if k =? 0 then (a, py P, pz P) else if k =? 1 then (px P, a, pz P) else (px P, py P, a).
Definition shiftk (k h : Z) (v : ipt) : ipt := if k =? 0 then (ix v + h, iy v, iz v) else if k =? 1 then (ix v, iy v + h, iz v) else (ix v, iy v, iz v + h).
Lemma combination_iff ws vs P : combination ws vs P <->
  length ws = length vs /\ (sumQ ws == 1)%Q /\ forall j, 0 <= j < 3 -> (pcoord j P == wsum ws (map (icoord j) vs))%Q.
Proof.
  unfold combination. split.
  - intros (A & B & C & D & E). split; [exact A|]. split; [exact B|]. intros j Hj. assert (j = 0 \/ j = 1 \/ j = 2) as [->|[->| ->]] by lia; assumption.
  - intros (A & B & C). split; [exact A|]. split; [exact B|]. split; [exact (C 0 ltac:(lia))|]. split; [exact (C 1 ltac:(lia))|exact (C 2 ltac:(lia))].
Qed.
Lemma icoord_shiftk j k h v : 0 <= j < 3 -> 0 <= k < 3 -> icoord j (shiftk k h v) = icoord j v + (if j =? k then h else 0).
Proof.
  intros Hj Hk. destruct v as [[x y] z]. assert (j = 0 \/ j = 1 \/ j = 2) as [->|[->| ->]] by lia; assert (k = 0 \/ k = 1 \/ k = 2) as [->|[->| ->]] by lia;
    unfold icoord, shiftk; cbn [Z.eqb Pos.eqb ix iy iz fst snd]; lia.
Qed.
Lemma pcoord_setk j k a P : 0 <= j < 3 -> 0 <= k < 3 -> pcoord j (setk k a P) = if j =? k then a else pcoord j P.
Proof.
  intros Hj Hk. destruct P as [[x y] z]. assert (j = 0 \/ j = 1 \/ j = 2) as [->|[->| ->]] by lia; assert (k = 0 \/ k = 1 \/ k = 2) as [->|[->| ->]] by lia; reflexivity.
Qed.

Lemma sumQ_app u v : (sumQ (u ++ v) == sumQ u + sumQ v)%Q.
Proof. unfold sumQ. induction u as [|a u IH]; cbn [app fold_right]; [ring|]. rewrite IH. ring. Qed.
Lemma wsum_app u v xs ys : length u = length xs -> (wsum (u ++ v) (xs ++ ys) == wsum u xs + wsum v ys)%Q.
Proof. revert xs. induction u as [|a u IH]; intros [|x xs] H; try discriminate H; cbn [app wsum]; [ring|]. rewrite IH by (cbn in H; lia). ring. Qed.
Fixpoint addw (u v : list Q) : list Q := match u, v with a :: u', b :: v' => (a + b)%Q :: addw u' v' | _, _ => [] end.
Lemma addw_length u v : length u = length v -> length (addw u v) = length u.
Proof. revert v. induction u as [|a u IH]; intros [|b v] H; try discriminate H; cbn [addw length]; [reflexivity|]. f_equal. apply IH. cbn in H. lia. Qed.
Lemma addw_sum u v : length u = length v -> (sumQ (addw u v) == sumQ u + sumQ v)%Q.
Proof.
  revert v. induction u as [|a u IH]; intros [|b v] H; try discriminate H; cbn [addw sumQ fold_right]; [ring|]. fold (sumQ (addw u v)) (sumQ u) (sumQ v).
  rewrite IH by (cbn in H; lia). ring.
Qed.
Lemma addw_wsum u v xs : length u = length v -> (wsum (addw u v) xs == wsum u xs + wsum v xs)%Q.
Proof. revert v xs. induction u as [|a u IH]; intros [|b v] [|x xs] H; try discriminate H; cbn [addw wsum]; try ring. rewrite IH by (cbn in H; lia). ring. Qed.
Lemma addw_Forall (R : Q -> Prop) u v : (forall a b, R a -> R b -> R (a + b)%Q) -> Forall R u -> Forall R v -> Forall R (addw u v).
Proof. intros HR. revert v. induction u as [|a u IH]; intros [|b v] Hu Hv; cbn [addw]; constructor; inversion Hu; inversion Hv; subst; auto. Qed.
Lemma scale_sum t u : (sumQ (map (Qmult t) u) == t * sumQ u)%Q.
Proof. induction u as [|a u IH]; cbn [map sumQ fold_right]; [ring|]. fold (sumQ (map (Qmult t) u)) (sumQ u). rewrite IH. ring. Qed.
Lemma scale_wsum t u xs : (wsum (map (Qmult t) u) xs == t * wsum u xs)%Q.
Proof. revert xs. induction u as [|a u IH]; intros [|x xs]; cbn [map wsum]; try ring. rewrite IH. ring. Qed.
Lemma wsum_shift u f g d (vs : list ipt) : length u = length vs -> (forall v, In v vs -> f v = g v + d) -> (wsum u (map f vs) == wsum u (map g vs) + inject_Z d * sumQ u)%Q.
Proof.
  revert vs. induction u as [|a u IH]; intros [|v vs] H E; try discriminate H; cbn [map wsum sumQ fold_right]; [ring|]. fold (sumQ u).
  rewrite (IH vs) by (cbn in H; try lia; intros; apply E; now right). rewrite (E v) by (now left). rewrite inject_Z_plus. ring.
Qed.
Lemma wsum_const u f d (vs : list ipt) : length u = length vs -> (forall v, In v vs -> f v = d) -> (wsum u (map f vs) == inject_Z d * sumQ u)%Q.
Proof.
  revert vs. induction u as [|a u IH]; intros [|v vs] H E; try discriminate H; cbn [map wsum sumQ fold_right]; [ring|]. fold (sumQ u).
  rewrite (IH vs) by (cbn in H; try lia; intros; apply E; now right). rewrite (E v) by (now left). ring.
Qed.
Lemma sumQ_nonneg u : Forall (fun w => 0 <= w)%Q u -> (0 <= sumQ u)%Q.
Proof. intros H. induction H as [|a u Ha Hu IH]; cbn [sumQ fold_right]; [lra|]. fold (sumQ u). lra. Qed.
Lemma sumQ_pos u : u <> [] -> Forall (fun w => 0 < w)%Q u -> (0 < sumQ u)%Q.
Proof.
  intros N H. destruct H as [|a u Ha Hu]; [congruence|]. cbn [sumQ fold_right]. fold (sumQ u).
  assert (0 <= sumQ u)%Q by (apply sumQ_nonneg; eapply Forall_impl; [|exact Hu]; cbv beta; intros; lra). lra.
Qed.

Lemma shift_fwd k a h vs u v P : 0 <= k < 3 -> (forall x, In x vs -> icoord k x = a) -> length u = length vs -> length v = length vs ->
  combination (u ++ v) (vs ++ map (shiftk k h) vs) P ->
  combination (addw u v) vs (setk k (inject_Z a) P) /\ (pcoord k P == inject_Z a + inject_Z h * sumQ v)%Q /\ (sumQ u + sumQ v == 1)%Q.
Proof.
  intros Hk Ha Lu Lv H. rewrite combination_iff in *. destruct H as (_ & HS & HC). rewrite sumQ_app in HS.
  assert (E : forall j, 0 <= j < 3 -> (pcoord j P == wsum (addw u v) (map (icoord j) vs) + inject_Z (if j =? k then h else 0) * sumQ v)%Q).
  { intros j Hj. rewrite (HC j Hj), map_app, map_map. rewrite wsum_app by (now rewrite map_length).
    rewrite (@wsum_shift v (fun x => icoord j (shiftk k h x)) (icoord j) (if j =? k then h else 0)) by (auto; intros; now apply icoord_shiftk).
    rewrite addw_wsum by congruence. ring. }
  assert (EK : (wsum (addw u v) (map (icoord k) vs) == inject_Z a)%Q).
  { rewrite (@wsum_const _ _ a) by (auto; rewrite addw_length by congruence; exact Lu). rewrite addw_sum by congruence. rewrite HS. ring. }
  split; [|split; [|exact HS]].
  - split; [rewrite addw_length by congruence; exact Lu|]. split; [rewrite addw_sum by congruence; exact HS|]. intros j Hj. rewrite pcoord_setk by auto.
    specialize (E j Hj). destruct (Z.eqb_spec j k) as [EQ|N]; [rewrite EQ; now rewrite EK|]. rewrite E. change (inject_Z 0) with 0%Q. ring.
  - rewrite (E k Hk), Z.eqb_refl, EK. reflexivity.
Qed.
Lemma shift_bwd k a h vs w P : 0 <= k < 3 -> (forall x, In x vs -> icoord k x = a) -> 0 < h ->
  combination w vs (setk k (inject_Z a) P) -> let t := ((pcoord k P - inject_Z a) / inject_Z h)%Q in
  combination (map (Qmult (1 - t)) w ++ map (Qmult t) w) (vs ++ map (shiftk k h) vs) P.
Proof.
  intros Hk Ha Hh H t. rewrite combination_iff in *. destruct H as (HL & HS & HC).
  assert (H0 : (0 < inject_Z h)%Q) by (change 0%Q with (inject_Z 0); rewrite <- Zlt_Qlt; exact Hh).
  split; [rewrite !app_length, !map_length; congruence|]. split; [rewrite sumQ_app, !scale_sum, HS; ring|]. intros j Hj.
  rewrite map_app, map_map. rewrite wsum_app by (rewrite !map_length; exact HL).
  rewrite (@wsum_shift _ (fun x => icoord j (shiftk k h x)) (icoord j) (if j =? k then h else 0)) by (rewrite ?map_length; auto; intros; now apply icoord_shiftk).
  rewrite !scale_wsum, scale_sum, HS. specialize (HC j Hj). rewrite pcoord_setk in HC by auto. destruct (Z.eqb_spec j k) as [EQ|N].
  - rewrite <- HC, EQ. unfold t. field. lra.
  - rewrite <- HC. change (inject_Z 0) with 0%Q. ring.
Qed.
Lemma hull_shift k a h vs P : 0 <= k < 3 -> vs <> [] -> (forall x, In x vs -> icoord k x = a) -> 0 < h ->
  (hull (vs ++ map (shiftk k h) vs) P <-> hull vs (setk k (inject_Z a) P) /\ (inject_Z a <= pcoord k P <= inject_Z (a + h))%Q) /\
  (interior (vs ++ map (shiftk k h) vs) P <-> interior vs (setk k (inject_Z a) P) /\ (inject_Z a < pcoord k P < inject_Z (a + h))%Q).
Proof.
  intros Hk NE Ha Hh. assert (H0 : (0 < inject_Z h)%Q) by (change 0%Q with (inject_Z 0); rewrite <- Zlt_Qlt; exact Hh). rewrite inject_Z_plus.
  assert (SP : forall ws : list Q, length ws = length (vs ++ map (shiftk k h) vs) -> exists u v, ws = u ++ v /\ length u = length vs /\ length v = length vs).
  { intros ws HL. exists (firstn (length vs) ws), (skipn (length vs) ws). rewrite app_length, map_length in HL. split; [symmetry; apply firstn_skipn|].
    rewrite firstn_length, skipn_length. lia. }
  set (t := ((pcoord k P - inject_Z a) / inject_Z h)%Q).
  split; split.
  - intros (ws & C & F). destruct (SP ws (proj1 C)) as (u & v & -> & Lu & Lv). apply Forall_app in F. destruct F as [Fu Fv].
    destruct (@shift_fwd k a h vs u v P Hk Ha Lu Lv C) as (C' & EK & S). split.
    + exists (addw u v). split; [exact C'|]. apply addw_Forall; auto. intros; lra.
    + apply sumQ_nonneg in Fu, Fv. assert (0 <= inject_Z h * sumQ v)%Q by (apply Qmult_le_0_compat; lra). assert (0 <= inject_Z h * sumQ u)%Q by (apply Qmult_le_0_compat; lra).
      assert (inject_Z h * sumQ u + inject_Z h * sumQ v == inject_Z h)%Q by (transitivity (inject_Z h * (sumQ u + sumQ v))%Q; [ring|rewrite S; ring]). lra.
  - intros ((w & C & F) & B). exists (map (Qmult (1 - t)) w ++ map (Qmult t) w). split; [now apply (@shift_bwd k a h vs w P)|].
    assert (T0 : (0 <= t)%Q) by (apply Qle_shift_div_l; lra). assert (T1 : (t <= 1)%Q) by (apply Qle_shift_div_r; lra).
    apply Forall_app. split; apply Forall_map; (eapply Forall_impl; [|exact F]); cbv beta; intros x Hx; apply Qmult_le_0_compat; lra.
  - intros (ws & C & F). destruct (SP ws (proj1 C)) as (u & v & -> & Lu & Lv). apply Forall_app in F. destruct F as [Fu Fv].
    destruct (@shift_fwd k a h vs u v P Hk Ha Lu Lv C) as (C' & EK & S). split.
    + exists (addw u v). split; [exact C'|]. apply addw_Forall; auto. intros; lra.
    + assert (u <> []) by (intros ->; destruct vs; [congruence|discriminate Lu]). assert (v <> []) by (intros ->; destruct vs; [congruence|discriminate Lv]).
      apply sumQ_pos in Fu, Fv; auto. assert (0 < inject_Z h * sumQ v)%Q by (apply Qmult_lt_0_compat; lra). assert (0 < inject_Z h * sumQ u)%Q by (apply Qmult_lt_0_compat; lra).
      assert (inject_Z h * sumQ u + inject_Z h * sumQ v == inject_Z h)%Q by (transitivity (inject_Z h * (sumQ u + sumQ v))%Q; [ring|rewrite S; ring]). lra.
  - intros ((w & C & F) & B). exists (map (Qmult (1 - t)) w ++ map (Qmult t) w). split; [now apply (@shift_bwd k a h vs w P)|].
    assert (T0 : (0 < t)%Q) by (apply Qlt_shift_div_l; lra). assert (T1 : (t < 1)%Q) by (apply Qlt_shift_div_r; lra).
    apply Forall_app. split; apply Forall_map; (eapply Forall_impl; [|exact F]); cbv beta; intros x Hx; apply Qmult_lt_0_compat; lra.
Qed.
Lemma hull_point v P : (hull [v] P <-> (px P == inject_Z (ix v) /\ py P == inject_Z (iy v) /\ pz P == inject_Z (iz v))%Q) /\ (interior [v] P <-> hull [v] P).
Proof.
  assert (A : hull [v] P -> (px P == inject_Z (ix v) /\ py P == inject_Z (iy v) /\ pz P == inject_Z (iz v))%Q).
  { intros (ws & (HL & HS & HX & HY & HZ) & _). destruct ws as [|w [|? ?]]; try discriminate HL. cbn [sumQ fold_right wsum map] in *.
    assert (E : (w == 1)%Q) by lra. rewrite E in HX, HY, HZ. split; [|split]; lra. }
  assert (B : (px P == inject_Z (ix v) /\ py P == inject_Z (iy v) /\ pz P == inject_Z (iz v))%Q -> interior [v] P).
  { intros (X & Y & Z). exists [1%Q]. split; [|repeat constructor]. split; [reflexivity|]. split; [reflexivity|]. cbn [wsum map]. split; [|split]; lra. }
  assert (C : interior [v] P -> hull [v] P) by (intros (ws & D & F); exists ws; split; [exact D|eapply Forall_impl; [|exact F]; cbv beta; intros; lra]).
  split; split; auto.
Qed.

(** ** elements that are aligned to their grid, inside or outside of the root *)
Definition h_aligned (c : hclass) (e : hcube) : Prop := 0 <= hl e <= hmax c /\ length (hx e) = hdim c /\ Forall (al (hbits c - hl e)) (hx e).
Lemma h_walk_aligned c p : h_path c p -> h_aligned c (h_walk c p).
Proof.
  intros [V L]. rewrite h_walk_eq by auto. unfold h_aligned. cbn [hl hx]. pose proof (zlen_nonneg p). split; [lia|]. split; [apply coords_length|].
  apply Forall_map, Forall_forall. intros k _. apply X_al.
Qed.
Lemma h_len_pos c l : l <= hmax c -> 0 < h_len c l.
Proof. intros H. rewrite h_len_pow by auto. apply pow2_pos. lia. Qed.
Lemma h_len_succ c l : l < hmax c -> h_len c l = 2 * h_len c (l + 1).
Proof. intros H. rewrite !h_len_pow by lia. replace (hbits c - l) with (hbits c - (l + 1) + 1) by lia. rewrite pow2_S by lia. reflexivity. Qed.

(** the coordinates of the four kinds of elements *)
Definition shape (c : hclass) (l : list Z) : Prop :=
  match c with HVertex => l = [] | HLine => exists x, l = [x] | HQuad | PQuad => exists x y, l = [x; y] | HHex | PHex => exists x y z, l = [x; y; z] end.
Lemma shape_of c l : length l = hdim c -> shape c l.
Proof. intros H. destruct c; cbn in H |- *; destruct l as [|x [|y [|z [|? ?]]]]; try discriminate H; eauto. Qed.
Lemma h_vertices_eq c e : length (hx e) = hdim c -> let h := h_len c (hl e) in
  h_vertices c e = match c with
    | HVertex => [(0, 0, 0)]
    | HLine => let x := znth 0 (hx e) 0 in [(x, 0, 0); (x + h, 0, 0)]
    | HQuad | PQuad => let x := znth 0 (hx e) 0 in let y := znth 0 (hx e) 1 in [(x, y, 0); (x + h, y, 0); (x, y + h, 0); (x + h, y + h, 0)]
    | HHex | PHex => let x := znth 0 (hx e) 0 in let y := znth 0 (hx e) 1 in let z := znth 0 (hx e) 2 in
        [(x, y, z); (x + h, y, z); (x, y + h, z); (x + h, y + h, z); (x, y, z + h); (x + h, y, z + h); (x, y + h, z + h); (x + h, y + h, z + h)]
    end.
Proof.
  intros HL h. apply shape_of in HL. destruct e as [l xs]. cbn [hx hl] in *. subst h.
  destruct c; cbn [shape] in HL; [subst xs|destruct HL as (x & ->)|destruct HL as (x & y & ->)|destruct HL as (x & y & z & ->)|destruct HL as (x & y & ->)|destruct HL as (x & y & z & ->)];
    unfold h_vertices, h_vertex, h_coords, to_ipt; cbn [hx hl hcorners].
  - reflexivity.
  - set (h := h_len HLine l). clearbody h. change (Z.to_nat 2) with 2%nat. cbn [zseq map imap].
    repeat match goal with |- context [Z.shiftr (Z.land ?a (Z.shiftl 1 ?k)) ?k] => let v := eval vm_compute in (Z.shiftr (Z.land a (Z.shiftl 1 k)) k) in change (Z.shiftr (Z.land a (Z.shiftl 1 k)) k) with v end.
    unfold znth. change (Z.to_nat 0) with 0%nat. change (Z.to_nat 1) with 1%nat. change (Z.to_nat 2) with 2%nat. cbn [nth].
    rewrite ?Z.mul_0_l, ?Z.mul_1_l, ?Z.add_0_r. reflexivity.
  - set (h := h_len HQuad l). clearbody h. change (Z.to_nat 4) with 4%nat. cbn [zseq map imap].
    repeat match goal with |- context [Z.shiftr (Z.land ?a (Z.shiftl 1 ?k)) ?k] => let v := eval vm_compute in (Z.shiftr (Z.land a (Z.shiftl 1 k)) k) in change (Z.shiftr (Z.land a (Z.shiftl 1 k)) k) with v end.
    unfold znth. change (Z.to_nat 0) with 0%nat. change (Z.to_nat 1) with 1%nat. change (Z.to_nat 2) with 2%nat. cbn [nth].
    rewrite ?Z.mul_0_l, ?Z.mul_1_l, ?Z.add_0_r. reflexivity.
  - set (h := h_len HHex l). clearbody h. change (Z.to_nat 8) with 8%nat. cbn [zseq map imap].
    repeat match goal with |- context [Z.shiftr (Z.land ?a (Z.shiftl 1 ?k)) ?k] => let v := eval vm_compute in (Z.shiftr (Z.land a (Z.shiftl 1 k)) k) in change (Z.shiftr (Z.land a (Z.shiftl 1 k)) k) with v end.
    unfold znth. change (Z.to_nat 0) with 0%nat. change (Z.to_nat 1) with 1%nat. change (Z.to_nat 2) with 2%nat. cbn [nth].
    rewrite ?Z.mul_0_l, ?Z.mul_1_l, ?Z.add_0_r. reflexivity.
  - set (h := h_len PQuad l). clearbody h. change (Z.to_nat 4) with 4%nat. cbn [zseq map imap].
    repeat match goal with |- context [Z.shiftr (Z.land ?a (Z.shiftl 1 ?k)) ?k] => let v := eval vm_compute in (Z.shiftr (Z.land a (Z.shiftl 1 k)) k) in change (Z.shiftr (Z.land a (Z.shiftl 1 k)) k) with v end.
    unfold znth. change (Z.to_nat 0) with 0%nat. change (Z.to_nat 1) with 1%nat. change (Z.to_nat 2) with 2%nat. cbn [nth].
    rewrite ?Z.mul_0_l, ?Z.mul_1_l, ?Z.add_0_r. reflexivity.
  - set (h := h_len PHex l). clearbody h. change (Z.to_nat 8) with 8%nat. cbn [zseq map imap].
    repeat match goal with |- context [Z.shiftr (Z.land ?a (Z.shiftl 1 ?k)) ?k] => let v := eval vm_compute in (Z.shiftr (Z.land a (Z.shiftl 1 k)) k) in change (Z.shiftr (Z.land a (Z.shiftl 1 k)) k) with v end.
    unfold znth. change (Z.to_nat 0) with 0%nat. change (Z.to_nat 1) with 1%nat. change (Z.to_nat 2) with 2%nat. cbn [nth].
    rewrite ?Z.mul_0_l, ?Z.mul_1_l, ?Z.add_0_r. reflexivity.
Qed.

(** the box: closed and open; there is no extent in the directions beyond the dimension *)
Definition hbox (c : hclass) (e : hcube) (P : pt) : Prop :=
  forall k, 0 <= k < 3 -> if k <? Z.of_nat (hdim c) then (inject_Z (znth 0%Z (hx e) k) <= pcoord k P <= inject_Z (znth 0%Z (hx e) k + h_len c (hl e))%Z)%Q else (pcoord k P == 0)%Q.
Definition hobox (c : hclass) (e : hcube) (P : pt) : Prop :=
  forall k, 0 <= k < 3 -> if k <? Z.of_nat (hdim c) then (inject_Z (znth 0%Z (hx e) k) < pcoord k P < inject_Z (znth 0%Z (hx e) k + h_len c (hl e))%Z)%Q else (pcoord k P == 0)%Q.
Lemma all3 (R : Z -> Prop) : (forall k, 0 <= k < 3 -> R k) <-> R 0 /\ R 1 /\ R 2.
Proof.
  split; [intros H; split; [|split]; apply H; lia|]. intros (A & B & C) k Hk. assert (k = 0 \/ k = 1 \/ k = 2) as [->|[->| ->]] by lia; assumption.
Qed.
Lemma hull_box c e P : h_aligned c e -> (hull (h_vertices c e) P <-> hbox c e P) /\ (interior (h_vertices c e) P <-> hobox c e P).
Proof.
  intros ((L0 & LM) & HL & _). assert (Hh := h_len_pos LM). rewrite (@h_vertices_eq c e HL). unfold hbox, hobox. rewrite !all3. apply shape_of in HL.
  set (h := h_len c (hl e)) in *. clearbody h. destruct e as [l xs]. cbn [hx] in *.
  destruct P as [[PX PY] PZ].
  destruct c; cbn [shape] in HL; [subst xs|destruct HL as (x & ->)|destruct HL as (x & y & ->)|destruct HL as (x & y & z & ->)|destruct HL as (x & y & ->)|destruct HL as (x & y & z & ->)]; cbn [hdim];
    repeat match goal with |- context [?a <? Z.of_nat ?n] => let v := eval vm_compute in (a <? Z.of_nat n) in change (a <? Z.of_nat n) with v end; cbv iota;
    unfold znth; change (Z.to_nat 0) with 0%nat; change (Z.to_nat 1) with 1%nat; change (Z.to_nat 2) with 2%nat; cbn [nth].
  - split; [rewrite (proj1 (hull_point _ _))|rewrite (proj2 (hull_point _ _)), (proj1 (hull_point _ _))]; unfold pcoord; cbn [Z.eqb Pos.eqb ix iy iz px py pz fst snd]; change (inject_Z 0) with 0%Q; tauto.
  - assert (H := @hull_shift 0 x h [(x, 0, 0)] (PX, PY, PZ) ltac:(lia) ltac:(discriminate) ltac:(intros ? [<-|[]]; reflexivity) Hh).
    cbn [map app shiftk Z.eqb ix iy iz fst snd] in H. rewrite (proj1 H), (proj2 H), (proj2 (hull_point _ _)), !(proj1 (hull_point _ _)). clear.
    unfold pcoord, setk. cbn [Z.eqb Pos.eqb ix iy iz px py pz fst snd]. change (inject_Z 0) with 0%Q. intuition (reflexivity || assumption).
  - assert (H := @hull_shift 0 x h [(x, y, 0)] (setk 1 (inject_Z y) (PX, PY, PZ)) ltac:(lia) ltac:(discriminate) ltac:(intros ? [<-|[]]; reflexivity) Hh).
    assert (H1 := @hull_shift 1 y h [(x, y, 0); (x + h, y, 0)] (PX, PY, PZ) ltac:(lia) ltac:(discriminate) ltac:(intros ? [<-|[<-|[]]]; reflexivity) Hh).
    cbn [map app shiftk Z.eqb Pos.eqb ix iy iz fst snd] in H, H1. rewrite (proj1 H1), (proj2 H1), (proj1 H), (proj2 H), (proj2 (hull_point _ _)), !(proj1 (hull_point _ _)). clear.
    unfold pcoord, setk. cbn [Z.eqb Pos.eqb ix iy iz px py pz fst snd]. change (inject_Z 0) with 0%Q. intuition (reflexivity || assumption).
  - assert (H := @hull_shift 0 x h [(x, y, z)] (setk 1 (inject_Z y) (setk 2 (inject_Z z) (PX, PY, PZ))) ltac:(lia) ltac:(discriminate) ltac:(intros ? [<-|[]]; reflexivity) Hh).
    assert (H1 := @hull_shift 1 y h [(x, y, z); (x + h, y, z)] (setk 2 (inject_Z z) (PX, PY, PZ)) ltac:(lia) ltac:(discriminate) ltac:(intros ? [<-|[<-|[]]]; reflexivity) Hh).
    assert (H2 := @hull_shift 2 z h [(x, y, z); (x + h, y, z); (x, y + h, z); (x + h, y + h, z)] (PX, PY, PZ) ltac:(lia) ltac:(discriminate) ltac:(intros ? [<-|[<-|[<-|[<-|[]]]]]; reflexivity) Hh).
    cbn [map app shiftk Z.eqb Pos.eqb ix iy iz fst snd] in H, H1, H2. rewrite (proj1 H2), (proj2 H2), (proj1 H1), (proj2 H1), (proj1 H), (proj2 H), (proj2 (hull_point _ _)), !(proj1 (hull_point _ _)). clear.
    unfold pcoord, setk. cbn [Z.eqb Pos.eqb ix iy iz px py pz fst snd]. intuition (reflexivity || assumption).
  - assert (H := @hull_shift 0 x h [(x, y, 0)] (setk 1 (inject_Z y) (PX, PY, PZ)) ltac:(lia) ltac:(discriminate) ltac:(intros ? [<-|[]]; reflexivity) Hh).
    assert (H1 := @hull_shift 1 y h [(x, y, 0); (x + h, y, 0)] (PX, PY, PZ) ltac:(lia) ltac:(discriminate) ltac:(intros ? [<-|[<-|[]]]; reflexivity) Hh).
    cbn [map app shiftk Z.eqb Pos.eqb ix iy iz fst snd] in H, H1. rewrite (proj1 H1), (proj2 H1), (proj1 H), (proj2 H), (proj2 (hull_point _ _)), !(proj1 (hull_point _ _)). clear.
    unfold pcoord, setk. cbn [Z.eqb Pos.eqb ix iy iz px py pz fst snd]. change (inject_Z 0) with 0%Q. intuition (reflexivity || assumption).
  - assert (H := @hull_shift 0 x h [(x, y, z)] (setk 1 (inject_Z y) (setk 2 (inject_Z z) (PX, PY, PZ))) ltac:(lia) ltac:(discriminate) ltac:(intros ? [<-|[]]; reflexivity) Hh).
    assert (H1 := @hull_shift 1 y h [(x, y, z); (x + h, y, z)] (setk 2 (inject_Z z) (PX, PY, PZ)) ltac:(lia) ltac:(discriminate) ltac:(intros ? [<-|[<-|[]]]; reflexivity) Hh).
    assert (H2 := @hull_shift 2 z h [(x, y, z); (x + h, y, z); (x, y + h, z); (x + h, y + h, z)] (PX, PY, PZ) ltac:(lia) ltac:(discriminate) ltac:(intros ? [<-|[<-|[<-|[<-|[]]]]]; reflexivity) Hh).
    cbn [map app shiftk Z.eqb Pos.eqb ix iy iz fst snd] in H, H1, H2. rewrite (proj1 H2), (proj2 H2), (proj1 H1), (proj2 H1), (proj1 H), (proj2 H), (proj2 (hull_point _ _)), !(proj1 (hull_point _ _)). clear.
    unfold pcoord, setk. cbn [Z.eqb Pos.eqb ix iy iz px py pz fst snd]. intuition (reflexivity || assumption).
Qed.

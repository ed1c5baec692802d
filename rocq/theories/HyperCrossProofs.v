(** Boundary elements, extrusion and the transformation between trees for the hypercubes of the standalone scheme. *)
From Verif Require Import Prelude PathSpec GeoSpec SchemeModel SchemeSpec SchemeProofs SchemeInstances FaceModel FaceSpec FaceProofs FaceInstances NeighborModel NeighborSpec NeighborProofs EclassModel.
From Verif Require Import BitLemmas SimplexModel SimplexPathProofs LineModel LineSpec LineProofs.
From Verif Require Import HyperModel HyperSpec HyperProofs HyperOrderProofs HyperScheme HyperGeoProofs HyperFaceProofs HyperNbProofs HyperFlaws.

Notation FC c := (h_face_class c).
(** the elements inside of the root, by their coordinates *)
Definition hin (c : hclass) (e : hcube) : Prop := h_aligned c e /\ forall k, 0 <= k < D c -> 0 <= hk e k < 2 ^ hbits c.
Lemma hin_valid c e : h_valid c e <-> hin c e.
Proof.
  split.
  - intros (p & Hp & ->). assert (A := h_walk_aligned Hp). split; [exact A|]. apply (inside_k A). apply (h_inside_root A). now exists p.
  - intros [A I]. apply (inside_k A) in I. apply (h_inside_root A) in I. exact I.
Qed.
Lemma hin_top c e k : hin c e -> 0 <= k < D c -> 0 <= hk e k /\ hk e k + h_len c (hl e) <= 2 ^ hbits c.
Proof. intros H. apply hin_valid in H. destruct H as (p & Hp & ->). now apply h_walk_k. Qed.
Lemma hin_al c e k : hin c e -> 0 <= k < D c -> al (hbits c - hl e) (hk e k).
Proof. intros ((_ & HE & HA) & _) Hk. apply (proj1 (Forall_forall _ _) HA). unfold znth. apply nth_In. lia. Qed.
Lemma hin_intro c e : 0 <= hl e <= hmax c -> length (hx e) = hdim c -> (forall k, 0 <= k < D c -> al (hbits c - hl e) (hk e k) /\ 0 <= hk e k < 2 ^ hbits c) -> hin c e.
Proof.
  intros H1 H2 H3. split; [|intros k Hk; now apply H3]. split; [exact H1|]. split; [exact H2|]. apply Forall_forall. intros x Hx. apply (In_nth _ _ 0) in Hx. destruct Hx as (n & Hn & <-).
  destruct (H3 (Z.of_nat n) ltac:(lia)) as [A _]. unfold znth in A. now rewrite Nat2Z.id in A.
Qed.

(** ** coordinates of boundary elements and of extruded elements *)
Definition skip (a j : Z) : Z := if j <? a then j else j + 1.
Lemma D_face c : c <> HVertex -> D (FC c) = D c - 1. Proof. destruct c; [congruence|reflexivity..]. Qed.
Lemma hmax_face c : c <> HVertex -> hmax c <= hmax (FC c) /\ hbits c <= hbits (FC c). Proof. destruct c; [congruence|cbn; lia..]. Qed.
Lemma face_class c f : 0 <= f < hfaces c -> c <> HVertex. Proof. intros H ->. cbn in H. lia. Qed.
Lemma h_boundary_k c e f : length (hx e) = hdim c -> 0 <= f < hfaces c ->
  length (hx (h_boundary_face c e f)) = hdim (FC c) /\ forall j, 0 <= j < D (FC c) -> hk (h_boundary_face c e f) j = Z.shiftl (hk e (skip (f / 2) j)) (hbits (FC c) - hbits c).
Proof.
  intros HE Hf. apply shape_of in HE. destruct e as [l xs]. unfold h_boundary_face, h_tree_face. cbn [hx hl] in *.
  destruct c; cbn [hfaces shape h_face_class hdim] in *; [lia|destruct HE as (x & ->)|destruct HE as (x & y & ->)|destruct HE as (x & y & z & ->)|destruct HE as (x & y & ->)|destruct HE as (x & y & z & ->)].
  - assert (f = 0 \/ f = 1) as [->| ->] by lia; (split; [reflexivity|intros j Hj; lia]).
  - set (sh := hbits HLine - hbits HQuad). clearbody sh.
    assert (f = 0 \/ f = 1 \/ f = 2 \/ f = 3) as [->|[->|[->| ->]]] by lia; (split; [reflexivity|intros j Hj; replace j with 0 by lia; reflexivity]).
  - set (sh := hbits HQuad - hbits HHex). clearbody sh.
    assert (f = 0 \/ f = 1 \/ f = 2 \/ f = 3 \/ f = 4 \/ f = 5) as [->|[->|[->|[->|[->| ->]]]]] by lia;
      (split; [reflexivity|intros j Hj; assert (j = 0 \/ j = 1) as [->| ->] by lia; reflexivity]).
  - set (sh := hbits HLine - hbits PQuad). clearbody sh.
    assert (f = 0 \/ f = 1 \/ f = 2 \/ f = 3) as [->|[->|[->| ->]]] by lia; (split; [reflexivity|intros j Hj; replace j with 0 by lia; reflexivity]).
  - set (sh := hbits PQuad - hbits PHex). clearbody sh.
    assert (f = 0 \/ f = 1 \/ f = 2 \/ f = 3 \/ f = 4 \/ f = 5) as [->|[->|[->|[->|[->| ->]]]]] by lia;
      (split; [reflexivity|intros j Hj; assert (j = 0 \/ j = 1) as [->| ->] by lia; reflexivity]).
Qed.
Lemma h_extrude_k c b rf : 0 <= rf -> length (hx (fst (h_extrude_face c b rf))) = hdim c /\
  forall k, 0 <= k < D c -> hk (fst (h_extrude_face c b rf)) k =
    if k =? rf / 2 then (if rf mod 2 =? 0 then 0 else h_root_len c - h_len c (hl b)) else Z.shiftr (hk b (if rf / 2 <? k then k - 1 else k)) (hbits (FC c) - hbits c).
Proof.
  intros Hr. assert (R0 : 0 <= rf / 2) by (apply Z.div_pos; lia). unfold h_extrude_face. cbn [fst hx]. split; [now rewrite map_length, zseq_length|]. intros k Hk.
  match goal with |- znth 0 (map ?g _) k = _ => set (F := g) end.
  unfold znth at 1. rewrite (nth_indep _ 0 (F 0)) by (rewrite map_length, zseq_length; lia). rewrite (map_nth F), nth_zseq by lia.
  replace (0 + Z.of_nat (Z.to_nat k)) with k by lia. unfold F, h_facedim. destruct (Z.eqb_spec k (rf / 2)) as [E|E].
  - change (-1 =? -1) with true. cbn [negb]. destruct (rf mod 2 =? 0); reflexivity.
  - destruct (Z.ltb_spec (rf / 2) k).
    + rewrite (proj2 (Z.eqb_neq (k - 1) (-1))) by lia. reflexivity.
    + rewrite (proj2 (Z.eqb_neq k (-1))) by lia. reflexivity.
Qed.
Lemma shift_up_down x s : 0 <= s -> Z.shiftr (Z.shiftl x s) s = x.
Proof. intros H. rewrite Z.shiftr_shiftl_l by lia. rewrite Z.sub_diag. apply Z.shiftl_0_r. Qed.
Lemma shift_down_up x s : 0 <= s -> al s x -> Z.shiftl (Z.shiftr x s) s = x.
Proof. intros H (q & ->). rewrite Z.shiftr_div_pow2, Z.shiftl_mul_pow2 by lia. rewrite Z.div_mul by (apply Z.pow_nonzero; lia). reflexivity. Qed.
Lemma shiftl_al x s t : 0 <= s -> 0 <= t -> al t x -> al (t + s) (Z.shiftl x s).
Proof. intros Hs Ht (q & ->). exists q. rewrite Z.shiftl_mul_pow2, Z.pow_add_r by lia. ring. Qed.
Lemma shiftr_al x s t : 0 <= s -> 0 <= t -> al (t + s) x -> al t (Z.shiftr x s).
Proof. intros Hs Ht (q & ->). exists q. rewrite Z.shiftr_div_pow2, Z.pow_add_r by lia. rewrite Z.mul_assoc. rewrite Z.div_mul by (apply Z.pow_nonzero; lia). reflexivity. Qed.

Lemma h_boundary_in c e f : hin c e -> 0 <= f < hfaces c -> hin (FC c) (h_boundary_face c e f) /\ hl (h_boundary_face c e f) = hl e.
Proof.
  intros H Hf. assert (C := face_class Hf). assert (M := hmax_face C). assert (DF := D_face C). destruct (H) as ((HL & HE & _) & HI). destruct (h_boundary_k HE Hf) as [B1 B2]. destruct (f_div Hf) as (F1 & F2 & F3).
  assert (BL : hl (h_boundary_face c e f) = hl e) by reflexivity. split; [|exact BL]. apply hin_intro; [rewrite BL; lia|exact B1|]. intros j Hj. rewrite B2, BL by exact Hj.
  assert (Hs : 0 <= skip (f / 2) j < D c) by (unfold skip; destruct (Z.ltb_spec j (f / 2)); lia). split.
  - replace (hbits (FC c) - hl e) with (hbits c - hl e + (hbits (FC c) - hbits c)) by lia. apply shiftl_al; [lia|lia|]. now apply hin_al.
  - specialize (HI _ Hs). rewrite Z.shiftl_mul_pow2 by lia. pose proof (@pow2_pos (hbits (FC c) - hbits c) ltac:(lia)). pose proof (hmax_pos c).
    replace (2 ^ hbits (FC c)) with (2 ^ hbits c * 2 ^ (hbits (FC c) - hbits c)) by (rewrite <- Z.pow_add_r by lia; f_equal; lia). nia.
Qed.
Lemma h_boundary_extrude c e f : hin c e -> 0 <= f < hfaces c -> h_is_root_boundary c e f = true -> h_extrude_face c (h_boundary_face c e f) f = (e, f).
Proof.
  intros H Hf R. assert (C := face_class Hf). assert (M := hmax_face C). assert (DF := D_face C). destruct (H) as ((HL & HE & _) & HI). destruct (h_boundary_k HE Hf) as [B1 B2]. destruct (f_div Hf) as (F1 & F2 & F3).
  destruct (@h_extrude_k c (h_boundary_face c e f) f (proj1 Hf)) as [E1 E2]. rewrite (surjective_pairing (h_extrude_face c _ f)). change (snd (h_extrude_face c (h_boundary_face c e f) f)) with f. apply (f_equal (fun x => (x, f))).
  apply (@hcube_ext c); [exact E1|exact HE|reflexivity|]. intros k Hk. rewrite E2 by exact Hk. destruct (Z.eqb_spec k (f / 2)) as [->|N].
  - unfold h_is_root_boundary in R. change (hl (h_boundary_face c e f)) with (hl e). destruct (f mod 2 =? 0); cbn [negb] in R; apply Z.eqb_eq in R; lia.
  - rewrite B2 by (destruct (Z.ltb_spec (f / 2) k); lia). rewrite shift_up_down by lia. f_equal. unfold skip. destruct (Z.ltb_spec (f / 2) k).
    + rewrite (proj2 (Z.ltb_ge _ _)) by lia. lia.
    + rewrite (proj2 (Z.ltb_lt _ _)) by lia. lia.
Qed.
Lemma h_extrude_in c b rf : hin (FC c) b -> hl b <= hmax c -> 0 <= rf < hfaces c -> let (e, f) := h_extrude_face c b rf in
  hin c e /\ hl e = hl b /\ f = rf /\ h_is_root_boundary c e f = true /\ h_boundary_face c e f = b.
Proof.
  intros H HM Hf. assert (C := face_class Hf). assert (M := hmax_face C). assert (DF := D_face C). destruct (H) as ((HL & HE & _) & HI). destruct (f_div Hf) as (F1 & F2 & F3).
  destruct (@h_extrude_k c b rf (proj1 Hf)) as [E1 E2]. assert (EL : hl (fst (h_extrude_face c b rf)) = hl b) by reflexivity. assert (EF : snd (h_extrude_face c b rf) = rf) by reflexivity.
  destruct (h_extrude_face c b rf) as [e f]. cbn [fst snd] in *. subst f. assert (RL : h_root_len c = 2 ^ hbits c) by (apply h_root_len_pow; destruct c; [congruence|discriminate..]).
  assert (HP := @h_len_pos c (hl b) ltac:(lia)). assert (HLP := @h_len_pow c (hl b) ltac:(lia)).
  assert (LE : 2 ^ (hbits c - hl b) <= 2 ^ hbits c) by (apply Z.pow_le_mono_r; lia). pose proof (@pow2_pos (hbits c) ltac:(pose proof (hmax_pos c); lia)) as PP.
  assert (IN : hin c e).
  { apply hin_intro; [lia|exact E1|]. intros k Hk. rewrite E2, EL by exact Hk. destruct (Z.eqb_spec k (rf / 2)) as [EQ|N].
    - destruct (rf mod 2 =? 0).
      + split; [apply al_0|lia].
      + rewrite RL, HLP. split; [|lia]. exists (2 ^ hl b - 1). rewrite (@pow2_split (hbits c - hl b) (hbits c)) by lia. replace (hbits c - (hbits c - hl b)) with (hl b) by lia. ring.
    - set (j := if rf / 2 <? k then k - 1 else k). assert (Hj : 0 <= j < D (FC c)) by (unfold j; destruct (Z.ltb_spec (rf / 2) k); lia). assert (Aj := hin_al H Hj). specialize (HI j Hj). split.
      + apply shiftr_al; [lia|lia|]. replace (hbits c - hl b + (hbits (FC c) - hbits c)) with (hbits (FC c) - hl b) by lia. exact Aj.
      + rewrite Z.shiftr_div_pow2 by lia. split; [apply Z.div_pos; [lia|apply pow2_pos; lia]|]. apply Z.div_lt_upper_bound; [apply pow2_pos; lia|]. pose proof (hmax_pos c). rewrite <- Z.pow_add_r by lia. replace (hbits (FC c) - hbits c + hbits c) with (hbits (FC c)) by lia. lia. }
  split; [exact IN|]. split; [exact EL|]. split; [reflexivity|]. split.
  - unfold h_is_root_boundary. rewrite E2, EL, Z.eqb_refl by exact F1. destruct (rf mod 2 =? 0); cbn [negb]; apply Z.eqb_refl.
  - destruct (h_boundary_k E1 Hf) as [B1 B2]. apply (@hcube_ext (FC c)); [exact B1|exact HE|exact EL|]. intros j Hj. rewrite B2 by exact Hj. unfold skip. rewrite E2 by (destruct (Z.ltb_spec j (rf / 2)); lia).
    rewrite (proj2 (Z.eqb_neq _ (rf / 2))) by (destruct (Z.ltb_spec j (rf / 2)); lia).
    replace (if rf / 2 <? (if j <? rf / 2 then j else j + 1) then (if j <? rf / 2 then j else j + 1) - 1 else (if j <? rf / 2 then j else j + 1)) with j by (destruct (Z.ltb_spec j (rf / 2)); [destruct (Z.ltb_spec (rf / 2) j)|destruct (Z.ltb_spec (rf / 2) (j + 1))]; lia).
    apply shift_down_up; [lia|]. assert (Aj := hin_al H Hj). apply (@BitLemmas.al_weaken _ (hbits (FC c) - hl b)); [lia|exact Aj].
Qed.

(** ** children *)
Definition corner_ok (c : hclass) (f j : Z) : bool :=
  let i := h_corner_index (f / 2) (f mod 2) j in
  (0 <=? i) && (i <? hchildren c) && (bitk (f / 2) i =? f mod 2) && forallb (fun k => bitk (skip (f / 2) k) i =? bitk k j) (zseq 0 (hdim (FC c))).
Lemma tab_corner c f j : 0 <= f < hfaces c -> 0 <= j < hchildren (FC c) -> let i := h_corner_index (f / 2) (f mod 2) j in
  0 <= i < hchildren c /\ bitk (f / 2) i = f mod 2 /\ forall k, 0 <= k < D (FC c) -> bitk (skip (f / 2) k) i = bitk k j.
Proof.
  intros Hf Hj. assert (A : forallb (fun f => forallb (corner_ok c f) (zseq 0 (Z.to_nat (hchildren (FC c))))) (zseq 0 (Z.to_nat (hfaces c))) = true) by (destruct c; vm_compute; reflexivity).
  rewrite forallb_forall in A. specialize (A f ltac:(apply in_zseq; lia)). rewrite forallb_forall in A. specialize (A j ltac:(apply in_zseq; lia)).
  unfold corner_ok in A. cbv zeta in *. rewrite !andb_true_iff, forallb_forall in A. destruct A as [[[A1 A2] A3] A4]. split; [lia|]. split; [lia|].
  intros k Hk. specialize (A4 k ltac:(apply in_zseq; lia)). lia.
Qed.
Lemma h_boundary_child c e f i j : hin c e -> hl e < hmax c -> 0 <= f < hfaces c -> (forall k, 0 <= k < D (FC c) -> bitk (skip (f / 2) k) i = bitk k j) ->
  h_boundary_face c (h_child c e i) f = h_child (FC c) (h_boundary_face c e f) j.
Proof.
  intros H HM Hf HB. assert (C := face_class Hf). assert (M := hmax_face C). assert (DF := D_face C). destruct (H) as ((HL & HE & _) & HI). destruct (h_boundary_k HE Hf) as [B1 B2]. destruct (f_div Hf) as (F1 & F2 & F3).
  assert (CE : length (hx (h_child c e i)) = hdim c) by (unfold h_child; cbn [hx]; now rewrite imap_length). destruct (h_boundary_k CE Hf) as [C1 C2].
  apply (@hcube_ext (FC c)); [exact C1|unfold h_child; cbn [hx]; now rewrite imap_length|reflexivity|].
  intros k Hk. rewrite C2 by exact Hk. assert (Hs : 0 <= skip (f / 2) k < D c) by (unfold skip; destruct (Z.ltb_spec k (f / 2)); lia).
  assert (BL : hl (h_boundary_face c e f) = hl e) by reflexivity.
  rewrite h_child_k by auto. rewrite h_child_k by (auto; rewrite BL; lia). rewrite B2, BL, HB by auto. rewrite !Z.shiftl_mul_pow2 by lia. rewrite !h_len_pow by lia.
  replace (2 ^ (hbits (FC c) - (hl e + 1))) with (2 ^ (hbits c - (hl e + 1)) * 2 ^ (hbits (FC c) - hbits c)) by (rewrite <- Z.pow_add_r by lia; f_equal; lia). ring.
Qed.
Lemma h_face_ids c f i : 0 <= f < hfaces c -> (In i (h_child_ids_at_face c f) <-> exists j, 0 <= j < hchildren (FC c) /\ i = h_corner_index (f / 2) (f mod 2) j).
Proof.
  intros Hf. unfold h_child_ids_at_face. rewrite in_map_iff. assert (E : Z.to_nat (h_num_face_children c) = Z.to_nat (hchildren (FC c))) by (destruct c; [cbn in Hf; lia|reflexivity..]). rewrite E. pose proof (hN_pos (FC c)).
  split; intros (j & A & B); exists j.
  - apply in_zseq in B. split; [lia|now symmetry].
  - split; [now symmetry|apply in_zseq; lia].
Qed.

(** ** the transformation between the faces of two trees *)
(** the number of orientations of faces of the class c *)
Definition h_orientations (c : hclass) : Z := match c with HVertex => 1 | HLine => 2 | HQuad | PQuad => 4 | HHex | PHex => 0 end.
Lemma al_flip M s x : 0 <= s <= M -> al s x -> al s (2 ^ M - x - 2 ^ s).
Proof. intros H (q & ->). exists (2 ^ (M - s) - q - 1). rewrite (@pow2_split s M) by lia. ring. Qed.
Lemma hin_len c e : hin c e -> 0 < h_len c (hl e). Proof. intros ((HL & _) & _). apply h_len_pos. lia. Qed.
Lemma hin_quad l x y : hin HQuad (Cube l [x; y]) <-> 0 <= l <= 30 /\ (al (30 - l) x /\ 0 <= x < 2 ^ 30) /\ (al (30 - l) y /\ 0 <= y < 2 ^ 30).
Proof.
  split.
  - intros H. assert (A0 := @hin_al _ _ 0 H ltac:(cbn; lia)). assert (A1 := @hin_al _ _ 1 H ltac:(cbn; lia)). destruct H as ((HL & _) & HI).
    assert (I0 := HI 0 ltac:(cbn; lia)). assert (I1 := HI 1 ltac:(cbn; lia)). exact (conj HL (conj (conj A0 I0) (conj A1 I1))).
  - intros (HL & HX & HY). apply hin_intro; [exact HL|reflexivity|]. intros k Hk. change (D HQuad) with 2 in Hk. assert (k = 0 \/ k = 1) as [->| ->] by lia; assumption.
Qed.
Lemma hin_pquad l x y : hin PQuad (Cube l [x; y]) <-> 0 <= l <= 29 /\ (al (30 - l) x /\ 0 <= x < 2 ^ 30) /\ (al (30 - l) y /\ 0 <= y < 2 ^ 30).
Proof.
  split.
  - intros H. assert (A0 := @hin_al _ _ 0 H ltac:(cbn; lia)). assert (A1 := @hin_al _ _ 1 H ltac:(cbn; lia)). destruct H as ((HL & _) & HI).
    assert (I0 := HI 0 ltac:(cbn; lia)). assert (I1 := HI 1 ltac:(cbn; lia)). exact (conj HL (conj (conj A0 I0) (conj A1 I1))).
  - intros (HL & HX & HY). apply hin_intro; [exact HL|reflexivity|]. intros k Hk. change (D PQuad) with 2 in Hk. assert (k = 0 \/ k = 1) as [->| ->] by lia; assumption.
Qed.
Lemma hin_line l x : hin HLine (Cube l [x]) <-> 0 <= l <= 30 /\ al (30 - l) x /\ 0 <= x < 2 ^ 30.
Proof.
  split.
  - intros H. assert (A0 := @hin_al _ _ 0 H ltac:(cbn; lia)). destruct H as ((HL & _) & HI). assert (I0 := HI 0 ltac:(cbn; lia)). exact (conj HL (conj A0 I0)).
  - intros (HL & HX). apply hin_intro; [exact HL|reflexivity|]. intros k Hk. change (D HLine) with 1 in Hk. replace k with 0 by lia. exact HX.
Qed.
Lemma flip_range s x : 0 <= s <= 30 -> al s x /\ 0 <= x < 2 ^ 30 -> al s (2 ^ 30 - x - 2 ^ s) /\ 0 <= 2 ^ 30 - x - 2 ^ s < 2 ^ 30.
Proof.
  intros Hs [A R]. split; [now apply al_flip|]. destruct A as (q & ->). pose proof (@pow2_pos s ltac:(lia)). rewrite (@pow2_split s 30) in * by lia. set (u := 2 ^ s) in *. set (w := 2 ^ (30 - s)) in *. clearbody u w. assert (q + 1 <= w) by nia. nia.
Qed.
Lemma quad_root : h_root_len HQuad = 2 ^ 30. Proof. reflexivity. Qed.
Lemma pquad_root : h_root_len PQuad = 2 ^ 30. Proof. reflexivity. Qed.
Lemma h_transform_in c b o sign sm : c <> HHex -> c <> PHex -> hin c b -> 0 <= o < h_orientations c ->
  exists b', h_transform_face c b o sign sm = Ok b' /\ hin c b' /\ hl b' = hl b /\ h_transform_face c b' o sign (negb sm) = Ok b /\ (sign = true -> h_transform_face c b' o sign sm = Ok b).
Proof.
  intros C C' H Ho. assert (S := shape_of (proj1 (proj2 (proj1 H)))). destruct b as [l xs]. cbn [hx] in S. destruct c; [| | |congruence| |congruence]; cbn [shape h_orientations h_transform_face hl hx] in *.
  - exists (Cube l xs). auto.
  - destruct S as (x & ->). change (hbits HLine) with 30. unfold znth. change (Z.to_nat 0) with 0%nat. cbn [nth]. apply hin_line in H. destruct H as (HL & HX). rewrite !shiftl1_pow by lia.
    assert (o = 0 \/ o = 1) as [->| ->] by lia; cbn [Z.eqb]; eexists; (split; [reflexivity|]); cbn [hl hx nth].
    + split; [now apply hin_line|]. auto.
    + assert (F := @flip_range (30 - l) x ltac:(lia) HX). replace (2 ^ 30 - 2 ^ (30 - l) - x) with (2 ^ 30 - x - 2 ^ (30 - l)) by lia. split; [apply hin_line; split; [exact HL|exact F]|].
      split; [reflexivity|]. rewrite shiftl1_pow by lia. replace (2 ^ 30 - 2 ^ (30 - l) - (2 ^ 30 - x - 2 ^ (30 - l))) with x by lia. auto.
  - destruct S as (x & y & ->). unfold znth. change (Z.to_nat 0) with 0%nat. change (Z.to_nat 1) with 1%nat. cbn [nth]. apply hin_quad in H. destruct H as (HL & HX & HY).
    assert (FX := @flip_range (30 - l) x ltac:(lia) HX). assert (FY := @flip_range (30 - l) y ltac:(lia) HY). rewrite quad_root. assert (HLEN : h_len HQuad l = 2 ^ (30 - l)) by (apply (@h_len_pow HQuad); cbn; lia). rewrite HLEN.
    set (R := 2 ^ 30) in *. set (h := 2 ^ (30 - l)) in *.
    assert (o = 0 \/ o = 1 \/ o = 2 \/ o = 3) as [->|[->|[->| ->]]] by lia; destruct sign, sm; cbn [Z.eqb Pos.eqb orb andb negb Z.sub Z.opp Z.add Z.pos_sub Pos.pred_double];
      eexists; (split; [reflexivity|]); (split; [apply hin_quad; tauto|]); (split; [reflexivity|]); cbn [hl hx nth]; rewrite ?HLEN;
      (split; [|first [intros Q; discriminate Q|intros _]]); cbv beta; apply f_equal, (f_equal (Cube l)); clearbody R h; clear; repeat (f_equal; try lia).
  - destruct S as (x & y & ->). unfold znth. change (Z.to_nat 0) with 0%nat. change (Z.to_nat 1) with 1%nat. cbn [nth]. apply hin_pquad in H. destruct H as (HL & HX & HY).
    assert (FX := @flip_range (30 - l) x ltac:(lia) HX). assert (FY := @flip_range (30 - l) y ltac:(lia) HY). rewrite pquad_root. assert (HLEN : h_len PQuad l = 2 ^ (30 - l)) by (apply (@h_len_pow PQuad); cbn; lia). rewrite HLEN.
    set (R := 2 ^ 30) in *. set (h := 2 ^ (30 - l)) in *.
    assert (o = 0 \/ o = 1 \/ o = 2 \/ o = 3) as [->|[->|[->| ->]]] by lia; destruct sign, sm; cbn [Z.eqb Pos.eqb orb andb negb Z.sub Z.opp Z.add Z.pos_sub Pos.pred_double];
      eexists; (split; [reflexivity|]); (split; [apply hin_pquad; tauto|]); (split; [reflexivity|]); cbn [hl hx nth]; rewrite ?HLEN;
      (split; [|first [intros Q; discriminate Q|intros _]]); cbv beta; apply f_equal, (f_equal (Cube l)); clearbody R h; clear; repeat (f_equal; try lia).
Qed.
Lemma child_line l x j : 0 <= j < 2 -> h_child HLine (Cube l [x]) j = Cube (l + 1) [x + j * h_len HLine (l + 1)].
Proof.
  intros Hj. unfold h_child. cbn [hl hx imap]. set (h := h_len HLine (l + 1)). clearbody h. assert (j = 0 \/ j = 1) as [->| ->] by lia.
  - change (Z.land 0 (Z.shiftl 1 0) =? 0) with true. cbv iota. now rewrite Z.mul_0_l.
  - change (Z.land 1 (Z.shiftl 1 0) =? 0) with false. cbv iota. now rewrite Z.mul_1_l.
Qed.
Lemma child_quad l x y j : 0 <= j < 4 -> h_child HQuad (Cube l [x; y]) j = Cube (l + 1) [x + j mod 2 * h_len HQuad (l + 1); y + j / 2 * h_len HQuad (l + 1)].
Proof.
  intros Hj. unfold h_child. cbn [hl hx imap]. set (h := h_len HQuad (l + 1)). clearbody h. assert (j = 0 \/ j = 1 \/ j = 2 \/ j = 3) as [->|[->|[->| ->]]] by lia;
  repeat match goal with |- context [Z.land ?a (Z.shiftl 1 ?k) =? 0] => let v := eval vm_compute in (Z.land a (Z.shiftl 1 k) =? 0) in change (Z.land a (Z.shiftl 1 k) =? 0) with v end; cbv iota;
  repeat match goal with |- context [?a mod 2] => let v := eval vm_compute in (a mod 2) in change (a mod 2) with v end;
  repeat match goal with |- context [?a / 2] => let v := eval vm_compute in (a / 2) in change (a / 2) with v end; rewrite ?Z.mul_0_l, ?Z.mul_1_l; reflexivity.
Qed.
Lemma child_pquad l x y j : 0 <= j < 4 -> h_child PQuad (Cube l [x; y]) j = Cube (l + 1) [x + j mod 2 * h_len PQuad (l + 1); y + j / 2 * h_len PQuad (l + 1)].
Proof.
  intros Hj. unfold h_child. cbn [hl hx imap]. set (h := h_len PQuad (l + 1)). clearbody h. assert (j = 0 \/ j = 1 \/ j = 2 \/ j = 3) as [->|[->|[->| ->]]] by lia;
  repeat match goal with |- context [Z.land ?a (Z.shiftl 1 ?k) =? 0] => let v := eval vm_compute in (Z.land a (Z.shiftl 1 k) =? 0) in change (Z.land a (Z.shiftl 1 k) =? 0) with v end; cbv iota;
  repeat match goal with |- context [?a mod 2] => let v := eval vm_compute in (a mod 2) in change (a mod 2) with v end;
  repeat match goal with |- context [?a / 2] => let v := eval vm_compute in (a / 2) in change (a / 2) with v end; rewrite ?Z.mul_0_l, ?Z.mul_1_l; reflexivity.
Qed.
Lemma h_transform_child c b o sign sm j : c <> HHex -> c <> PHex -> hin c b -> hl b < hmax c -> 0 <= o < h_orientations c -> 0 <= j < hchildren c ->
  exists b' j', 0 <= j' < hchildren c /\ h_transform_face c b o sign sm = Ok b' /\ h_transform_face c (h_child c b j) o sign sm = Ok (h_child c b' j').
Proof.
  intros C C' H HM Ho Hj. assert (S := shape_of (proj1 (proj2 (proj1 H)))). assert (HS := h_len_succ HM). destruct b as [l xs]. cbn [hx hl] in S, HM, HS. destruct H as ((HL & _) & _). cbn [hl] in HL.
  destruct c; [| | |congruence| |congruence]; cbn [shape h_orientations hchildren] in *.
  - exists (Cube l xs), 0. split; [lia|]. split; [reflexivity|]. replace j with 0 by lia. reflexivity.
  - destruct S as (x & ->). rewrite child_line by exact Hj. unfold h_transform_face, znth. cbn [hl hx]. change (Z.to_nat 0) with 0%nat. cbn [nth].
    assert (E1 : Z.shiftl 1 (hbits HLine - l) = h_len HLine l) by reflexivity. assert (E2 : Z.shiftl 1 (hbits HLine - (l + 1)) = h_len HLine (l + 1)) by reflexivity. rewrite E1, E2, HS.
    set (R := Z.shiftl 1 (hbits HLine)). set (h := h_len HLine (l + 1)). assert (o = 0 \/ o = 1) as [->| ->] by lia; cbn [Z.eqb].
    + exists (Cube l [x]), j. split; [exact Hj|]. split; [reflexivity|]. now rewrite child_line.
    + eexists _, (1 - j). split; [lia|]. split; [reflexivity|]. rewrite child_line by lia. fold h. do 3 f_equal. clearbody R h. lia.
  - destruct S as (x & y & ->). rewrite child_quad by exact Hj. unfold h_transform_face, znth. cbn [hl hx]. change (Z.to_nat 0) with 0%nat. change (Z.to_nat 1) with 1%nat. cbn [nth].
    rewrite HS. set (R := h_root_len HQuad). assert (QC := fun x y j => @child_quad l x y j). set (h := h_len HQuad (l + 1)) in *. clearbody R h. clear -Ho Hj QC.
    assert (Q : forall (u v u' v' : Z), u = u' -> v = v' -> Ok (Cube (l + 1) [u; v]) = Ok (Cube (l + 1) [u'; v'])) by (intros; congruence).
    assert (j = 0 \/ j = 1 \/ j = 2 \/ j = 3) as [->|[->|[->| ->]]] by lia;
    repeat match goal with |- context [?a mod 2] => let v := eval vm_compute in (a mod 2) in change (a mod 2) with v end;
    repeat match goal with |- context [?a / 2] => let v := eval vm_compute in (a / 2) in change (a / 2) with v end;
    (assert (o = 0 \/ o = 1 \/ o = 2 \/ o = 3) as [->|[->|[->| ->]]] by lia); destruct sign, sm; cbn [Z.eqb Pos.eqb orb andb negb Z.sub Z.opp Z.add Z.pos_sub Pos.pred_double];
    first [ eexists _, 0; split; [lia|]; split; [reflexivity|]; rewrite QC by lia; change (0 mod 2) with 0; change (0 / 2) with 0; apply Q; lia
          | eexists _, 1; split; [lia|]; split; [reflexivity|]; rewrite QC by lia; change (1 mod 2) with 1; change (1 / 2) with 0; apply Q; lia
          | eexists _, 2; split; [lia|]; split; [reflexivity|]; rewrite QC by lia; change (2 mod 2) with 0; change (2 / 2) with 1; apply Q; lia
          | eexists _, 3; split; [lia|]; split; [reflexivity|]; rewrite QC by lia; change (3 mod 2) with 1; change (3 / 2) with 1; apply Q; lia ].
  - destruct S as (x & y & ->). rewrite child_pquad by exact Hj. unfold h_transform_face, znth. cbn [hl hx]. change (Z.to_nat 0) with 0%nat. change (Z.to_nat 1) with 1%nat. cbn [nth].
    rewrite HS. set (R := h_root_len PQuad). assert (QC := fun x y j => @child_pquad l x y j). set (h := h_len PQuad (l + 1)) in *. clearbody R h. clear -Ho Hj QC.
    assert (Q : forall (u v u' v' : Z), u = u' -> v = v' -> Ok (Cube (l + 1) [u; v]) = Ok (Cube (l + 1) [u'; v'])) by (intros; congruence).
    assert (j = 0 \/ j = 1 \/ j = 2 \/ j = 3) as [->|[->|[->| ->]]] by lia;
    repeat match goal with |- context [?a mod 2] => let v := eval vm_compute in (a mod 2) in change (a mod 2) with v end;
    repeat match goal with |- context [?a / 2] => let v := eval vm_compute in (a / 2) in change (a / 2) with v end;
    (assert (o = 0 \/ o = 1 \/ o = 2 \/ o = 3) as [->|[->|[->| ->]]] by lia); destruct sign, sm; cbn [Z.eqb Pos.eqb orb andb negb Z.sub Z.opp Z.add Z.pos_sub Pos.pred_double];
    first [ eexists _, 0; split; [lia|]; split; [reflexivity|]; rewrite QC by lia; change (0 mod 2) with 0; change (0 / 2) with 0; apply Q; lia
          | eexists _, 1; split; [lia|]; split; [reflexivity|]; rewrite QC by lia; change (1 mod 2) with 1; change (1 / 2) with 0; apply Q; lia
          | eexists _, 2; split; [lia|]; split; [reflexivity|]; rewrite QC by lia; change (2 mod 2) with 0; change (2 / 2) with 1; apply Q; lia
          | eexists _, 3; split; [lia|]; split; [reflexivity|]; rewrite QC by lia; change (3 mod 2) with 1; change (3 / 2) with 1; apply Q; lia ].
Qed.

(** ** meshes of hypercubes *)
(** t8_eclass.h: T8_ECLASS_VERTEX, LINE, QUAD, HEX *)
Definition h_eclass (c : hclass) : Z := match c with HVertex => 0 | HLine => 1 | HQuad | PQuad => 2 | HHex | PHex => 4 end.
(** t8_standalone_implementation.hxx; where an assertion of the transformation fails the element is left as it is *)
Definition h_transform (c : hclass) (b : hcube) (o : Z) (sign sm : bool) : hcube := match h_transform_face c b o sign sm with Ok r => r | _ => b end.
Definition hyper_crossing (c : hclass) : crossing (hyper_scheme c) := @Crossing (hyper_scheme c)
  (h_face_neighbour c) (h_is_inside_root c) (fun _ face => h_tree_face face) (h_eclass c)
  hcube (fun e face => Ok (h_boundary_face c e face)) (h_transform (FC c)) (h_extrude_face c).

Lemma h_cross_child c e i j a s : length (hx e) = hdim c -> hl e < hmax c -> 0 <= a < D c -> 0 <= s < 2 ->
  (forall k, 0 <= k < D c -> bitk k j = if k =? a then 1 - bitk k i else bitk k i) -> bitk a i <> s ->
  fst (h_face_neighbour c (h_child c e i) (2 * a + s)) = h_child c e j.
Proof.
  intros HE HM Ha Hs HB N. assert (LE : length (hx (h_child c e i)) = hdim c) by (unfold h_child; cbn [hx]; now rewrite imap_length).
  apply (@hcube_ext c); [rewrite h_nb_len; exact LE|unfold h_child; cbn [hx]; now rewrite imap_length|reflexivity|].
  intros k Hk. rewrite h_nb_k by (unfold zlen; rewrite LE; exact Hk). rewrite !h_child_k by auto. change (hl (h_child c e i)) with (hl e + 1).
  replace ((2 * a + s) / 2) with a by (rewrite Z.add_comm, Z.mul_comm, Z.div_add, Z.div_small by lia; lia).
  replace ((2 * a + s) mod 2) with s by (rewrite Z.add_comm, Z.mul_comm, Z.mod_add, Z.mod_small by lia; lia).
  rewrite HB by exact Hk. destruct (Z.eqb_spec k a) as [->|]; [|lia]. pose proof (bitk_range a i). assert (E : 2 * s - 1 = 1 - 2 * bitk a i) by lia. rewrite E. ring.
Qed.
Lemma h_cross_refine c e i j a s : length (hx e) = hdim c -> hl e < hmax c -> 0 <= a < D c -> 0 <= s < 2 ->
  (forall k, 0 <= k < D c -> bitk k j = if k =? a then 1 - s else bitk k i) -> bitk a i = s ->
  fst (h_face_neighbour c (h_child c e i) (2 * a + s)) = h_child c (fst (h_face_neighbour c e (2 * a + s))) j.
Proof.
  intros HE HM Ha Hs HB N. assert (LE : length (hx (h_child c e i)) = hdim c) by (unfold h_child; cbn [hx]; now rewrite imap_length). assert (S2 := h_len_succ HM).
  assert (LN : length (hx (fst (h_face_neighbour c e (2 * a + s)))) = hdim c) by (rewrite h_nb_len; exact HE).
  apply (@hcube_ext c); [rewrite h_nb_len; exact LE|unfold h_child at 1; cbn [hx]; now rewrite imap_length|reflexivity|].
  intros k Hk. rewrite h_nb_k by (unfold zlen; rewrite LE; exact Hk). rewrite !h_child_k by auto. rewrite h_nb_k by (unfold zlen; rewrite HE; exact Hk).
  change (hl (h_child c e i)) with (hl e + 1). rewrite h_nb_level.
  replace ((2 * a + s) / 2) with a by (rewrite Z.add_comm, Z.mul_comm, Z.div_add, Z.div_small by lia; lia).
  replace ((2 * a + s) mod 2) with s by (rewrite Z.add_comm, Z.mul_comm, Z.mod_add, Z.mod_small by lia; lia).
  rewrite HB by exact Hk. destruct (Z.eqb_spec k a) as [->|]; [|lia]. rewrite N, S2. ring.
Qed.
Lemma flip_bit c a (b : Z -> Z) i : (forall k, 0 <= k < D c -> 0 <= b k < 2) -> exists j, 0 <= j < hchildren c /\ forall k, 0 <= k < D c -> bitk k j = if k =? a then b k else bitk k i.
Proof.
  intros HB. destruct (bits_exist c (fun k => if k =? a then b k =? 1 else Z.testbit i k)) as (j & Hj & E). exists j. split; [exact Hj|]. intros k Hk. rewrite E by exact Hk.
  destruct (Z.eqb_spec k a) as [->|]; [|reflexivity]. specialize (HB a Hk). destruct (Z.eqb_spec (b a) 1); cbn [Z.b2z]; lia.
Qed.

Lemma hyper_crossing_ok c : @crossing_ok (hyper_scheme c) (hyper_faces c) (hyper_crossing c) (hfaces c) (h_orientations (FC c)) (h_is_root_boundary c)
  (fun b L => hin (FC c) b /\ hl b = L) (h_child (FC c)) (hchildren (FC c)).
Proof.
  assert (VAL : forall e, valid (S := hyper_scheme c) e <-> hin c e) by (intros e; now rewrite hyper_valid, hin_valid).
  assert (IFF : forall e, h_aligned c e -> (h_is_inside_root c e = true <-> hin c e)) by (intros e A; rewrite (inside_k A); split; [intros I; split; assumption|intros [_ I]; exact I]).
  assert (FH : FC c <> HHex) by (destruct c; discriminate). assert (FH' : FC c <> PHex) by (destruct c; discriminate).
  constructor; cbn [x_neighbor x_inside x_tree_face x_boundary x_transform x_extrude x_bd hyper_crossing].
  - intros e V. apply VAL in V. apply IFF; [apply V|exact V].
  - intros e f V Hf. change (0 <= f < hfaces c) in Hf. apply hyper_valid in V. destruct V as (p & Hp & ->). now apply h_root_boundary.
  - intros e f V Hf R. change (0 <= f < hfaces c) in Hf. assert (V' := V). apply hyper_valid in V'. destruct V' as (p & Hp & E). rewrite E in R. rewrite (h_root_boundary Hp Hf), <- E in R. apply VAL in V.
    assert (N := h_face_neighbour_spec (proj1 V) Hf). destruct (h_face_neighbour c e f) as [n g]. cbn [fst] in R. destruct N as (N1 & N2 & N3 & _ & N5 & _). apply negb_false_iff in R.
    split; [apply VAL, (IFF n N1), R|]. split; [exact N3|]. split; [exact N2|exact N5].
  - intros e f x g V HL Hf R Hc. change (0 <= f < hfaces c) in Hf. apply VAL in V. change (hl e < hmax c) in HL. apply (h_face_children _ _ _ Hf) in Hc. destruct Hc as (-> & i & Hi & ->).
    assert (Ri := proj1 (Forall_forall _ _) (proj1 (proj2 (proj2 (proj2 (ids_facts Hf))))) i Hi). cbv beta in Ri. apply (h_child_ids_iff Hf Ri) in Hi.
    destruct (f_div Hf) as (F1 & F2 & F3). pose proof (hfaces_6 c). destruct (@lxor1 f ltac:(lia)) as (X1 & X2 & X3). assert (HG : 0 <= Z.lxor f 1 < hfaces c) by (rewrite hfaces_D in *; lia).
    destruct (@flip_bit c (f / 2) (fun _ => 1 - f mod 2) i ltac:(intros; lia)) as (j & Hj & B).
    change (snd (h_face_neighbour c e f)) with (Z.lxor f 1). rewrite (surjective_pairing (h_face_neighbour c (h_child c e i) f)). change (snd (h_face_neighbour c (h_child c e i) f)) with (Z.lxor f 1).
    apply (h_face_children _ _ _ HG). split; [reflexivity|]. exists j. split.
    + apply (h_child_ids_iff HG Hj). rewrite X1, X2, B, Z.eqb_refl by lia. reflexivity.
    + rewrite F3. apply h_cross_refine; auto. apply V.
  - intros e f x g V HL Hf R Hc. change (0 <= f < hfaces c) in Hf. apply VAL in V. change (hl e < hmax c) in HL. apply (h_face_children _ _ _ Hf) in Hc. destruct Hc as (-> & i & Hi & ->). split; [|reflexivity].
    assert (Ri := proj1 (Forall_forall _ _) (proj1 (proj2 (proj2 (proj2 (ids_facts Hf))))) i Hi). cbv beta in Ri. apply (h_child_ids_iff Hf Ri) in Hi.
    destruct (f_div Hf) as (F1 & F2 & F3). assert (S2 := h_len_succ HL). unfold h_is_root_boundary in *. rewrite h_child_k by (auto; apply V). rewrite Hi. change (hl (h_child c e i)) with (hl e + 1).
    destruct (Z.eqb_spec (f mod 2) 0) as [E|E]; cbn [negb] in *; apply Z.eqb_eq in R; apply Z.eqb_eq; [rewrite E; lia|replace (f mod 2) with 1 by lia; lia].
  - intros e i g V HL Hi Hg P. change (0 <= i < hchildren c) in Hi. change (0 <= g < hfaces c) in Hg. change (hl e < hmax c) in HL. change (h_face_parent_face c (h_child c e i) g = -1) in P.
    assert (V' := V). apply hyper_valid in V'. destruct V' as (p & Hp & E). apply VAL in V. rewrite E in HL, P. rewrite (h_walk_level (proj2 Hp)) in HL. rewrite <- h_walk_snoc, h_parent_face_child in P by (auto; now apply h_path_snoc).
    rewrite <- (h_walk_level (proj2 Hp)), <- E in HL. destruct (Z.eqb_spec (bitk (g / 2) i) (g mod 2)) as [Q|Q]; [lia|]. destruct (f_div Hg) as (F1 & F2 & F3). pose proof (bitk_range (g / 2) i) as BR.
    destruct (@flip_bit c (g / 2) (fun k => 1 - bitk k i) i) as (j & Hj & B); [intros k _; pose proof (bitk_range k i); lia|].
    exists j, (Z.lxor g 1). split; [exact Hj|]. change (@s_child (hyper_scheme c)) with (h_child c). rewrite (surjective_pairing (h_face_neighbour c (h_child c e i) g)). change (snd (h_face_neighbour c (h_child c e i) g)) with (Z.lxor g 1).
    apply (f_equal (fun x => (x, Z.lxor g 1))). rewrite F3. apply h_cross_child; auto. apply V.
  - intros e f V Hf R. change (0 <= f < hfaces c) in Hf. apply VAL in V. split; [exact Hf|]. exists (h_boundary_face c e f). split; [reflexivity|]. split; [exact (h_boundary_in V Hf)|exact (h_boundary_extrude V Hf R)].
  - intros b L rf [B1 B2] HL Hr. change (0 <= L <= hmax c) in HL. assert (X := @h_extrude_in c b rf B1 ltac:(lia) Hr). destruct (h_extrude_face c b rf) as [e f]. destruct X as (X1 & X2 & -> & X4 & X5).
    split; [now apply VAL|]. split; [rewrite <- B2; exact X2|]. split; [exact Hr|]. split; [exact X4|]. split; [reflexivity|]. now rewrite X5.
  - intros e f x g b V HL Hf R Hc B. change (0 <= f < hfaces c) in Hf. apply VAL in V. change (hl e < hmax c) in HL. apply (h_face_children _ _ _ Hf) in Hc. destruct Hc as (-> & i & Hi & ->). injection B as <-.
    apply (h_face_ids _ Hf) in Hi. destruct Hi as (j & Hj & ->). exists j. split; [exact Hj|]. f_equal. apply h_boundary_child; auto. now apply tab_corner.
  - intros e f b j V HL Hf R B Hj. change (0 <= f < hfaces c) in Hf. apply VAL in V. change (hl e < hmax c) in HL. injection B as <-.
    exists (h_child c e (h_corner_index (f / 2) (f mod 2) j)), f. split; [apply (h_face_children _ _ _ Hf); split; [reflexivity|]; eexists; split; [apply (h_face_ids _ Hf); exists j; split; [exact Hj|reflexivity]|reflexivity]|].
    f_equal. apply h_boundary_child; auto. now apply tab_corner.
  - intros b L o f f' [B1 B2] Ho Hf Hf'. unfold tr. cbn [x_transform hyper_crossing x_eclass]. rewrite (Z.eqb_sym (eclass_face_orientation (h_eclass c) f')).
    set (sign := eclass_face_orientation (h_eclass c) f =? eclass_face_orientation (h_eclass c) f'). set (sm := f <=? f').
    destruct (@h_transform_in (FC c) b o sign sm FH FH' B1 Ho) as (b' & T1 & T2 & T3 & T4 & T5). unfold h_transform. rewrite T1. split; [split; [exact T2|lia]|].
    destruct (Z.eq_dec f f') as [EQ|NE].
    + assert (S1 : sign = true) by (unfold sign; rewrite EQ; apply Z.eqb_refl). replace (f' <=? f) with sm by (unfold sm; rewrite EQ; reflexivity). now rewrite (T5 S1).
    + replace (f' <=? f) with (negb sm) by (unfold sm; destruct (Z.leb_spec f f'), (Z.leb_spec f' f); cbn [negb]; lia). now rewrite T4.
  - intros b L o f f' j [B1 B2] HL Ho Hf Hf' Hj. unfold tr. cbn [x_transform hyper_crossing x_eclass]. change (L < hmax c) in HL. assert (C := face_class Hf). assert (M := hmax_face C).
    set (sign := eclass_face_orientation (h_eclass c) f =? eclass_face_orientation (h_eclass c) f'). set (sm := f <=? f').
    destruct (@h_transform_child (FC c) b o sign sm j FH FH' B1 ltac:(lia) Ho Hj) as (b' & j' & Hj' & T1 & T2). exists j'. split; [exact Hj'|]. unfold h_transform. now rewrite T1, T2.
Qed.

(** ** the geometry *)
Lemma ipt_eq (a b c a' b' c' : Z) : (a, b, c) = (a', b', c') <-> a = a' /\ b = b' /\ c = c'.
Proof. split; [intros E; exact (conj (f_equal ix E) (conj (f_equal iy E) (f_equal iz E)))|intros (-> & -> & ->); reflexivity]. Qed.
Lemma h_vertex_quad l x y j : 0 <= j < 4 -> h_vertex HQuad (Cube l [x; y]) j = (x + j mod 2 * h_len HQuad l, y + j / 2 * h_len HQuad l, 0).
Proof.
  intros Hj. unfold h_vertex, to_ipt, h_coords. cbn [hx hl imap]. set (h := h_len HQuad l). clearbody h. assert (j = 0 \/ j = 1 \/ j = 2 \/ j = 3) as [->|[->|[->| ->]]] by lia; reflexivity.
Qed.
Lemma h_vertex_pquad l x y j : 0 <= j < 4 -> h_vertex PQuad (Cube l [x; y]) j = (x + j mod 2 * h_len PQuad l, y + j / 2 * h_len PQuad l, 0).
Proof.
  intros Hj. unfold h_vertex, to_ipt, h_coords. cbn [hx hl imap]. set (h := h_len PQuad l). clearbody h. assert (j = 0 \/ j = 1 \/ j = 2 \/ j = 3) as [->|[->|[->| ->]]] by lia; reflexivity.
Qed.
Lemma h_vertex_line l x j : 0 <= j < 2 -> h_vertex HLine (Cube l [x]) j = (x + j * h_len HLine l, 0, 0).
Proof.
  intros Hj. unfold h_vertex, to_ipt, h_coords. cbn [hx hl imap]. set (h := h_len HLine l). clearbody h. assert (j = 0 \/ j = 1) as [->| ->] by lia; reflexivity.
Qed.
Lemma h_vertex_hex l x y z j : 0 <= j < 8 -> h_vertex HHex (Cube l [x; y; z]) j = (x + bitk 0 j * h_len HHex l, y + bitk 1 j * h_len HHex l, z + bitk 2 j * h_len HHex l).
Proof.
  intros Hj. unfold h_vertex, to_ipt, h_coords. cbn [hx hl imap]. set (h := h_len HHex l). clearbody h.
  assert (j = 0 \/ j = 1 \/ j = 2 \/ j = 3 \/ j = 4 \/ j = 5 \/ j = 6 \/ j = 7) as [->|[->|[->|[->|[->|[->|[->| ->]]]]]]] by lia; reflexivity.
Qed.
Lemma h_vertex_phex l x y z j : 0 <= j < 8 -> h_vertex PHex (Cube l [x; y; z]) j = (x + bitk 0 j * h_len PHex l, y + bitk 1 j * h_len PHex l, z + bitk 2 j * h_len PHex l).
Proof.
  intros Hj. unfold h_vertex, to_ipt, h_coords. cbn [hx hl imap]. set (h := h_len PHex l). clearbody h.
  assert (j = 0 \/ j = 1 \/ j = 2 \/ j = 3 \/ j = 4 \/ j = 5 \/ j = 6 \/ j = 7) as [->|[->|[->|[->|[->|[->|[->| ->]]]]]]] by lia; reflexivity.
Qed.
(** the corner j of the boundary element is the corner j of the face *)
Lemma h_boundary_image c e f j : hin c e -> 0 <= f < hfaces c -> h_is_root_boundary c e f = true -> 0 <= j < h_num_face_corners c ->
  h_scale (2 ^ (hbits (FC c) - hbits c)) (h_vertex c e (h_face_corner f j)) = h_embed f (2 ^ hbits (FC c)) (h_vertex (FC c) (h_boundary_face c e f) j).
Proof.
  intros H Hf R Hj. assert (C := face_class Hf). destruct (f_div Hf) as (F1 & F2 & F3). destruct (H) as ((HL & HE & _) & _). assert (S := shape_of HE). assert (M := hmax_face C). assert (RL : h_root_len c = 2 ^ hbits c) by (apply h_root_len_pow; destruct c; [congruence|discriminate..]).
  assert (HLP := @h_len_pow c (hl e) ltac:(lia)). assert (HLF := @h_len_pow (FC c) (hl e) ltac:(lia)). pose proof (hmax_pos c) as MP.
  assert (P1 : 2 ^ hbits (FC c) = 2 ^ (hbits (FC c) - hbits c) * 2 ^ hbits c) by (rewrite <- Z.pow_add_r by lia; f_equal; lia).
  assert (P2 : h_len (FC c) (hl e) = 2 ^ (hbits (FC c) - hbits c) * h_len c (hl e)) by (rewrite HLP, HLF, <- Z.pow_add_r by lia; f_equal; lia).
  unfold h_is_root_boundary in R. rewrite RL in R. set (n := 2 ^ (hbits (FC c) - hbits c)) in *. set (T := 2 ^ hbits c) in *. set (T' := 2 ^ hbits (FC c)) in *.
  assert (SH : forall x, Z.shiftl x (hbits (FC c) - hbits c) = n * x) by (intros x; rewrite Z.shiftl_mul_pow2 by lia; unfold n; lia).
  set (sh := hbits (FC c) - hbits c) in *. clear HLP HLF RL. destruct e as [l xs]. cbn [hl hx] in *. unfold h_boundary_face, h_tree_face. cbn [hl hx]. fold sh.
  destruct c; cbn [shape hfaces h_num_face_corners h_face_class] in *; [congruence|destruct S as (x & ->)|destruct S as (x & y & ->)|destruct S as (x & y & z & ->)|destruct S as (x & y & ->)|destruct S as (x & y & z & ->)].
  - set (h := h_len HLine l) in *. replace j with 0 by lia. clearbody n T T' sh. assert (f = 0 \/ f = 1) as [->| ->] by lia; cbn [Z.eqb negb] in R.
    + change (h_face_corner 0 0) with 0. rewrite h_vertex_line by lia. fold h. change (negb (0 mod 2 =? 0)) with false in R. cbv iota in R. apply Z.eqb_eq in R. change (hk (Cube l [x]) (0 / 2)) with x in R. change (znth 0 [x] (0 / 2)) with x in R.
      change (h_vertex HVertex _ 0) with (0, 0, 0). unfold h_scale, h_embed. cbn [ix iy iz fst snd]. change (0 mod 2) with 0. change (0 / 2 =? 0) with true. cbv iota. apply ipt_eq. rewrite R. lia.
    + change (h_face_corner 1 0) with 1. rewrite h_vertex_line by lia. fold h. change (negb (1 mod 2 =? 0)) with true in R. cbv iota in R. apply Z.eqb_eq in R. change (znth 0 [x] (1 / 2)) with x in R.
      change (h_vertex HVertex _ 0) with (0, 0, 0). unfold h_scale, h_embed. cbn [ix iy iz fst snd]. change (1 mod 2) with 1. change (1 / 2 =? 0) with true. cbv iota. apply ipt_eq. rewrite R, P1. lia.
  - set (h := h_len HQuad l) in *. clearbody n T T'.
    assert (f = 0 \/ f = 1 \/ f = 2 \/ f = 3) as [->|[->|[->| ->]]] by lia; assert (j = 0 \/ j = 1) as [->| ->] by lia;
    repeat match goal with |- context [h_face_corner ?a ?b] => let v := eval vm_compute in (h_face_corner a b) in change (h_face_corner a b) with v end;
    repeat match type of R with context [negb (?a mod 2 =? 0)] => let v := eval vm_compute in (negb (a mod 2 =? 0)) in change (negb (a mod 2 =? 0)) with v in R end; cbv iota in R;
    repeat match type of R with context [?a / 2] => let v := eval vm_compute in (a / 2) in change (a / 2) with v in R end;
    change (znth 0 [x; y] 0) with x in R; change (znth 0 [x; y] 1) with y in R; apply Z.eqb_eq in R;
    cbn [boundary_coords]; unfold h_facedim; 
    repeat match goal with |- context [?a / 2] => let v := eval vm_compute in (a / 2) in change (a / 2) with v end;
    repeat match goal with |- context [?a mod 2] => let v := eval vm_compute in (a mod 2) in change (a mod 2) with v end;
    cbn [Z.eqb Z.ltb Z.compare Pos.eqb Pos.compare Pos.compare_cont Z.sub Z.add Z.opp Z.pos_sub Pos.add Pos.pred_double app];
    rewrite h_vertex_quad by lia; rewrite h_vertex_line by lia; rewrite SH, P2; fold h; unfold h_scale, h_embed; cbn [ix iy iz fst snd Z.div Z.modulo Z.div_eucl];
    repeat match goal with |- context [?a / 2] => let v := eval vm_compute in (a / 2) in change (a / 2) with v end;
    repeat match goal with |- context [?a mod 2] => let v := eval vm_compute in (a mod 2) in change (a mod 2) with v end; cbn [Z.eqb Pos.eqb]; apply ipt_eq; rewrite ?R, ?P1; lia.
  - set (h := h_len HHex l) in *. clearbody n T T'.
    assert (f = 0 \/ f = 1 \/ f = 2 \/ f = 3 \/ f = 4 \/ f = 5) as [->|[->|[->|[->|[->| ->]]]]] by lia; assert (j = 0 \/ j = 1 \/ j = 2 \/ j = 3) as [->|[->|[->| ->]]] by lia;
    repeat match goal with |- context [h_face_corner ?a ?b] => let v := eval vm_compute in (h_face_corner a b) in change (h_face_corner a b) with v end;
    repeat match type of R with context [negb (?a mod 2 =? 0)] => let v := eval vm_compute in (negb (a mod 2 =? 0)) in change (negb (a mod 2 =? 0)) with v in R end; cbv iota in R;
    repeat match type of R with context [?a / 2] => let v := eval vm_compute in (a / 2) in change (a / 2) with v in R end;
    change (znth 0 [x; y; z] 0) with x in R; change (znth 0 [x; y; z] 1) with y in R; change (znth 0 [x; y; z] 2) with z in R; apply Z.eqb_eq in R;
    cbn [boundary_coords]; unfold h_facedim; 
    repeat match goal with |- context [?a / 2] => let v := eval vm_compute in (a / 2) in change (a / 2) with v end;
    repeat match goal with |- context [?a mod 2] => let v := eval vm_compute in (a mod 2) in change (a mod 2) with v end;
    cbn [Z.eqb Z.ltb Z.compare Pos.eqb Pos.compare Pos.compare_cont Z.sub Z.add Z.opp Z.pos_sub Pos.add Pos.succ Pos.pred_double app];
    rewrite h_vertex_quad by lia; rewrite h_vertex_hex by lia; rewrite !SH, P2; fold h; unfold h_scale, h_embed; cbn [ix iy iz fst snd];
    repeat match goal with |- context [bitk ?k ?i] => let v := eval vm_compute in (bitk k i) in change (bitk k i) with v end;
    repeat match goal with |- context [?a / 2] => let v := eval vm_compute in (a / 2) in change (a / 2) with v end;
    repeat match goal with |- context [?a mod 2] => let v := eval vm_compute in (a mod 2) in change (a mod 2) with v end; cbn [Z.eqb Pos.eqb]; apply ipt_eq; rewrite ?R, ?P1; lia.
  - set (h := h_len PQuad l) in *. clearbody n T T'.
    assert (f = 0 \/ f = 1 \/ f = 2 \/ f = 3) as [->|[->|[->| ->]]] by lia; assert (j = 0 \/ j = 1) as [->| ->] by lia;
    repeat match goal with |- context [h_face_corner ?a ?b] => let v := eval vm_compute in (h_face_corner a b) in change (h_face_corner a b) with v end;
    repeat match type of R with context [negb (?a mod 2 =? 0)] => let v := eval vm_compute in (negb (a mod 2 =? 0)) in change (negb (a mod 2 =? 0)) with v in R end; cbv iota in R;
    repeat match type of R with context [?a / 2] => let v := eval vm_compute in (a / 2) in change (a / 2) with v in R end;
    change (znth 0 [x; y] 0) with x in R; change (znth 0 [x; y] 1) with y in R; apply Z.eqb_eq in R;
    cbn [boundary_coords]; unfold h_facedim; 
    repeat match goal with |- context [?a / 2] => let v := eval vm_compute in (a / 2) in change (a / 2) with v end;
    repeat match goal with |- context [?a mod 2] => let v := eval vm_compute in (a mod 2) in change (a mod 2) with v end;
    cbn [Z.eqb Z.ltb Z.compare Pos.eqb Pos.compare Pos.compare_cont Z.sub Z.add Z.opp Z.pos_sub Pos.add Pos.pred_double app];
    rewrite h_vertex_pquad by lia; rewrite h_vertex_line by lia; rewrite SH, P2; fold h; unfold h_scale, h_embed; cbn [ix iy iz fst snd Z.div Z.modulo Z.div_eucl];
    repeat match goal with |- context [?a / 2] => let v := eval vm_compute in (a / 2) in change (a / 2) with v end;
    repeat match goal with |- context [?a mod 2] => let v := eval vm_compute in (a mod 2) in change (a mod 2) with v end; cbn [Z.eqb Pos.eqb]; apply ipt_eq; rewrite ?R, ?P1; lia.
  - set (h := h_len PHex l) in *. clearbody n T T'.
    assert (f = 0 \/ f = 1 \/ f = 2 \/ f = 3 \/ f = 4 \/ f = 5) as [->|[->|[->|[->|[->| ->]]]]] by lia; assert (j = 0 \/ j = 1 \/ j = 2 \/ j = 3) as [->|[->|[->| ->]]] by lia;
    repeat match goal with |- context [h_face_corner ?a ?b] => let v := eval vm_compute in (h_face_corner a b) in change (h_face_corner a b) with v end;
    repeat match type of R with context [negb (?a mod 2 =? 0)] => let v := eval vm_compute in (negb (a mod 2 =? 0)) in change (negb (a mod 2 =? 0)) with v in R end; cbv iota in R;
    repeat match type of R with context [?a / 2] => let v := eval vm_compute in (a / 2) in change (a / 2) with v in R end;
    change (znth 0 [x; y; z] 0) with x in R; change (znth 0 [x; y; z] 1) with y in R; change (znth 0 [x; y; z] 2) with z in R; apply Z.eqb_eq in R;
    cbn [boundary_coords]; unfold h_facedim; 
    repeat match goal with |- context [?a / 2] => let v := eval vm_compute in (a / 2) in change (a / 2) with v end;
    repeat match goal with |- context [?a mod 2] => let v := eval vm_compute in (a mod 2) in change (a mod 2) with v end;
    cbn [Z.eqb Z.ltb Z.compare Pos.eqb Pos.compare Pos.compare_cont Z.sub Z.add Z.opp Z.pos_sub Pos.add Pos.succ Pos.pred_double app];
    rewrite h_vertex_pquad by lia; rewrite h_vertex_phex by lia; rewrite !SH, P2; fold h; unfold h_scale, h_embed; cbn [ix iy iz fst snd];
    repeat match goal with |- context [bitk ?k ?i] => let v := eval vm_compute in (bitk k i) in change (bitk k i) with v end;
    repeat match goal with |- context [?a / 2] => let v := eval vm_compute in (a / 2) in change (a / 2) with v end;
    repeat match goal with |- context [?a mod 2] => let v := eval vm_compute in (a mod 2) in change (a mod 2) with v end; cbn [Z.eqb Pos.eqb]; apply ipt_eq; rewrite ?R, ?P1; lia.
Qed.
Lemma h_symmetry_corner c o sign : 0 <= o < h_orientations c -> h_symmetry c o sign (h_vertex c (h_root c) 0) = h_vertex c (h_root c) o.
Proof.
  intros Ho. destruct c; cbn [h_orientations] in Ho; [|assert (o = 0 \/ o = 1) as [->| ->] by lia|assert (o = 0 \/ o = 1 \/ o = 2 \/ o = 3) as [->|[->|[->| ->]]] by lia; destruct sign|lia|assert (o = 0 \/ o = 1 \/ o = 2 \/ o = 3) as [->|[->|[->| ->]]] by lia; destruct sign|lia]; reflexivity.
Qed.
Lemma ok_val {A} (x y : A) : Ok x = Ok y -> y = x. Proof. congruence. Qed.
Local Ltac pick := first [split; [lia|split; [lia|lia]] | left; pick | right; pick].
Local Ltac cases_ := match goal with H : _ \/ _ |- _ => destruct H as [H|H]; [pick|cases_] | H : False |- _ => destruct H end.
Lemma h_transform_image c b o sign sm b' : hin c b -> 0 <= o < h_orientations c -> h_transform_face c b o sign sm = Ok b' ->
  forall v, In v (h_vertices c b') <-> exists w, In w (h_vertices c b) /\ if sm then v = h_symmetry c o sign w else h_symmetry c o sign v = w.
Proof.
  intros H Ho T v. destruct (H) as ((HL & HE & _) & _). assert (S := shape_of HE). destruct b as [l xs]. cbn [hx hl] in *.
  assert (G : (exists w, In w (h_vertices c (Cube l xs)) /\ if sm then v = h_symmetry c o sign w else h_symmetry c o sign v = w) <->
    (if sm then In v (map (h_symmetry c o sign) (h_vertices c (Cube l xs))) else In (h_symmetry c o sign v) (h_vertices c (Cube l xs)))).
  { destruct sm; [rewrite in_map_iff; split; intros (w & A & B); exists w; auto|]. split; [intros (w & A & ->); exact A|intros A; eexists; split; [exact A|reflexivity]]. }
  rewrite G. clear G. destruct c; cbn [shape h_orientations h_transform_face] in *; [| | |lia| |lia].
  - injection T as <-. unfold h_symmetry. destruct sm; [|tauto]. rewrite map_id. tauto.
  - destruct S as (x & ->). cbn [hx hl] in T. unfold znth in T. change (Z.to_nat 0) with 0%nat in T. cbn [nth] in T. change (Z.shiftl 1 (hbits HLine - l)) with (h_len HLine l) in T. change (Z.shiftl 1 (hbits HLine)) with (2 ^ hbits HLine) in T.
    assert (VE := fun x => @h_vertices_eq HLine (Cube l [x]) eq_refl). cbv zeta in VE. cbn [hx hl] in VE. unfold znth in VE. change (Z.to_nat 0) with 0%nat in VE. cbn [nth] in VE.
    unfold h_symmetry. set (R := 2 ^ hbits HLine) in *. set (h := h_len HLine l) in *. clearbody R h. rewrite VE. destruct v as [[vx vy] vz].
    assert (o = 0 \/ o = 1) as [->| ->] by lia; cbn [Z.eqb] in T; apply ok_val in T; subst b'; rewrite VE; clear;
    destruct sm; cbn [map In ix iy iz fst snd Z.eqb]; rewrite ?ipt_eq; (split; intros K; cases_).
  - destruct S as (x & y & ->). cbn [hx hl] in T. unfold znth in T. change (Z.to_nat 0) with 0%nat in T. change (Z.to_nat 1) with 1%nat in T. cbn [nth] in T. change (h_root_len HQuad) with (2 ^ hbits HQuad) in T.
    assert (VE := fun x y => @h_vertices_eq HQuad (Cube l [x; y]) eq_refl). cbv zeta in VE. cbn [hx hl] in VE. unfold znth in VE. change (Z.to_nat 0) with 0%nat in VE. change (Z.to_nat 1) with 1%nat in VE. cbn [nth] in VE.
    unfold h_symmetry. set (R := 2 ^ hbits HQuad) in *. set (h := h_len HQuad l) in *. clearbody R h. rewrite VE. destruct v as [[vx vy] vz].
    assert (o = 0 \/ o = 1 \/ o = 2 \/ o = 3) as [->|[->|[->| ->]]] by lia; destruct sign, sm; cbn [Z.eqb Pos.eqb orb andb negb Z.sub Z.opp Z.add Z.pos_sub Pos.pred_double] in T; apply ok_val in T; subst b'; rewrite VE; clear;
    cbn [map In ix iy iz fst snd Z.eqb Pos.eqb]; rewrite ?ipt_eq; (split; intros K; cases_).
  - destruct S as (x & y & ->). cbn [hx hl] in T. unfold znth in T. change (Z.to_nat 0) with 0%nat in T. change (Z.to_nat 1) with 1%nat in T. cbn [nth] in T. change (h_root_len PQuad) with (2 ^ hbits PQuad) in T.
    assert (VE := fun x y => @h_vertices_eq PQuad (Cube l [x; y]) eq_refl). cbv zeta in VE. cbn [hx hl] in VE. unfold znth in VE. change (Z.to_nat 0) with 0%nat in VE. change (Z.to_nat 1) with 1%nat in VE. cbn [nth] in VE.
    unfold h_symmetry. set (R := 2 ^ hbits PQuad) in *. set (h := h_len PQuad l) in *. clearbody R h. rewrite VE. destruct v as [[vx vy] vz].
    assert (o = 0 \/ o = 1 \/ o = 2 \/ o = 3) as [->|[->|[->| ->]]] by lia; destruct sign, sm; cbn [Z.eqb Pos.eqb orb andb negb Z.sub Z.opp Z.add Z.pos_sub Pos.pred_double] in T; apply ok_val in T; subst b'; rewrite VE; clear;
    cbn [map In ix iy iz fst snd Z.eqb Pos.eqb]; rewrite ?ipt_eq; (split; intros K; cases_).
Qed.

(** Face neighbours, the boundary of the root and children at faces of the hypercubes of the standalone scheme. *)
From Coq Require Import QArith Lqa.
From Verif Require Import Prelude PathSpec GeoSpec SchemeModel SchemeSpec SchemeProofs BitLemmas SimplexModel SimplexPathProofs SimplexOrderProofs SimplexTileProofs LineModel LineSpec LineProofs.
From Verif Require Import HyperModel HyperSpec HyperProofs HyperOrderProofs HyperGeoProofs HyperFaceProofs.
Open Scope Z_scope.

(** ** face neighbours *)
Lemma hcube_ext c a b : length (hx a) = hdim c -> length (hx b) = hdim c -> hl a = hl b -> (forall k, 0 <= k < D c -> hk a k = hk b k) -> a = b.
Proof.
  intros La Lb HL H. destruct a as [la xa], b as [lb xb]. cbn [hl hx] in *. f_equal; [exact HL|]. apply nth_ext with (d := 0) (d' := 0); [congruence|].
  intros n Hn. specialize (H (Z.of_nat n) ltac:(lia)). unfold znth in H. now rewrite Nat2Z.id in H.
Qed.
Lemma h_nb_len c e f : length (hx (fst (h_face_neighbour c e f))) = length (hx e).
Proof. unfold h_face_neighbour. cbn [fst hx]. apply imap_length. Qed.
Lemma h_nb_k c e f k : 0 <= k < zlen (hx e) -> hk (fst (h_face_neighbour c e f)) k = hk e k + (if k =? f / 2 then h_len c (hl e) * (2 * (f mod 2) - 1) else 0).
Proof.
  intros Hk. unfold h_face_neighbour. cbn [fst hx]. rewrite imap_znth by auto. destruct (k =? f / 2); [|lia].
  destruct (Z.eqb_spec (f mod 2) 0) as [E|E]; [rewrite E; lia|]. replace (f mod 2) with 1 by lia. lia.
Qed.
Lemma h_nb_level c e f : hl (fst (h_face_neighbour c e f)) = hl e. Proof. reflexivity. Qed.
Lemma lxor1 f : 0 <= f < 6 -> Z.lxor f 1 / 2 = f / 2 /\ Z.lxor f 1 mod 2 = 1 - f mod 2 /\ Z.lxor (Z.lxor f 1) 1 = f.
Proof.
  intros H. assert (f = 0 \/ f = 1 \/ f = 2 \/ f = 3 \/ f = 4 \/ f = 5) as [->|[->|[->|[->|[->| ->]]]]] by lia; repeat split; reflexivity.
Qed.
Lemma f_div c f : 0 <= f < hfaces c -> 0 <= f / 2 < D c /\ 0 <= f mod 2 < 2 /\ f = 2 * (f / 2) + f mod 2.
Proof. intros H. rewrite hfaces_D in H. lia. Qed.
Lemma hfaces_6 c : hfaces c < 7. Proof. destruct c; cbn; lia. Qed.
Lemma h_nb_aligned c e f : h_aligned c e -> h_aligned c (fst (h_face_neighbour c e f)).
Proof.
  intros (HL & HE & HA). split; [exact HL|]. split; [rewrite h_nb_len; exact HE|]. apply Forall_forall. intros x Hx. apply (In_nth _ _ 0) in Hx. destruct Hx as (n & Hn & <-).
  rewrite h_nb_len in Hn. assert (E := @h_nb_k c e f (Z.of_nat n) ltac:(unfold zlen; lia)). unfold znth in E. rewrite Nat2Z.id in E. rewrite E, h_nb_level.
  apply al_add; [apply (proj1 (Forall_forall _ _) HA), nth_In; exact Hn|]. destruct (Z.of_nat n =? f / 2); [|apply al_0]. rewrite Z.mul_comm. apply al_mul.
  rewrite h_len_pow by lia. apply al_pow.
Qed.
Lemma h_face_neighbour_spec c e f : h_aligned c e -> 0 <= f < hfaces c ->
  let (n, g) := h_face_neighbour c e f in
  h_aligned c n /\ 0 <= g < hfaces c /\ hl n = hl e /\ n <> e /\ h_face_neighbour c n g = (e, f) /\ (forall v, In v (h_face_vertices c e f) <-> In v (h_face_vertices c n g)).
Proof.
  intros A Hf. pose proof (hfaces_6 c). destruct (@lxor1 f ltac:(lia)) as (X1 & X2 & X3). destruct (f_div Hf) as (F1 & F2 & F3). destruct (A) as (HL & HE & _).
  assert (Hh := @h_len_pos c (hl e) ltac:(lia)). assert (ZE : zlen (hx e) = D c) by (unfold zlen; now rewrite HE).
  assert (AN := h_nb_aligned f A). assert (KN := fun k => @h_nb_k c e f k). assert (LN := h_nb_len c e f).
  assert (EG : snd (h_face_neighbour c e f) = Z.lxor f 1) by reflexivity. assert (EL := h_nb_level c e f).
  destruct (h_face_neighbour c e f) as [n g]. cbn [fst snd] in *. subst g.
  assert (HG : 0 <= Z.lxor f 1 < hfaces c) by (rewrite hfaces_D in *; lia).
  split; [exact AN|]. split; [exact HG|]. split; [exact EL|]. split; [|split].
  - intros ->. specialize (KN (f / 2) ltac:(lia)). rewrite Z.eqb_refl in KN. assert (f mod 2 = 0 \/ f mod 2 = 1) as [E|E] by lia; rewrite E in KN; lia.
  - rewrite (surjective_pairing (h_face_neighbour c n _)). f_equal; [|exact X3].
    apply (@hcube_ext c); [rewrite h_nb_len; congruence|exact HE|rewrite h_nb_level; exact EL|]. intros k Hk. rewrite h_nb_k by (unfold zlen; rewrite LN, HE; exact Hk).
    rewrite KN by lia. rewrite X1, X2, EL. destruct (k =? f / 2); lia.
  - intros v. rewrite !h_face_vertices_iff by (auto; try congruence). unfold fv. rewrite EL.
    split; intros B k Hk; specialize (B k Hk); destruct (Z.ltb_spec k (D c)); auto; rewrite KN in * by lia; rewrite X1, X2 in *; destruct (k =? f / 2); lia.
Qed.
Lemma h_neighbour_disjoint c e f P : h_aligned c e -> 0 <= f < hfaces c -> ~ (interior (h_vertices c e) P /\ interior (h_vertices c (fst (h_face_neighbour c e f))) P).
Proof.
  intros A Hf. rewrite (proj2 (hull_box P A)), (proj2 (hull_box P (h_nb_aligned f A))). intros [B1 B2]. destruct (f_div Hf) as (F1 & F2 & F3). pose proof (D_range c).
  specialize (B1 (f / 2) ltac:(lia)). specialize (B2 (f / 2) ltac:(lia)). rewrite (proj2 (Z.ltb_lt _ _)) in B1, B2 by lia. rewrite h_nb_level in B2. destruct A as (HL & HE & _).
  rewrite h_nb_k, Z.eqb_refl in B2 by (unfold zlen; lia). assert (Hh := @h_len_pos c (hl e) ltac:(lia)). set (h := h_len c (hl e)) in *. clearbody h.
  assert (f mod 2 = 0 \/ f mod 2 = 1) as [E|E] by lia; rewrite E in B2; rewrite ?Z.mul_0_r, ?Z.mul_1_r in B2.
  - replace (h * (0 - 1)) with (- h) in B2 by lia. rewrite !inject_Z_plus, inject_Z_opp in *. lra.
  - replace (h * (2 - 1)) with h in B2 by lia. rewrite !inject_Z_plus in *. lra.
Qed.

(** ** inside and outside of the root *)
Lemma mul_small q a : 0 < a -> 0 <= q * a < a -> q = 0.
Proof. intros Ha H. assert (q < 1) by nia. assert (-1 < q) by nia. lia. Qed.
Lemma inside_k c e : h_aligned c e -> (h_is_inside_root c e = true <-> forall k, 0 <= k < D c -> 0 <= hk e k < 2 ^ hbits c).
Proof.
  intros (HL & HE & HA). pose proof (hmax_pos c) as MP. pose proof (@pow2_pos (hbits c) ltac:(lia)) as PP. unfold h_is_inside_root, h_ancestor.
  assert (Q : forall l, length l = hdim c -> ((forall x, In x l -> 0 <= x < 2 ^ hbits c) <-> forall k, 0 <= k < D c -> 0 <= znth 0 l k < 2 ^ hbits c)).
  { intros l Hl. split.
    - intros H k Hk. apply H. unfold znth. apply nth_In. lia.
    - intros H x Hx. apply (In_nth _ _ 0) in Hx. destruct Hx as (n & Hn & <-). specialize (H (Z.of_nat n) ltac:(lia)). unfold znth in H. now rewrite Nat2Z.id in H. }
  rewrite <- (Q _ HE). destruct (Z.eqb_spec (hl e) 0) as [E|NE].
  - rewrite forallb_forall. rewrite E, Z.sub_0_r in HA. split.
    + intros H x Hx. specialize (H x Hx). apply Z.eqb_eq in H. lia.
    + intros H x Hx. specialize (H x Hx). apply Z.eqb_eq. destruct (proj1 (Forall_forall _ _) HA x Hx) as (q & Eq). rewrite Eq in H |- *. rewrite (mul_small PP H). lia.
  - cbn [hx]. rewrite Z.sub_0_r, forallb_forall. split.
    + intros H x Hx. specialize (H _ (in_map _ _ _ Hx)). apply Z.eqb_eq in H. rewrite Z.shiftl_mul_pow2, Z.shiftr_div_pow2 in H by lia.
      assert (D0 : x / 2 ^ hbits c = 0) by nia. apply Z.div_small_iff in D0; lia.
    + intros H y Hy. apply in_map_iff in Hy. destruct Hy as (x & <- & Hx). specialize (H x Hx). rewrite Z.shiftl_mul_pow2, Z.shiftr_div_pow2 by lia.
      rewrite Z.div_small by lia. reflexivity.
Qed.
Lemma clear_aligned s x : 0 <= s -> al s x -> clear x (2 ^ s) + Z.b2z (Z.testbit x s) * 2 ^ s = x /\ al (s + 1) (clear x (2 ^ s)).
Proof.
  intros Hs (q & E). assert (P := pow2_S Hs). set (b := Z.odd q). assert (Eq : q = 2 * (q / 2) + Z.b2z b).
  { unfold b. rewrite <- Z.bit0_odd. rewrite Z.bit0_mod. apply Z.div_mod. lia. }
  assert (V : al (s + 1) (q / 2 * 2 ^ (s + 1))) by (now exists (q / 2)).
  assert (EX : x = q / 2 * 2 ^ (s + 1) + Z.b2z b * 2 ^ s) by (rewrite E, Eq at 1; rewrite P; lia). rewrite EX.
  rewrite clear_add, tb_add_same by auto. split; [reflexivity|exact V].
Qed.
Lemma h_parent_aligned c e : h_aligned c e -> 0 < hl e -> h_aligned c (h_parent c e) /\
  (forall k, 0 <= k < D c -> hk e k = hk (h_parent c e) k + Z.b2z (Z.testbit (hk e k) (hbits c - hl e)) * h_len c (hl e)) /\ length (hx (h_parent c e)) = hdim c.
Proof.
  intros (HL & HE & HA) H0. rewrite h_len_pow by lia. assert (LP : length (hx (h_parent c e)) = hdim c) by (unfold h_parent; cbn [hx]; now rewrite map_length).
  split; [|split; [|exact LP]].
  - split; [unfold h_parent; cbn [hl]; lia|]. split; [exact LP|]. unfold h_parent. cbn [hl hx]. apply Forall_map. rewrite h_len_pow by lia. eapply Forall_impl; [|exact HA]. intros x Hx.
    replace (hbits c - (hl e - 1)) with (hbits c - hl e + 1) by lia. apply clear_aligned; [lia|exact Hx].
  - intros k Hk. assert (IN : In (hk e k) (hx e)) by (unfold znth; apply nth_In; lia). assert (Ax := proj1 (Forall_forall _ _) HA _ IN).
    assert (E : hk (h_parent c e) k = clear (hk e k) (2 ^ (hbits c - hl e))).
    { unfold h_parent. cbn [hx]. rewrite h_len_pow by lia. unfold znth. rewrite (nth_indep _ 0 (clear 0 (2 ^ (hbits c - hl e)))) by (rewrite map_length; lia). rewrite (map_nth (fun x => clear x (2 ^ (hbits c - hl e)))). reflexivity. }
    rewrite E. symmetry. apply clear_aligned; [lia|exact Ax].
Qed.
Lemma h_inside_root c e : h_aligned c e -> (h_is_inside_root c e = true <-> exists p, h_path c p /\ e = h_walk c p).
Proof.
  intros A. rewrite inside_k by auto. split.
  - remember (Z.to_nat (hl e)) as n eqn:En. revert e A En. induction n as [|n IH]; intros e A En H; destruct (A) as (HL & HE & HA).
    + exists []. split; [split; [constructor|pose proof (hmax_pos c); unfold zlen; cbn [length]; lia]|]. apply (@hcube_ext c); auto.
      * unfold h_walk, h_root. cbn [fold_left hx]. apply repeat_length.
      * change (hl (h_walk c [])) with 0. lia.
      * intros k Hk. assert (E0 : hk (h_walk c []) k = 0) by (unfold h_walk, h_root, znth; cbn [fold_left hx]; rewrite nth_repeat; reflexivity). rewrite E0.
        specialize (H k Hk). assert (IN : In (hk e k) (hx e)) by (unfold znth; apply nth_In; lia). assert (Ax := proj1 (Forall_forall _ _) HA _ IN).
        replace (hl e) with 0 in Ax by lia. rewrite Z.sub_0_r in Ax. destruct Ax as (q & Eq). rewrite Eq in H |- *. pose proof (@pow2_pos (hbits c) ltac:(pose proof (hmax_pos c); lia)) as PP. rewrite (mul_small PP H). lia.
    + destruct (h_parent_aligned A ltac:(lia)) as (AP & KP & LP). assert (Hh := @h_len_pos c (hl e) ltac:(lia)).
      assert (LPV : hl (h_parent c e) = hl e - 1) by reflexivity.
      assert (S2 := @h_len_succ c (hl e - 1) ltac:(lia)). replace (hl e - 1 + 1) with (hl e) in S2 by lia.
      destruct (IH (h_parent c e) AP) as (p & Hp & Ep); [rewrite LPV; lia| |].
      { intros k Hk. specialize (KP k Hk). specialize (H k Hk). destruct AP as (_ & _ & AP). assert (IN : In (hk (h_parent c e) k) (hx (h_parent c e))) by (unfold znth; apply nth_In; lia).
        destruct (proj1 (Forall_forall _ _) AP _ IN) as (q & Eq). rewrite LPV in Eq. replace (hbits c - (hl e - 1)) with (hbits c - hl e + 1) in Eq by lia. rewrite pow2_S in Eq by lia.
        rewrite h_len_pow in * by lia. destruct (Z.testbit (hk e k) (hbits c - hl e)); cbn [Z.b2z] in KP; [|lia]. set (u := 2 ^ (hbits c - hl e)) in *.
        assert (Q1 : 0 <= (2 * q + 1) * u) by lia. assert (Q2 : -1 < q) by (clear -Q1 Hh; nia). assert (0 <= q * (2 * u)) by (apply Z.mul_nonneg_nonneg; lia). lia. }
      destruct (bits_exist c (fun k => Z.testbit (hk e k) (hbits c - hl e))) as (i & Hi & Eb). exists (p ++ [i]).
      assert (ZL : zlen p = hl e - 1) by (rewrite <- (h_walk_level (proj2 Hp)), <- Ep; exact LPV).
      split; [apply h_path_snoc; split; [exact Hp|]; lia|]. rewrite h_walk_snoc, <- Ep. apply (@hcube_ext c); auto.
      * unfold h_child. cbn [hx]. now rewrite imap_length.
      * unfold h_child. cbn [hl]. rewrite LPV. lia.
      * intros k Hk. rewrite h_child_k by (auto; rewrite LPV; lia). rewrite LPV, Eb by auto. replace (hl e - 1 + 1) with (hl e) by lia. now apply KP.
  - intros (p & Hp & ->) k Hk. rewrite h_walk_eq by apply Hp. cbn [hx]. unfold coords, znth.
    rewrite (nth_indep _ 0 (X (hbits c) 0 p)) by (rewrite map_length, zseq_length; lia). rewrite (map_nth (fun k => X (hbits c) k p)). rewrite nth_zseq by lia.
    destruct (@X_range (hbits c) (0 + Z.of_nat (Z.to_nat k)) p (Z.le_trans _ _ _ (proj2 Hp) (@hmax_bits c))) as [R1 R2]. pose proof (@pow2_pos (hbits c - zlen p) ltac:(destruct Hp; lia)). lia.
Qed.
Lemma h_walk_k c p k : h_path c p -> 0 <= k < D c -> 0 <= hk (h_walk c p) k /\ hk (h_walk c p) k + h_len c (hl (h_walk c p)) <= 2 ^ hbits c.
Proof.
  intros Hp Hk. rewrite h_walk_eq by apply Hp. cbn [hx hl]. rewrite h_len_pow by apply Hp. unfold coords, znth.
  rewrite (nth_indep _ 0 (X (hbits c) 0 p)) by (rewrite map_length, zseq_length; lia). rewrite (map_nth (fun k => X (hbits c) k p)). rewrite nth_zseq by lia.
  apply X_range. destruct Hp. lia.
Qed.
Lemma h_root_len_pow c : hdim c <> 0%nat -> h_root_len c = 2 ^ hbits c.
Proof. intros H. destruct c; [cbn in H; congruence|reflexivity..]. Qed.
Lemma h_root_boundary c p f : h_path c p -> 0 <= f < hfaces c ->
  h_is_root_boundary c (h_walk c p) f = negb (h_is_inside_root c (fst (h_face_neighbour c (h_walk c p) f))).
Proof.
  intros Hp Hf. destruct (f_div Hf) as (F1 & F2 & F3). assert (A := h_walk_aligned Hp). assert (AN := h_nb_aligned f A). destruct (A) as (HL & HE & HA).
  assert (ZE : zlen (hx (h_walk c p)) = D c) by (unfold zlen; now rewrite HE). assert (K := fun k Hk => @h_walk_k c p k Hp Hk).
  assert (Hh := @h_len_pos c (hl (h_walk c p)) ltac:(lia)). unfold h_is_root_boundary. rewrite h_root_len_pow by lia.
  set (e := h_walk c p) in *.
  assert (Q : (if negb (f mod 2 =? 0) then hk e (f / 2) =? 2 ^ hbits c - h_len c (hl e) else hk e (f / 2) =? 0) = true <-> h_is_inside_root c (fst (h_face_neighbour c e f)) <> true).
  { rewrite inside_k by auto. split.
    - intros B H. specialize (H (f / 2) F1). rewrite h_nb_k, Z.eqb_refl in H by lia. destruct (Z.eqb_spec (f mod 2) 0) as [E|E]; cbn [negb] in B; apply Z.eqb_eq in B.
      + rewrite E in H. lia.
      + replace (f mod 2) with 1 in H by lia. lia.
    - intros N. assert (IN : In (hk e (f / 2)) (hx e)) by (unfold znth; apply nth_In; lia). assert (Ax := proj1 (Forall_forall _ _) HA _ IN).
      destruct (Z.eqb_spec (f mod 2) 0) as [E|E]; cbn [negb]; apply Z.eqb_eq.
      + destruct (Z.eq_dec (hk e (f / 2)) 0) as [|NZ]; [assumption|]. exfalso. apply N. intros k Hk. rewrite h_nb_k by lia. assert (Kk := K k Hk). destruct (Z.eqb_spec k (f / 2)) as [->|]; [|lia].
        rewrite E. destruct Ax as (q & Eq). rewrite h_len_pow in * by lia. assert (1 <= q) by nia. nia.
      + destruct (Z.eq_dec (hk e (f / 2)) (2 ^ hbits c - h_len c (hl e))) as [|NZ]; [assumption|]. exfalso. apply N. intros k Hk. rewrite h_nb_k by lia. assert (Kk := K k Hk). destruct (Z.eqb_spec k (f / 2)) as [->|]; [|lia].
        replace (f mod 2) with 1 by lia. destruct Ax as (q & Eq). rewrite h_len_pow in * by lia.
        rewrite (@pow2_split (hbits c - hl e) (hbits c)) in * by lia. set (u := 2 ^ (hbits c - hl e)) in *. set (w := 2 ^ (hbits c - (hbits c - hl e))) in *. rewrite Eq in *.
        assert (q + 1 <= w) by nia. assert (q + 1 <> w) by (intros <-; lia). nia. }
  destruct (if negb (f mod 2 =? 0) then _ else _); destruct (h_is_inside_root c (fst (h_face_neighbour c e f))); cbn [negb]; try reflexivity.
  - exfalso. apply (proj1 Q); reflexivity.
  - assert (W : false = true) by (apply (proj2 Q); discriminate). discriminate W.
Qed.
Lemma h_neighbor_inside_spec c p f : h_path c p -> 0 <= f < hfaces c ->
  match h_face_neighbor_inside c (h_walk c p) f with
  | (Some n, g) => (n, g) = h_face_neighbour c (h_walk c p) f /\ exists q, h_path c q /\ n = h_walk c q
  | (None, g) => g = snd (h_face_neighbour c (h_walk c p) f) /\ forall q, h_path c q -> fst (h_face_neighbour c (h_walk c p) f) <> h_walk c q
  end.
Proof.
  intros Hp Hf. assert (AN := h_nb_aligned f (h_walk_aligned Hp)). assert (I := h_inside_root AN). unfold h_face_neighbor_inside.
  destruct (h_face_neighbour c (h_walk c p) f) as [n g]. cbn [fst snd] in *. destruct (h_is_inside_root c n).
  - split; [reflexivity|]. now apply I.
  - split; [reflexivity|]. intros q Hq E. assert (false = true); [|congruence]. apply I. now exists q.
Qed.
Lemma fv_exists c e f k b : 0 <= f < hfaces c -> 0 <= k < D c -> k <> f / 2 -> exists v, fv c e f v /\ icoord k v = hk e k + Z.b2z b * h_len c (hl e).
Proof.
  intros Hf Hk N. pose proof (D_range c). set (g j := if j <? D c then hk e j + (if j =? f / 2 then f mod 2 else if j =? k then Z.b2z b else 0) * h_len c (hl e) else 0).
  assert (G : forall j, 0 <= j < 3 -> icoord j (g 0, g 1, g 2) = g j) by (apply all3; repeat split; reflexivity).
  exists (g 0, g 1, g 2). split.
  - intros j Hj. rewrite G by auto. unfold g. destruct (j <? D c); [|reflexivity]. destruct (j =? f / 2); [reflexivity|]. destruct (j =? k); [destruct b; cbn [Z.b2z]|]; lia.
  - rewrite G by lia. unfold g. rewrite (proj2 (Z.ltb_lt _ _)) by lia. rewrite (proj2 (Z.eqb_neq _ _) N), Z.eqb_refl. reflexivity.
Qed.
Lemma fv_axis c e f : 0 <= f < hfaces c -> exists v, fv c e f v.
Proof.
  intros Hf. set (g j := if j <? D c then hk e j + (if j =? f / 2 then f mod 2 else 0) * h_len c (hl e) else 0).
  assert (G : forall j, 0 <= j < 3 -> icoord j (g 0, g 1, g 2) = g j) by (apply all3; repeat split; reflexivity).
  exists (g 0, g 1, g 2). intros j Hj. rewrite G by auto. unfold g. destruct (j <? D c); [|reflexivity]. destruct (j =? f / 2); [reflexivity|]. lia.
Qed.
Lemma h_tree_face_spec c p f rf : h_path c p -> 0 <= f < hfaces c -> 0 <= rf < hfaces c ->
  ((forall v, In v (h_face_vertices c (h_walk c p) f) -> h_on_root_plane c rf v) <-> (h_is_root_boundary c (h_walk c p) f = true /\ rf = h_tree_face f)).
Proof.
  intros Hp Hf Hr. destruct (f_div Hf) as (F1 & F2 & F3). destruct (f_div Hr) as (R1 & R2 & R3). pose proof (D_range c). assert (A := h_walk_aligned Hp). destruct (A) as (HL & HE & HA).
  assert (K := @h_walk_k c p (f / 2) Hp F1). assert (Hh := @h_len_pos c (hl (h_walk c p)) ltac:(lia)). set (e := h_walk c p) in *.
  assert (FV := fun v => @h_face_vertices_iff c e f v HE Hf). unfold h_is_root_boundary, h_tree_face, h_on_root_plane. rewrite h_root_len_pow by lia. split.
  - intros B. assert (EA : rf / 2 = f / 2).
    { destruct (Z.eq_dec (rf / 2) (f / 2)) as [|N]; [assumption|]. exfalso.
      destruct (@fv_exists c e f (rf / 2) false Hf R1 N) as (v & V1 & V2). destruct (@fv_exists c e f (rf / 2) true Hf R1 N) as (w & W1 & W2).
      apply FV in V1, W1. apply B in V1, W1. cbn [Z.b2z] in *. lia. }
    destruct (@fv_axis c e f Hf) as (v & V). assert (V2 := V (f / 2) ltac:(lia)). rewrite (proj2 (Z.ltb_lt _ _)), Z.eqb_refl in V2 by lia.
    apply FV in V. apply B in V. rewrite EA in V. rewrite V2 in V. pose proof (@pow2_pos (hbits c) ltac:(pose proof (hmax_pos c); lia)).
    assert (f mod 2 = 0 \/ f mod 2 = 1) as [E|E] by lia; rewrite E in *; cbn [Z.eqb negb]; (assert (rf mod 2 = 0 \/ rf mod 2 = 1) as [E'|E'] by lia); rewrite E' in *; (split; [apply Z.eqb_eq|]); try lia.
  - intros [B ->] v V. apply FV in V. specialize (V (f / 2) ltac:(lia)). rewrite (proj2 (Z.ltb_lt _ _)), Z.eqb_refl in V by lia. rewrite V.
    assert (f mod 2 = 0 \/ f mod 2 = 1) as [E|E] by lia; rewrite E in *; cbn [Z.eqb negb] in B; apply Z.eqb_eq in B; lia.
Qed.

(** ** children at faces *)
Lemma h_subface_iff c e i f g : h_aligned c e -> hl e < hmax c -> 0 <= i < hchildren c -> 0 <= f < hfaces c -> 0 <= g < hfaces c ->
  (h_subface c e f (h_child c e i) g <-> g = f /\ bitk (f / 2) i = f mod 2).
Proof.
  intros A HM Hi Hf Hg. assert (AC := @h_child_aligned c e i A HM). destruct (A) as (HL & HE & HA). destruct AC as (HLC & HEC & _).
  destruct (f_div Hf) as (F1 & F2 & F3). destruct (f_div Hg) as (G1 & G2 & G3). pose proof (D_range c). assert (S2 := h_len_succ HM). assert (Hh := @h_len_pos c (hl e + 1) ltac:(lia)).
  assert (CK := fun k => @h_child_k c e i k HE HM). assert (FE := fun v => @h_face_vertices_iff c e f v HE Hf). assert (FC := fun v => @h_face_vertices_iff c _ g v HEC Hg).
  assert (CL : hl (h_child c e i) = hl e + 1) by reflexivity.
  set (d := h_child c e i) in *. unfold h_subface. split.
  - intros B. assert (PL : forall m, fv c d g m -> icoord (f / 2) m = hk e (f / 2) + f mod 2 * h_len c (hl e)).
    { intros m Hm. apply FC in Hm. destruct (B m Hm) as (a & b & Ia & Ib & M1 & M2 & M3). apply FE in Ia, Ib. specialize (Ia (f / 2) ltac:(lia)). specialize (Ib (f / 2) ltac:(lia)).
      rewrite (proj2 (Z.ltb_lt _ _)), Z.eqb_refl in Ia, Ib by lia.
      assert (M : 2 * icoord (f / 2) m = icoord (f / 2) a + icoord (f / 2) b). { assert (f / 2 = 0 \/ f / 2 = 1 \/ f / 2 = 2) as [E|[E|E]] by lia; rewrite E; assumption. }
      lia. }
    assert (EA : f / 2 = g / 2).
    { destruct (Z.eq_dec (f / 2) (g / 2)) as [|N]; [assumption|]. exfalso.
      destruct (@fv_exists c d g (f / 2) false Hg F1 N) as (v & V1 & V2). destruct (@fv_exists c d g (f / 2) true Hg F1 N) as (w & W1 & W2).
      apply PL in V1, W1. cbn [Z.b2z] in *. rewrite CL in *. lia. }
    destruct (@fv_axis c d g Hg) as (v & V). assert (V2 := V (g / 2) ltac:(lia)). rewrite (proj2 (Z.ltb_lt _ _)), Z.eqb_refl in V2 by lia. apply PL in V. rewrite EA in *. rewrite V2, CL in V.
    rewrite CK, S2 in V by lia. pose proof (bitk_range (g / 2) i) as R.
    assert (E : bitk (g / 2) i + g mod 2 = 2 * (f mod 2)) by nia. lia.
  - intros [-> Eb] m Hm. apply FC in Hm.
    set (ga k := if k <? D c then hk e k + bitk k i * h_len c (hl e) else 0). set (gb k := if k <? D c then 2 * icoord k m - ga k else 0).
    assert (GA : forall j, 0 <= j < 3 -> icoord j (ga 0, ga 1, ga 2) = ga j) by (apply all3; repeat split; reflexivity).
    assert (GB : forall j, 0 <= j < 3 -> icoord j (gb 0, gb 1, gb 2) = gb j) by (apply all3; repeat split; reflexivity).
    exists (ga 0, ga 1, ga 2), (gb 0, gb 1, gb 2). split; [|split].
    + apply FE. intros k Hk. rewrite GA by auto. unfold ga. destruct (k <? D c); [|reflexivity]. destruct (Z.eqb_spec k (f / 2)) as [->|]; [now rewrite Eb|].
      pose proof (bitk_range k i) as R. assert (bitk k i = 0 \/ bitk k i = 1) as [E|E] by lia; rewrite E; lia.
    + apply FE. intros k Hk. rewrite GB by auto. specialize (Hm k Hk). unfold gb, ga. destruct (Z.ltb_spec k (D c)); [|reflexivity]. rewrite CL, CK in Hm by lia.
      destruct (Z.eqb_spec k (f / 2)) as [EK|]; [rewrite Hm, EK, Eb, S2; lia|].
      pose proof (bitk_range k i) as R. assert (bitk k i = 0 \/ bitk k i = 1) as [E|E] by lia; rewrite E in *; lia.
    + assert (MM : forall k, 0 <= k < 3 -> 2 * icoord k m = ga k + gb k). { intros k Hk. unfold gb. specialize (Hm k Hk). unfold ga. destruct (k <? D c); lia. }
      split; [exact (MM 0 ltac:(lia))|]. split; [exact (MM 1 ltac:(lia))|exact (MM 2 ltac:(lia))].
Qed.
Lemma h_child_ids_iff c f i : 0 <= f < hfaces c -> 0 <= i < hchildren c -> (In i (h_child_ids_at_face c f) <-> bitk (f / 2) i = f mod 2).
Proof.
  intros Hf Hi. destruct c; cbn [hfaces hchildren] in *; [lia|..].
  - assert (f = 0 \/ f = 1) as [->| ->] by lia; assert (i = 0 \/ i = 1) as [->| ->] by lia; vm_compute; intuition congruence.
  - assert (f = 0 \/ f = 1 \/ f = 2 \/ f = 3) as [->|[->|[->| ->]]] by lia; assert (i = 0 \/ i = 1 \/ i = 2 \/ i = 3) as [->|[->|[->| ->]]] by lia; vm_compute; intuition congruence.
  - assert (f = 0 \/ f = 1 \/ f = 2 \/ f = 3 \/ f = 4 \/ f = 5) as [->|[->|[->|[->|[->| ->]]]]] by lia;
    assert (i = 0 \/ i = 1 \/ i = 2 \/ i = 3 \/ i = 4 \/ i = 5 \/ i = 6 \/ i = 7) as [->|[->|[->|[->|[->|[->|[->| ->]]]]]]] by lia; vm_compute; intuition congruence.
  - assert (f = 0 \/ f = 1 \/ f = 2 \/ f = 3) as [->|[->|[->| ->]]] by lia; assert (i = 0 \/ i = 1 \/ i = 2 \/ i = 3) as [->|[->|[->| ->]]] by lia; vm_compute; intuition congruence.
  - assert (f = 0 \/ f = 1 \/ f = 2 \/ f = 3 \/ f = 4 \/ f = 5) as [->|[->|[->|[->|[->| ->]]]]] by lia;
    assert (i = 0 \/ i = 1 \/ i = 2 \/ i = 3 \/ i = 4 \/ i = 5 \/ i = 6 \/ i = 7) as [->|[->|[->|[->|[->|[->|[->| ->]]]]]]] by lia; vm_compute; intuition congruence.
Qed.

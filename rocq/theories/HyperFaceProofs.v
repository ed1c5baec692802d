(** Tiling, faces and face neighbours of the hypercubes of the standalone scheme. *)
From Coq Require Import QArith Lqa.
From Verif Require Import Prelude PathSpec GeoSpec SchemeModel SchemeSpec SchemeProofs BitLemmas SimplexModel SimplexPathProofs SimplexOrderProofs SimplexTileProofs LineModel LineSpec LineProofs.
From Verif Require Import HyperModel HyperSpec HyperProofs HyperOrderProofs HyperGeoProofs.
Open Scope Z_scope.

Notation D c := (Z.of_nat (hdim c)).
Notation hk e k := (znth 0%Z (hx e) k).
Lemma D_range c : 0 <= D c <= 3. Proof. destruct c; cbn; lia. Qed.
Lemma hfaces_D c : hfaces c = 2 * D c. Proof. destruct c; reflexivity. Qed.

(** ** coordinates of children and neighbours *)
Lemma imap_length f k l : length (imap f k l) = length l.
Proof. revert k. induction l as [|x l IH]; intros k; cbn [imap length]; [reflexivity|]. now rewrite IH. Qed.
Lemma imap_nth f k l n : (n < length l)%nat -> nth n (imap f k l) 0 = f (k + Z.of_nat n) (nth n l 0).
Proof.
  revert k n. induction l as [|x l IH]; intros k n H; cbn [length] in H; [lia|]. destruct n as [|n]; cbn [imap nth]; [f_equal; lia|].
  rewrite IH by lia. f_equal. lia.
Qed.
Lemma imap_znth f l k : 0 <= k < zlen l -> znth 0 (imap f 0 l) k = f k (znth 0 l k).
Proof. intros H. unfold znth. rewrite imap_nth by (unfold zlen in H; lia). f_equal. lia. Qed.
Lemma h_child_k c e i k : length (hx e) = hdim c -> hl e < hmax c -> 0 <= k < D c -> hk (h_child c e i) k = hk e k + bitk k i * h_len c (hl e + 1).
Proof.
  intros HL HM Hk. unfold h_child. cbn [hx]. rewrite imap_znth by (unfold zlen; lia). rewrite shiftl1_pow, land_pow2 by lia. unfold bitk.
  destruct (Z.testbit i k); cbn [negb Z.b2z]; lia.
Qed.
Lemma h_child_aligned c e i : h_aligned c e -> hl e < hmax c -> h_aligned c (h_child c e i).
Proof.
  intros (HL & HE & HA) HM. split; [unfold h_child; cbn [hl]; lia|]. split; [unfold h_child; cbn [hx]; now rewrite imap_length|].
  apply Forall_forall. intros x Hx. apply (In_nth _ _ 0) in Hx. destruct Hx as (n & Hn & <-).
  assert (EL : length (hx (h_child c e i)) = hdim c) by (unfold h_child; cbn [hx]; now rewrite imap_length).
  assert (E := @h_child_k c e i (Z.of_nat n) HE HM ltac:(lia)). unfold znth in E. rewrite Nat2Z.id in E. rewrite E. unfold h_child. cbn [hl].
  apply al_add.
  - apply (@al_weaken (hbits c - (hl e + 1)) (hbits c - hl e)); [lia|]. apply (proj1 (Forall_forall _ _) HA). apply nth_In. lia.
  - apply al_mul. rewrite h_len_pow by lia. apply al_pow.
Qed.

(** ** the children tile the element *)
Lemma bits_exist c (b : Z -> bool) : exists i, 0 <= i < hchildren c /\ forall k, 0 <= k < D c -> bitk k i = Z.b2z (b k).
Proof.
  destruct c; cbn [hchildren hdim].
  - exists 0. split; [lia|intros k Hk; lia].
  - exists (Z.b2z (b 0)). split; [destruct (b 0); cbn; lia|]. intros k Hk. assert (k = 0) as -> by lia. destruct (b 0); reflexivity.
  - exists (Z.b2z (b 0) + 2 * Z.b2z (b 1)). split; [destruct (b 0), (b 1); cbn; lia|]. intros k Hk.
    assert (k = 0 \/ k = 1) as [->| ->] by lia; destruct (b 0), (b 1); reflexivity.
  - exists (Z.b2z (b 0) + 2 * Z.b2z (b 1) + 4 * Z.b2z (b 2)). split; [destruct (b 0), (b 1), (b 2); cbn; lia|]. intros k Hk.
    assert (k = 0 \/ k = 1 \/ k = 2) as [->|[->| ->]] by lia; destruct (b 0), (b 1), (b 2); reflexivity.
  - exists (Z.b2z (b 0) + 2 * Z.b2z (b 1)). split; [destruct (b 0), (b 1); cbn; lia|]. intros k Hk.
    assert (k = 0 \/ k = 1) as [->| ->] by lia; destruct (b 0), (b 1); reflexivity.
  - exists (Z.b2z (b 0) + 2 * Z.b2z (b 1) + 4 * Z.b2z (b 2)). split; [destruct (b 0), (b 1), (b 2); cbn; lia|]. intros k Hk.
    assert (k = 0 \/ k = 1 \/ k = 2) as [->|[->| ->]] by lia; destruct (b 0), (b 1), (b 2); reflexivity.
Qed.
Lemma inject_Z_mono a b : a <= b -> (inject_Z a <= inject_Z b)%Q. Proof. intros H. now rewrite <- Zle_Qle. Qed.
Lemma h_child_len c e i : hl (h_child c e i) = hl e + 1. Proof. reflexivity. Qed.
Lemma h_children_tile c e : h_aligned c e -> hl e < hmax c ->
  (forall P, hull (h_vertices c e) P <-> exists i, 0 <= i < hchildren c /\ hull (h_vertices c (h_child c e i)) P) /\
  (forall P i, 0 <= i < hchildren c -> interior (h_vertices c (h_child c e i)) P -> interior (h_vertices c e) P) /\
  (forall P i j, 0 <= i < hchildren c -> 0 <= j < hchildren c -> i <> j ->
     ~ (interior (h_vertices c (h_child c e i)) P /\ interior (h_vertices c (h_child c e j)) P)).
Proof.
  intros A HM. assert (AC := fun i => @h_child_aligned c e i A HM). destruct (A) as (HL & HE & _). assert (S2 := h_len_succ HM). assert (Hh := @h_len_pos c (hl e + 1) ltac:(lia)).
  set (h := h_len c (hl e + 1)) in *.
  assert (CK : forall i k, 0 <= k < D c -> hk (h_child c e i) k = hk e k + bitk k i * h) by (intros; now apply h_child_k).
  assert (H0 : (0 < inject_Z h)%Q) by (change 0%Q with (inject_Z 0); rewrite <- Zlt_Qlt; exact Hh).
  assert (I2 : forall a, (inject_Z (a + 2 * h) == inject_Z a + inject_Z h + inject_Z h)%Q) by (intros; rewrite inject_Z_plus, inject_Z_mult; change (inject_Z 2) with 2%Q; ring).
  split; [|split].
  - intros P. rewrite (proj1 (hull_box P A)). split.
    + intros B. destruct (bits_exist c (fun k => if Qlt_le_dec (pcoord k P) (inject_Z (hk e k + h)) then false else true)) as (i & Hi & Eb).
      exists i. split; [exact Hi|]. apply (proj1 (hull_box P (AC i))). intros k Hk. specialize (B k Hk). destruct (Z.ltb_spec k (D c)); [|exact B].
      rewrite CK by lia. rewrite h_child_len. fold h. rewrite Eb by lia. rewrite S2 in B. rewrite I2 in B. clear -B H0.
      destruct (Qlt_le_dec (pcoord k P) (inject_Z (hk e k + h))) as [L|L]; cbn [Z.b2z]; rewrite ?Z.mul_0_l, ?Z.mul_1_l, ?Z.add_0_r, !inject_Z_plus in *; lra.
    + intros (i & Hi & B). apply (proj1 (hull_box P (AC i))) in B. intros k Hk. specialize (B k Hk). destruct (Z.ltb_spec k (D c)); [|exact B].
      rewrite CK in B by lia. rewrite h_child_len in B. fold h in B. rewrite S2, I2. pose proof (bitk_range k i) as R. clear -B H0 R.
      assert (bitk k i = 0 \/ bitk k i = 1) as [E|E] by lia; rewrite E in B; rewrite ?Z.mul_0_l, ?Z.mul_1_l, ?Z.add_0_r, !inject_Z_plus in B; lra.
  - intros P i Hi. rewrite (proj2 (hull_box P A)), (proj2 (hull_box P (AC i))). intros B k Hk. specialize (B k Hk). destruct (Z.ltb_spec k (D c)); [|exact B].
    rewrite CK in B by lia. rewrite h_child_len in B. fold h in B. rewrite S2, I2. pose proof (bitk_range k i) as R. clear -B H0 R.
    assert (bitk k i = 0 \/ bitk k i = 1) as [E|E] by lia; rewrite E in B; rewrite ?Z.mul_0_l, ?Z.mul_1_l, ?Z.add_0_r, !inject_Z_plus in B; lra.
  - intros P i j Hi Hj N. rewrite (proj2 (hull_box P (AC i))), (proj2 (hull_box P (AC j))). intros [B1 B2]. apply N. clear N. rewrite hN in Hi, Hj.
    apply (@bits_inj_range i j (D c)); auto; [lia|]. intros k Hk. pose proof (D_range c). specialize (B1 k ltac:(lia)). specialize (B2 k ltac:(lia)).
    rewrite (proj2 (Z.ltb_lt _ _)) in B1, B2 by lia. rewrite !CK in B1, B2 by lia. rewrite !h_child_len in B1, B2. fold h in B1, B2.
    pose proof (bitk_range k i) as R1. pose proof (bitk_range k j) as R2. clear -B1 B2 H0 R1 R2.
    assert (bitk k i = 0 \/ bitk k i = 1) as [E|E] by lia; assert (bitk k j = 0 \/ bitk k j = 1) as [F|F] by lia; rewrite E, F in *; try reflexivity; exfalso;
      rewrite ?Z.mul_0_l, ?Z.mul_1_l, ?Z.add_0_r, !inject_Z_plus in *; lra.
Qed.
Lemma h_interior_prefix c p r P : h_path c (p ++ r) -> interior (h_vertices c (h_walk c (p ++ r))) P -> interior (h_vertices c (h_walk c p)) P.
Proof.
  induction r as [|i r IH] using rev_ind; intros H HI; [now rewrite app_nil_r in HI|]. rewrite app_assoc in *. apply h_path_snoc in H. destruct H as (H & Hi & HL).
  apply IH; [exact H|]. rewrite h_walk_snoc in HI. assert (HM : hl (h_walk c (p ++ r)) < hmax c) by (rewrite h_walk_level; [exact HL|apply H]).
  exact (proj1 (proj2 (h_children_tile (h_walk_aligned H) HM)) P i Hi HI).
Qed.
Lemma h_interiors_disjoint c p q P : h_path c p -> h_path c q -> ~ prefix p q -> ~ prefix q p ->
  ~ (interior (h_vertices c (h_walk c p)) P /\ interior (h_vertices c (h_walk c q)) P).
Proof.
  intros Hp Hq N1 N2 [I1 I2]. destruct (incomparable_split N1 N2) as (r & i & j & p' & q' & Hij & -> & ->).
  assert (EP : forall i p', r ++ i :: p' = (r ++ [i]) ++ p') by (intros; now rewrite <- app_assoc). rewrite EP in *.
  assert (P1 := proj1 (proj1 (h_path_app c (r ++ [i]) p') Hp)). assert (P2 := proj1 (proj1 (h_path_app c (r ++ [j]) q') Hq)).
  apply (h_interior_prefix Hp) in I1. apply (h_interior_prefix Hq) in I2. apply h_path_snoc in P1, P2. destruct P1 as (Hr & Hi & HL). destruct P2 as (_ & Hj & _).
  rewrite h_walk_snoc in I1, I2. assert (HM : hl (h_walk c r) < hmax c) by (rewrite h_walk_level; [exact HL|apply Hr]).
  exact (proj2 (proj2 (h_children_tile (h_walk_aligned Hr) HM)) P i j Hi Hj Hij (conj I1 I2)).
Qed.

(** ** the vertices of a face *)
Definition fv (c : hclass) (e : hcube) (f : Z) (v : ipt) : Prop := forall k, 0 <= k < 3 ->
  if k <? D c then (if k =? f / 2 then icoord k v = hk e k + (f mod 2) * h_len c (hl e) else icoord k v = hk e k \/ icoord k v = hk e k + h_len c (hl e)) else icoord k v = 0.
Lemma h_face_vertices_iff c e f v : length (hx e) = hdim c -> 0 <= f < hfaces c -> (In v (h_face_vertices c e f) <-> fv c e f v).
Proof.
  intros HL Hf. apply shape_of in HL. unfold fv. rewrite all3. destruct e as [l xs]. cbn [hx hl] in *. destruct v as [[vx vy] vz].
  unfold h_face_vertices, h_face_corners, h_vertex, h_coords, to_ipt. cbn [hx hl].
  destruct c; cbn [hfaces shape h_num_face_corners] in *; [lia|destruct HL as (x & ->)|destruct HL as (x & y & ->)|destruct HL as (x & y & z & ->)|destruct HL as (x & y & ->)|destruct HL as (x & y & z & ->)];
    [set (h := h_len HLine l)|set (h := h_len HQuad l)|set (h := h_len HHex l)|set (h := h_len PQuad l)|set (h := h_len PHex l)]; clearbody h;
    [assert (f = 0 \/ f = 1) as [->| ->] by lia|assert (f = 0 \/ f = 1 \/ f = 2 \/ f = 3) as [->|[->|[->| ->]]] by lia|
     assert (f = 0 \/ f = 1 \/ f = 2 \/ f = 3 \/ f = 4 \/ f = 5) as [->|[->|[->|[->|[->| ->]]]]] by lia|assert (f = 0 \/ f = 1 \/ f = 2 \/ f = 3) as [->|[->|[->| ->]]] by lia|assert (f = 0 \/ f = 1 \/ f = 2 \/ f = 3 \/ f = 4 \/ f = 5) as [->|[->|[->|[->|[->| ->]]]]] by lia];
    change (Z.to_nat 1) with 1%nat; change (Z.to_nat 2) with 2%nat; change (Z.to_nat 4) with 4%nat; cbn [zseq map];
    repeat match goal with |- context [h_face_corner ?a ?b] => let v := eval vm_compute in (h_face_corner a b) in change (h_face_corner a b) with v end; cbn [imap];
    repeat match goal with |- context [Z.shiftr (Z.land ?a (Z.shiftl 1 ?k)) ?k] => let v := eval vm_compute in (Z.shiftr (Z.land a (Z.shiftl 1 k)) k) in change (Z.shiftr (Z.land a (Z.shiftl 1 k)) k) with v end;
    repeat match goal with |- context [?a <? Z.of_nat ?n] => let v := eval vm_compute in (a <? Z.of_nat n) in change (a <? Z.of_nat n) with v end;
    repeat match goal with |- context [?a =? ?b / 2] => let v := eval vm_compute in (a =? b / 2) in change (a =? b / 2) with v end;
    repeat match goal with |- context [?b mod 2] => let v := eval vm_compute in (b mod 2) in change (b mod 2) with v end; cbv iota;
    unfold znth, icoord; change (Z.to_nat 0) with 0%nat; change (Z.to_nat 1) with 1%nat; change (Z.to_nat 2) with 2%nat; cbn [nth Z.eqb Pos.eqb ix iy iz fst snd In];
    rewrite ?Z.mul_0_l, ?Z.mul_1_l, ?Z.add_0_r; (split;
    [intros HV; repeat (destruct HV as [HV|HV]; [assert (E0 := f_equal ix HV); assert (E1 := f_equal iy HV); assert (E2 := f_equal iz HV); cbn [ix iy iz fst snd] in E0, E1, E2; clear HV; lia|]); destruct HV
    |intros (A0 & A1 & A2); repeat match goal with H : _ \/ _ |- _ => destruct H end; subst; auto 10]).
Qed.

(** The face transformation of triangles (t8_dtri_transform_face). *)
From Verif Require Import Prelude PathSpec GeoSpec SimplexModel SimplexSpec BitLemmas SimplexProofs SimplexPathProofs SimplexOrderProofs
  SimplexGeoProofs SimplexAncProofs SimplexTileProofs SimplexFaceProofs SimplexFaceChildProofs LineModel LineSpec LineProofs BoundarySpec BoundaryProofs.

Lemma pair3 (a b c a' b' c' : Z) : a = a' -> b = b' -> c = c' -> (a, b, c) = (a', b', c').
Proof. congruence. Qed.
Definition image_of (g : Z * Z * Z -> Z * Z * Z) (e t : simp) : Prop :=
  forall v, In v (vertices false t) <-> exists w, In w (vertices false e) /\ bary v = g (bary w) /\ iz v = iz w.

(** the three elementary maps *)
Definition tswap (e : simp) : simp := Simp (lv e) (ty e) (sx e) (if ty e =? 0 then sx e - sy e else sx e - sy e - LEN false (lv e)) (sz e).
Definition trot (e : simp) : simp :=
  Simp (lv e) (ty e) (ROOT_LEN false - LEN false (lv e) - sy e) (if ty e =? 0 then sx e - sy e else sx e - sy e - LEN false (lv e)) (sz e).

Lemma transform_face_split e o sign sm : 0 <= ty e < 2 -> 0 <= o < 3 ->
  transform_face e o sign sm =
  let o' := if negb sm && negb (o =? 0) && negb sign then 3 - o else o in
  let e1 := if sign then tswap e else e in
  if o' =? 0 then e1 else if o' =? 1 then trot e1 else trot (trot e1).
Proof.
  intros Ht Ho. destruct e as [l t x y z]. cbn [ty] in Ht. unfold transform_face, trot, tswap. cbn zeta.
  split_range Ho; split_range Ht; destruct sign, sm; change (3 - 1) with 2; change (3 - 2) with 1; cbn [lv ty sx sy sz Z.eqb Pos.eqb andb negb]; f_equal; lia.
Qed.

Lemma tswap2 e : tswap (tswap e) = e.
Proof. destruct e as [l t x y z]. unfold tswap. cbn [lv ty sx sy sz]. f_equal. destruct (t =? 0); lia. Qed.
Lemma trot3 e : trot (trot (trot e)) = e.
Proof. destruct e as [l t x y z]. unfold trot. cbn [lv ty sx sy sz]. destruct (t =? 0); f_equal; lia. Qed.
Lemma trot_swap e : trot (tswap (trot (tswap e))) = e.
Proof. destruct e as [l t x y z]. unfold trot, tswap. cbn [lv ty sx sy sz]. destruct (t =? 0); f_equal; lia. Qed.
Lemma trot_swap_trot e : trot (tswap (trot e)) = tswap e.
Proof. assert (H := trot_swap (tswap e)). now rewrite tswap2 in H. Qed.
Lemma trot2_swap e : trot (trot (tswap (trot (trot (tswap e))))) = e.
Proof. now rewrite trot_swap_trot, trot_swap. Qed.
Lemma transform_face_inv e o sign sm : 0 <= ty e < 2 -> 0 <= o < 3 -> transform_face (transform_face e o sign sm) o sign (negb sm) = e.
Proof.
  intros Ht Ho. rewrite (transform_face_split sign (negb sm)); auto.
  2: { rewrite transform_face_split by auto. cbn zeta. destruct sign; repeat match goal with |- context [if ?c then _ else _] => destruct c end; exact Ht. }
  rewrite transform_face_split by auto. cbn zeta.
  split_range Ho; destruct sign, sm; change (3 - 1) with 2; change (3 - 2) with 1; cbn [Z.eqb Pos.eqb andb negb];
    rewrite ?tswap2, ?trot3, ?trot_swap, ?trot2_swap; auto.
Qed.

Lemma vertices_tri e : 0 <= ty e < 2 -> let h := LEN false (lv e) in
  vertices false e = [(sx e, sy e, sz e); (if ty e =? 0 then (sx e + h, sy e, sz e) else (sx e, sy e + h, sz e)); (sx e + h, sy e + h, sz e)].
Proof.
  intros Ht. cbn zeta. unfold vertices, corner_numbers. cbn [map]. rewrite !(@coords_unit false) by (cbn [NUM_TYPES CORNERS]; lia).
  destruct e as [l t x y z]. cbn [lv ty sx sy sz] in *. unfold scale. split_range Ht; cbn [Z.eqb];
    repeat match goal with |- context [ucoord ?b ?t ?v] => let w := eval vm_compute in (ucoord b t v) in change (ucoord b t v) with w end;
    unfold ix, iy, iz; cbn [fst snd]; rewrite ?Z.mul_0_r, ?Z.mul_1_r, ?Z.add_0_r; reflexivity.
Qed.

Lemma image_swap e : 0 <= ty e < 2 -> image_of swap12 e (tswap e).
Proof.
  intros Ht. unfold image_of. rewrite !vertices_tri by exact Ht. destruct e as [l t x y z]. unfold tswap. cbn [lv ty sx sy sz] in *.
  set (h := LEN false l). clearbody h. intros [[v1 v2] v3]. unfold swap12, bary, ix, iy, iz. cbn [fst snd In].
  set (R := ROOT_LEN false). clearbody R. split_range Ht; cbn [Z.eqb].
  - split; [intros [K|[K|[K|[]]]]; inversion K; subst|intros (w & [<-|[<-|[<-|[]]]] & K & K4); cbn [fst snd] in K, K4; inversion K].
    + eexists. split; [left; reflexivity|]. cbn [fst snd]. split; [apply pair3|]; lia.
    + eexists. split; [right; right; left; reflexivity|]. cbn [fst snd]. split; [apply pair3|]; lia.
    + eexists. split; [right; left; reflexivity|]. cbn [fst snd]. split; [apply pair3|]; lia.
    + left. apply pair3; lia.
    + right; right; left. apply pair3; lia.
    + right; left. apply pair3; lia.
  - split; [intros [K|[K|[K|[]]]]; inversion K; subst|intros (w & [<-|[<-|[<-|[]]]] & K & K4); cbn [fst snd] in K, K4; inversion K].
    + eexists. split; [right; left; reflexivity|]. cbn [fst snd]. split; [apply pair3|]; lia.
    + eexists. split; [left; reflexivity|]. cbn [fst snd]. split; [apply pair3|]; lia.
    + eexists. split; [right; right; left; reflexivity|]. cbn [fst snd]. split; [apply pair3|]; lia.
    + right; left. apply pair3; lia.
    + left. apply pair3; lia.
    + right; right; left. apply pair3; lia.
Qed.
Lemma image_rot e : 0 <= ty e < 2 -> image_of rot e (trot e).
Proof.
  intros Ht. unfold image_of. rewrite !vertices_tri by exact Ht. destruct e as [l t x y z]. unfold trot. cbn [lv ty sx sy sz] in *.
  set (h := LEN false l). clearbody h. intros [[v1 v2] v3]. unfold rot, bary, ix, iy, iz. cbn [fst snd In].
  set (R := ROOT_LEN false). clearbody R. split_range Ht; cbn [Z.eqb];
  (split; [intros [K|[K|[K|[]]]]; inversion K; subst;
      first [eexists; split; [left; reflexivity|cbn [fst snd]; split; [apply pair3|]; lia]
            |eexists; split; [right; left; reflexivity|cbn [fst snd]; split; [apply pair3|]; lia]
            |eexists; split; [right; right; left; reflexivity|cbn [fst snd]; split; [apply pair3|]; lia]]
    |intros (w & [<-|[<-|[<-|[]]]] & K & K4); cbn [fst snd] in K, K4; inversion K;
      first [left; apply pair3; lia | right; left; apply pair3; lia | right; right; left; apply pair3; lia]]).
Qed.
Lemma image_id e : image_of (fun b => b) e e.
Proof.
  intros v. split; [intros H; exists v; auto|]. intros (w & Hw & E & E3). replace v with w; auto.
  destruct v as [[a b] c], w as [[a' b'] c']. unfold bary, ix, iy, iz in *. cbn [fst snd] in *. inversion E. subst c. apply pair3; lia.
Qed.
Lemma image_comp g g' e t u : (forall b, ix (g b) + iy (g b) + iz (g b) = ix b + iy b + iz b) ->
  image_of g e t -> image_of g' t u -> image_of (fun b => g' (g b)) e u.
Proof.
  intros HS H1 H2 v. rewrite (H2 v). split.
  - intros (w & Hw & E & E3). apply H1 in Hw. destruct Hw as (w' & Hw & F & F3). exists w'. rewrite E, F. repeat split; auto. congruence.
  - intros (w & Hw & E & E3). set (b := g (bary w)). exists (ROOT_LEN false - ix b, iz b, iz w).
    assert (EB : bary (ROOT_LEN false - ix b, iz b, iz w) = b).
    { specialize (HS (bary w)). fold b in HS. unfold bary at 1 2 3 in HS. unfold bary. unfold ix, iy, iz in *. cbn [fst snd] in *.
      destruct b as [[b0 b1] b2]. cbn [fst snd] in *. apply pair3; lia. }
    split; [|split; [now rewrite EB|exact E3]]. apply H1. exists w. repeat split; auto.
Qed.

Lemma sum_swap b : ix (swap12 b) + iy (swap12 b) + iz (swap12 b) = ix b + iy b + iz b.
Proof. unfold swap12, ix, iy, iz. cbn [fst snd]. lia. Qed.
Lemma sum_rot b : ix (rot b) + iy (rot b) + iz (rot b) = ix b + iy b + iz b.
Proof. unfold rot, ix, iy, iz. cbn [fst snd]. lia. Qed.

Lemma ty_tswap e : ty (tswap e) = ty e. Proof. reflexivity. Qed.
Lemma ty_trot e : ty (trot e) = ty e. Proof. reflexivity. Qed.

Lemma face_symmetry_sum o sign b : ix (face_symmetry o sign b) + iy (face_symmetry o sign b) + iz (face_symmetry o sign b) = ix b + iy b + iz b.
Proof.
  unfold face_symmetry. destruct sign; destruct (o =? 0); [|destruct (o =? 1)| |destruct (o =? 1)]; rewrite ?sum_rot, ?sum_swap; reflexivity.
Qed.
Lemma face_symmetry_inj o sign b b' : face_symmetry o sign b = face_symmetry o sign b' -> b = b'.
Proof.
  destruct b as [[b0 b1] b2], b' as [[c0 c1] c2]. unfold face_symmetry, swap12, rot, ix, iy, iz.
  destruct sign; destruct (o =? 0); [|destruct (o =? 1)| |destruct (o =? 1)]; cbn [fst snd]; congruence.
Qed.

Lemma image_forward e o sign : 0 <= ty e < 2 -> 0 <= o < 3 -> image_of (face_symmetry o sign) e (transform_face e o sign true).
Proof.
  intros Ht Ho. rewrite transform_face_split by auto. cbn [negb andb]. cbn zeta. unfold face_symmetry. destruct sign.
  - assert (S1 := image_swap Ht). assert (T1 : 0 <= ty (tswap e) < 2) by exact Ht. split_range Ho; cbn [Z.eqb Pos.eqb].
    + exact S1.
    + exact (image_comp sum_swap S1 (image_rot T1)).
    + apply (@image_comp (fun b => rot (swap12 b)) rot e (trot (tswap e))).
      * intros b. now rewrite sum_rot, sum_swap.
      * exact (image_comp sum_swap S1 (image_rot T1)).
      * apply image_rot. exact Ht.
  - split_range Ho; cbn [Z.eqb Pos.eqb].
    + apply image_id.
    + exact (image_rot Ht).
    + apply (@image_comp rot rot e (trot e)); [apply sum_rot|now apply image_rot|now apply image_rot].
Qed.

Lemma tswap_ok e : aligned false e -> is_inside_root false e = true -> aligned false (tswap e) /\ is_inside_root false (tswap e) = true.
Proof.
  intros A HI. assert (HL := ag_lv A). assert (Ht := ag_ty A). assert (AX := ag_ax A). assert (AY := ag_ay A). assert (Z0 := ag_z0 A eq_refl).
  apply (inside_iff_coords A) in HI. destruct e as [l t x y z]. unfold tswap. cbn [lv ty sx sy sz] in *. subst z.
  change (MAXLEVEL false) with 29 in *. change (NUM_TYPES false) with 2 in *.
  assert (P := @pow2_pos (29 - l) ltac:(lia)). assert (E : LEN false l = 2 ^ (29 - l)) by (apply LEN_pow; cbn [MAXLEVEL]; lia).
  assert (AH : al (29 - l) (LEN false l)) by (rewrite E; apply BitLemmas.al_pow).
  assert (RY : y < x -> y + LEN false l <= x) by (intros; rewrite E; apply al_gap; auto; lia).
  assert (A' : aligned false (Simp l t x (if t =? 0 then x - y else x - y - LEN false l) 0)).
  { constructor; cbn [lv ty sx sy sz NUM_TYPES MAXLEVEL]; try lia; auto; [|apply al_0]. destruct (t =? 0); repeat apply al_sub; auto. }
  split; auto. apply (inside_iff_coords A'). cbn [lv ty sx sy sz]. destruct (Z.eqb_spec t 0); lia.
Qed.
Lemma trot_ok e : aligned false e -> is_inside_root false e = true -> aligned false (trot e) /\ is_inside_root false (trot e) = true.
Proof.
  intros A HI. assert (HL := ag_lv A). assert (Ht := ag_ty A). assert (AX := ag_ax A). assert (AY := ag_ay A). assert (Z0 := ag_z0 A eq_refl).
  apply (inside_iff_coords A) in HI. destruct e as [l t x y z]. unfold trot. cbn [lv ty sx sy sz] in *. subst z.
  change (MAXLEVEL false) with 29 in *. change (NUM_TYPES false) with 2 in *.
  assert (P := @pow2_pos (29 - l) ltac:(lia)). assert (E : LEN false l = 2 ^ (29 - l)) by (apply LEN_pow; cbn [MAXLEVEL]; lia).
  assert (AH : al (29 - l) (LEN false l)) by (rewrite E; apply BitLemmas.al_pow).
  assert (AR : al (29 - l) (ROOT_LEN false)) by (rewrite ROOT_pow; apply SimplexFaceProofs.al_pow; cbn [MAXLEVEL]; lia).
  assert (RY : y < x -> y + LEN false l <= x) by (intros; rewrite E; apply al_gap; auto; lia).
  assert (RX : x + LEN false l <= ROOT_LEN false) by (rewrite E; apply al_gap; auto; lia).
  assert (A' : aligned false (Simp l t (ROOT_LEN false - LEN false l - y) (if t =? 0 then x - y else x - y - LEN false l) 0)).
  { constructor; cbn [lv ty sx sy sz NUM_TYPES MAXLEVEL]; try lia; auto; [| |apply al_0].
    - repeat apply al_sub; auto.
    - destruct (t =? 0); repeat apply al_sub; auto. }
  split; auto. apply (inside_iff_coords A'). cbn [lv ty sx sy sz]. destruct (Z.eqb_spec t 0); lia.
Qed.

Lemma transform_face_ok e o sign sm : aligned false e -> is_inside_root false e = true -> 0 <= o < 3 ->
  let t := transform_face e o sign sm in
  aligned false t /\ is_inside_root false t = true /\ lv t = lv e /\ ty t = ty e.
Proof.
  intros A HI Ho. cbn zeta. rewrite transform_face_split by (auto; apply A). cbn zeta.
  set (o' := if negb sm && negb (o =? 0) && negb sign then 3 - o else o). clearbody o'.
  assert (G : aligned false (if sign then tswap e else e) /\ is_inside_root false (if sign then tswap e else e) = true).
  { destruct sign; [now apply tswap_ok|auto]. }
  destruct G as [G1 G2]. assert (G3 : lv (if sign then tswap e else e) = lv e) by (destruct sign; reflexivity).
  assert (G4 : ty (if sign then tswap e else e) = ty e) by (destruct sign; reflexivity).
  set (e1 := if sign then tswap e else e) in *. destruct (trot_ok G1 G2) as [R1 R2]. destruct (trot_ok R1 R2) as [R3 R4].
  destruct (o' =? 0); [auto|]. destruct (o' =? 1); (split; [assumption|split; [assumption|split; assumption]]).
Qed.

Lemma transform_face_image e o sign sm : 0 <= ty e < 2 -> 0 <= o < 3 ->
  forall v, In v (vertices false (transform_face e o sign sm)) <->
     exists w, In w (vertices false e) /\ iz v = iz w /\
       if sm then bary v = face_symmetry o sign (bary w) else face_symmetry o sign (bary v) = bary w.
Proof.
  intros Ht Ho v. destruct sm.
  - rewrite (@image_forward e o sign Ht Ho v). split; intros (w & H1 & H2 & H3); exists w; auto.
  - set (t := transform_face e o sign false).
    assert (TT : 0 <= ty t < 2). { unfold t. rewrite transform_face_split by auto. cbn zeta. destruct sign; repeat match goal with |- context [if ?c then _ else _] => destruct c end; exact Ht. }
    assert (I := @image_forward t o sign TT Ho). assert (E : transform_face t o sign true = e) by exact (@transform_face_inv e o sign false Ht Ho).
    rewrite E in I. split.
    + intros Hv. set (b := face_symmetry o sign (bary v)). exists (ROOT_LEN false - ix b, iz b, iz v).
      assert (EB : bary (ROOT_LEN false - ix b, iz b, iz v) = b).
      { assert (HS := face_symmetry_sum o sign (bary v)). fold b in HS. unfold bary at 1 2 3 in HS. unfold bary. unfold ix, iy, iz in *. cbn [fst snd] in *.
        destruct b as [[b0 b1] b2]. cbn [fst snd] in *. apply pair3; lia. }
      repeat split; auto. apply I. exists v. auto.
    + intros (w & Hw & E3 & EE). apply I in Hw. destruct Hw as (v0 & Hv0 & F & F3). rewrite F in EE. apply face_symmetry_inj in EE.
      replace v with v0; auto. destruct v as [[a1 b1] c1], v0 as [[a2 b2] c2]. unfold bary, ix, iy, iz in *. cbn [fst snd] in *. inversion EE. apply pair3; lia.
Qed.

Lemma tri_child_explicit e i : 0 <= ty e < 2 -> lv e < MAXLEVEL false -> 0 <= i < 4 ->
  let h := LEN false (lv e + 1) in
  child false e i = if ty e =? 0 then
      (if i =? 0 then Simp (lv e + 1) 0 (sx e) (sy e) (sz e) else if i =? 1 then Simp (lv e + 1) 0 (sx e + h) (sy e) (sz e)
       else if i =? 2 then Simp (lv e + 1) 1 (sx e + h) (sy e) (sz e) else Simp (lv e + 1) 0 (sx e + h) (sy e + h) (sz e))
    else
      (if i =? 0 then Simp (lv e + 1) 1 (sx e) (sy e) (sz e) else if i =? 1 then Simp (lv e + 1) 0 (sx e) (sy e + h) (sz e)
       else if i =? 2 then Simp (lv e + 1) 1 (sx e) (sy e + h) (sz e) else Simp (lv e + 1) 1 (sx e + h) (sy e + h) (sz e)).
Proof.
  intros Ht Hl Hi. cbn zeta. rewrite child_step by auto. unfold step. rewrite LEN_pow by lia.
  replace (MAXLEVEL false - (lv e + 1)) with (MAXLEVEL false - lv e - 1) by lia. set (h := 2 ^ _). clearbody h. destruct e as [l t x y z]. cbn [lv ty sx sy sz] in *.
  split_range Ht; split_range Hi; cbn [Z.eqb Pos.eqb];
  repeat match goal with |- context [Tt false ?a ?b] => let v := eval vm_compute in (Tt false a b) in change (Tt false a b) with v end;
  repeat match goal with |- context [Tc false ?a ?b] => let v := eval vm_compute in (Tc false a b) in change (Tc false a b) with v end;
  repeat match goal with |- context [Z.b2z ?a] => let v := eval vm_compute in (Z.b2z a) in change (Z.b2z a) with v end; f_equal; lia.
Qed.
Lemma LEN_half tet l : l < MAXLEVEL tet -> LEN tet l = 2 * LEN tet (l + 1).
Proof. intros H. rewrite !LEN_pow by lia. rewrite <- pow2_S by lia. f_equal. lia. Qed.

Lemma tswap_child e i : 0 <= ty e < 2 -> lv e < MAXLEVEL false -> 0 <= i < 4 -> exists j, 0 <= j < 4 /\ tswap (child false e i) = child false (tswap e) j.
Proof.
  intros Ht Hl Hi. assert (HH := LEN_half Hl). rewrite tri_child_explicit by auto. cbn zeta.
  enough (exists j, 0 <= j < 4 /\ forall c, child false (tswap e) j = c -> tswap (if ty e =? 0 then
      (if i =? 0 then Simp (lv e + 1) 0 (sx e) (sy e) (sz e) else if i =? 1 then Simp (lv e + 1) 0 (sx e + LEN false (lv e + 1)) (sy e) (sz e)
       else if i =? 2 then Simp (lv e + 1) 1 (sx e + LEN false (lv e + 1)) (sy e) (sz e) else Simp (lv e + 1) 0 (sx e + LEN false (lv e + 1)) (sy e + LEN false (lv e + 1)) (sz e))
    else
      (if i =? 0 then Simp (lv e + 1) 1 (sx e) (sy e) (sz e) else if i =? 1 then Simp (lv e + 1) 0 (sx e) (sy e + LEN false (lv e + 1)) (sz e)
       else if i =? 2 then Simp (lv e + 1) 1 (sx e) (sy e + LEN false (lv e + 1)) (sz e) else Simp (lv e + 1) 1 (sx e + LEN false (lv e + 1)) (sy e + LEN false (lv e + 1)) (sz e))) = c) as (j & Hj & H).
  { exists j. split; auto. }
  exists (if ty e =? 0 then (if i =? 1 then 3 else if i =? 3 then 1 else i) else (if i =? 0 then 2 else if i =? 2 then 0 else i)).
  split; [destruct (ty e =? 0), (i =? 1), (i =? 3), (i =? 0), (i =? 2); lia|]. intros c <-.
  rewrite tri_child_explicit by (auto; destruct (ty e =? 0); repeat (match goal with |- context [if ?c then _ else _] => destruct c end); lia).
  cbn zeta. destruct e as [l t x y z]. unfold tswap. cbn [lv ty sx sy sz] in *. rewrite HH. set (h := LEN false (l + 1)) in *.
  split_range Ht; split_range Hi; cbn [Z.eqb Pos.eqb lv ty sx sy sz]; fold h; f_equal; lia.
Qed.
Lemma trot_child e i : 0 <= ty e < 2 -> lv e < MAXLEVEL false -> 0 <= i < 4 -> exists j, 0 <= j < 4 /\ trot (child false e i) = child false (trot e) j.
Proof.
  intros Ht Hl Hi. assert (HH := LEN_half Hl). rewrite tri_child_explicit by auto. cbn zeta.
  set (j := if ty e =? 0 then (if i =? 0 then 1 else if i =? 1 then 3 else if i =? 2 then 2 else 0) else (if i =? 0 then 3 else if i =? 1 then 1 else if i =? 2 then 0 else 2)).
  exists j. assert (Hj : 0 <= j < 4) by (unfold j; destruct (ty e =? 0), (i =? 1), (i =? 0), (i =? 2); lia). split; auto.
  rewrite tri_child_explicit by auto. cbn zeta. unfold j. destruct e as [l t x y z]. unfold trot. cbn [lv ty sx sy sz] in *. rewrite HH. set (h := LEN false (l + 1)) in *.
  split_range Ht; split_range Hi; cbn [Z.eqb Pos.eqb lv ty sx sy sz]; fold h; f_equal; lia.
Qed.
Lemma transform_face_child e o sign sm i : 0 <= ty e < 2 -> 0 <= o < 3 -> lv e < MAXLEVEL false -> 0 <= i < 4 ->
  exists j, 0 <= j < 4 /\ transform_face (child false e i) o sign sm = child false (transform_face e o sign sm) j.
Proof.
  intros Ht Ho Hl Hi. rewrite (@transform_face_split e) by auto. cbn zeta.
  assert (Tc : 0 <= ty (child false e i) < 2).
  { rewrite tri_child_explicit by auto. cbn zeta. repeat match goal with |- context [if ?c then _ else _] => destruct c end; cbn [ty]; lia. }
  rewrite (@transform_face_split (child false e i)) by auto. cbn zeta.
  set (o' := if negb sm && negb (o =? 0) && negb sign then 3 - o else o). clearbody o'.
  assert (exists j, 0 <= j < 4 /\ (if sign then tswap (child false e i) else child false e i) = child false (if sign then tswap e else e) j) as (j & Hj & ->).
  { destruct sign; [now apply tswap_child|now exists i]. }
  set (e1 := if sign then tswap e else e). assert (T1 : 0 <= ty e1 < 2) by (unfold e1; destruct sign; exact Ht).
  assert (L1 : lv e1 < MAXLEVEL false) by (unfold e1; destruct sign; exact Hl).
  destruct (o' =? 0); [now exists j|]. destruct (trot_child T1 L1 Hj) as (k & Hk & Ek). rewrite Ek. destruct (o' =? 1); [now exists k|].
  apply (@trot_child (trot e1) k); auto.
Qed.

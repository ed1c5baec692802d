From Verif Require Import Prelude PathSpec GeoSpec SimplexModel SimplexSpec BitLemmas SimplexProofs SimplexPathProofs SimplexOrderProofs
  SimplexGeoProofs SimplexAncProofs SimplexTileProofs SimplexFaceProofs SimplexFaceChildProofs LineModel LineSpec LineProofs BoundarySpec.

Lemma inside_iff_coords tet e : aligned tet e -> is_inside_root tet e = true <->
  (0 <= sx e < ROOT_LEN tet /\ 0 <= sy e /\
   if tet then sy e <= sz e <= sx e /\ (sz e = sx e -> ty e < 3) /\ (sy e = sz e -> ty e = 0 \/ 4 <= ty e) /\ (sx e = sy e -> ty e = 0)
   else sy e <= sx e /\ (sy e = sx e -> ty e = 0)).
Proof.
  intros A. assert (HL := ag_lv A). assert (Ht := ag_ty A). assert (Z0 := ag_z0 A). assert (HR := ROOT_pow tet).
  unfold is_inside_root. destruct (Z.eqb_spec (lv e) 0) as [L0|L0].
  - assert (AX := ag_ax A). rewrite L0, Z.sub_0_r in AX. assert (PP := @pow2_pos (MAXLEVEL tet) ltac:(destruct tet; cbn [MAXLEVEL]; lia)).
    assert (XX : 0 <= sx e < ROOT_LEN tet -> sx e = 0) by (intros; apply (al_top (tet:=tet)); auto; lia).
    destruct tet; cbn [NUM_TYPES] in *; lia.
  - destruct tet; cbn [NUM_TYPES] in *.
    + rewrite ?if_true. lia.
    + rewrite ?if_true. lia.
Qed.

Lemma al_scale k j v : 0 <= k -> 0 <= j -> al k v -> al (k + j) (v * 2 ^ j).
Proof. intros H1 H2 (q & ->). exists q. rewrite Z.pow_add_r by lia. ring. Qed.
Lemma al_unscale k j v : 0 <= k -> 0 <= j -> al (k + j) v -> exists w, al k w /\ v = w * 2 ^ j.
Proof. intros H1 H2 (q & ->). exists (q * 2 ^ k). split; [now exists q|]. rewrite Z.pow_add_r by lia. ring. Qed.

Ltac dtup H := repeat match type of H with _ /\ _ => let H' := fresh "I" in destruct H as [H' H] end.

(** ** lines as faces of triangles *)
Lemma tri_extrude_ok l rf : lwf l -> ll l <= MAXLEVEL false -> 0 <= rf < 3 ->
  let (t, f) := tri_extrude_face l rf in
  aligned false t /\ is_inside_root false t = true /\ lv t = ll l /\ 0 <= f < 3 /\ is_root_boundary false t f = true /\
  tree_face false t f = rf /\ tri_boundary_face t f = l.
Proof.
  intros W HL Hr. destruct l as [l x]. cbn [ll lx] in *. assert (R := al_range_room). specialize (R (LMAX - l) LMAX x).
  destruct W as [W1 W2 W3]. cbn [ll lx] in *. specialize (R ltac:(lia) W2 ltac:(lia)).
  change (MAXLEVEL false) with 29 in *. destruct (@al_unscale (29 - l) 1 x) as (w & Aw & ->); [lia|lia| |].
  { replace (29 - l + 1) with (LMAX - l) by (unfold LMAX; lia). exact W2. }
  change (2 ^ 1) with 2 in *. unfold tri_extrude_face. cbn [ll lx].
  replace (w * 2 * ROOT_LEN false / LROOT) with w.
  2: { change LROOT with (2 * ROOT_LEN false). rewrite <- Z.mul_assoc. symmetry. apply Z.div_mul. discriminate. }
  assert (P := @pow2_pos (29 - l) ltac:(lia)). replace (2 ^ (LMAX - l)) with (2 * 2 ^ (29 - l)) in R by (rewrite <- pow2_S by lia; f_equal; unfold LMAX; lia).
  change (2 ^ LMAX) with (2 * ROOT_LEN false) in *.
  assert (E : LEN false l = 2 ^ (29 - l)) by (apply LEN_pow; cbn [MAXLEVEL]; lia).
  assert (AR : al (29 - l) (ROOT_LEN false)) by (rewrite ROOT_pow; apply SimplexFaceProofs.al_pow; cbn [MAXLEVEL]; lia).
  assert (Hf : root_face_to_face false (Simp l 0 0 0 0) rf = rf) by reflexivity.
  assert (AG : forall a b, al (29 - l) a -> al (29 - l) b -> aligned false (Simp l 0 a b 0)).
  { intros a b Ha Hb. constructor; cbn [lv ty sx sy sz NUM_TYPES MAXLEVEL]; try lia; auto. apply al_0. }
  assert (rf = 0 \/ rf = 1 \/ rf = 2) as [-> | [-> | ->]] by lia; cbn [Z.eqb root_face_to_face Pos.eqb].
  1: assert (A : aligned false (Simp l 0 (ROOT_LEN false - LEN false l) w 0)) by (apply AG; auto; rewrite E; apply al_sub; auto; apply BitLemmas.al_pow).
  2: assert (A : aligned false (Simp l 0 w w 0)) by (apply AG; auto).
  3: assert (A : aligned false (Simp l 0 w 0 0)) by (apply AG; auto; apply al_0).
  all: split; [exact A|]; split; [apply (inside_iff_coords A); cbn [lv ty sx sy sz]; lia|];
    unfold is_root_boundary, tree_face, tri_boundary_face; cbn [lv ty sx sy sz Z.eqb Pos.eqb andb orb];
    change DLINE_ROOT_BY_DTRI_ROOT with 2; repeat split; try lia.
Qed.

Lemma tri_boundary_ok t f : aligned false t -> is_inside_root false t = true -> 0 <= f < 3 -> is_root_boundary false t f = true ->
  let l := tri_boundary_face t f in
  lwf l /\ ll l = lv t /\ tri_extrude_face l (tree_face false t f) = (t, f) /\
  (forall v, In v (face_vertices false t f) <-> exists c, 0 <= c < 2 /\ mul3 2 v = emb_tri (tree_face false t f) (l_coords l c)).
Proof.
  intros A HI Hf HB. assert (HL := ag_lv A). assert (Ht := ag_ty A). assert (Z0 := ag_z0 A eq_refl). assert (AX := ag_ax A). assert (AY := ag_ay A).
  apply (inside_iff_coords A) in HI. rewrite (@face_vertices_unit false t f Ht). destruct t as [l t x y z]. cbn [lv ty sx sy sz] in *. subst z.
  change (MAXLEVEL false) with 29 in *. unfold is_root_boundary in HB. cbn [lv ty sx sy sz] in HB.
  destruct (Z.eqb_spec t 0) as [-> | ]; [|discriminate]. unfold tri_boundary_face. cbn [lv ty sx sy sz]. change DLINE_ROOT_BY_DTRI_ROOT with 2.
  assert (P := @pow2_pos (29 - l) ltac:(lia)). assert (E : LEN false l = 2 ^ (29 - l)) by (apply LEN_pow; cbn [MAXLEVEL]; lia).
  assert (EL : LLEN l = 2 * LEN false l). { rewrite E, LLEN_pow by (unfold LMAX; lia). rewrite <- pow2_S by lia. f_equal. unfold LMAX. lia. }
  assert (AS : forall v, al (29 - l) v -> al (LMAX - l) (v * 2)).
  { intros v Hv. replace (LMAX - l) with (29 - l + 1) by (unfold LMAX; lia). apply (@al_scale (29 - l) 1 v); auto; lia. }
  assert (DV : forall v, v * 2 * ROOT_LEN false / LROOT = v).
  { intros v. change LROOT with (2 * ROOT_LEN false). rewrite <- Z.mul_assoc. apply Z.div_mul. discriminate. }
  assert (HR : 2 ^ LMAX = 2 * ROOT_LEN false) by reflexivity.
  assert (RY : f = 0 -> y < ROOT_LEN false) by lia.
  unfold tree_face, tri_extrude_face, l_coords. cbn [ll lx]. rewrite EL.
  assert (f = 0 \/ f = 1 \/ f = 2) as [-> | [-> | ->]] by lia; cbn [Z.eqb Pos.eqb andb orb root_face_to_face] in *; rewrite DV;
    (split; [constructor; cbn [ll lx]; auto; rewrite ?HR; unfold LMAX; lia|]); (split; [reflexivity|]);
    (split; [f_equal; f_equal; lia|]);
    (match goal with |- context [map _ (face_corner_numbers ?b ?g)] => let v := eval vm_compute in (face_corner_numbers b g) in change (face_corner_numbers b g) with v end);
    intros v; cbn [map In]; unfold scale, ucoord, ucoord2, mul3, emb_tri; cbn [Z.eqb Pos.eqb ix iy iz fst snd];
    change LROOT with (2 * ROOT_LEN false); destruct v as [[v1 v2] v3]; unfold ix, iy, iz; cbn [fst snd];
    (split; [intros [K|[K|[]]]; inversion K; subst; [exists 0|exists 1]; cbn [Z.eqb]; (split; [lia|]); (f_equal; [f_equal|]; lia)
            |intros (c & Hc & K); assert (c = 0 \/ c = 1) as [-> | ->] by lia; cbn [Z.eqb] in K;
             assert (K1 := f_equal (fun u => fst (fst u)) K); assert (K2 := f_equal (fun u => snd (fst u)) K); assert (K3 := f_equal snd K); cbn [fst snd] in K1, K2, K3;
             [left|right; left]; (f_equal; [f_equal|]; lia)]).
Qed.

(** ** triangles as faces of tetrahedra *)
Lemma tri_up_room k b : 0 <= k -> al k (sx b) -> al k (sy b) -> sy b < sx b -> sy b + 2 ^ k <= sx b.
Proof. intros. now apply al_gap. Qed.

Lemma tet_extrude_ok b rf : aligned false b -> is_inside_root false b = true -> lv b <= MAXLEVEL true -> 0 <= rf < 4 ->
  let (t, f) := tet_extrude_face b rf in
  aligned true t /\ is_inside_root true t = true /\ lv t = lv b /\ 0 <= f < 4 /\ is_root_boundary true t f = true /\
  tree_face true t f = rf /\ tet_boundary_face t f = Ok b.
Proof.
  intros A HI HL Hr. assert (H0 := ag_lv A). assert (Ht := ag_ty A). assert (Z0 := ag_z0 A eq_refl). assert (AX := ag_ax A). assert (AY := ag_ay A).
  apply (inside_iff_coords A) in HI. clear A. destruct b as [l t x y z]. cbn [lv ty sx sy sz] in *. subst z.
  change (MAXLEVEL false) with 29 in *. change (MAXLEVEL true) with 21 in *. change (NUM_TYPES false) with 2 in *.
  destruct (@al_unscale (21 - l) 8 x) as (u & Au & ->); [lia|lia|replace (21 - l + 8) with (29 - l) by lia; exact AX|].
  destruct (@al_unscale (21 - l) 8 y) as (w & Aw & ->); [lia|lia|replace (21 - l + 8) with (29 - l) by lia; exact AY|].
  change (2 ^ 8) with 256 in *. unfold tet_extrude_face. cbn [lv ty sx sy sz].
  assert (DV : forall v, v * 256 * ROOT_LEN true / ROOT_LEN false = v).
  { intros v. change (ROOT_LEN false) with (256 * ROOT_LEN true). rewrite <- Z.mul_assoc. apply Z.div_mul. discriminate. }
  rewrite !DV. assert (E : LEN true l = 2 ^ (21 - l)) by (apply LEN_pow; cbn [MAXLEVEL]; lia). assert (P := @pow2_pos (21 - l) ltac:(lia)).
  change (ROOT_LEN false) with (256 * ROOT_LEN true) in *.
  assert (AR : al (21 - l) (ROOT_LEN true)) by (rewrite ROOT_pow; apply SimplexFaceProofs.al_pow; cbn [MAXLEVEL]; lia).
  assert (RU : u + LEN true l <= ROOT_LEN true) by (rewrite E; apply al_gap; auto; lia).
  assert (RW : w < u -> w + LEN true l <= u) by (intros; rewrite E; apply al_gap; auto; lia).
  assert (AG : forall ty a b c, 0 <= ty < 6 -> al (21 - l) a -> al (21 - l) b -> al (21 - l) c -> aligned true (Simp l ty a b c)).
  { intros ty' a b c Hty Ha Hb Hc. constructor; cbn [lv ty sx sy sz NUM_TYPES MAXLEVEL]; try lia; auto. }
  assert (AL : al (21 - l) (ROOT_LEN true - LEN true l)) by (rewrite E; apply al_sub; auto; apply BitLemmas.al_pow).
  assert (A0 := al_0 (21 - l)).
  assert (t = 0 \/ t = 1) as [-> | ->] by lia; cbn [Z.eqb];
  assert (rf = 0 \/ rf = 1 \/ rf = 2 \/ rf = 3) as [-> | [-> | [-> | ->]]] by lia; cbn [Z.eqb Pos.eqb];
  (match goal with |- aligned true ?t /\ _ => assert (A : aligned true t) by (apply AG; auto; lia); split; [exact A|];
     split; [apply (inside_iff_coords A); cbn [lv ty sx sy sz]; lia|] end);
  cbn [lv]; (split; [reflexivity|]);
  (match goal with |- context [root_face_to_face true ?s ?r] => let v := eval vm_compute in (root_face_to_face true (Simp 0 (ty s) 0 0 0) r) in change (root_face_to_face true s r) with v end);
  (split; [lia|]); unfold is_root_boundary, tree_face; cbn [lv ty sx sy sz Z.eqb Pos.eqb andb orb]; (split; [lia|]); (split; [reflexivity|]);
  unfold tet_boundary_face; cbn [lv ty sx sy sz]; change DTRI_ROOT_BY_DTET_ROOT with 256;
  repeat (match goal with |- context [type_face_to_boundary ?a ?b ?c] => let v := eval vm_compute in (type_face_to_boundary a b c) in change (type_face_to_boundary a b c) with v end);
  cbn [Z.eqb Pos.eqb]; reflexivity.
Qed.

Lemma tet_boundary_ok t f : aligned true t -> is_inside_root true t = true -> 0 <= f < 4 -> is_root_boundary true t f = true ->
  exists b, tet_boundary_face t f = Ok b /\ aligned false b /\ is_inside_root false b = true /\ lv b = lv t /\
  tet_extrude_face b (tree_face true t f) = (t, f) /\
  (forall v, In v (face_vertices true t f) <-> exists w, In w (vertices false b) /\ mul3 256 v = emb_tet (tree_face true t f) w).
Proof.
  intros A HI Hf HB. assert (HL := ag_lv A). assert (Ht := ag_ty A). assert (AX := ag_ax A). assert (AY := ag_ay A). assert (AZ := ag_az A).
  apply (inside_iff_coords A) in HI. rewrite (@face_vertices_unit true t f Ht). destruct t as [l t x y z]. cbn [lv ty sx sy sz] in *.
  change (MAXLEVEL true) with 21 in *. change (NUM_TYPES true) with 6 in *. unfold is_root_boundary in HB. cbn [lv ty sx sy sz] in HB.
  assert (P := @pow2_pos (21 - l) ltac:(lia)). assert (E : LEN true l = 2 ^ (21 - l)) by (apply LEN_pow; cbn [MAXLEVEL]; lia).
  assert (EL : LEN false l = 256 * LEN true l).
  { rewrite E, LEN_pow by (cbn [MAXLEVEL]; lia). change 256 with (2 ^ 8). rewrite <- Z.pow_add_r by lia. f_equal. cbn [MAXLEVEL]. lia. }
  assert (AS : forall v, al (21 - l) v -> al (29 - l) (v * 256)).
  { intros v Hv. replace (29 - l) with (21 - l + 8) by lia. apply (@al_scale (21 - l) 8 v); auto; lia. }
  assert (DV : forall v, v * 256 * ROOT_LEN true / ROOT_LEN false = v).
  { intros v. change (ROOT_LEN false) with (256 * ROOT_LEN true). rewrite <- Z.mul_assoc. apply Z.div_mul. discriminate. }
  assert (HR : ROOT_LEN false = 256 * ROOT_LEN true) by reflexivity.
  assert (AG : forall ty a b, 0 <= ty < 2 -> al (21 - l) a -> al (21 - l) b -> aligned false (Simp l ty (a * 256) (b * 256) 0)).
  { intros ty' a b Hty Ha Hb. constructor; cbn [lv ty sx sy sz NUM_TYPES MAXLEVEL]; try lia; auto. apply al_0. }
  assert (RX : x + LEN true l <= ROOT_LEN true).
  { rewrite E. apply al_gap; auto; try lia. rewrite ROOT_pow; apply SimplexFaceProofs.al_pow; cbn [MAXLEVEL]; lia. }
  split_range Ht; split_range Hf; cbn [Z.eqb Pos.eqb andb] in HB; try discriminate HB; apply Z.eqb_eq in HB;
  unfold tet_boundary_face; cbn [lv ty sx sy sz]; change DTRI_ROOT_BY_DTET_ROOT with 256;
  (match goal with |- exists b, (if ?c =? 1 then _ else _) = _ /\ _ => let v := eval vm_compute in c in change c with v end); cbn [Z.eqb Pos.eqb];
  (match goal with |- context [type_face_to_boundary ?a ?b ?c] => let v := eval vm_compute in (type_face_to_boundary a b c) in change (type_face_to_boundary a b c) with v end);
  (match goal with |- exists b, Ok ?s = Ok b /\ _ => exists s; assert (AB : aligned false s) by (apply AG; auto; lia) end);
  (split; [reflexivity|]); (split; [exact AB|]); (split; [apply (inside_iff_coords AB); cbn [lv ty sx sy sz]; lia|]);
  cbn [lv]; (split; [reflexivity|]); unfold tree_face; cbn [ty];
  (match goal with |- context [tab1 ?a ?b] => let v := eval vm_compute in (tab1 a b) in change (tab1 a b) with v end);
  (split; [unfold tet_extrude_face; cbn [lv ty sx sy sz Z.eqb Pos.eqb]; rewrite ?DV; unfold root_face_to_face; cbn [ty];
     (match goal with |- context [tab1 ?a ?b] => let v := eval vm_compute in (tab1 a b) in change (tab1 a b) with v end); f_equal; f_equal; lia|]).
  all: unfold vertices, corner_numbers; cbn [map]; rewrite !(@coords_unit false) by (cbn [ty NUM_TYPES CORNERS]; lia);
    (match goal with |- context [map _ (face_corner_numbers ?b ?g)] => let v := eval vm_compute in (face_corner_numbers b g) in change (face_corner_numbers b g) with v end);
    cbn [map lv ty sx sy sz]; rewrite EL, ?HR.
  all: repeat match goal with |- context [ucoord ?b ?t ?v] => let w := eval vm_compute in (ucoord b t v) in change (ucoord b t v) with w end.
  all: intros v; unfold emb_tet, mul3, scale; cbn [Z.eqb Pos.eqb]; destruct v as [[v1 v2] v3]; unfold ix, iy, iz; cbn [fst snd In]; rewrite ?HR.
  all: split; [intros [K|[K|[K|[]]]]; inversion K; subst;
         first [eexists; split; [left; reflexivity|cbn [fst snd]; (f_equal; [f_equal|]; lia)]
               |eexists; split; [right; left; reflexivity|cbn [fst snd]; (f_equal; [f_equal|]; lia)]
               |eexists; split; [right; right; left; reflexivity|cbn [fst snd]; (f_equal; [f_equal|]; lia)]]|
       intros (w & Hw & K); destruct Hw as [<- | [<- | [<- | []]]]; cbn [fst snd] in K;
       assert (K1 := f_equal (fun u => fst (fst u)) K); assert (K2 := f_equal (fun u => snd (fst u)) K); assert (K3 := f_equal snd K); cbn [fst snd] in K1, K2, K3;
       first [left; (f_equal; [f_equal|]; lia) | right; left; (f_equal; [f_equal|]; lia) | right; right; left; (f_equal; [f_equal|]; lia)]].
Qed.

(** The neighbours at the faces of a mesh of trees of different classes. *)
From Verif Require Import Prelude PathSpec GeoSpec SchemeModel SchemeSpec FaceModel SchemeProofs SchemeOrderProofs SchemeInstances FaceSpec FaceProofs FaceInstances NeighborModel NeighborSpec NeighborProofs NeighborInstances EclassModel.
From Verif Require Import BitLemmas SimplexModel SimplexSpec SimplexProofs SimplexPathProofs SimplexGeoProofs SimplexAncProofs SimplexTileProofs SimplexFaceProofs SimplexFaceChildProofs LineModel LineSpec LineProofs BoundaryProofs TransformProofs.
From Verif Require Import HyperModel HyperSpec HyperProofs HyperScheme HyperFlaws HyperCrossProofs CubeModel TransferProofs CubeScheme BdyModel HybridModel HybridSpec.

(** ** the elements at the faces *)
Definition bvalid (c : Z) (b : bdy) (L : Z) : Prop :=
  match b with
  | BVertex l => c = 0 /\ l = L
  | BLine l => c = 1 /\ lwf l /\ ll l = L
  | BQuad q => c = 2 /\ hin PQuad q /\ hl q = L
  | BTri t => c = 3 /\ aligned false t /\ is_inside_root false t = true /\ lv t = L
  end.
Definition bchild (b : bdy) (j : Z) : bdy :=
  match b with BVertex l => BVertex (l + 1) | BLine l => BLine (l_child l j) | BQuad q => BQuad (c_child false q j) | BTri t => BTri (child false t j) end.
Definition bnc (c : Z) : Z := if c =? 0 then 1 else if c =? 1 then 2 else 4.
(** the levels up to which all of these can be refined *)
Definition BMAX (c : Z) : Z := if c =? 0 then 30 else if c =? 1 then 30 else 29.
Definition NOR (c : Z) : Z := eclass_num_vertices c.

Lemma lwf_hin b : lwf b <-> hin HLine (cv b).
Proof.
  destruct b as [l x]. unfold cv. cbn [ll lx]. rewrite hin_line. split.
  - intros [W1 W2 W3]. cbn [ll lx] in *. change LMAX with 30 in *. auto.
  - intros (H1 & H2 & H3). constructor; cbn [ll lx]; change LMAX with 30; auto.
Qed.
Lemma cv_inj a b : cv a = cv b -> a = b.
Proof. destruct a as [k x], b as [k' x']. unfold cv. cbn [ll lx]. intros H. injection H as -> ->. reflexivity. Qed.
Lemma transform_sign e o m m' : 0 <= ty e < 2 -> 0 <= o < 3 -> transform_face e o true m = transform_face e o true m'.
Proof. intros H Ho. rewrite !transform_face_split by auto. cbn zeta. rewrite !andb_false_r. reflexivity. Qed.
Lemma btransform c b L o s m : bvalid c b L -> 0 <= o < NOR c ->
  exists b', bdy_transform b o s m = Ok b' /\ bvalid c b' L /\ forall m', m' = negb m \/ s = true -> bdy_transform b' o s m' = Ok b.
Proof.
  intros V Ho. destruct b as [l|l|t|q]; cbn [bvalid bdy_transform] in *.
  - destruct V as [-> ->]. exists (BVertex L). cbn. auto.
  - destruct V as (-> & W & <-). change (0 <= o < 2) in Ho. exists (BLine (l_transform_face l o)). split; [reflexivity|].
    assert (T := @xo_tr _ _ _ _ _ _ _ _ _ tri_crossing_ok l (ll l) o 0 0 (conj W eq_refl) Ho ltac:(lia) ltac:(lia)). cbn in T. destruct T as [[T1 T2] T3].
    split; [split; [reflexivity|]; split; [exact T1|exact T2]|]. intros m' _. cbn [bdy_transform]. now rewrite T3.
  - destruct V as (-> & A & I & <-). change (0 <= o < 3) in Ho. exists (BTri (transform_face t o s m)). split; [reflexivity|].
    destruct (transform_face_ok s m A I Ho) as (T1 & T2 & T3 & _). split; [cbn [bvalid]; auto|]. intros m' [-> | ->]; cbn [bdy_transform].
    + now rewrite transform_face_inv by (auto; apply A).
    + rewrite (transform_sign m' (negb m)) by (auto; apply T1). now rewrite transform_face_inv by (auto; apply A).
  - destruct V as (-> & A & <-). change (0 <= o < 4) in Ho. assert (N1 : PQuad <> HHex) by discriminate. assert (N2 : PQuad <> PHex) by discriminate.
    destruct (@h_transform_in PQuad q o s m N1 N2 A Ho) as (q' & T1 & T2 & T3 & T4 & T5). rewrite q_transform_eq by apply A. rewrite T1. exists (BQuad q'). split; [reflexivity|]. split; [cbn [bvalid]; auto|].
    intros m' Hm. cbn [bdy_transform]. rewrite q_transform_eq by apply T2. assert (E : h_transform_face PQuad q' o s m' = Ok q). { destruct Hm as [-> | ->]; [exact T4|]. destruct m, m'; auto. }
    rewrite E. reflexivity.
Qed.
Lemma btransform_child c b L o s m b' j : bvalid c b L -> L < BMAX c -> 0 <= o < NOR c -> bdy_transform b o s m = Ok b' -> 0 <= j < bnc c ->
  exists j', 0 <= j' < bnc c /\ bdy_transform (bchild b j) o s m = Ok (bchild b' j').
Proof.
  intros V HL Ho E Hj. destruct b as [l|l|t|q]; cbn [bvalid bdy_transform bchild] in *.
  - destruct V as [-> ->]. injection E as <-. exists 0. cbn. split; [lia|reflexivity].
  - destruct V as (-> & W & <-). change (0 <= o < 2) in Ho. injection E as <-. change (0 <= j < 2) in Hj. change (ll l < 30) in HL.
    assert (A : 0 <= o < 2) by lia. assert (W' := proj1 (lwf_hin l) W). assert (N1 : HLine <> HHex) by discriminate. assert (N2 : HLine <> PHex) by discriminate.
    destruct (@h_transform_child HLine (cv l) o s m j N1 N2 W' HL Ho Hj) as (b2 & j' & J1 & J2 & J3). exists j'. split; [exact J1|]. cbn [bchild]. do 2 f_equal. apply cv_inj.
    rewrite (l_transform_cv _ s m) by exact Ho. rewrite !l_child_cv by assumption. rewrite (l_transform_cv _ s m) by exact Ho. unfold h_transform. rewrite J2, J3. reflexivity.
  - destruct V as (-> & A & I & <-). change (0 <= o < 3) in Ho. injection E as <-. change (0 <= j < 4) in Hj. change (lv t < 29) in HL.
    destruct (@transform_face_child t o s m j (ag_ty A) Ho HL Hj) as (j' & J1 & J2). exists j'. split; [exact J1|]. now rewrite J2.
  - destruct V as (-> & A & <-). change (0 <= o < 4) in Ho. change (0 <= j < 4) in Hj. change (hl q < 29) in HL. assert (N1 : PQuad <> HHex) by discriminate. assert (N2 : PQuad <> PHex) by discriminate.
    destruct (@h_transform_child PQuad q o s m j N1 N2 A HL Ho Hj) as (b2 & j' & J1 & J2 & J3). destruct (@h_transform_in PQuad q o s m N1 N2 A Ho) as (q' & T1 & T2 & T3 & _).
    rewrite J2 in T1. injection T1 as <-. rewrite q_transform_eq in E by apply A. rewrite J2 in E. injection E as <-. exists j'. split; [exact J1|].
    assert (E : forall r k, hin PQuad r -> hl r < 29 -> c_child false r k = h_child PQuad r k) by (intros r k R1 R2; exact (@c_child_eq false r k R1 R2)).
    rewrite (E q j A HL). cbn [bchild]. rewrite (E b2 j' T2) by lia. rewrite q_transform_eq by (apply (@h_child_hin PQuad q j A HL Hj)). rewrite J3. reflexivity.
Qed.
Lemma bchild_valid c b L j : bvalid c b L -> L < BMAX c -> 0 <= j < bnc c -> bvalid c (bchild b j) (L + 1).
Proof.
  intros V HL Hj. destruct b as [l|l|t|q]; cbn [bvalid bchild] in *.
  - destruct V as [-> ->]. auto.
  - destruct V as (-> & W & <-). change (0 <= j < 2) in Hj. change (ll l < 30) in HL. split; [reflexivity|]. split; [|reflexivity]. apply lwf_hin. rewrite l_child_cv by exact Hj. apply h_child_hin; [now apply lwf_hin|exact HL|exact Hj].
  - destruct V as (-> & A & I & <-). change (0 <= j < 4) in Hj. change (lv t < 29) in HL. split; [reflexivity|]. assert (W : wf false t) by (now apply (is_inside_root_iff A)).
    assert (V : valid (S := simplex_scheme false) t) by (apply simplex_valid; auto). destruct (valid_child (simplex_laws false) V (i := j)) as (V1 & V2 & _); [exact HL|exact Hj|]. apply simplex_valid in V1. destruct V1 as [V1 V3]. auto.
  - destruct V as (-> & A & <-). change (0 <= j < 4) in Hj. change (hl q < 29) in HL. split; [reflexivity|]. rewrite (@c_child_eq false q j A HL). split; [exact (@h_child_hin PQuad q j A HL Hj)|reflexivity].
Qed.

(** ** what a class has to satisfy *)
Record type_ok (T : tree_type) : Prop := {
  to_eclass : 1 <= tt_eclass T < 8;
  to_laws : laws (tt_scheme T);
  to_flaws : flaws (tt_faces T);
  to_max : forall r, 0 <= r < eclass_num_faces (tt_eclass T) -> s_maxlevel (tt_scheme T) <= BMAX (eclass_face_types (tt_eclass T) r);
  to_root : forall f, is_face (tt_faces T) (s_root (tt_scheme T)) f <-> 0 <= f < eclass_num_faces (tt_eclass T);
  to_root_rb : forall f, 0 <= f < eclass_num_faces (tt_eclass T) -> tt_root_boundary T (s_root (tt_scheme T)) f = true /\ tt_tree_face T (s_root (tt_scheme T)) f = f;
  to_outside : forall e f, valid e -> is_face (tt_faces T) e f -> (tt_root_boundary T e f = true <-> tt_inside T e f = None);
  to_inside : forall e f n g, valid e -> is_face (tt_faces T) e f -> tt_inside T e f = Some (n, g) ->
    valid n /\ s_level n = s_level e /\ is_face (tt_faces T) n g /\ tt_inside T n g = Some (e, f);
  to_refine : forall e f n h c g, valid e -> s_level e < s_maxlevel (tt_scheme T) -> is_face (tt_faces T) e f -> tt_inside T e f = Some (n, h) ->
    In (c, g) (face_children (tt_faces T) e f) -> exists c' g', tt_inside T c g = Some (c', g') /\ In (c', g') (face_children (tt_faces T) n h);
  to_rb_child : forall e f c g, valid e -> s_level e < s_maxlevel (tt_scheme T) -> is_face (tt_faces T) e f -> tt_root_boundary T e f = true ->
    In (c, g) (face_children (tt_faces T) e f) -> tt_root_boundary T c g = true /\ tt_tree_face T c g = tt_tree_face T e f;
  to_inner : forall e i g, valid e -> s_level e < s_maxlevel (tt_scheme T) -> 0 <= i < s_num_children e -> is_face (tt_faces T) (s_child e i) g ->
    f_parent_face (tt_faces T) (s_child e i) g = -1 -> exists j g', 0 <= j < s_num_children e /\ tt_inside T (s_child e i) g = Some (s_child e j, g');
  to_boundary : forall e f, valid e -> is_face (tt_faces T) e f -> tt_root_boundary T e f = true -> 0 <= tt_tree_face T e f < eclass_num_faces (tt_eclass T) /\
    exists b, tt_boundary T e f = Ok b /\ bvalid (eclass_face_types (tt_eclass T) (tt_tree_face T e f)) b (s_level e) /\ tt_extrude T b (tt_tree_face T e f) = Ok (e, f);
  to_extrude : forall b L rf, 0 <= rf < eclass_num_faces (tt_eclass T) -> bvalid (eclass_face_types (tt_eclass T) rf) b L -> 0 <= L <= s_maxlevel (tt_scheme T) ->
    exists e f, tt_extrude T b rf = Ok (e, f) /\ valid e /\ s_level e = L /\ is_face (tt_faces T) e f /\ tt_root_boundary T e f = true /\ tt_tree_face T e f = rf /\ tt_boundary T e f = Ok b;
  to_bchild : forall e f c g b, valid e -> s_level e < s_maxlevel (tt_scheme T) -> is_face (tt_faces T) e f -> tt_root_boundary T e f = true ->
    In (c, g) (face_children (tt_faces T) e f) -> tt_boundary T e f = Ok b ->
    exists j, 0 <= j < bnc (eclass_face_types (tt_eclass T) (tt_tree_face T e f)) /\ tt_boundary T c g = Ok (bchild b j);
  to_bchild_onto : forall e f b j, valid e -> s_level e < s_maxlevel (tt_scheme T) -> is_face (tt_faces T) e f -> tt_root_boundary T e f = true -> tt_boundary T e f = Ok b ->
    0 <= j < bnc (eclass_face_types (tt_eclass T) (tt_tree_face T e f)) -> exists c g, In (c, g) (face_children (tt_faces T) e f) /\ tt_boundary T c g = Ok (bchild b j)
}.

Lemma compare_facts c c' f f' : 1 <= c < 8 -> 1 <= c' < 8 -> 0 <= f < eclass_num_faces c -> 0 <= f' < eclass_num_faces c' -> eclass_face_types c f = eclass_face_types c' f' ->
  exists k, eclass_compare c c' = Ok k /\ eclass_compare c' c = Ok (- k) /\ (k = 0 /\ c = c' \/ k = 1 \/ k = -1).
Proof.
  intros Hc Hc' Hf Hf' E.
  set (chk := fun c c' => match eclass_compare c c', eclass_compare c' c with Ok k, Ok k' => (k' =? - k) && (((k =? 0) && (c =? c')) || (k =? 1) || (k =? -1)) | _, _ => false end).
  assert (A : forallb (fun c => forallb (fun c' => forallb (fun f => forallb (fun f' => negb (eclass_face_types c f =? eclass_face_types c' f') || chk c c') (zseq 0 (Z.to_nat (eclass_num_faces c')))) (zseq 0 (Z.to_nat (eclass_num_faces c)))) (zseq 1 7)) (zseq 1 7) = true) by (vm_compute; reflexivity).
  rewrite forallb_forall in A. specialize (A c ltac:(apply in_zseq; lia)). rewrite forallb_forall in A. specialize (A c' ltac:(apply in_zseq; lia)). rewrite forallb_forall in A. specialize (A f ltac:(apply in_zseq; lia)). rewrite forallb_forall in A. specialize (A f' ltac:(apply in_zseq; lia)).
  rewrite E, Z.eqb_refl in A. cbn [negb orb] in A. unfold chk in A. destruct (eclass_compare c c') as [k| | |]; try discriminate A. destruct (eclass_compare c' c) as [k'| | |]; try discriminate A.
  apply andb_prop in A. destruct A as [A B]. exists k. split; [reflexivity|]. split; [f_equal; lia|]. apply orb_prop in B. destruct B as [B|B]; [|right; right; lia]. apply orb_prop in B. destruct B as [B|B]; [left|right; left; lia]. apply andb_prop in B. lia.
Qed.
(** the orientations of the two sides of a connection *)
Definition smaller (c c' f f' : Z) : bool := match eclass_compare c c' with Ok k => if k =? -1 then true else if k =? 1 then false else f <=? f' | _ => false end.
Definition same_sign (c c' f f' : Z) : bool := eclass_face_orientation c f =? eclass_face_orientation c' f'.
Lemma smaller_inv c c' f f' : 1 <= c < 8 -> 1 <= c' < 8 -> 0 <= f < eclass_num_faces c -> 0 <= f' < eclass_num_faces c' -> eclass_face_types c f = eclass_face_types c' f' ->
  smaller c' c f' f = negb (smaller c c' f f') \/ same_sign c c' f f' = true.
Proof.
  intros Hc Hc' Hf Hf' E. destruct (compare_facts Hc Hc' Hf Hf' E) as (k & K1 & K2 & [(-> & <-)|[->| ->]]); unfold smaller, same_sign; [rewrite K1|rewrite K1, K2; left; reflexivity..].
  change (- 0) with 0. change (0 =? -1) with false. change (0 =? 1) with false. cbn iota. destruct (Z.lt_trichotomy f f') as [L|[<-|L]].
  - left. destruct (f' <=? f) eqn:A, (f <=? f') eqn:B; try reflexivity; lia.
  - right. apply Z.eqb_refl.
  - left. destruct (f' <=? f) eqn:A, (f <=? f') eqn:B; try reflexivity; lia.
Qed.
Lemma same_sign_sym c c' f f' : same_sign c' c f' f = same_sign c c' f f'.
Proof. unfold same_sign. apply Z.eqb_sym. Qed.

(** ** meshes *)
Section mesh.
Variable T : Z -> tree_type.
Variables (K ml : Z) (conn : connection).
Hypothesis TO : forall t, 0 <= t < K -> type_ok (T t).
Hypothesis HC : hybrid_connected T K conn.
Hypothesis Hml : forall t, 0 <= t < K -> 0 <= ml <= s_maxlevel (tt_scheme (T t)).
Notation cls := (fun t => tt_scheme (T t)).
Notation fc := (fun t => tt_faces (T t)).
Notation el t e := (existT (fun s => elt (cls s)) t e).
Notation nb := (hybrid_neighbor T conn).
Notation nba := (hybrid_neighbor_at T conn).

Lemma hnb_in t (e : elt (cls t)) f n g : tt_root_boundary (T t) e f = false -> tt_inside (T t) e f = Some (n, g) -> nba (el t e) f = Ok (Some (el t n, g)).
Proof. intros R E. unfold hybrid_neighbor_at, element_neighbor_eclass, hybrid_face_neighbor. rewrite R. cbn [negb]. rewrite Z.eqb_refl, E. reflexivity. Qed.
Lemma hnb_none t (e : elt (cls t)) f : tt_root_boundary (T t) e f = true -> tt_inside (T t) e f = None -> conn t (tt_tree_face (T t) e f) = None -> nba (el t e) f = Ok None.
Proof. intros R E C. unfold hybrid_neighbor_at, element_neighbor_eclass, hybrid_face_neighbor. rewrite R. cbn [negb]. rewrite C, E. now destruct (_ =? _). Qed.
Lemma hnb_out t (e : elt (cls t)) f t' f' o b : 0 <= t < K -> tt_root_boundary (T t) e f = true -> tt_inside (T t) e f = None -> 0 <= tt_tree_face (T t) e f < eclass_num_faces (tt_eclass (T t)) ->
  conn t (tt_tree_face (T t) e f) = Some (t', f', o) -> tt_boundary (T t) e f = Ok b ->
  nba (el t e) f = do b' <- bdy_transform b o (same_sign (tt_eclass (T t)) (tt_eclass (T t')) (tt_tree_face (T t) e f) f') (smaller (tt_eclass (T t)) (tt_eclass (T t')) (tt_tree_face (T t) e f) f');
    do r <- tt_extrude (T t') b' f'; let (n, g) := r in Ok (Some (el t' n, g)).
Proof.
  intros Ht R E RF C B. destruct (HC Ht RF C) as (Ht' & Hf' & HT & _). destruct (compare_facts (to_eclass (TO Ht)) (to_eclass (TO Ht')) RF Hf' HT) as (k & K1 & K2 & K3).
  unfold hybrid_neighbor_at, element_neighbor_eclass, hybrid_face_neighbor, smaller. rewrite R. cbn [negb]. rewrite C, B, E. destruct (_ =? _); cbn [obind]; rewrite K1; cbn [obind]; unfold same_sign; destruct (bdy_transform _ _ _ _); cbn [obind]; try reflexivity; rewrite Z.eqb_refl; reflexivity.
Qed.
(** the three cases *)
Lemma hybrid_cases t (e : elt (cls t)) f : 0 <= t < K -> valid e -> s_level e <= ml -> is_face (fc t) e f ->
  (tt_root_boundary (T t) e f = true /\ conn t (tt_tree_face (T t) e f) = None /\ nba (el t e) f = Ok None) \/
  (tt_root_boundary (T t) e f = false /\ exists n g, tt_inside (T t) e f = Some (n, g) /\ nba (el t e) f = Ok (Some (el t n, g)) /\ valid n /\ s_level n = s_level e /\ is_face (fc t) n g /\
    tt_root_boundary (T t) n g = false /\ nba (el t n) g = Ok (Some (el t e, f))) \/
  (tt_root_boundary (T t) e f = true /\ exists t' f' o b b' n g, 0 <= t' < K /\ 0 <= f' < eclass_num_faces (tt_eclass (T t')) /\ conn t (tt_tree_face (T t) e f) = Some (t', f', o) /\
    tt_boundary (T t) e f = Ok b /\ bdy_transform b o (same_sign (tt_eclass (T t)) (tt_eclass (T t')) (tt_tree_face (T t) e f) f') (smaller (tt_eclass (T t)) (tt_eclass (T t')) (tt_tree_face (T t) e f) f') = Ok b' /\
    tt_extrude (T t') b' f' = Ok (n, g) /\ nba (el t e) f = Ok (Some (el t' n, g)) /\ valid n /\ s_level n = s_level e /\ is_face (fc t') n g /\
    tt_root_boundary (T t') n g = true /\ tt_tree_face (T t') n g = f' /\ tt_boundary (T t') n g = Ok b' /\ nba (el t' n) g = Ok (Some (el t e, f))).
Proof.
  intros Ht V L Hf. assert (TT := TO Ht). assert (O := to_outside TT V Hf). destruct (tt_root_boundary (T t) e f) eqn:R.
  - assert (E := proj1 O eq_refl). destruct (to_boundary TT V Hf R) as (RF & b & B & BV & XE). destruct (conn t (tt_tree_face (T t) e f)) as [[[t' f'] o]|] eqn:C.
    + right. right. split; [reflexivity|]. destruct (HC Ht RF C) as (Ht' & Hf' & HT & Ho & C'). assert (TT' := TO Ht').
      destruct (btransform (same_sign (tt_eclass (T t)) (tt_eclass (T t')) (tt_tree_face (T t) e f) f') (smaller (tt_eclass (T t)) (tt_eclass (T t')) (tt_tree_face (T t) e f) f') BV Ho) as (b' & B1 & B2 & B3).
      rewrite HT in B2. destruct (valid_level (to_laws TT) V) as [L0 _]. destruct (to_extrude TT' Hf' B2) as (n & g & X1 & X2 & X3 & X4 & X5 & X6 & X7). { specialize (Hml Ht'). lia. }
      exists t', f', o, b, b', n, g. repeat (split; [solve [auto]|]).
      split. { rewrite (hnb_out Ht R E RF C B), B1. cbn [obind]. rewrite X1. reflexivity. }
      repeat (split; [solve [auto]|]). assert (E' := proj1 (to_outside TT' X2 X4) X5). rewrite <- X6 in C'. assert (RF' : 0 <= tt_tree_face (T t') n g < eclass_num_faces (tt_eclass (T t'))) by (rewrite X6; exact Hf').
      rewrite (hnb_out Ht' X5 E' RF' C' X7), X6. rewrite same_sign_sym. rewrite B3. 2:{ apply smaller_inv; auto; [apply (to_eclass TT)|apply (to_eclass TT')]. } cbn [obind]. rewrite XE. reflexivity.
    + left. split; [reflexivity|]. split; [reflexivity|]. now apply hnb_none.
  - right. left. split; [reflexivity|]. destruct (tt_inside (T t) e f) as [[n g]|] eqn:E. 2:{ discriminate (proj2 O eq_refl). }
    destruct (to_inside TT V Hf E) as (X1 & X2 & X3 & X4). assert (RN : tt_root_boundary (T t) n g = false). { destruct (tt_root_boundary (T t) n g) eqn:RN; [|reflexivity]. apply (to_outside TT X1 X3) in RN. rewrite X4 in RN. discriminate. }
    exists n, g. split; [reflexivity|]. split; [now apply hnb_in|]. repeat (split; [solve [auto]|]). now apply hnb_in.
Qed.
Lemma nb_of x f r : nba x f = Ok r -> nb x f = r.
Proof. intros E. unfold hybrid_neighbor. now rewrite E. Qed.
Lemma el_inj t (e : elt (cls t)) (f : Z) t' (e' : elt (cls t')) (f' : Z) (P : forall t (e : elt (cls t)), Z -> Prop) : Some (el t e, f) = Some (el t' e', f') -> P t e f -> P t' e' f'.
Proof. intros H. assert (H' : (el t e, f) = (el t' e', f')) by exact (f_equal (fun o => match o with Some p => p | None => (el t e, f) end) H). assert (A : el t e = el t' e') by (exact (f_equal fst H')). assert (B : f = f') by (exact (f_equal snd H')). subst f'. intros Q. exact (eq_ind (el t e) (fun x : {t : Z & elt (cls t)} => P (projT1 x) (projT2 x) f) Q _ A). Qed.

Theorem hybrid_mesh_ok : mesh_ok fc nb K ml.
Proof.
  constructor; cbv beta.
  - intros t Ht. split; [apply (to_laws (TO Ht))|]. split; [apply (to_flaws (TO Ht))|]. auto.
  - intros t e f t' e' f' Ht V L Hf E. destruct (hybrid_cases Ht V L Hf) as [(R & C & N)|[(R & n & g & I & N & X1 & X2 & X3 & X4 & X5)|(R & u & rf & o & b & b' & n & g & Hu & Hrf & C & B & TB & XE & N & X1 & X2 & X3 & X4 & X5 & X6 & X7)]]; rewrite (nb_of N) in E.
    + discriminate.
    + apply (el_inj (P := fun t' e' f' => 0 <= t' < K /\ valid e' /\ s_level e' = s_level e /\ is_face (fc t') e' f' /\ nb (el t' e') f' = Some (el t e, f)) E). repeat (split; [solve [auto]|]). now apply nb_of.
    + apply (el_inj (P := fun t' e' f' => 0 <= t' < K /\ valid e' /\ s_level e' = s_level e /\ is_face (fc t') e' f' /\ nb (el t' e') f' = Some (el t e, f)) E). repeat (split; [solve [auto]|]). now apply nb_of.
  - intros t e f t' e' f' c g Ht V L Hf E Hc. assert (TT := TO Ht). assert (LM : s_level e < s_maxlevel (tt_scheme (T t))) by (specialize (Hml Ht); lia). destruct (FaceProofs.face_child (to_laws TT) (to_flaws TT) V LM Hf Hc) as (Vc & Lc & _ & Hg & _).
    destruct (hybrid_cases Ht V ltac:(lia) Hf) as [(R & C & N)|[(R & n & h & I & N & X1 & X2 & X3 & X4 & X5)|(R & u & rf & o & b & b' & n & h & Hu & Hrf & C & B & TB & XE & N & X1 & X2 & X3 & X4 & X5 & X6 & X7)]]; rewrite (nb_of N) in E.
    + discriminate.
    + apply (el_inj (P := fun t' e' f' => exists c' g', In (c', g') (face_children (fc t') e' f') /\ nb (el t c) g = Some (el t' c', g')) E).
      destruct (to_refine TT V LM Hf I Hc) as (c' & g' & Ic & Hc2). exists c', g'. split; [exact Hc2|]. apply nb_of. apply hnb_in; [|exact Ic].
      destruct (tt_root_boundary (T t) c g) eqn:RN; [|reflexivity]. apply (to_outside TT Vc Hg) in RN. rewrite Ic in RN. discriminate.
    + apply (el_inj (P := fun t' e' f' => exists c' g', In (c', g') (face_children (fc t') e' f') /\ nb (el t c) g = Some (el t' c', g')) E). assert (TT' := TO Hu).
      destruct (to_rb_child TT V LM Hf R Hc) as [Rc Fc]. destruct (to_bchild TT V LM Hf R Hc B) as (j & Hj & Bc). destruct (to_boundary TT V Hf R) as (RF & b2 & B2 & BV & _). rewrite B in B2. injection B2 as <-.
      destruct (HC Ht RF C) as (_ & _ & HT & Ho & C'). assert (Lb : s_level e < BMAX (eclass_face_types (tt_eclass (T t)) (tt_tree_face (T t) e f))) by (assert (Q := to_max TT RF); lia).
      destruct (btransform_child BV Lb Ho TB Hj) as (j' & Hj' & Tc). assert (Ln : s_level n < s_maxlevel (tt_scheme (T u))) by (specialize (Hml Hu); lia).
      rewrite HT in Hj'. rewrite <- X5 in Hj'. destruct (to_bchild_onto TT' X1 Ln X3 X4 X6 Hj') as (c' & g' & Hc2 & Bc'). exists c', g'. split; [exact Hc2|]. apply nb_of.
      destruct (FaceProofs.face_child (to_laws TT') (to_flaws TT') X1 Ln X3 Hc2) as (Vc' & Lc' & _ & Hg' & _). destruct (to_rb_child TT' X1 Ln X3 X4 Hc2) as [Rc' Fc'].
      assert (Ec := proj1 (to_outside TT Vc Hg) Rc). rewrite <- Fc in RF, C. rewrite (hnb_out Ht Rc Ec RF C Bc), Fc, Tc. cbn [obind].
      destruct (to_boundary TT' Vc' Hg' Rc') as (_ & b2 & B2 & _ & XE2). rewrite Bc' in B2. injection B2 as <-. rewrite Fc', X5 in XE2. rewrite XE2. reflexivity.
  - intros t e f c g Ht V L Hf E Hc. assert (TT := TO Ht). assert (LM : s_level e < s_maxlevel (tt_scheme (T t))) by (specialize (Hml Ht); lia). destruct (FaceProofs.face_child (to_laws TT) (to_flaws TT) V LM Hf Hc) as (Vc & Lc & _ & Hg & _).
    destruct (hybrid_cases Ht V ltac:(lia) Hf) as [(R & C & N)|[(R & n & h & I & N & _)|(R & u & rf & o & b & b' & n & h & Hu & Hrf & C & B & TB & XE & N & _)]]; rewrite (nb_of N) in E; try discriminate.
    destruct (to_rb_child TT V LM Hf R Hc) as [Rc Fc]. apply nb_of. apply hnb_none; [exact Rc|now apply (to_outside TT Vc Hg)|]. rewrite Fc. exact C.
  - intros t e i g Ht V L Hi Hg P. assert (TT := TO Ht). assert (LM : s_level e < s_maxlevel (tt_scheme (T t))) by (specialize (Hml Ht); lia). destruct (to_inner TT V LM Hi Hg P) as (j & g' & Hj & I). exists j, g'. split; [exact Hj|].
    destruct (valid_child (to_laws TT) V LM Hi) as (Vc & _). apply nb_of. apply hnb_in; [|exact I]. destruct (tt_root_boundary (T t) (s_child e i) g) eqn:RN; [|reflexivity]. apply (to_outside TT Vc Hg) in RN. rewrite I in RN. discriminate.
Qed.
End mesh.

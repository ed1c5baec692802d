(** The neighbours at the faces of a mesh of trees of one class. *)
From Verif Require Import Prelude SchemeModel SchemeSpec FaceModel SchemeProofs FaceSpec FaceProofs NeighborModel NeighborSpec EclassModel.

Section one_class.
Variable S : scheme.
Hypothesis LW : laws S.
Variable F : faces S.
Hypothesis FL : flaws F.
Variable X : crossing S.
Variables (NF NO : Z).
Notation elt := (elt S).
Notation bd := (x_bd X).
Implicit Types e n c : elt.
(** the faces at the boundary of the tree *)
Variable rb : elt -> Z -> bool.
Variable bvalid : bd -> Z -> Prop.
Variable bchild : bd -> Z -> bd.
Variable NC : Z.
Notation M := (s_maxlevel S).
Definition tr (b : bd) (o f f' : Z) : bd :=
  x_transform X b o (eclass_face_orientation (x_eclass X) f =? eclass_face_orientation (x_eclass X) f') (f <=? f').
Record crossing_ok : Prop := {
  xo_valid : forall e, valid e -> x_inside X e = true;
  xo_outside : forall e f, valid e -> is_face F e f -> rb e f = negb (x_inside X (fst (x_neighbor X e f)));
  xo_inside : forall e f, valid e -> is_face F e f -> rb e f = false -> let (n, g) := x_neighbor X e f in
    valid n /\ s_level n = s_level e /\ is_face F n g /\ x_neighbor X n g = (e, f);
  xo_refine : forall e f c g, valid e -> s_level e < M -> is_face F e f -> rb e f = false -> In (c, g) (face_children F e f) ->
    In (x_neighbor X c g) (face_children F (fst (x_neighbor X e f)) (snd (x_neighbor X e f)));
  xo_rb_child : forall e f c g, valid e -> s_level e < M -> is_face F e f -> rb e f = true -> In (c, g) (face_children F e f) ->
    rb c g = true /\ x_tree_face X c g = x_tree_face X e f;
  xo_inner : forall e i g, valid e -> s_level e < M -> 0 <= i < s_num_children e -> is_face F (s_child e i) g -> f_parent_face F (s_child e i) g = -1 ->
    exists j g', 0 <= j < s_num_children e /\ x_neighbor X (s_child e i) g = (s_child e j, g');
  xo_boundary : forall e f, valid e -> is_face F e f -> rb e f = true -> 0 <= x_tree_face X e f < NF /\
    exists b, x_boundary X e f = Ok b /\ bvalid b (s_level e) /\ x_extrude X b (x_tree_face X e f) = (e, f);
  xo_extrude : forall b L rf, bvalid b L -> 0 <= L <= M -> 0 <= rf < NF -> let (e, f) := x_extrude X b rf in
    valid e /\ s_level e = L /\ is_face F e f /\ rb e f = true /\ x_tree_face X e f = rf /\ x_boundary X e f = Ok b;
  xo_bchild : forall e f c g b, valid e -> s_level e < M -> is_face F e f -> rb e f = true -> In (c, g) (face_children F e f) -> x_boundary X e f = Ok b ->
    exists j, 0 <= j < NC /\ x_boundary X c g = Ok (bchild b j);
  xo_bchild_onto : forall e f b j, valid e -> s_level e < M -> is_face F e f -> rb e f = true -> x_boundary X e f = Ok b -> 0 <= j < NC ->
    exists c g, In (c, g) (face_children F e f) /\ x_boundary X c g = Ok (bchild b j);
  xo_tr : forall b L o f f', bvalid b L -> 0 <= o < NO -> 0 <= f < NF -> 0 <= f' < NF -> bvalid (tr b o f f') L /\ tr (tr b o f f') o f' f = b;
  xo_tr_child : forall b L o f f' j, bvalid b L -> L < M -> 0 <= o < NO -> 0 <= f < NF -> 0 <= f' < NF -> 0 <= j < NC ->
    exists j', 0 <= j' < NC /\ tr (bchild b j) o f f' = bchild (tr b o f f') j'
}.
Hypothesis XO : crossing_ok.
Variables (K ml : Z) (conn : connection).
Hypothesis HC : connected NF NO K conn.
Hypothesis Hml : 0 <= ml <= M.
Notation cls := (fun _ : Z => S).
Notation el t e := (existT (fun s => SchemeModel.elt (cls s)) t e).
Notation nb := (neighbor X conn).

Lemma nb_in t e f : valid e -> is_face F e f -> rb e f = false -> nb (el t e) f = Some (el t (fst (x_neighbor X e f)), snd (x_neighbor X e f)).
Proof.
  intros V Hf R. assert (O := xo_outside XO V Hf). unfold neighbor, element_face_neighbor. destruct (x_neighbor X e f) as [n g]. cbn [fst snd] in *. rewrite R in O. destruct (x_inside X n); [reflexivity|discriminate].
Qed.
Lemma nb_out t e f : valid e -> is_face F e f -> rb e f = true -> element_face_neighbor X conn (el t e) f =
  match conn t (x_tree_face X e f) with None => Ok None | Some (t', f', o) => do b <- x_boundary X e f; let (n, g) := x_extrude X (tr b o (x_tree_face X e f) f') f' in Ok (Some (el t' n, g)) end.
Proof.
  intros V Hf R. assert (O := xo_outside XO V Hf). unfold element_face_neighbor. destruct (x_neighbor X e f) as [n g]. cbn [fst snd] in *. rewrite R in O. destruct (x_inside X n); [discriminate|reflexivity].
Qed.
Lemma nb_out_some t e f t' f' o b : valid e -> is_face F e f -> rb e f = true -> conn t (x_tree_face X e f) = Some (t', f', o) -> x_boundary X e f = Ok b ->
  nb (el t e) f = Some (el t' (fst (x_extrude X (tr b o (x_tree_face X e f) f') f')), snd (x_extrude X (tr b o (x_tree_face X e f) f') f')).
Proof.
  intros V Hf R E B. unfold neighbor. rewrite (nb_out t V Hf R), E, B. cbn [obind]. now destruct (x_extrude X _ _) as [n g].
Qed.
(** the boundary of the domain *)
Lemma nb_none t e f : 0 <= t < K -> valid e -> is_face F e f ->
  (nb (el t e) f = None <-> rb e f = true /\ conn t (x_tree_face X e f) = None) /\ exists r, element_face_neighbor X conn (el t e) f = Ok r.
Proof.
  intros Ht V Hf. destruct (rb e f) eqn:R.
  - destruct (xo_boundary XO V Hf R) as (RF & b & B & _). unfold neighbor. rewrite (nb_out t V Hf R). destruct (conn t (x_tree_face X e f)) as [[[t' f'] o]|] eqn:E.
    + rewrite B. cbn [obind]. destruct (x_extrude X _ _) as [n g]. split; [|eauto]. split; [discriminate|]. intros [_ H]. discriminate H.
    + split; [|eauto]. split; auto.
  - assert (N := nb_in t V Hf R). split.
    + rewrite N. split; [discriminate|]. intros [H _]. discriminate H.
    + unfold neighbor in N. destruct (element_face_neighbor X conn (el t e) f) as [r| | |]; [eauto|discriminate..].
Qed.
Lemma some_inj t e (f : Z) t' e' (f' : Z) : Some (el t e, f) = Some (el t' e', f') -> t' = t /\ e' = e /\ f' = f.
Proof.
  intros H. assert (H' : (el t e, f) = (el t' e', f')) by congruence. assert (A : el t e = el t' e') by (exact (f_equal fst H')). split; [|split].
  - symmetry. exact (f_equal (@projT1 Z (fun s => SchemeModel.elt (cls s))) A).
  - symmetry. exact (f_equal (fun x : {t : Z & SchemeModel.elt (cls t)} => projT2 x : SchemeModel.elt S) A).
  - symmetry. exact (f_equal snd H').
Qed.

Theorem mesh_of_connection : mesh_ok (fun _ => F) nb K ml.
Proof.
  constructor; cbv beta.
  - intros t Ht. split; [exact LW|]. split; [exact FL|exact Hml].
  - intros t e f t' e' f' Ht V L Hf E. destruct (rb e f) eqn:R.
    + destruct (xo_boundary XO V Hf R) as (RF & b & B & BV & XE). destruct (conn t (x_tree_face X e f)) as [[[u rf] o]|] eqn:C.
      2:{ destruct (nb_none Ht V Hf) as [[_ N] _]. rewrite N in E by (split; auto). discriminate. }
      rewrite (nb_out_some V Hf R C B) in E. apply some_inj in E. destruct E as (-> & -> & ->). destruct (HC Ht RF C) as (Hu & Hrf & Ho & C'). destruct (xo_tr XO BV Ho RF Hrf) as [BV' TT].
      assert (LV : 0 <= s_level e) by (apply (valid_level LW); exact V).
      assert (XX := xo_extrude XO BV' (conj LV (Z.le_trans _ _ _ L (proj2 Hml))) Hrf). destruct (x_extrude X (tr b o (x_tree_face X e f) rf) rf) as [n g] eqn:EX. cbn [fst snd] in *.
      destruct XX as (X1 & X2 & X3 & X4 & X5 & X6). split; [exact Hu|]. split; [exact X1|]. split; [exact X2|]. split; [exact X3|].
      rewrite <- X5 in C'. rewrite (nb_out_some X1 X3 X4 C' X6). rewrite X5, TT, XE. reflexivity.
    + rewrite (nb_in t V Hf R) in E. apply some_inj in E. destruct E as (-> & -> & ->). assert (XX := xo_inside XO V Hf R). assert (O := xo_outside XO V Hf).
      destruct (x_neighbor X e f) as [n g] eqn:EX. cbn [fst snd] in *. destruct XX as (X1 & X2 & X3 & X4). split; [exact Ht|]. split; [exact X1|]. split; [exact X2|]. split; [exact X3|].
      assert (RN : rb n g = false). { rewrite (xo_outside XO X1 X3), X4. cbn [fst]. now rewrite (xo_valid XO V). }
      rewrite (nb_in t X1 X3 RN), X4. reflexivity.
  - intros t e f t' e' f' c g Ht V L Hf E Hc. assert (LM : s_level e < M) by lia. destruct (FaceProofs.face_child LW FL V LM Hf Hc) as (Vc & Lc & _ & Hg & _). destruct (rb e f) eqn:R.
    + destruct (xo_boundary XO V Hf R) as (RF & b & B & BV & XE). destruct (conn t (x_tree_face X e f)) as [[[u rf] o]|] eqn:C.
      2:{ destruct (nb_none Ht V Hf) as [[_ N] _]. rewrite N in E by (split; auto). discriminate. }
      rewrite (nb_out_some V Hf R C B) in E. apply some_inj in E. destruct E as (-> & -> & ->). destruct (HC Ht RF C) as (Hu & Hrf & Ho & C'). destruct (xo_tr XO BV Ho RF Hrf) as [BV' TT].
      assert (LV : 0 <= s_level e) by (apply (valid_level LW); exact V).
      assert (XX := xo_extrude XO BV' (conj LV (Z.lt_le_incl _ _ LM)) Hrf). destruct (x_extrude X (tr b o (x_tree_face X e f) rf) rf) as [n h] eqn:EX. cbn [fst snd] in *.
      destruct XX as (X1 & X2 & X3 & X4 & X5 & X6). destruct (xo_rb_child XO V LM Hf R Hc) as [Rc Fc]. destruct (xo_bchild XO V LM Hf R Hc B) as (j & Hj & Bc).
      destruct (xo_tr_child XO BV LM Ho RF Hrf Hj) as (j' & Hj' & Tc). assert (Ln : s_level n < M) by (rewrite X2; exact LM).
      destruct (xo_bchild_onto XO X1 Ln X3 X4 X6 Hj') as (c' & g' & Hc' & Bc'). destruct (FaceProofs.face_child LW FL X1 Ln X3 Hc') as (Vc' & Lc' & _ & Hg' & _).
      destruct (xo_rb_child XO X1 Ln X3 X4 Hc') as [Rc' Fc']. exists c', g'. split; [exact Hc'|]. assert (Cc : conn t (x_tree_face X c g) = Some (u, rf, o)) by (rewrite Fc; exact C).
      rewrite (nb_out_some Vc Hg Rc Cc Bc), Fc, Tc. destruct (xo_boundary XO Vc' Hg' Rc') as (_ & b2 & B2 & _ & XE2). rewrite Bc' in B2. injection B2 as <-. rewrite Fc', X5 in XE2. rewrite XE2. reflexivity.
    + rewrite (nb_in t V Hf R) in E. apply some_inj in E. destruct E as (-> & -> & ->). assert (RI := xo_refine XO V LM Hf R Hc). assert (XX := xo_inside XO V Hf R).
      destruct (x_neighbor X e f) as [n h] eqn:EX. cbn [fst snd] in *. destruct XX as (X1 & X2 & X3 & X4). assert (Ln : s_level n < M) by (rewrite X2; exact LM).
      destruct (x_neighbor X c g) as [c' g'] eqn:EC. destruct (FaceProofs.face_child LW FL X1 Ln X3 RI) as (Vc' & Lc' & _ & Hg' & _). exists c', g'. split; [exact RI|].
      assert (Rc : rb c g = false). { rewrite (xo_outside XO Vc Hg), EC. cbn [fst]. now rewrite (xo_valid XO Vc'). }
      rewrite (nb_in t Vc Hg Rc), EC. reflexivity.
  - intros t e f c g Ht V L Hf E Hc. assert (LM : s_level e < M) by lia. destruct (FaceProofs.face_child LW FL V LM Hf Hc) as (Vc & Lc & _ & Hg & _).
    apply (nb_none Ht V Hf) in E. destruct E as [R C]. destruct (xo_rb_child XO V LM Hf R Hc) as [Rc Fc]. apply (nb_none Ht Vc Hg). split; [exact Rc|]. rewrite Fc. exact C.
  - intros t e i g Ht V L Hi Hg P. assert (LM : s_level e < M) by lia. destruct (xo_inner XO V LM Hi Hg P) as (j & g' & Hj & E). exists j, g'. split; [exact Hj|].
    destruct (valid_child LW V LM Hi) as (Vc & _). assert (R : rb (s_child e i) g = false). { rewrite (xo_outside XO Vc Hg), E. cbn [fst]. destruct (valid_child LW V LM Hj) as (Vj & _). now rewrite (xo_valid XO Vj). }
    rewrite (nb_in t Vc Hg R), E. reflexivity.
Qed.
End one_class.

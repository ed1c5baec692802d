(** The faces at the boundary of a tree, and the neighbours across the faces of trees. *)
From Verif Require Import Prelude SchemeModel SchemeSpec FaceModel SchemeProofs SchemeOrderProofs FaceSpec FaceProofs NeighborModel NeighborSpec NeighborProofs EclassModel.

Section one_class.
Variable S : scheme.
Hypothesis LW : laws S.
Variable F : faces S.
Hypothesis FL : flaws F.
Variable X : crossing S.
Variables (NF NO : Z).
Notation elt := (elt S).
Implicit Types e c : elt.
Variable rb : elt -> Z -> bool.
Variable bvalid : x_bd X -> Z -> Prop.
Variable bchild : x_bd X -> Z -> x_bd X.
Variable NC : Z.
Notation M := (s_maxlevel S).
Hypothesis XO : crossing_ok F NF NO rb bvalid bchild NC.
Hypothesis RB : forall f, is_face F (s_root S) f -> rb (s_root S) f = true /\ x_tree_face X (s_root S) f = f.

Lemma rb_descend n : forall e f x g, valid e -> s_level e + Z.of_nat n <= M -> is_face F e f -> rb e f = true -> In (x, g) (face_descend F n e f) -> rb x g = true /\ x_tree_face X x g = x_tree_face X e f.
Proof.
  induction n as [|n IH]; intros e f x g V L Hf R H; cbn [face_descend] in H.
  - destruct H as [E|[]]. injection E as <- <-. auto.
  - apply in_flat_map in H. destruct H as ([c h] & Hc & H). cbn [fst snd] in H. assert (LM : s_level e < M) by lia. destruct (face_child LW FL V LM Hf Hc) as (Vc & Lc & _ & Hh & _).
    destruct (xo_rb_child XO V LM Hf R Hc) as [Rc Tc]. rewrite <- Tc. apply (IH c h); auto. lia.
Qed.
Lemma inner_descend n : forall e f x g, valid e -> s_level e + Z.of_nat n <= M -> is_face F e f -> rb e f = false -> In (x, g) (face_descend F n e f) -> rb x g = false.
Proof.
  induction n as [|n IH]; intros e f x g V L Hf R H; cbn [face_descend] in H.
  - destruct H as [E|[]]. injection E as <- <-. auto.
  - apply in_flat_map in H. destruct H as ([c h] & Hc & H). cbn [fst snd] in H. assert (LM : s_level e < M) by lia. destruct (face_child LW FL V LM Hf Hc) as (Vc & Lc & _ & Hh & _).
    apply (IH c h); auto; [lia|]. assert (RI := xo_refine XO V LM Hf R Hc). assert (XX := xo_inside XO V Hf R). destruct (x_neighbor X e f) as [m k]. cbn [fst snd] in *. destruct XX as (X1 & X2 & X3 & X4).
    rewrite (xo_outside XO Vc Hh). destruct (x_neighbor X c h) as [c' h'] eqn:EC. cbn [fst]. destruct (face_child LW FL X1 ltac:(lia) X3 RI) as (Vc' & _). now rewrite (xo_valid XO Vc').
Qed.
(** f is a face of e at the boundary of the tree iff it is a part of a face of the tree *)
Theorem rb_iff e f : valid e -> is_face F e f ->
  (rb e f = true <-> exists r, is_face F (s_root S) r /\ In (e, f) (face_descend F (Z.to_nat (s_level e)) (s_root S) r)) /\
  forall r, is_face F (s_root S) r -> In (e, f) (face_descend F (Z.to_nat (s_level e)) (s_root S) r) -> x_tree_face X e f = r.
Proof.
  intros V Hf. destruct (valid_level LW V) as [L0 LM]. assert (VR : valid (s_root S)) by apply valid_root. assert (LR : s_level (s_root S) = 0) by (apply (law_level LW (p := [])); constructor).
  assert (DN : forall r, is_face F (s_root S) r -> In (e, f) (face_descend F (Z.to_nat (s_level e)) (s_root S) r) -> rb e f = true /\ x_tree_face X e f = r).
  { intros r Hr H. destruct (RB Hr) as [R T]. rewrite <- T at 1. apply (rb_descend (n := Z.to_nat (s_level e)) (e := s_root S) (f := r)); auto. lia. }
  split; [|intros r Hr H; exact (proj2 (DN r Hr H))]. split; [|intros (r & Hr & H); exact (proj1 (DN r Hr H))].
  intros R. assert (BR : below (s_root S) e). { destruct V as (p & Hp & ->). exists [], p. auto. }
  destruct (face_up LW FL (n := Z.to_nat (s_level e)) BR ltac:(lia) Hf) as [(r & Hr & H)|(a & i & h & m & Ba & La & Hi & Hh & Hp & Lm & H)]; [eauto|exfalso].
  destruct (below_valid Ba) as [_ Va]. destruct (valid_child LW Va La Hi) as (Vc & Lc & _). assert (R0 : rb (s_child a i) h = false).
  { destruct (xo_inner XO Va La Hi Hh Hp) as (j & g' & Hj & E). rewrite (xo_outside XO Vc Hh), E. cbn [fst]. destruct (valid_child LW Va La Hj) as (Vj & _). now rewrite (xo_valid XO Vj). }
  rewrite (inner_descend (n := m) (e := s_child a i) Vc ltac:(lia) Hh R0 H) in R. discriminate.
Qed.

Variables (K : Z) (conn : connection).
Hypothesis HC : connected NF NO K conn.
Notation cls := (fun _ : Z => S).
Notation el t e := (existT (fun s => SchemeModel.elt (cls s)) t e).
(** the neighbour: at the boundary of the domain there is none; otherwise it is in the same tree and the face is inside the tree, or it
    is in the tree that is connected to the tree at the face, and its face there is a part of the connected face *)
Theorem neighbor_cases t e f : 0 <= t < K -> valid e -> is_face F e f ->
  (exists r, is_face F (s_root S) r /\ In (e, f) (face_descend F (Z.to_nat (s_level e)) (s_root S) r) /\ conn t r = None /\ element_face_neighbor X conn (el t e) f = Ok None) \/
  ((forall r, is_face F (s_root S) r -> ~ In (e, f) (face_descend F (Z.to_nat (s_level e)) (s_root S) r)) /\
   exists e' f', valid e' /\ s_level e' = s_level e /\ is_face F e' f' /\ element_face_neighbor X conn (el t e) f = Ok (Some (el t e', f')) /\ element_face_neighbor X conn (el t e') f' = Ok (Some (el t e, f))) \/
  (exists r t' r' o e' f', is_face F (s_root S) r /\ In (e, f) (face_descend F (Z.to_nat (s_level e)) (s_root S) r) /\ conn t r = Some (t', r', o) /\
    valid e' /\ s_level e' = s_level e /\ is_face F e' f' /\ is_face F (s_root S) r' /\ In (e', f') (face_descend F (Z.to_nat (s_level e')) (s_root S) r') /\
    element_face_neighbor X conn (el t e) f = Ok (Some (el t' e', f')) /\ element_face_neighbor X conn (el t' e') f' = Ok (Some (el t e, f))).
Proof.
  intros Ht V Hf. destruct (rb_iff V Hf) as [RI RT]. destruct (rb e f) eqn:R.
  - destruct (proj1 RI eq_refl) as (r & Hr & H). assert (T := RT r Hr H). destruct (xo_boundary XO V Hf R) as (RF & b & B & BV & XE). assert (N := nb_out XO conn t V Hf R). rewrite T in *. destruct (conn t r) as [[[t' r'] o]|] eqn:C.
    + right. right. destruct (HC Ht RF C) as (Hu & Hrf & Ho & C'). destruct (xo_tr XO BV Ho RF Hrf) as [BV' TT].
      assert (XX := xo_extrude XO BV' (valid_level LW V) Hrf). rewrite B in N. cbn [obind] in N. destruct (x_extrude X (tr b o r r') r') as [n g] eqn:EX. destruct XX as (X1 & X2 & X3 & X4 & X5 & X6).
      exists r, t', r', o, n, g. destruct (rb_iff X1 X3) as [RI' RT']. destruct (proj1 RI' X4) as (r2 & Hr2 & H2). assert (r2 = r') by (rewrite <- X5; symmetry; now apply RT'). subst r2.
      split; [exact Hr|]. split; [exact H|]. split; [exact C|]. split; [exact X1|]. split; [exact X2|]. split; [exact X3|]. split; [exact Hr2|]. split; [exact H2|]. split; [exact N|].
      rewrite (nb_out XO conn t' X1 X3 X4), X5, C', X6. cbn [obind]. rewrite TT, XE. reflexivity.
    + left. exists r. auto.
  - right. left. split; [intros r Hr H; assert (Q := proj2 RI (ex_intro _ r (conj Hr H))); discriminate|]. assert (XX := xo_inside XO V Hf R). assert (O := xo_outside XO V Hf).
    destruct (x_neighbor X e f) as [n g] eqn:EX. destruct XX as (X1 & X2 & X3 & X4). exists n, g. split; [exact X1|]. split; [exact X2|]. split; [exact X3|]. cbn [fst] in O. rewrite R in O. unfold element_face_neighbor. rewrite EX, X4, (xo_valid XO V), (xo_valid XO X1). auto.
Qed.
End one_class.

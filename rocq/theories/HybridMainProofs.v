(** The neighbours at the faces of a mesh of trees of different classes: the cases. *)
From Verif Require Import Prelude SchemeModel SchemeSpec FaceModel SchemeProofs SchemeOrderProofs SchemeInstances FaceSpec FaceProofs NeighborModel EclassModel.
From Verif Require Import BdyModel HybridModel HybridSpec HybridProofs HybridInstances HybridPrism HybridPyramid.

Section one_type.
Variable T : tree_type.
Hypothesis TO : type_ok T.
Notation elt := (elt (tt_scheme T)).
Implicit Types e x : elt.
Notation F := (tt_faces T).
Notation M := (s_maxlevel (tt_scheme T)).
Notation rb := (tt_root_boundary T).
Notation LW := (to_laws TO).
Notation FL := (to_flaws TO).
Lemma trb_descend n : forall e f x g, valid e -> s_level e + Z.of_nat n <= M -> is_face F e f -> rb e f = true -> In (x, g) (face_descend F n e f) -> rb x g = true /\ tt_tree_face T x g = tt_tree_face T e f.
Proof.
  induction n as [|n IH]; intros e f x g V L Hf R H; cbn [face_descend] in H.
  - destruct H as [E|[]]. injection E as <- <-. auto.
  - apply in_flat_map in H. destruct H as ([c h] & Hc & H). cbn [fst snd] in H. assert (LM : s_level e < M) by lia. destruct (face_child LW FL V LM Hf Hc) as (Vc & Lc & _ & Hh & _).
    destruct (to_rb_child TO V LM Hf R Hc) as [Rc Tc]. rewrite <- Tc. apply (IH c h); auto. lia.
Qed.
Lemma inside_rb e f n g : valid e -> is_face F e f -> tt_inside T e f = Some (n, g) -> rb e f = false.
Proof. intros V Hf I. destruct (rb e f) eqn:R; [|reflexivity]. apply (to_outside TO V Hf) in R. rewrite I in R. discriminate. Qed.
Lemma rb_inside e f : valid e -> is_face F e f -> rb e f = false -> exists n g, tt_inside T e f = Some (n, g).
Proof. intros V Hf R. destruct (tt_inside T e f) as [[n g]|] eqn:I; [eauto|]. apply (to_outside TO V Hf) in I. rewrite I in R. discriminate. Qed.
Lemma tinner_descend n : forall e f x g, valid e -> s_level e + Z.of_nat n <= M -> is_face F e f -> rb e f = false -> In (x, g) (face_descend F n e f) -> rb x g = false.
Proof.
  induction n as [|n IH]; intros e f x g V L Hf R H; cbn [face_descend] in H.
  - destruct H as [E|[]]. injection E as <- <-. auto.
  - apply in_flat_map in H. destruct H as ([c h] & Hc & H). cbn [fst snd] in H. assert (LM : s_level e < M) by lia. destruct (face_child LW FL V LM Hf Hc) as (Vc & Lc & _ & Hh & _).
    apply (IH c h); auto; [lia|]. destruct (rb_inside V Hf R) as (m & k & I). destruct (to_refine TO V LM Hf I Hc) as (c' & g' & Ic & _). exact (inside_rb Vc Hh Ic).
Qed.
Lemma trb_iff e f : valid e -> is_face F e f ->
  (rb e f = true <-> exists r, at_tree_face T e f r) /\ forall r, at_tree_face T e f r -> tt_tree_face T e f = r.
Proof.
  intros V Hf. destruct (valid_level LW V) as [L0 LM]. assert (VR : valid (s_root (tt_scheme T))) by apply valid_root. assert (LR : s_level (s_root (tt_scheme T)) = 0) by (apply (law_level LW (p := [])); constructor).
  assert (DN : forall r, at_tree_face T e f r -> rb e f = true /\ tt_tree_face T e f = r).
  { intros r [Hr H]. destruct (to_root_rb TO (proj1 (to_root TO r) Hr)) as [R Tr]. rewrite <- Tr at 1. apply (trb_descend (n := Z.to_nat (s_level e)) (e := s_root (tt_scheme T)) (f := r)); auto. lia. }
  split; [|intros r Hr; exact (proj2 (DN r Hr))]. split; [|intros (r & Hr); exact (proj1 (DN r Hr))].
  intros R. assert (BR : below (s_root (tt_scheme T)) e). { destruct V as (p & Hp & ->). exists [], p. auto. }
  destruct (face_up LW FL (n := Z.to_nat (s_level e)) BR ltac:(lia) Hf) as [(r & Hr & H)|(a & i & h & m & Ba & La & Hi & Hh & Hp & Lm & H)]; [exists r; split; assumption|exfalso].
  destruct (below_valid Ba) as [_ Va]. destruct (valid_child LW Va La Hi) as (Vc & Lc & _). assert (R0 : rb (s_child a i) h = false).
  { destruct (to_inner TO Va La Hi Hh Hp) as (j & g' & Hj & E). exact (inside_rb Vc Hh E). }
  rewrite (tinner_descend (n := m) (e := s_child a i) Vc ltac:(lia) Hh R0 H) in R. discriminate.
Qed.
End one_type.

Section mesh.
Variable T : Z -> tree_type.
Variables (K ml : Z) (conn : connection).
Hypothesis TO : forall t, 0 <= t < K -> type_ok (T t).
Hypothesis HC : hybrid_connected T K conn.
Hypothesis Hml : forall t, 0 <= t < K -> 0 <= ml <= s_maxlevel (tt_scheme (T t)).
Notation cls := (fun t => tt_scheme (T t)).
Notation el t e := (existT (fun s => elt (tt_scheme (T s))) t e).
Lemma hybrid_meet_of t (e : elt (cls t)) f t' (e' : elt (cls t')) f' : 0 <= t < K -> valid e -> s_level e <= ml -> is_face (tt_faces (T t)) e f ->
  hybrid_neighbor T conn (el t e) f = Some (el t' e', f') -> hybrid_meet T conn t e f t' e' f'.
Proof.
  intros Ht V L Hf N.
  destruct (hybrid_cases TO HC Hml Ht V L Hf) as [(_ & _ & E)|[(_ & n & g & _ & E & _ & _ & _ & _ & E')|(_ & u & rf & o & b & b' & n & g & _ & _ & _ & _ & _ & _ & E & _ & _ & _ & _ & _ & _ & E')]]; rewrite (nb_of E) in N.
  - discriminate.
  - apply (el_inj (T := T) (P := fun t' e' f' => hybrid_meet T conn t e f t' e' f') N). split; assumption.
  - apply (el_inj (T := T) (P := fun t' e' f' => hybrid_meet T conn t e f t' e' f') N). split; assumption.
Qed.
Theorem hybrid_neighbors_all : hybrid_neighbors_ok T K ml conn.
Proof.
  assert (HM := hybrid_mesh_ok TO HC Hml). split; [|split].
  - intros t e f Ht V L Hf. assert (TT := TO Ht). destruct (trb_iff TT V Hf) as [RI RT].
    destruct (hybrid_cases TO HC Hml Ht V L Hf) as [(R & C & E)|[(R & n & g & _ & E & X1 & X2 & X3 & _ & E')|(R & u & rf & o & b & b' & n & g & Hu & Hrf & C & _ & _ & _ & E & X1 & X2 & X3 & X4 & X5 & _ & E')]].
    + left. destruct (proj1 RI R) as (r & Hr). exists r. split; [exact Hr|]. rewrite (RT r Hr) in C. auto.
    + right. left. split; [intros r Hr; rewrite (proj2 RI (ex_intro _ r Hr)) in R; discriminate|]. exists n, g. split; [exact X1|]. split; [exact X2|]. split; [exact X3|]. split; assumption.
    + right. right. destruct (proj1 RI R) as (r & Hr). rewrite (RT r Hr) in C. destruct (trb_iff (TO Hu) X1 X3) as [RI' RT']. destruct (proj1 RI' X4) as (r2 & Hr2). assert (r2 = rf) by (rewrite <- X5; symmetry; now apply RT'). subst r2.
      exists r, u, rf, o, n, g. split; [exact Hr|]. split; [exact C|]. split; [exact Hu|]. split; [exact X1|]. split; [exact X2|]. split; [exact X3|]. split; [exact Hr2|]. split; assumption.
  - intros t e f t' e' f' c g Ht V L Hf [E _] Hc. destruct (mo_refine HM Ht V L Hf (nb_of E) Hc) as (c' & g' & Hc' & N). exists c', g'. split; [exact Hc'|]. assert (LM : s_level e < s_maxlevel (tt_scheme (T t))) by (specialize (Hml Ht); lia).
    destruct (FaceProofs.face_child (to_laws (TO Ht)) (to_flaws (TO Ht)) V LM Hf Hc) as (Vc & Lc & _ & Hg & _). apply (hybrid_meet_of Ht Vc ltac:(lia) Hg N).
  - intros t e i g Ht V L Hi Hg NP. assert (LM : s_level e < s_maxlevel (tt_scheme (T t))) by (specialize (Hml Ht); lia). assert (P : f_parent_face (tt_faces (T t)) (s_child e i) g = -1). { destruct (fl_parent_face (to_flaws (TO Ht)) V LM Hi Hg) as [[C|C] Q]; [exact C|]. destruct (NP _ C). now apply Q. }
    destruct (mo_inner HM Ht V L Hi Hg P) as (j & g' & Hj & N). exists j, g'. split; [exact Hj|]. destruct (valid_child (to_laws (TO Ht)) V LM Hi) as (Vc & Lc & _). apply (hybrid_meet_of Ht Vc ltac:(lia) Hg N).
Qed.
End mesh.

Lemma default_type_ok c : 1 <= c <= 7 -> type_ok (default_type c).
Proof.
  intros Hc. assert (c = 1 \/ c = 2 \/ c = 3 \/ c = 4 \/ c = 5 \/ c = 6 \/ c = 7) as [-> | [-> | [-> | [-> | [-> | [-> | ->]]]]]] by lia.
  - exact line_type_ok.
  - exact quad_type_ok.
  - exact tri_type_ok.
  - exact hex_type_ok.
  - exact tet_type_ok.
  - exact prism_type_ok.
  - exact pyramid_type_ok.
Qed.

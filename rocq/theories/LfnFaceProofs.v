(** Elements that meet at a face: the cells at a face, the ancestor of a face, and the neighbour of the same level. *)
From Coq Require Import Sorting.Sorted.
From Verif Require Import Prelude PathSpec SchemeModel SchemeSpec SchemeProofs SchemeOrderProofs LeafModel LeafSpec LeafProofs SearchProofs.
From Verif Require Import FaceModel FaceSpec FaceProofs LfnSpec.
Set Implicit Arguments.

Section one_class.
Variable S : scheme.
Hypothesis LW : laws S.
Variable F : faces S.
Hypothesis FL : flaws F.
Notation elt := (elt S).
Notation M := (s_maxlevel S).
Implicit Types e x y c a b : elt.
Implicit Types f g h : Z.

Lemma face_descend_unique n : forall e f f' x g, valid e -> s_level e + Z.of_nat n <= M -> is_face F e f -> is_face F e f' -> In (x, g) (face_descend F n e f) -> In (x, g) (face_descend F n e f') -> f = f'.
Proof.
  induction n as [|n IH]; intros e f f' x g V L Hf Hf' H H'; cbn [face_descend] in *.
  - destruct H as [H|[]]. destruct H' as [H'|[]]. congruence.
  - apply in_flat_map in H, H'. destruct H as ([c h] & Ic & H). destruct H' as ([c' h'] & Ic' & H'). cbn [fst snd] in *.
    destruct (face_child LW FL V (ltac:(lia) : s_level e < M) Hf Ic) as (Vc & Lc & _ & Hh & i & Hi & Ei). destruct (face_child LW FL V (ltac:(lia) : s_level e < M) Hf' Ic') as (Vc' & Lc' & _ & Hh' & i' & Hi' & Ei').
    destruct (face_descend_in LW FL Vc (ltac:(lia) : s_level c + Z.of_nat n <= M) Hh H) as (_ & _ & B & _). destruct (face_descend_in LW FL Vc' (ltac:(lia) : s_level c' + Z.of_nat n <= M) Hh' H') as (_ & _ & B' & _).
    assert (EC : c = c'). { rewrite Ei, Ei' in *. now rewrite (child_unique LW V (ltac:(lia) : s_level e < M) Hi Hi' B B'). }
    rewrite <- EC in *. assert (EH := IH c h h' x g Vc ltac:(lia) Hh Hh' H H'). rewrite <- EH in *. rewrite Ei in Hh, Ic, Ic'. destruct (fl_parent_face FL V (i := i) ltac:(lia) Hi Hh) as [_ Q].
    apply Q in Ic, Ic'; auto. congruence.
Qed.
Lemma ancestor_face_ok n : forall e f x g, valid e -> s_level e + Z.of_nat n <= M -> is_face F e f -> In (x, g) (face_descend F n e f) -> ancestor_face_loop F n x g = f.
Proof.
  induction n as [|n IH]; intros e f x g V L Hf H; cbn [ancestor_face_loop].
  - cbn [face_descend] in H. destruct H as [H|[]]. congruence.
  - replace (Datatypes.S n) with (n + 1)%nat in H by lia. rewrite face_descend_add in H. apply in_flat_map in H. destruct H as ([c h] & Ic & H). cbn [fst snd face_descend] in H.
    destruct (face_descend_in LW FL V (ltac:(lia) : s_level e + Z.of_nat n <= M) Hf Ic) as (Vc & Lc & _ & Hh). apply in_flat_map in H. destruct H as ([x' g'] & H & E). destruct E as [E|[]]. cbn [fst snd] in E. injection E as -> ->.
    destruct (face_child LW FL Vc (ltac:(lia) : s_level c < M) Hh H) as (Vx & Lx & _ & Hg & i & Hi & Ei). rewrite Ei in *.
    destruct (fl_parent_face FL Vc (i := i) ltac:(lia) Hi Hg) as [_ Q]. apply Q in H; [|exact Hh]. rewrite <- H. unfold is_face in Hh. destruct (Z.eqb_spec h (-1)) as [C|_]; [lia|].
    destruct (valid_child LW Vc (ltac:(lia) : s_level c < M) Hi) as (_ & _ & Ep & _). rewrite Ep. apply (IH e f c h); auto. lia.
Qed.

Variable ml : Z.
Hypothesis ML : ml <= M.
(** a and b share a cell of level ml at the faces f and g *)
Definition touch a f b g : Prop := exists z h, In (z, h) (face_descend F (Z.to_nat (ml - s_level a)) a f) /\ In (z, h) (face_descend F (Z.to_nat (ml - s_level b)) b g).
Lemma touch_sym a f b g : touch a f b g <-> touch b g a f.
Proof. split; intros (z & h & A & B); exists z, h; auto. Qed.
Lemma touch_below a f b g : below a b -> s_level b <= ml -> is_face F a f -> is_face F b g -> (touch a f b g <-> In (b, g) (face_descend F (Z.to_nat (s_level b - s_level a)) a f)).
Proof.
  intros B L Hf Hg. destruct (below_valid B) as [Va Vb]. pose proof (proj1 (below_level LW B)) as LE. replace (Z.to_nat (ml - s_level a)) with (Z.to_nat (s_level b - s_level a) + Z.to_nat (ml - s_level b))%nat by lia.
  unfold touch. replace (Z.to_nat (ml - s_level a)) with (Z.to_nat (s_level b - s_level a) + Z.to_nat (ml - s_level b))%nat by lia. setoid_rewrite face_descend_add. split.
  - intros (z & h & H1 & H2). apply in_flat_map in H1. destruct H1 as ([c k] & Ic & H1). cbn [fst snd] in H1. destruct (face_descend_in LW FL Va (ltac:(lia) : s_level a + Z.of_nat (Z.to_nat (s_level b - s_level a)) <= M) Hf Ic) as (Vc & Lc & Bc & Hk).
    destruct (face_descend_in LW FL Vc (ltac:(lia) : s_level c + Z.of_nat (Z.to_nat (ml - s_level b)) <= M) Hk H1) as (_ & _ & B1 & _). destruct (face_descend_in LW FL Vb (ltac:(lia) : s_level b + Z.of_nat (Z.to_nat (ml - s_level b)) <= M) Hg H2) as (_ & _ & B2 & _).
    assert (EC : c = b). { destruct (below_linear LW B1 B2) as [Q|Q]; destruct (below_level LW Q) as [_ Q2]; [apply Q2|symmetry; apply Q2]; lia. }
    rewrite EC in *. rewrite (face_descend_unique (n := Z.to_nat (ml - s_level b)) (e := b) (f := k) (f' := g) (x := z) (g := h)) in Ic; auto. lia.
  - intros H. destruct (face_descend F (Z.to_nat (ml - s_level b)) b g) as [|[z h] r] eqn:E; [exfalso; exact (face_descend_ne LW FL Vb (ltac:(lia) : s_level b + Z.of_nat (Z.to_nat (ml - s_level b)) <= M) Hg E)|].
    exists z, h. split; [|now left]. apply in_flat_map. exists (b, g). split; [exact H|]. cbn [fst snd]. rewrite E. now left.
Qed.
Lemma touch_related a f b g : valid a -> valid b -> s_level a <= ml -> s_level b <= ml -> is_face F a f -> is_face F b g -> touch a f b g -> below a b \/ below b a.
Proof.
  intros Va Vb La Lb Hf Hg (z & h & H1 & H2). destruct (face_descend_in LW FL Va (ltac:(lia) : s_level a + Z.of_nat (Z.to_nat (ml - s_level a)) <= M) Hf H1) as (_ & _ & B1 & _). destruct (face_descend_in LW FL Vb (ltac:(lia) : s_level b + Z.of_nat (Z.to_nat (ml - s_level b)) <= M) Hg H2) as (_ & _ & B2 & _).
  exact (below_linear LW B1 B2).
Qed.
End one_class.
Arguments touch {S}.

Section mesh.
Variable cls : Z -> scheme.
Variable fc : forall t, faces (cls t).
Notation leaf := {t : Z & elt (cls t)}.
Notation el t e := (existT (fun s => elt (cls s)) t e).
Variable nb : leaf -> Z -> option (leaf * Z).
Variables K ml : Z.
Hypothesis HM : mesh_ok fc nb K ml.

(** the leaves that meet a face are in the tree of the neighbour and share a cell with it at its face *)
Lemma meet_iff t (e : elt (cls t)) f t' (n : elt (cls t')) f' u (y : elt (cls u)) g : 0 <= t < K -> valid e -> s_level e <= ml -> is_face (fc t) e f -> nb (el t e) f = Some (el t' n, f') ->
  (meet fc nb ml (el t e) f (el u y) g <-> exists E : u = t', let y' := eq_rect u (fun u => elt (cls u)) y t' E in is_face (fc t') y' g /\ touch (fc t') ml n f' y' g).
Proof.
  intros Ht V L Hf N. destruct (mo_neighbor HM Ht V L Hf N) as (Ht' & Vn & Ln & Hf' & N'). destruct (class_ok HM Ht) as (LW & FL & ML). destruct (class_ok HM Ht') as (LW' & FL' & ML').
  unfold meet, face_cells, leaf_face, leaf_level. cbn [projT1 projT2]. split.
  - intros (_ & Hg & x & a & z & b & H1 & H2 & E). destruct (nb_descend HM (n := Z.to_nat (ml - s_level e)) Ht V ltac:(lia) Hf N H1) as (x' & g' & I & E').
    rewrite E' in E. injection E as E2 E3 E4. assert (Eu : u = t') by congruence. subst u. apply (Eqdep_dec.inj_pair2_eq_dec Z Z.eq_dec) in E3. subst x' g'. exists eq_refl. cbn [eq_rect]. split; [exact Hg|]. exists z, b. rewrite Ln. auto.
  - intros (Eu & H). subst u. cbn [eq_rect] in H. destruct H as (Hg & z & b & H1 & H2). split; [exact Hf|]. split; [exact Hg|].
    destruct (nb_descend HM (n := Z.to_nat (ml - s_level n)) Ht' Vn ltac:(lia) Hf' N' H1) as (x & a & I & E). exists x, a, z, b. rewrite <- Ln. split; [exact I|]. split; [exact H2|].
    destruct (face_descend_in LW' FL' Vn (ltac:(lia) : s_level n + Z.of_nat (Z.to_nat (ml - s_level n)) <= s_maxlevel (cls t')) Hf' H1) as (Vz & Lz & _ & Hb). apply (mo_neighbor HM Ht' Vz ltac:(lia) Hb E).
Qed.
Lemma meet_same t (e : elt (cls t)) f t' (n : elt (cls t')) f' (y : elt (cls t')) g : 0 <= t < K -> valid e -> s_level e <= ml -> is_face (fc t) e f -> nb (el t e) f = Some (el t' n, f') ->
  (meet fc nb ml (el t e) f (el t' y) g <-> is_face (fc t') y g /\ touch (fc t') ml n f' y g).
Proof.
  intros Ht V L Hf N. rewrite (meet_iff y g Ht V L Hf N). split; [|intros H; exists eq_refl; exact H]. intros (E & H). rewrite (Eqdep_dec.UIP_dec Z.eq_dec E eq_refl) in H. exact H.
Qed.
Lemma meet_none t (e : elt (cls t)) f m g : 0 <= t < K -> valid e -> s_level e <= ml -> is_face (fc t) e f -> nb (el t e) f = None -> ~ meet fc nb ml (el t e) f m g.
Proof.
  intros Ht V L Hf N (_ & _ & x & a & y & b & H1 & _ & E). unfold face_cells, leaf_level in H1. cbn [projT1 projT2] in *. assert (Q := nb_descend_none HM (n := Z.to_nat (ml - s_level e)) Ht V ltac:(lia) Hf N H1). rewrite Q in E. discriminate.
Qed.
(** an ancestor of the neighbour that does not contain the element has a face at which they meet *)
Lemma up_face t (e : elt (cls t)) f t' (n : elt (cls t')) f' (y : elt (cls t')) : 0 <= t < K -> valid e -> s_level e <= ml -> is_face (fc t) e f -> nb (el t e) f = Some (el t' n, f') ->
  below y n -> (in_leaf (el t' y) (el t e) -> el t' y = el t e) -> exists g, is_face (fc t') y g /\ In (n, f') (face_descend (fc t') (Z.to_nat (s_level n - s_level y)) y g).
Proof.
  intros Ht V L Hf N B NI. destruct (mo_neighbor HM Ht V L Hf N) as (Ht' & Vn & Ln & Hf' & N'). destruct (class_ok HM Ht') as (LW' & FL' & ML').
  destruct (nb_cases HM Ht' B ltac:(lia) Hf') as [H|(z & g' & E & Bz)]; [exact H|]. rewrite N' in E. injection E as E1 E2 E3. assert (Et : t = t') by congruence. subst t'. apply (Eqdep_dec.inj_pair2_eq_dec Z Z.eq_dec) in E2. subst z g'.
  assert (Q : el t y = el t e) by (apply NI; exists t, y, e; auto). apply (Eqdep_dec.inj_pair2_eq_dec Z Z.eq_dec) in Q. subst y. assert (EN : e = n) by (apply (below_level LW' B); lia). subst n. exists f'. split; [exact Hf'|]. rewrite Z.sub_diag. cbn [Z.to_nat face_descend]. now left.
Qed.
End mesh.

(** The classes of elements whose trees can be connected to meshes of different classes. *)
From Verif Require Import Prelude PathSpec GeoSpec SchemeModel SchemeSpec FaceModel SchemeProofs SchemeOrderProofs SchemeInstances FaceSpec FaceProofs FaceInstances NeighborModel NeighborSpec NeighborProofs NeighborInstances EclassModel.
From Verif Require Import BitLemmas SimplexModel SimplexSpec SimplexProofs SimplexPathProofs SimplexGeoProofs SimplexAncProofs SimplexTileProofs SimplexFaceProofs SimplexFaceChildProofs LineModel LineSpec LineProofs BoundaryProofs TransformProofs.
From Verif Require Import HyperModel HyperSpec HyperProofs HyperScheme HyperFlaws HyperCrossProofs CubeModel TransferProofs CubeScheme BdyModel HybridModel HybridSpec HybridProofs.

Section single.
Variable S : scheme.
Hypothesis LW : laws S.
Variable F : faces S.
Hypothesis FL : flaws F.
Variable X : crossing S.
Variables (NF NO NC c : Z).
Variable rb : elt S -> Z -> bool.
Variable bv : x_bd X -> Z -> Prop.
Variable bch : x_bd X -> Z -> x_bd X.
Hypothesis XO : crossing_ok F NF NO rb bv bch NC.
Variable inj : x_bd X -> bdy.
Variable proj : bdy -> option (x_bd X).
Hypothesis HE : 1 <= x_eclass X < 8.
Hypothesis HNF : eclass_num_faces (x_eclass X) = NF.
Hypothesis HT : forall r, 0 <= r < NF -> eclass_face_types (x_eclass X) r = c.
Hypothesis HM : s_maxlevel S <= BMAX c.
Hypothesis HN : bnc c = NC.
Hypothesis HP : forall b, proj (inj b) = Some b.
Hypothesis HV : forall d L, bvalid c d L <-> exists b, d = inj b /\ bv b L.
Hypothesis HB : forall b j, bchild (inj b) j = inj (bch b j).
Hypothesis HR : forall f, is_face F (s_root S) f <-> 0 <= f < NF.
Hypothesis HRB : forall f, is_face F (s_root S) f -> rb (s_root S) f = true /\ x_tree_face X (s_root S) f = f.
Notation M := (s_maxlevel S).
Let ins (e : elt S) f : option (elt S * Z) := let n := x_neighbor X e f in if x_inside X (fst n) then Some n else None.

Lemma ins_some (e : elt S) f n g : ins e f = Some (n, g) -> x_neighbor X e f = (n, g) /\ x_inside X n = true.
Proof. unfold ins. cbn zeta. destruct (x_neighbor X e f) as [n' g']. cbn [fst]. destruct (x_inside X n') eqn:I; intros H; [|discriminate]. injection H as -> ->. auto. Qed.
Lemma ins_of (e : elt S) f n g : x_neighbor X e f = (n, g) -> x_inside X n = true -> ins e f = Some (n, g).
Proof. unfold ins. cbn zeta. intros -> I. cbn [fst]. now rewrite I. Qed.
Lemma single_type_ok : type_ok (single_type F X rb inj proj).
Proof.
  assert (OUT : forall (e : elt S) f, valid e -> is_face F e f -> (rb e f = true <-> ins e f = None)).
  { intros e f V Hf. rewrite (xo_outside XO V Hf). unfold ins. cbn zeta. destruct (x_inside X _); cbn [negb]; split; intros H; try reflexivity; discriminate. }
  assert (INR : forall (e : elt S) f n g, valid e -> is_face F e f -> ins e f = Some (n, g) -> rb e f = false).
  { intros e f n g V Hf I. destruct (rb e f) eqn:R; [|reflexivity]. apply (OUT e f V Hf) in R. rewrite R in I. discriminate. }
  assert (BI : forall (e : elt S) f d, valid e -> is_face F e f -> rb e f = true -> (do b <- x_boundary X e f; Ok (inj b)) = Ok d -> exists b, d = inj b /\ x_boundary X e f = Ok b).
  { intros e f d V Hf R H. destruct (xo_boundary XO V Hf R) as (_ & b & B & _). rewrite B in H. cbn [obind] in H. injection H as <-. eauto. }
  constructor; cbn [single_type tt_eclass tt_scheme tt_faces tt_inside tt_root_boundary tt_tree_face tt_boundary tt_extrude]; rewrite ?HNF.
  - exact HE.
  - exact LW.
  - exact FL.
  - intros r Hr. rewrite HT by exact Hr. exact HM.
  - exact HR.
  - intros f Hf. apply HRB. now apply HR.
  - exact OUT.
  - intros e f n g V Hf I. assert (R := INR e f n g V Hf I). assert (XX := xo_inside XO V Hf R). apply ins_some in I. destruct I as [I _]. rewrite I in XX. destruct XX as (X1 & X2 & X3 & X4).
    repeat (split; [assumption|]). apply ins_of; [exact X4|apply (xo_valid XO V)].
  - intros e f n h c' g V L Hf I Hc. assert (R := INR e f n h V Hf I). assert (XX := xo_inside XO V Hf R). apply ins_some in I. destruct I as [I _]. rewrite I in XX. destruct XX as (X1 & X2 & X3 & X4).
    assert (RI := xo_refine XO V L Hf R Hc). rewrite I in RI. cbn [fst snd] in RI. destruct (x_neighbor X c' g) as [m k] eqn:EN. exists m, k. split; [|exact RI].
    destruct (FaceProofs.face_child LW FL X1 ltac:(lia) X3 RI) as (V' & _). cbn [fst]. now rewrite (xo_valid XO V').
  - intros e f c' g V L Hf R Hc. exact (xo_rb_child XO V L Hf R Hc).
  - intros e i g V L Hi Hg P. destruct (xo_inner XO V L Hi Hg P) as (j & g' & Hj & E). exists j, g'. split; [exact Hj|]. apply ins_of; [exact E|]. apply (xo_valid XO). apply (valid_child LW V L Hj).
  - intros e f V Hf R. destruct (xo_boundary XO V Hf R) as (RF & b & B & BV & XE). split; [exact RF|]. exists (inj b). rewrite B, HT by exact RF. cbn [obind]. split; [reflexivity|]. split; [apply HV; eauto|]. rewrite HP, XE. reflexivity.
  - intros d L rf Hrf V HL. rewrite HT in V by exact Hrf. apply HV in V. destruct V as (b & -> & V). rewrite HP. assert (XX := xo_extrude XO V HL Hrf). destruct (x_extrude X b rf) as [e f]. exists e, f. split; [reflexivity|]. destruct XX as (X1 & X2 & X3 & X4 & X5 & X6). rewrite X6. cbn [obind]. auto 10.
  - intros e f c' g d V L Hf R Hc B. destruct (BI e f d V Hf R B) as (b & -> & Bb). destruct (xo_boundary XO V Hf R) as (RF & _). rewrite HT by exact RF. rewrite HN. destruct (xo_bchild XO V L Hf R Hc Bb) as (j & Hj & Bj). exists j. split; [exact Hj|]. rewrite Bj. cbn [obind]. now rewrite HB.
  - intros e f d j V L Hf R B. destruct (BI e f d V Hf R B) as (b & -> & Bb). destruct (xo_boundary XO V Hf R) as (RF & _). rewrite HT by exact RF. rewrite HN. intros Hj. destruct (xo_bchild_onto XO V L Hf R Bb Hj) as (c' & g & Hc & Bj). exists c', g. split; [exact Hc|]. rewrite Bj. cbn [obind]. now rewrite HB.
Qed.
End single.

Lemma line_type_ok : type_ok line_type.
Proof.
  unfold line_type. apply (single_type_ok line_laws line_flaws (line_crossing_ok 1) (c := 0)).
  - change (1 <= 1 < 8). lia.
  - reflexivity.
  - intros r Hr. change (x_eclass line_crossing) with 1. assert (r = 0 \/ r = 1) as [-> | ->] by lia; reflexivity.
  - change (30 <= 30). lia.
  - reflexivity.
  - reflexivity.
  - intros d L. destruct d; cbn [bvalid]; (split; [intros [E V]; try discriminate E; eauto|intros (b & E & V); try discriminate E; injection E as ->; auto]).
  - reflexivity.
  - intros f. reflexivity.
  - intros f Hf. change (0 <= f < 2) in Hf. assert (f = 0 \/ f = 1) as [-> | ->] by lia; split; reflexivity.
Qed.
Lemma quad_type_ok : type_ok quad_type.
Proof.
  unfold quad_type. apply (single_type_ok (cube_laws false) (cube_flaws false) quad_crossing_ok (c := 1)).
  - change (1 <= 2 < 8). lia.
  - reflexivity.
  - intros r Hr. change (x_eclass quad_crossing) with 2. assert (r = 0 \/ r = 1 \/ r = 2 \/ r = 3) as [-> | [-> | [-> | ->]]] by lia; reflexivity.
  - change (29 <= 30). lia.
  - reflexivity.
  - reflexivity.
  - intros d L. destruct d as [l|l|l|l]; cbn [bvalid]; (split; [intros [E V]; try discriminate E; exists l; rewrite <- lwf_hin; auto|intros (b & E & V); try discriminate E; injection E as ->; rewrite lwf_hin; auto]).
  - reflexivity.
  - intros f. reflexivity.
  - intros f Hf. change (0 <= f < 4) in Hf. split; [|reflexivity].
    assert (T : forallb (c_is_root_boundary false (c_root false)) (zseq 0 4) = true) by (vm_compute; reflexivity). rewrite forallb_forall in T. apply T. apply in_zseq. lia.
Qed.
Lemma hex_type_ok : type_ok hex_type.
Proof.
  unfold hex_type. apply (single_type_ok (cube_laws true) (cube_flaws true) hex_crossing_ok (c := 2)).
  - change (1 <= 4 < 8). lia.
  - reflexivity.
  - intros r Hr. change (x_eclass hex_crossing) with 4. assert (r = 0 \/ r = 1 \/ r = 2 \/ r = 3 \/ r = 4 \/ r = 5) as [-> | [-> | [-> | [-> | [-> | ->]]]]] by lia; reflexivity.
  - change (c_maxlevel true <= 29). unfold c_maxlevel. lia.
  - reflexivity.
  - reflexivity.
  - intros d L. destruct d as [l|l|l|l]; cbn [bvalid]; (split; [intros [E V]; try discriminate E; exists l; auto|intros (b & E & V); try discriminate E; injection E as ->; auto]).
  - reflexivity.
  - intros f. reflexivity.
  - intros f Hf. change (0 <= f < 6) in Hf. split; [|reflexivity].
    assert (T : forallb (c_is_root_boundary true (c_root true)) (zseq 0 6) = true) by (vm_compute; reflexivity). rewrite forallb_forall in T. apply T. apply in_zseq. lia.
Qed.
Lemma tri_type_ok : type_ok tri_type.
Proof.
  unfold tri_type. apply (single_type_ok (simplex_laws false) (simplex_flaws false) tri_crossing_ok (c := 1)).
  - change (1 <= 3 < 8). lia.
  - reflexivity.
  - intros r Hr. change (x_eclass tri_crossing) with 3. assert (r = 0 \/ r = 1 \/ r = 2) as [-> | [-> | ->]] by lia; reflexivity.
  - change (29 <= 30). lia.
  - reflexivity.
  - reflexivity.
  - intros d L. destruct d as [l|l|l|l]; cbn [bvalid]; (split; [intros [E V]; try discriminate E; exists l; auto|intros (b & E & V); try discriminate E; injection E as ->; auto]).
  - reflexivity.
  - intros f. reflexivity.
  - intros f Hf. change (0 <= f < 3) in Hf. assert (f = 0 \/ f = 1 \/ f = 2) as [-> | [-> | ->]] by lia; split; vm_compute; reflexivity.
Qed.
Lemma tet_type_ok : type_ok tet_type.
Proof.
  unfold tet_type. apply (single_type_ok (simplex_laws true) (simplex_flaws true) tet_crossing_ok (c := 3)).
  - change (1 <= 5 < 8). lia.
  - reflexivity.
  - intros r Hr. change (x_eclass tet_crossing) with 5. assert (r = 0 \/ r = 1 \/ r = 2 \/ r = 3) as [-> | [-> | [-> | ->]]] by lia; reflexivity.
  - change (21 <= 29). lia.
  - reflexivity.
  - reflexivity.
  - intros d L. destruct d as [l|l|l|l]; cbn [bvalid]; (split; [intros [E V]; try discriminate E; exists l; auto|intros (b & E & V); try discriminate E; injection E as ->; auto]).
  - reflexivity.
  - intros f. reflexivity.
  - intros f Hf. change (0 <= f < 4) in Hf. assert (f = 0 \/ f = 1 \/ f = 2 \/ f = 3) as [-> | [-> | [-> | ->]]] by lia; split; vm_compute; reflexivity.
Qed.

(** C43: the face neighbours of a forest on meshes of lines, triangles or tetrahedra, connected at their faces in any way.  The vocabulary
    is in NeighborSpec.v ([connected]) and FaceSpec.v ([face_children], [face_descend], [is_face]). *)
From Verif Require Import Prelude PathSpec LineModel SimplexModel SchemeModel SchemeSpec SchemeProofs SchemeInstances FaceModel FaceSpec FaceInstances NeighborModel NeighborSpec NeighborProofs NeighborInstances NeighborBoundaryProofs.
Set Implicit Arguments.

(** the face f of e is a part of the face r of its tree *)
Definition on_tree_face {S : scheme} (F : faces S) (e : elt S) (f r : Z) : Prop :=
  is_face F (s_root S) r /\ In (e, f) (face_descend F (Z.to_nat (s_level e)) (s_root S) r).
(** the elements x and y are neighbours at their faces f and g *)
Definition meet {S : scheme} (X : crossing S) (conn : connection) (t : Z) (e : elt S) (f t' : Z) (e' : elt S) (f' : Z) : Prop :=
  element_face_neighbor X conn (existT _ t e) f = Ok (Some (existT _ t' e', f')) /\ element_face_neighbor X conn (existT _ t' e') f' = Ok (Some (existT _ t e, f)).
(** What a face neighbour function has to satisfy: it never fails; *)
Definition neighbors_ok {S : scheme} (F : faces S) (X : crossing S) (K : Z) (conn : connection) : Prop :=
  (forall t e f, 0 <= t < K -> valid e -> is_face F e f ->
    (** at the boundary of the domain there is no neighbour, *)
    (exists r, on_tree_face F e f r /\ conn t r = None /\ element_face_neighbor X conn (existT _ t e) f = Ok None) \/
    (** inside of the tree the neighbour is in the same tree, on the same level, and e is its neighbour, *)
    ((forall r, ~ on_tree_face F e f r) /\ exists e' f', valid e' /\ s_level e' = s_level e /\ is_face F e' f' /\ meet X conn t e f t e' f') \/
    (** and at a face r of the tree it is at the connected face r' of the connected tree *)
    (exists r t' r' o e' f', on_tree_face F e f r /\ conn t r = Some (t', r', o) /\ 0 <= t' < K /\ valid e' /\ s_level e' = s_level e /\ is_face F e' f' /\ on_tree_face F e' f' r' /\ meet X conn t e f t' e' f')) /\
  (** the children of an element at a face meet the children of the neighbour at its face *)
  (forall t e f t' e' f' c g, 0 <= t < K -> valid e -> s_level e < s_maxlevel S -> is_face F e f ->
    meet X conn t e f t' e' f' -> In (c, g) (face_children F e f) -> exists c' g', In (c', g') (face_children F e' f') /\ meet X conn t c g t' c' g') /\
  (** and a face of a child that is not a part of a face of the parent is between two children of the parent *)
  (forall t e i g, 0 <= t < K -> valid e -> s_level e < s_maxlevel S -> 0 <= i < s_num_children e -> is_face F (s_child e i) g ->
    (forall f, is_face F e f -> ~ In (s_child e i, g) (face_children F e f)) -> exists j g', 0 <= j < s_num_children e /\ meet X conn t (s_child e i) g t (s_child e j) g').

Section general.
Variable S : scheme.
Hypothesis LW : laws S.
Variable F : faces S.
Hypothesis FL : flaws F.
Variable X : crossing S.
Variables (NF NO : Z).
Variable rb : elt S -> Z -> bool.
Variable bvalid : x_bd X -> Z -> Prop.
Variable bchild : x_bd X -> Z -> x_bd X.
Variable NC : Z.
Hypothesis XO : crossing_ok F NF NO rb bvalid bchild NC.
Hypothesis RB : forall f, is_face F (s_root S) f -> 0 <= f < NF /\ rb (s_root S) f = true /\ x_tree_face X (s_root S) f = f.
Variables (K : Z) (conn : connection).
Hypothesis HC : connected NF NO K conn.
Lemma nb_of t (e : elt S) f r : element_face_neighbor X conn (existT _ t e) f = Ok r -> neighbor X conn (existT _ t e) f = r.
Proof. intros E. unfold neighbor. now rewrite E. Qed.
Lemma meet_of t (e : elt S) f t' (e' : elt S) f' : 0 <= t < K -> valid e -> is_face F e f -> neighbor X conn (existT _ t e) f = Some (existT _ t' e', f') -> meet X conn t e f t' e' f'.
Proof.
  intros Ht V Hf N. assert (RB' : forall f, is_face F (s_root S) f -> rb (s_root S) f = true /\ x_tree_face X (s_root S) f = f) by (intros g Hg; apply RB; exact Hg).
  destruct (neighbor_cases LW FL XO RB' HC Ht V Hf) as [(r & _ & _ & _ & E)|[(_ & e2 & f2 & _ & _ & _ & E & E')|(r & t2 & r' & o & e2 & f2 & _ & _ & _ & _ & _ & _ & _ & _ & E & E')]].
  - rewrite (nb_of E) in N. discriminate.
  - rewrite (nb_of E) in N. apply some_inj in N. destruct N as (-> & -> & ->). split; assumption.
  - rewrite (nb_of E) in N. apply some_inj in N. destruct N as (-> & -> & ->). split; assumption.
Qed.
Theorem neighbors_all : neighbors_ok F X K conn.
Proof.
  assert (RB' : forall f, is_face F (s_root S) f -> rb (s_root S) f = true /\ x_tree_face X (s_root S) f = f) by (intros g Hg; apply RB; exact Hg).
  assert (M0 : 0 <= s_maxlevel S <= s_maxlevel S) by (pose proof (law_max LW); lia). assert (HM := mesh_of_connection LW FL XO HC M0). split; [|split].
  - intros t e f Ht V Hf. destruct (neighbor_cases LW FL XO RB' HC Ht V Hf) as [(r & A & B & C & E)|[(NO' & e2 & f2 & V2 & L2 & F2 & E & E')|(r & t2 & r' & o & e2 & f2 & A & B & C & V2 & L2 & F2 & R2 & H2 & E & E')]].
    + left. exists r. split; [split; assumption|]. auto.
    + right. left. split; [intros r [A B]; exact (NO' r A B)|]. exists e2, f2. split; [exact V2|]. split; [exact L2|]. split; [exact F2|]. split; assumption.
    + right. right. destruct (RB A) as [RF _]. destruct (HC Ht RF C) as (Ht' & Hr' & _ & _). exists r, t2, r', o, e2, f2. split; [split; assumption|]. split; [exact C|]. split; [exact Ht'|]. split; [exact V2|]. split; [exact L2|]. split; [exact F2|]. split; [split; assumption|split; assumption].
  - intros t e f t' e' f' c g Ht V L Hf [E _] Hc. destruct (mo_refine HM Ht V L Hf (nb_of E) Hc) as (c' & g' & Hc' & N). exists c', g'. split; [exact Hc'|]. destruct (FaceProofs.face_child LW FL V L Hf Hc) as (Vc & _ & _ & Hg & _). exact (meet_of Ht Vc Hg N).
  - intros t e i g Ht V L Hi Hg NP. assert (P : f_parent_face F (s_child e i) g = -1). { destruct (fl_parent_face FL V L Hi Hg) as [[C|C] Q]; [exact C|]. destruct (NP _ C). now apply Q. }
    destruct (mo_inner HM Ht V L Hi Hg P) as (j & g' & Hj & N). exists j, g'. split; [exact Hj|]. destruct (valid_child LW V L Hi) as (Vc & _). exact (meet_of Ht Vc Hg N).
Qed.
End general.

(** C43 *)
Theorem C43_line_neighbors : forall K conn, connected 2 1 K conn -> neighbors_ok line_faces line_crossing K conn.
Proof.
  intros K conn HC. apply (@neighbors_all line_scheme line_laws line_faces line_flaws line_crossing 2 1 _ _ _ _ (line_crossing_ok 1)); [|exact HC].
  intros f Hf. change (0 <= f < 2) in Hf. split; [exact Hf|]. assert (C : f = 0 \/ f = 1) by lia. destruct C as [-> | ->]; split; reflexivity.
Qed.
Print Assumptions C43_line_neighbors.
Theorem C43_triangle_neighbors : forall K conn, connected 3 2 K conn -> neighbors_ok (simplex_faces false) tri_crossing K conn.
Proof.
  intros K conn HC. apply (@neighbors_all (simplex_scheme false) (simplex_laws false) (simplex_faces false) (simplex_flaws false) tri_crossing 3 2 _ _ _ _ tri_crossing_ok); [|exact HC].
  intros f Hf. change (0 <= f < 3) in Hf. split; [exact Hf|]. assert (C : f = 0 \/ f = 1 \/ f = 2) by lia. destruct C as [-> |[-> | ->]]; split; reflexivity.
Qed.
Print Assumptions C43_triangle_neighbors.
Theorem C43_tetrahedron_neighbors : forall K conn, connected 4 3 K conn -> neighbors_ok (simplex_faces true) tet_crossing K conn.
Proof.
  intros K conn HC. apply (@neighbors_all (simplex_scheme true) (simplex_laws true) (simplex_faces true) (simplex_flaws true) tet_crossing 4 3 _ _ _ _ tet_crossing_ok); [|exact HC].
  intros f Hf. change (0 <= f < 4) in Hf. split; [exact Hf|]. assert (C : f = 0 \/ f = 1 \/ f = 2 \/ f = 3) by lia. destruct C as [-> |[-> |[-> | ->]]]; split; reflexivity.
Qed.
Print Assumptions C43_tetrahedron_neighbors.

(** ** example: two tetrahedra, the face 1 of the tree 0 is the face 3 of the tree 1, turned; and face 0 of the tree 1 is its face 2 *)
Definition ex_tets : connection := fun t f =>
  if (t =? 0) && (f =? 1) then Some (1, 3, 2) else if (t =? 1) && (f =? 3) then Some (0, 1, 2) else
  if (t =? 1) && (f =? 0) then Some (1, 2, 1) else if (t =? 1) && (f =? 2) then Some (1, 0, 1) else None.
Example ex_tets_connected : connected 4 3 2 ex_tets.
Proof.
  intros t f t' f' o Ht Hf. assert (C : (t = 0 \/ t = 1) /\ (f = 0 \/ f = 1 \/ f = 2 \/ f = 3)) by lia.
  destruct C as [[-> | ->] [-> |[-> |[-> | ->]]]]; intros E; vm_compute in E; try discriminate; injection E as <- <- <-; repeat split; (lia || reflexivity).
Qed.
Example ex_tet_neighbor : meet tet_crossing ex_tets 0 (gwalk (simplex_scheme true) [0; 4]) 1 1 (gwalk (simplex_scheme true) [4; 1]) 3 /\
  element_face_neighbor tet_crossing ex_tets (existT _ 0 (s_root (simplex_scheme true))) 0 = Ok None /\ neighbors_ok (simplex_faces true) tet_crossing 2 ex_tets.
Proof. split; [split; reflexivity|]. split; [reflexivity|]. exact (C43_tetrahedron_neighbors ex_tets_connected). Qed.

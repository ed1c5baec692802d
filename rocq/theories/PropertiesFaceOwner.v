(** C44: the owners of an element and of its faces.  [owners] and [face_owners] below say which processes these are; the rest of the vocabulary is in
    FaceSpec.v ([face_descend]: the descendants at a face) and OwnerSpec.v ([stores], [distributed]). *)
From Coq Require Import Sorting.Sorted.
From Verif Require Import Prelude SchemeModel SchemeSpec SchemeProofs SchemeOrderProofs SchemeInstances PartitionSpec OwnerModel OwnerSpec OwnerMainProofs ExampleLine PropertiesOwner.
From Verif Require Import FaceModel FaceSpec FaceProofs GhostModel GhostOwnerProofs NeighborModel NeighborSpec NeighborInstances PropertiesGhost.
Set Implicit Arguments.

(** q stores the leaf that contains one of the descendants of e of level ml at its face f *)
Definition face_owners {cls : Z -> scheme} (fc : forall t, faces (cls t)) (P ml : Z) (loc : Z -> list {t : Z & elt (cls t)}) (t : Z) (e : elt (cls t)) (f q : Z) : Prop :=
  0 <= q < P /\ exists x g, In (x, g) (face_descend (fc t) (Z.to_nat (ml - s_level e)) e f) /\ stores loc q t x.
(** q stores the leaf that contains one of the descendants of e of level ml *)
Definition owners {cls : Z -> scheme} (P ml : Z) (loc : Z -> list {t : Z & elt (cls t)}) (t : Z) (e : elt (cls t)) (q : Z) : Prop :=
  0 <= q < P /\ exists x, below e x /\ s_level x = ml /\ stores loc q t x.
(** the list of the numbers that satisfy Q, and the least and the greatest of them *)
Definition lists (Q : Z -> Prop) (l : list Z) : Prop := StronglySorted Z.lt l /\ forall q, In q l <-> Q q.
Definition spans (Q : Z -> Prop) (lo up : Z) : Prop := Q lo /\ Q up /\ forall q, Q q -> lo <= q <= up.

Section general.
Variable cls : Z -> scheme.
Notation leaf := {t : Z & elt (cls t)}.
Variables (P K ml : Z) (lv : forall t, list (elt (cls t))) (loc : Z -> list leaf).
Hypothesis D : distributed P K ml lv loc.
Variable fc : forall t, faces (cls t).
Variable nb : leaf -> Z -> option (leaf * Z).
Hypothesis HM : mesh_ok fc nb K ml.
Variable dbg : bool.
Variable to : list Z.
Hypothesis ET : create_tree_offsets P K ml loc = Ok to.
Variable x0 : Z.
Notation eo := (element_offsets P loc).
Notation fd := (create_first_desc P ml loc ++ [x0]).
Lemma face_span t (e : elt (cls t)) f : 0 <= t < K -> valid e -> s_level e <= ml -> is_face (fc t) e f ->
  exists lo up, owners_at_face_bounds fc dbg P ml eo to fd e f 0 (P - 1) = Ok (lo, up) /\ spans (face_owner P ml loc fc e f) lo up.
Proof.
  intros Ht V L Hf. pose proof (HP1 D) as HP. unfold owners_at_face_bounds. destruct (Z.leb_spec (P - 1) 0) as [C|C].
  { exists 0, (P - 1). split; [reflexivity|]. destruct (face_owner_exists D HM Ht V L Hf) as (q & FO). assert (Hq := proj1 FO). assert (q = 0) by lia. subst q. split; [exact FO|]. split; [now replace (P - 1) with 0 by lia|]. intros q [Hq' _]. lia. }
  destruct (first_face D HM Ht V L Hf) as (V1 & L1 & Q1 & M1). destruct (last_face D HM Ht V L Hf) as (V2 & L2 & Q2 & M2).
  destruct (owner_in D dbg ET x0 (lower := 0) (upper := P - 1) (guess := 0) Ht V1 L1) as (p & Hp & Sp & Ep); try lia. rewrite Ep. cbn [obind].
  destruct (owner_in D dbg ET x0 (lower := p) (upper := P - 1) (guess := P - 1) Ht V2 L2) as (q & Hq & Sq & Eq); [lia..|intros s Hs Ss; split; [exact (M1 p s Hp Sp (Q2 s Hs Ss))|lia]|].
  rewrite Eq. cbn [obind]. exists p, q. split; [reflexivity|]. split; [auto|]. split; [auto|]. intros s Hs. split; [exact (M1 p s Hp Sp Hs)|exact (M2 q s Hq Sq Hs)].
Qed.
Lemma elem_span t (e : elt (cls t)) : 0 <= t < K -> valid e -> s_level e <= ml ->
  exists lo up, owners_bounds dbg P ml eo to fd e 0 (P - 1) = Ok (lo, up) /\ spans (elem_owner P ml loc e) lo up.
Proof.
  intros Ht V L. pose proof (HP1 D) as HP. destruct (first_elem HM Ht V L) as (V1 & L1 & B1 & Q1). destruct (last_elem HM Ht V L) as (V2 & L2 & B2 & Q2). cbn zeta in *. set (x := s_first_desc e ml) in *. set (y := s_last_desc e ml) in *.
  destruct (stores_exists D Ht V1 L1) as (p & Hp & Sp). destruct (stores_exists D Ht V2 L2) as (q & Hq & Sq).
  assert (OP : elem_owner P ml loc e p) by (split; [exact Hp|]; exists x; auto). assert (OQ : elem_owner P ml loc e q) by (split; [exact Hq|]; exists y; auto).
  assert (SP : forall s, elem_owner P ml loc e s -> p <= s <= q).
  { intros s (Hs & z & Bz & Lz & Sz). split; [exact (stores_mono D Hp Hs Sp Sz (Q1 z Bz Lz))|]. apply (stores_mono D Hs Hq Sz Sq). destruct (Q2 z Bz Lz) as [->|C]; auto. }
  unfold owners_bounds. destruct (Z.leb_spec (P - 1) 0) as [C|C].
  { exists 0, (P - 1). split; [reflexivity|]. replace (P - 1) with 0 by lia. assert (p = 0) by lia. subst p. split; [exact OP|]. split; [exact OP|]. intros s [Hs _]. lia. }
  fold x y. rewrite (owner_desc_ok D dbg ET x0 Hp V1 L1 Sp) by lia. cbn [obind]. assert (p <= q) by (apply (SP q OQ)). rewrite (owner_desc_ok D dbg ET x0 Hq V2 L2 Sq) by lia. cbn [obind].
  exists p, q. split; [reflexivity|]. split; [exact OP|]. split; [exact OQ|exact SP].
Qed.
End general.

(** C44: the owners at a face *)
Theorem C44_owners_at_face : forall cls P K ml (lv : forall t, list (elt (cls t))) (loc : Z -> list {t : Z & elt (cls t)}) fc nb dbg x0 to t (e : elt (cls t)) f,
  distributed P K ml lv loc -> mesh_ok fc nb K ml -> create_tree_offsets P K ml loc = Ok to -> 0 <= t < K -> valid e -> s_level e <= ml -> is_face (fc t) e f ->
  exists l, owners_at_face fc dbg P ml (element_offsets P loc) to (create_first_desc P ml loc ++ [x0]) e f [] = Ok l /\ lists (face_owners fc P ml loc e f) l.
Proof.
  intros cls P K ml lv loc fc nb dbg x0 to t e f D HM ET Ht V L Hf.
  destruct (owners_at_face_ok D HM dbg ET x0 (e := e) (face := f) (b := (0, P - 1)) Ht V L Hf) as (l & E & SS & I); [split; [cbn; lia|]; split; [cbn; lia|]; intros q [Hq _]; cbn; lia|].
  exists l. split; [exact E|]. split; [exact SS|]. intros q. rewrite I. split; [intros [[]|H]; exact H|intros H; right; exact H].
Qed.
Print Assumptions C44_owners_at_face.
(** C44: the owners on the other side of a face *)
Theorem C44_owners_at_neighbor_face : forall cls P K ml (lv : forall t, list (elt (cls t))) (loc : Z -> list {t : Z & elt (cls t)}) fc nb dbg x0 to t (e : elt (cls t)) f,
  distributed P K ml lv loc -> mesh_ok fc nb K ml -> create_tree_offsets P K ml loc = Ok to -> 0 <= t < K -> valid e -> s_level e <= ml -> is_face (fc t) e f ->
  exists l, owners_at_neigh_face fc nb dbg P ml (element_offsets P loc) to (create_first_desc P ml loc ++ [x0]) e f [] = Ok l /\
    lists (fun q => exists m g, nb (existT (fun t => elt (cls t)) t e) f = Some (m, g) /\ face_owners fc P ml loc (projT2 m) g q) l.
Proof.
  intros cls P K ml lv loc fc nb dbg x0 to t e f D HM ET Ht V L Hf. unfold owners_at_neigh_face. destruct (nb (existT (fun t => elt (cls t)) t e) f) as [[[t' e'] f']|] eqn:N.
  - destruct (mo_neighbor HM Ht V L Hf N) as (Ht' & V' & L' & Hf' & _). destruct (@C44_owners_at_face cls P K ml lv loc fc nb dbg x0 to t' e' f' D HM ET Ht' V' ltac:(lia) Hf') as (l & E & SS & I).
    exists l. split; [exact E|]. split; [exact SS|]. intros q. rewrite I. split; [intros H; exists (existT (fun t => elt (cls t)) t' e'), f'; auto|]. intros (m & g & EQ & H). injection EQ as <- <-. exact H.
  - exists []. split; [reflexivity|]. split; [constructor|]. intros q. split; [intros []|]. intros (m & g & EQ & _). discriminate.
Qed.
Print Assumptions C44_owners_at_neighbor_face.
(** C44: the bounds of the owners at a face, on the other side of the face and of the element *)
Theorem C44_face_bounds : forall cls P K ml (lv : forall t, list (elt (cls t))) (loc : Z -> list {t : Z & elt (cls t)}) fc nb dbg x0 to t (e : elt (cls t)) f,
  distributed P K ml lv loc -> mesh_ok fc nb K ml -> create_tree_offsets P K ml loc = Ok to -> 0 <= t < K -> valid e -> s_level e <= ml -> is_face (fc t) e f ->
  exists lo up, owners_at_face_bounds fc dbg P ml (element_offsets P loc) to (create_first_desc P ml loc ++ [x0]) e f 0 (P - 1) = Ok (lo, up) /\ spans (face_owners fc P ml loc e f) lo up.
Proof. intros cls P K ml lv loc fc nb dbg x0 to t e f D HM ET Ht V L Hf. exact (face_span D HM dbg ET x0 Ht V L Hf). Qed.
Print Assumptions C44_face_bounds.
Theorem C44_neighbor_face_bounds : forall cls P K ml (lv : forall t, list (elt (cls t))) (loc : Z -> list {t : Z & elt (cls t)}) fc nb dbg x0 to t (e : elt (cls t)) f m g,
  distributed P K ml lv loc -> mesh_ok fc nb K ml -> create_tree_offsets P K ml loc = Ok to -> 0 <= t < K -> valid e -> s_level e <= ml -> is_face (fc t) e f ->
  nb (existT (fun t => elt (cls t)) t e) f = Some (m, g) ->
  exists lo up, owners_at_neigh_face_bounds fc nb dbg P ml (element_offsets P loc) to (create_first_desc P ml loc ++ [x0]) e f 0 (P - 1) = Ok (lo, up) /\ spans (face_owners fc P ml loc (projT2 m) g) lo up.
Proof.
  intros cls P K ml lv loc fc nb dbg x0 to t e f [t' e'] g D HM ET Ht V L Hf N. destruct (mo_neighbor HM Ht V L Hf N) as (Ht' & V' & L' & Hf' & _). unfold owners_at_neigh_face_bounds. rewrite N.
  destruct (face_span D HM dbg ET x0 (e := e') (f := g) Ht' V' ltac:(lia) Hf') as (lo & up & E & SP). exists lo, up. split; [|exact SP]. unfold owners_at_face_bounds in *. destruct (P - 1 <=? 0); exact E.
Qed.
Print Assumptions C44_neighbor_face_bounds.
(** C44: at the boundary of the domain the bounds are empty *)
Theorem C44_boundary_bounds : forall cls (fc : forall t, faces (cls t)) nb dbg P ml eo to fd t (e : elt (cls t)) f lower upper, nb (existT (fun t => elt (cls t)) t e) f = None ->
  exists lo up, owners_at_neigh_face_bounds fc nb dbg P ml eo to fd e f lower upper = Ok (lo, up) /\ up < lo.
Proof. intros cls fc nb dbg P ml eo to fd t e f lower upper N. unfold owners_at_neigh_face_bounds. rewrite N. exists 1, 0. split; [reflexivity|lia]. Qed.
Print Assumptions C44_boundary_bounds.
Theorem C44_element_bounds : forall cls P K ml (lv : forall t, list (elt (cls t))) (loc : Z -> list {t : Z & elt (cls t)}) (fc : forall t, faces (cls t)) nb dbg x0 to t (e : elt (cls t)),
  distributed P K ml lv loc -> mesh_ok fc nb K ml -> create_tree_offsets P K ml loc = Ok to -> 0 <= t < K -> valid e -> s_level e <= ml ->
  exists lo up, owners_bounds dbg P ml (element_offsets P loc) to (create_first_desc P ml loc ++ [x0]) e 0 (P - 1) = Ok (lo, up) /\ spans (owners P ml loc e) lo up.
Proof. intros cls P K ml lv loc fc nb dbg x0 to t e D HM ET Ht V L. exact (elem_span D HM dbg ET x0 Ht V L). Qed.
Print Assumptions C44_element_bounds.

(** the two trees of lines on five processes: the process 2 owns both sides of the face between the trees, and the root of tree 1 has owners 2 and 4 *)
Example ex_face_owners : let cls := fun _ : Z => line_scheme in let fc := fun _ : Z => line_faces in
  exists l lo up, owners_at_face (cls := cls) fc true 5 30 (element_offsets 5 ex_loc) [0; 0; -1; 2; -2; 2] (create_first_desc 5 30 ex_loc ++ [7]) (t := 0) (ln []) 1 [] = Ok l /\ l = [2] /\ lists (face_owners (cls := cls) fc 5 30 ex_loc (t := 0) (ln []) 1) l /\
    owners_bounds (cls := cls) true 5 30 (element_offsets 5 ex_loc) [0; 0; -1; 2; -2; 2] (create_first_desc 5 30 ex_loc ++ [7]) (t := 1) (ln []) 0 4 = Ok (lo, up) /\ (lo, up) = (2, 4) /\ spans (owners (cls := cls) 5 30 ex_loc (t := 1) (ln [])) lo up.
Proof.
  cbv zeta. assert (ETO : create_tree_offsets 5 2 30 ex_loc = Ok [0; 0; -1; 2; -2; 2]) by (vm_cast_no_check (@eq_refl (outcome (list Z)) (Ok [0; 0; -1; 2; -2; 2]))).
  assert (HM := line_mesh ex_connected (ltac:(split; vm_compute; discriminate) : 0 <= 30 <= LineModel.LMAX)). assert (VR : valid (ln [])) by (apply valid_walk; constructor).
  destruct (@C44_owners_at_face (fun _ => line_scheme) 5 2 30 ex_lv ex_loc (fun _ => line_faces) _ true 7 _ 0 (ln []) 1 ex_distributed HM ETO ltac:(lia) VR ltac:(vm_compute; discriminate) ltac:(split; vm_compute; [discriminate|reflexivity])) as (l & E & Q).
  destruct (@C44_element_bounds (fun _ => line_scheme) 5 2 30 ex_lv ex_loc (fun _ => line_faces) _ true 7 _ 1 (ln []) ex_distributed HM ETO ltac:(lia) VR ltac:(vm_compute; discriminate)) as (lo & up & E2 & Q2).
  exists l, lo, up. split; [exact E|]. split.
  { assert (X : Ok l = Ok [2]) by (rewrite <- E; vm_cast_no_check (@eq_refl (outcome (list Z)) (Ok [2]))). now injection X. }
  split; [exact Q|]. split; [exact E2|]. split; [|exact Q2]. assert (X : Ok (lo, up) = Ok (2, 4)) by (rewrite <- E2; vm_cast_no_check (@eq_refl (outcome (Z * Z)) (Ok (2, 4)))). now injection X as -> ->.
Qed.

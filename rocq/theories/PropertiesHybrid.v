(** C33, C34, C42 and C43 for meshes whose trees have different classes (lines; triangles and quadrilaterals; tetrahedra, hexahedra,
    prisms and pyramids) of the default scheme and are connected at their faces in any way that is possible.  The vocabulary is that of HybridSpec.v,
    PropertiesForestBalance.v, PropertiesLfn.v and PropertiesGhost.v. *)
From Coq Require Import Sorting.Sorted.
From Verif Require Import Prelude PathSpec SchemeModel SchemeSpec SchemeProofs SchemeOrderProofs SchemeInstances PartitionSpec OwnerModel OwnerSpec OwnerMainProofs PropertiesOwner.
From Verif Require Import FaceModel FaceSpec FaceProofs GhostModel GhostSpec GhostOwnerProofs AnyNetModel NeighborModel PropertiesGhost LfnModel LfnSpec LfnProofs PropertiesLfn.
From Verif Require Import ForestBalanceModel ForestBalanceSpec ForestBalanceProofs ForestBalanceMainProofs ForestBalanceLoopProofs PropertiesForestBalance.
From Verif Require Import EclassModel SimplexModel LineModel HyperModel CubeModel PrismModel PrismSpec CubeSpec SimplexSpec CubeScheme PrismScheme BdyModel HybridModel HybridSpec HybridProofs HybridInstances HybridPrism HybridPyramid HybridMainProofs.
From Verif Require Import PyramidModel PyramidSpec.
Set Implicit Arguments.

(** a mesh of K trees, the tree t of class ec t, with elements up to level ml *)
Definition hybrid_mesh (ec : Z -> Z) (K ml : Z) (conn : connection) : Prop :=
  (forall t, 0 <= t < K -> 1 <= ec t <= 7 /\ 0 <= ml <= s_maxlevel (tt_scheme (default_type (ec t)))) /\ hybrid_connected (fun t => default_type (ec t)) K conn.
Notation htype ec := (fun t : Z => default_type (ec t)).
Notation hcls ec := (fun t : Z => tt_scheme (default_type (ec t))).
Notation hfc ec := (fun t : Z => tt_faces (default_type (ec t))).
Notation hnb ec conn := (hybrid_neighbor (htype ec) conn).
Lemma hybrid_mesh_of ec K ml conn : hybrid_mesh ec K ml conn -> mesh_ok (hfc ec) (hnb ec conn) K ml.
Proof. intros [H C]. apply (@hybrid_mesh_ok (htype ec) K ml conn); [intros t Ht; apply default_type_ok; apply (H t Ht)|exact C|intros t Ht; apply (H t Ht)]. Qed.

(** C43 *)
Theorem C43_hybrid_neighbors : forall ec K ml conn, hybrid_mesh ec K ml conn -> hybrid_neighbors_ok (htype ec) K ml conn.
Proof. intros ec K ml conn [H C]. apply hybrid_neighbors_all; [intros t Ht; apply default_type_ok; apply (H t Ht)|exact C|intros t Ht; apply (H t Ht)]. Qed.
Print Assumptions C43_hybrid_neighbors.
(** For a face of a tetrahedron in a pyramid tree the default scheme does not set the descendant at the face on the level of the element
    itself (C05_pyramid_corner_descendant_refuted), where [pyramid_faces] has the element.  Ghosts, balance and neighbouring leaves ask for
    it if elements have the maximum level, so that their theorems are about all the code only if there are no pyramid trees; the versions
    ending in _partial are for all classes *)
Definition no_pyramids (ec : Z -> Z) (K : Z) : Prop := forall t, 0 <= t < K -> ec t <> 7.
(** C33 *)
Theorem C33_hybrid_balance_partial : forall ec P K ml (lv : forall t, list (elt (hcls ec t))) conn dbg repartition (trs : Z -> list (ltree (hcls ec))) hs,
  distributed (cls := hcls ec) P K ml lv (leaves_at trs) -> hybrid_mesh ec K ml conn -> 1 <= ml ->
  (forall p, 0 <= p < P -> local_trees (leaves_at trs) p (trs p)) ->
  (forall p, 0 <= p < P -> ghosts_complete (cls := hcls ec) (hfc ec) (hnb ec conn) P K ml lv (leaves_at trs) p (hs p) /\ (hs p <> None \/ P = 1)) ->
  balance_correct (hfc ec) (hnb ec conn) dbg P K ml repartition lv trs hs.
Proof. intros ec P K ml lv conn dbg repartition trs hs D HM Hml HT HG. apply (balance_correct_ok dbg repartition D); [|lia|exact HT|exact HG]. now apply hybrid_mesh_of. Qed.
Print Assumptions C33_hybrid_balance_partial.
Theorem C33_hybrid_balance : forall ec P K ml (lv : forall t, list (elt (hcls ec t))) conn dbg repartition (trs : Z -> list (ltree (hcls ec))) hs,
  distributed (cls := hcls ec) P K ml lv (leaves_at trs) -> hybrid_mesh ec K ml conn -> no_pyramids ec K -> 1 <= ml ->
  (forall p, 0 <= p < P -> local_trees (leaves_at trs) p (trs p)) ->
  (forall p, 0 <= p < P -> ghosts_complete (cls := hcls ec) (hfc ec) (hnb ec conn) P K ml lv (leaves_at trs) p (hs p) /\ (hs p <> None \/ P = 1)) ->
  balance_correct (hfc ec) (hnb ec conn) dbg P K ml repartition lv trs hs.
Proof. intros ec P K ml lv conn dbg repartition trs hs D HM _. exact (@C33_hybrid_balance_partial ec P K ml lv conn dbg repartition trs hs D HM). Qed.
Print Assumptions C33_hybrid_balance.
(** C42 *)
Theorem C42_hybrid_ghost_layer_partial : forall ec P K ml (lv : forall t, list (elt (hcls ec t))) (loc : Z -> list {t : Z & elt (hcls ec t)}) conn dbg x0 trs,
  distributed (cls := hcls ec) P K ml lv loc -> hybrid_mesh ec K ml conn ->
  (forall p, 0 <= p < P -> local_trees (cls := hcls ec) loc p (trs p)) ->
  exists rem out, begun (hfc ec) (hnb ec conn) 3 P K ml loc dbg x0 trs rem out /\
  forall s, asteps P (astart out (fun p => length (g_procs (rem p)))) s -> (adone P s \/ exists s', astep P s s') /\
    (adone P s -> forall p, 0 <= p < P -> exists h, receive (g_procs (rem p)) (a_got s p) = Ok h /\
       picks (ghost_of (hfc ec) (hnb ec conn) P ml loc p) (all_leaves K lv) (ghost_leaves h) /\ ghost_trees_ok h).
Proof.
  intros ec P K ml lv loc conn dbg x0 trs D HC HT. assert (HM := hybrid_mesh_of HC). destruct (@C42_ghost_begins (hcls ec) P K ml lv loc _ _ dbg x0 trs D HM HT) as (rem & out & B). exists rem, out. split; [exact B|].
  intros s ST. split; [exact (proj2 (C42_exchange_ends D HM HT B) s ST)|]. intros DN p Hp. exact (C42_ghost_layer D HM HT B ST DN Hp).
Qed.
Print Assumptions C42_hybrid_ghost_layer_partial.
Theorem C42_hybrid_ghost_layer : forall ec P K ml (lv : forall t, list (elt (hcls ec t))) (loc : Z -> list {t : Z & elt (hcls ec t)}) conn dbg x0 trs,
  distributed (cls := hcls ec) P K ml lv loc -> hybrid_mesh ec K ml conn -> no_pyramids ec K ->
  (forall p, 0 <= p < P -> local_trees (cls := hcls ec) loc p (trs p)) ->
  exists rem out, begun (hfc ec) (hnb ec conn) 3 P K ml loc dbg x0 trs rem out /\
  forall s, asteps P (astart out (fun p => length (g_procs (rem p)))) s -> (adone P s \/ exists s', astep P s s') /\
    (adone P s -> forall p, 0 <= p < P -> exists h, receive (g_procs (rem p)) (a_got s p) = Ok h /\
       picks (ghost_of (hfc ec) (hnb ec conn) P ml loc p) (all_leaves K lv) (ghost_leaves h) /\ ghost_trees_ok h).
Proof. intros ec P K ml lv loc conn dbg x0 trs D HM _. exact (@C42_hybrid_ghost_layer_partial ec P K ml lv loc conn dbg x0 trs D HM). Qed.
Print Assumptions C42_hybrid_ghost_layer.
(** C34 *)
Theorem C34_hybrid_neighbors_partial : forall ec P K ml (lv : forall t, list (elt (hcls ec t))) (loc : Z -> list {t : Z & elt (hcls ec t)}) conn dbg x0 me ts h (is_ghost : bool) l f,
  distributed (cls := hcls ec) P K ml lv loc -> hybrid_mesh ec K ml conn -> 0 <= me < P -> local_trees (cls := hcls ec) loc me ts ->
  let fc := hfc ec in let nb := hnb ec conn in
  ghosts_complete fc nb P K ml lv loc me h -> In l (if is_ghost then ghosts_of h else loc me) -> leaf_face fc l f ->
  exists r, call fc nb dbg P K ml loc x0 me ts h is_ghost l f = Ok (r, match nb l f with Some (m, _) => projT1 m | None => -1 end) /\
    forall m g i, In (m, g, i) r <-> 0 <= i /\ nth_error (loc me ++ ghosts_of h) (Z.to_nat i) = Some m /\ meet fc nb ml l f m g.
Proof.
  intros ec P K ml lv loc conn dbg x0 me ts h is_ghost l f D HC Hme HT fc nb HG I Hf. assert (HM := hybrid_mesh_of HC).
  apply (@C34_leaf_neighbors_exact (hcls ec) P K ml lv loc fc nb dbg x0 me ts h is_ghost l f D HM Hme HT HG I). exact Hf.
Qed.
Print Assumptions C34_hybrid_neighbors_partial.
Theorem C34_hybrid_neighbors : forall ec P K ml (lv : forall t, list (elt (hcls ec t))) (loc : Z -> list {t : Z & elt (hcls ec t)}) conn dbg x0 me ts h (is_ghost : bool) l f,
  distributed (cls := hcls ec) P K ml lv loc -> hybrid_mesh ec K ml conn -> no_pyramids ec K -> 0 <= me < P -> local_trees (cls := hcls ec) loc me ts ->
  let fc := hfc ec in let nb := hnb ec conn in
  ghosts_complete fc nb P K ml lv loc me h -> In l (if is_ghost then ghosts_of h else loc me) -> leaf_face fc l f ->
  exists r, call fc nb dbg P K ml loc x0 me ts h is_ghost l f = Ok (r, match nb l f with Some (m, _) => projT1 m | None => -1 end) /\
    forall m g i, In (m, g, i) r <-> 0 <= i /\ nth_error (loc me ++ ghosts_of h) (Z.to_nat i) = Some m /\ meet fc nb ml l f m g.
Proof. intros ec P K ml lv loc conn dbg x0 me ts h is_ghost l f D HM _. exact (@C34_hybrid_neighbors_partial ec P K ml lv loc conn dbg x0 me ts h is_ghost l f D HM). Qed.
Print Assumptions C34_hybrid_neighbors.

(** ** example: a prism between a hexahedron and a tetrahedron.  The face 1 of the hexahedron (tree 0) is the face 2 of the prism (tree 1),
    and the face 3 of the prism is the face 0 of the tetrahedron (tree 2) *)
Definition ex_ec (t : Z) : Z := if t =? 0 then 4 else if t =? 1 then 6 else 5.
Definition ex_hybrid : connection := fun t f =>
  if (t =? 0) && (f =? 1) then Some (1, 2, 3) else if (t =? 1) && (f =? 2) then Some (0, 1, 3)
  else if (t =? 1) && (f =? 3) then Some (2, 0, 1) else if (t =? 2) && (f =? 0) then Some (1, 3, 1) else None.
Example ex_hybrid_no_pyramids : no_pyramids ex_ec 3.
Proof. intros t Ht. unfold ex_ec. destruct (t =? 0); [discriminate|]. destruct (t =? 1); discriminate. Qed.
Example ex_hybrid_mesh : hybrid_mesh ex_ec 3 18 ex_hybrid.
Proof.
  split.
  - intros t Ht. assert (C : t = 0 \/ t = 1 \/ t = 2) by lia. destruct C as [-> | [-> | ->]]; (split; [split; discriminate|split; discriminate]).
  - intros t f t' f' o Ht _ E. unfold ex_hybrid in E.
    assert (C : (t = 0 \/ t = 1 \/ t = 2)) by lia.
    destruct C as [-> | [-> | ->]]; cbn [Z.eqb Pos.eqb andb] in E;
      repeat match type of E with (if ?b then _ else _) = _ => destruct b eqn:?Q end; try discriminate E; injection E as <- <- <-;
      repeat match goal with Q : (f =? _) = true |- _ => apply Z.eqb_eq in Q; subst f end; repeat split; try discriminate; try reflexivity.
Qed.
(** elements that meet, and that do not have a neighbour *)
Example ex_hybrid_neighbors :
  hybrid_meet (htype ex_ec) ex_hybrid 0 (c_walk true [1; 7; 3]) 1 1 (p_walk [5; 0; 1]) 2 /\
  hybrid_meet (htype ex_ec) ex_hybrid 1 (p_walk [2; 1; 3]) 3 2 (walk true [5; 4; 7]) 0 /\
  hybrid_neighbor_at (htype ex_ec) ex_hybrid (existT _ 1 (p_root)) 4 = Ok None.
Proof. split; [split; reflexivity|]. split; [split; reflexivity|reflexivity]. Qed.
(** a pyramid (tree 0) on a hexahedron (tree 1), with a prism (tree 2) and a tetrahedron (tree 3) at two of its triangles and another
    pyramid (tree 4) at the third one *)
Definition ex_ec5 (t : Z) : Z := if t =? 1 then 4 else if t =? 2 then 6 else if t =? 3 then 5 else 7.
Definition ex_hybrid5 : connection := fun t f =>
  if (t =? 0) && (f =? 4) then Some (1, 5, 1) else if (t =? 1) && (f =? 5) then Some (0, 4, 1)
  else if (t =? 0) && (f =? 1) then Some (2, 3, 2) else if (t =? 2) && (f =? 3) then Some (0, 1, 2)
  else if (t =? 0) && (f =? 0) then Some (3, 2, 1) else if (t =? 3) && (f =? 2) then Some (0, 0, 1)
  else if (t =? 0) && (f =? 3) then Some (4, 2, 0) else if (t =? 4) && (f =? 2) then Some (0, 3, 0) else None.
Example ex_hybrid5_mesh : hybrid_mesh ex_ec5 5 18 ex_hybrid5.
Proof.
  split.
  - intros t Ht. assert (C : t = 0 \/ t = 1 \/ t = 2 \/ t = 3 \/ t = 4) by lia. destruct C as [-> | [-> | [-> | [-> | ->]]]]; (split; [split; discriminate|split; discriminate]).
  - intros t f t' f' o Ht _ E. unfold ex_hybrid5 in E.
    assert (C : (t = 0 \/ t = 1 \/ t = 2 \/ t = 3 \/ t = 4)) by lia.
    destruct C as [-> | [-> | [-> | [-> | ->]]]]; cbn [Z.eqb Pos.eqb andb] in E;
      repeat match type of E with (if ?b then _ else _) = _ => destruct b eqn:?Q end; try discriminate E; injection E as <- <- <-;
      repeat match goal with Q : (f =? _) = true |- _ => apply Z.eqb_eq in Q; subst f end; repeat split; try discriminate; try reflexivity.
Qed.
Lemma cross_face (T : Z -> tree_type) conn t (e : elt (tt_scheme (T t))) f t' rf' o b b' (n : elt (tt_scheme (T t'))) g cmp :
  tt_root_boundary (T t) e f = true -> (tt_eclass (T t') =? tt_eclass (T t) = true -> tt_inside (T t) e f = None) -> conn t (tt_tree_face (T t) e f) = Some (t', rf', o) -> tt_boundary (T t) e f = Ok b ->
  eclass_compare (tt_eclass (T t)) (tt_eclass (T t')) = Ok cmp ->
  bdy_transform b o (eclass_face_orientation (tt_eclass (T t)) (tt_tree_face (T t) e f) =? eclass_face_orientation (tt_eclass (T t')) rf')
    (if cmp =? -1 then true else if cmp =? 1 then false else tt_tree_face (T t) e f <=? rf') = Ok b' ->
  tt_extrude (T t') b' rf' = Ok (n, g) -> hybrid_neighbor_at T conn (existT _ t e) f = Ok (Some (existT _ t' n, g)).
Proof.
  intros R I C B CM TR X. unfold hybrid_neighbor_at, hybrid_face_neighbor, element_neighbor_eclass. rewrite R. cbn [negb]. rewrite C, B. cbn [obind]. rewrite CM. cbn [obind]. rewrite TR. cbn [obind]. rewrite Z.eqb_refl. cbn [negb]. rewrite X. cbn [obind].
  destruct (tt_eclass (T t') =? tt_eclass (T t)); [|reflexivity]. now rewrite I.
Qed.
Example ex_hybrid5_neighbors :
  hybrid_meet (htype ex_ec5) ex_hybrid5 0 (y_walk [4; 2; 0]) 4 1 (c_walk true [7; 4; 6]) 5 /\
  hybrid_meet (htype ex_ec5) ex_hybrid5 0 (y_walk [2; 9; 7]) 1 2 (p_walk [1; 0; 3]) 3 /\
  hybrid_meet (htype ex_ec5) ex_hybrid5 0 (y_walk [0; 4; 9]) 0 3 (walk true [1; 0; 7]) 2 /\
  hybrid_neighbor_at (htype ex_ec5) ex_hybrid5 (existT _ 4 (y_walk [6; 7; 7])) 0 = Ok None.
Proof.
  split; [split|split; [split|split; [split|]]].
  1-6: eapply cross_face; [vm_compute; reflexivity|vm_compute; try discriminate; reflexivity|vm_compute; reflexivity|vm_compute; reflexivity|vm_compute; reflexivity|vm_compute; reflexivity|vm_compute; reflexivity].
  unfold hybrid_neighbor_at, hybrid_face_neighbor, element_neighbor_eclass.
  replace (tt_root_boundary (htype ex_ec5 4) (y_walk [6; 7; 7]) 0) with true by (vm_compute; reflexivity). replace (ex_hybrid5 4 (tt_tree_face (htype ex_ec5 4) (y_walk [6; 7; 7]) 0)) with (@None (Z * Z * Z)) by (vm_compute; reflexivity). reflexivity.
Qed.

(** C33, C34, C42 and C43 for meshes of lines, quadrilaterals or hexahedra of the standalone scheme, whose trees are connected at their faces
    in any way.  The vocabulary is that of PropertiesForestBalance.v, PropertiesLfn.v, PropertiesGhost.v and PropertiesNeighbor.v. *)
From Coq Require Import Sorting.Sorted.
From Verif Require Import Prelude PathSpec SchemeModel SchemeSpec SchemeProofs SchemeOrderProofs SchemeInstances PartitionSpec OwnerModel OwnerSpec OwnerMainProofs PropertiesOwner.
From Verif Require Import FaceModel FaceSpec FaceProofs GhostModel GhostSpec GhostOwnerProofs AnyNetModel NeighborModel NeighborSpec NeighborProofs NeighborInstances PropertiesGhost LfnModel LfnSpec LfnProofs PropertiesLfn.
From Verif Require Import ForestBalanceModel ForestBalanceSpec ForestBalanceProofs ForestBalanceMainProofs ForestBalanceLoopProofs PropertiesForestBalance.
From Verif Require PropertiesNeighbor.
From Verif Require Import HyperModel HyperSpec HyperProofs HyperOrderProofs HyperScheme HyperFlaws HyperCrossProofs PropertiesHyper.
Set Implicit Arguments.

(** the trees of class c, their faces, and how many ways there are to connect two faces *)
Definition h_connected (c : hclass) (K : Z) (conn : connection) : Prop := connected (hfaces c) (h_orientations (h_face_class c)) K conn.
Lemma hyper_mesh c K ml conn : h_connected c K conn -> 0 <= ml <= hmax c -> mesh_ok (fun _ => hyper_faces c) (neighbor (hyper_crossing c) conn) K ml.
Proof. intros C H. exact (mesh_of_connection (hyper_laws c) (hyper_flaws c) (hyper_crossing_ok c) C H). Qed.

(** C43 *)
Theorem C43_hypercube_neighbors : forall c K conn, h_connected c K conn -> PropertiesNeighbor.neighbors_ok (hyper_faces c) (hyper_crossing c) K conn.
Proof.
  intros c K conn HC. apply (@PropertiesNeighbor.neighbors_all (hyper_scheme c) (hyper_laws c) (hyper_faces c) (hyper_flaws c) (hyper_crossing c) _ _ _ _ _ _ (hyper_crossing_ok c)); [|exact HC].
  intros f Hf. change (0 <= f < hfaces c) in Hf. split; [exact Hf|]. split; [|reflexivity].
  assert (T : forallb (h_is_root_boundary c (h_root c)) (zseq 0 (Z.to_nat (hfaces c))) = true) by (destruct c; vm_compute; reflexivity). rewrite forallb_forall in T. apply T. apply in_zseq. lia.
Qed.
Print Assumptions C43_hypercube_neighbors.
(** C33 *)
Theorem C33_hypercube_balance : forall c P K ml (lv : Z -> list (elt (hyper_scheme c))) conn dbg repartition (trs : Z -> list (ltree (fun _ => hyper_scheme c))) hs,
  distributed (cls := fun _ => hyper_scheme c) P K ml lv (leaves_at trs) -> h_connected c K conn -> 1 <= ml <= hmax c ->
  (forall p, 0 <= p < P -> local_trees (leaves_at trs) p (trs p)) ->
  (forall p, 0 <= p < P -> ghosts_complete (cls := fun _ => hyper_scheme c) (fun _ => hyper_faces c) (neighbor (hyper_crossing c) conn) P K ml lv (leaves_at trs) p (hs p) /\ (hs p <> None \/ P = 1)) ->
  balance_correct (fun _ => hyper_faces c) (neighbor (hyper_crossing c) conn) dbg P K ml repartition lv trs hs.
Proof. intros c P K ml lv conn dbg repartition trs hs D HC Hml HT HG. apply (balance_correct_ok dbg repartition D); [|lia|exact HT|exact HG]. apply hyper_mesh; [exact HC|lia]. Qed.
Print Assumptions C33_hypercube_balance.
(** C42 *)
Theorem C42_hypercube_ghost_layer : forall c P K ml (lv : Z -> list (elt (hyper_scheme c))) (loc : Z -> list {t : Z & elt (hyper_scheme c)}) conn dbg x0 trs,
  distributed (cls := fun _ => hyper_scheme c) P K ml lv loc -> h_connected c K conn -> 0 <= ml <= hmax c ->
  (forall p, 0 <= p < P -> local_trees (cls := fun _ => hyper_scheme c) loc p (trs p)) ->
  exists rem out, begun (fun _ => hyper_faces c) (neighbor (hyper_crossing c) conn) 3 P K ml loc dbg x0 trs rem out /\
  forall s, asteps P (astart out (fun p => length (g_procs (rem p)))) s -> (adone P s \/ exists s', astep P s s') /\
    (adone P s -> forall p, 0 <= p < P -> exists h, receive (g_procs (rem p)) (a_got s p) = Ok h /\
       picks (ghost_of (fun _ => hyper_faces c) (neighbor (hyper_crossing c) conn) P ml loc p) (all_leaves K lv) (ghost_leaves h) /\ ghost_trees_ok h).
Proof.
  intros c P K ml lv loc conn dbg x0 trs D HC Hml HT. assert (HM := hyper_mesh HC Hml). destruct (@C42_ghost_begins _ P K ml lv loc _ _ dbg x0 trs D HM HT) as (rem & out & B). exists rem, out. split; [exact B|].
  intros s ST. split; [exact (proj2 (C42_exchange_ends D HM HT B) s ST)|]. intros DN p Hp. exact (C42_ghost_layer D HM HT B ST DN Hp).
Qed.
Print Assumptions C42_hypercube_ghost_layer.
(** C34 *)
Theorem C34_hypercube_neighbors : forall c P K ml (lv : Z -> list (elt (hyper_scheme c))) (loc : Z -> list {t : Z & elt (hyper_scheme c)}) conn dbg x0 me ts h (is_ghost : bool) l f,
  distributed (cls := fun _ => hyper_scheme c) P K ml lv loc -> h_connected c K conn -> 0 <= ml <= hmax c -> 0 <= me < P -> local_trees (cls := fun _ => hyper_scheme c) loc me ts ->
  let fc := fun _ => hyper_faces c in let nb := neighbor (hyper_crossing c) conn in
  ghosts_complete fc nb P K ml lv loc me h -> In l (if is_ghost then ghosts_of h else loc me) -> 0 <= f < hfaces c ->
  exists r, call fc nb dbg P K ml loc x0 me ts h is_ghost l f = Ok (r, match nb l f with Some (m, _) => projT1 m | None => -1 end) /\
    forall m g i, In (m, g, i) r <-> 0 <= i /\ nth_error (loc me ++ ghosts_of h) (Z.to_nat i) = Some m /\ meet fc nb ml l f m g.
Proof.
  intros c P K ml lv loc conn dbg x0 me ts h is_ghost l f D HC Hml Hme HT fc nb HG I Hf. assert (HM := hyper_mesh HC Hml).
  apply (@C34_leaf_neighbors_exact (fun _ => hyper_scheme c) P K ml lv loc fc nb dbg x0 me ts h is_ghost l f D HM Hme HT HG I). exact Hf.
Qed.
Print Assumptions C34_hypercube_neighbors.

(** ** example: two hexahedra, the face 1 of the tree 0 is the face 4 of the tree 1, turned; on two processes with one tree each *)
Definition ex_hexes : connection := fun t f => if (t =? 0) && (f =? 1) then Some (1, 4, 2) else if (t =? 1) && (f =? 4) then Some (0, 1, 2) else None.
Example ex_hexes_connected : h_connected HHex 2 ex_hexes.
Proof.
  intros t f t' f' o Ht Hf E. unfold ex_hexes in E. destruct ((t =? 0) && (f =? 1)) eqn:E1.
  - injection E as <- <- <-. apply andb_true_iff in E1. destruct E1 as [A B]. apply Z.eqb_eq in A, B. subst. cbn [hfaces h_face_class h_orientations]. repeat split; (lia || reflexivity).
  - destruct ((t =? 1) && (f =? 4)) eqn:E2; [|discriminate]. injection E as <- <- <-. apply andb_true_iff in E2. destruct E2 as [A B]. apply Z.eqb_eq in A, B. subst. cbn [hfaces h_face_class h_orientations]. repeat split; (lia || reflexivity).
Qed.
Example ex_hex_neighbor : PropertiesNeighbor.meet (hyper_crossing HHex) ex_hexes 0 (h_walk HHex [5; 7; 3]) 1 1 (h_walk HHex [3; 1; 0]) 4 /\
  element_face_neighbor (hyper_crossing HHex) ex_hexes (existT _ 0 (h_root HHex)) 0 = Ok None.
Proof. split; [split; reflexivity|reflexivity]. Qed.
Notation hex := (hyper_scheme HHex).
Definition hx_lv (t : Z) : list (elt hex) := if t =? 0 then [h_root HHex] else h_children_of HHex (h_root HHex).
Definition hx_trs (p : Z) : list (ltree (fun _ => hex)) := [existT (fun _ => list (elt hex)) p (hx_lv p)].
Example hx_distributed : distributed (cls := fun _ => hex) 2 2 21 hx_lv (leaves_at hx_trs).
Proof.
  split; [lia|]. split; [lia|]. split; [|reflexivity]. intros t Ht. split; [exact (hyper_laws HHex)|]. split; [split; vm_compute; discriminate|].
  assert (R : valid (S := hex) (h_root HHex)) by (apply hyper_valid; exists []; split; [split; [constructor|vm_compute; discriminate]|reflexivity]).
  assert (C : t = 0 \/ t = 1) by lia. destruct C as [-> | ->]; (split; [split|]).
  - constructor; [exact R|constructor].
  - change (hx_lv 0) with [s_root hex]. apply region_one.
  - constructor; [vm_compute; discriminate|constructor].
  - apply (Forall_impl _ (fun e H => proj2 (@hyper_valid HHex e) H)). apply (@h_children_valid HHex []); [split; [constructor|vm_compute; discriminate]|reflexivity].
  - assert (L : s_level (s_root hex) < s_maxlevel hex) by reflexivity. exact (cells_children (hyper_laws HHex) R L).
  - apply Forall_forall. intros x Hx. change (hx_lv 1) with (map (h_child HHex (h_root HHex)) (zseq 0 8)) in Hx. apply in_map_iff in Hx. destruct Hx as (i & <- & _). vm_compute. discriminate.
Qed.
Example hx_local_trees p : 0 <= p < 2 -> local_trees (cls := fun _ => hex) (leaves_at hx_trs) p (hx_trs p).
Proof.
  intros Hp. split; [repeat constructor|]. assert (C : p = 0 \/ p = 1) by lia. destruct C as [-> | ->]; (split; [repeat constructor; discriminate|reflexivity]).
Qed.
(** the ghost layer of these hexahedra is created *)
Example hx_ghosts : exists rem out, begun (cls := fun _ => hex) (fun _ => hyper_faces HHex) (neighbor (hyper_crossing HHex) ex_hexes) 3 2 2 21 (leaves_at hx_trs) true 0 hx_trs rem out.
Proof.
  assert (M : 0 <= 21 <= hmax HHex) by (cbn; lia).
  destruct (@C42_hypercube_ghost_layer HHex 2 2 21 hx_lv (leaves_at hx_trs) ex_hexes true 0 hx_trs hx_distributed ex_hexes_connected M hx_local_trees) as (rem & out & B & _). exists rem, out. exact B.
Qed.

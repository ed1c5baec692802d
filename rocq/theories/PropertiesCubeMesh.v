(** C33, C34, C42 and C43 for meshes of quadrilaterals or hexahedra of the default scheme, whose trees are connected at their faces
    in any way.  The vocabulary is that of PropertiesForestBalance.v, PropertiesLfn.v, PropertiesGhost.v and PropertiesNeighbor.v. *)
From Coq Require Import Sorting.Sorted.
From Verif Require Import Prelude PathSpec SchemeModel SchemeSpec SchemeProofs SchemeOrderProofs SchemeInstances PartitionSpec OwnerModel OwnerSpec OwnerMainProofs PropertiesOwner.
From Verif Require Import FaceModel FaceSpec FaceProofs GhostModel GhostSpec GhostOwnerProofs AnyNetModel NeighborModel NeighborSpec NeighborProofs NeighborInstances PropertiesGhost LfnModel LfnSpec LfnProofs PropertiesLfn.
From Verif Require Import ForestBalanceModel ForestBalanceSpec ForestBalanceProofs ForestBalanceMainProofs ForestBalanceLoopProofs PropertiesForestBalance.
From Verif Require PropertiesNeighbor.
From Verif Require Import HyperModel HyperSpec HyperProofs HyperOrderProofs HyperScheme HyperFlaws HyperCrossProofs CubeModel CubeSpec TransferProofs CubeScheme CubeProofs PropertiesCube.
Set Implicit Arguments.

(** how the elements of the neighbouring tree are found *)
Definition cube_crossing (oct : bool) : crossing (cube_scheme oct) := match oct with true => hex_crossing | false => quad_crossing end.
(** the trees, their faces, and how many ways there are to connect two faces *)
Definition c_connected (oct : bool) (K : Z) (conn : connection) : Prop := connected (c_num_faces oct) (if oct then 4 else 2) K conn.
Lemma cube_mesh oct K ml conn : c_connected oct K conn -> 0 <= ml <= c_maxlevel oct -> mesh_ok (fun _ => cube_faces oct) (neighbor (cube_crossing oct) conn) K ml.
Proof.
  intros C H. destruct oct.
  - exact (mesh_of_connection (cube_laws true) (cube_flaws true) hex_crossing_ok C H).
  - exact (mesh_of_connection (cube_laws false) (cube_flaws false) quad_crossing_ok C H).
Qed.

(** C43 *)
Theorem C43_cube_neighbors : forall oct K conn, c_connected oct K conn -> PropertiesNeighbor.neighbors_ok (cube_faces oct) (cube_crossing oct) K conn.
Proof.
  intros oct K conn HC. destruct oct.
  - apply (@PropertiesNeighbor.neighbors_all (cube_scheme true) (cube_laws true) (cube_faces true) (cube_flaws true) (cube_crossing true) _ _ _ _ _ _ hex_crossing_ok); [|exact HC].
    intros f Hf. change (0 <= f < 6) in Hf. split; [exact Hf|]. split; [|reflexivity].
    assert (T : forallb (c_is_root_boundary true (c_root true)) (zseq 0 6) = true) by (vm_compute; reflexivity). rewrite forallb_forall in T. apply T. apply in_zseq. lia.
  - apply (@PropertiesNeighbor.neighbors_all (cube_scheme false) (cube_laws false) (cube_faces false) (cube_flaws false) (cube_crossing false) _ _ _ _ _ _ quad_crossing_ok); [|exact HC].
    intros f Hf. change (0 <= f < 4) in Hf. split; [exact Hf|]. split; [|reflexivity].
    assert (T : forallb (c_is_root_boundary false (c_root false)) (zseq 0 4) = true) by (vm_compute; reflexivity). rewrite forallb_forall in T. apply T. apply in_zseq. lia.
Qed.
Print Assumptions C43_cube_neighbors.
(** C33 *)
Theorem C33_cube_balance : forall oct P K ml (lv : Z -> list (elt (cube_scheme oct))) conn dbg repartition (trs : Z -> list (ltree (fun _ => cube_scheme oct))) hs,
  distributed (cls := fun _ => cube_scheme oct) P K ml lv (leaves_at trs) -> c_connected oct K conn -> 1 <= ml <= c_maxlevel oct ->
  (forall p, 0 <= p < P -> local_trees (leaves_at trs) p (trs p)) ->
  (forall p, 0 <= p < P -> ghosts_complete (cls := fun _ => cube_scheme oct) (fun _ => cube_faces oct) (neighbor (cube_crossing oct) conn) P K ml lv (leaves_at trs) p (hs p) /\ (hs p <> None \/ P = 1)) ->
  balance_correct (fun _ => cube_faces oct) (neighbor (cube_crossing oct) conn) dbg P K ml repartition lv trs hs.
Proof. intros oct P K ml lv conn dbg repartition trs hs D HC Hml HT HG. apply (balance_correct_ok dbg repartition D); [|lia|exact HT|exact HG]. apply cube_mesh; [exact HC|lia]. Qed.
Print Assumptions C33_cube_balance.
(** C42 *)
Theorem C42_cube_ghost_layer : forall oct P K ml (lv : Z -> list (elt (cube_scheme oct))) (loc : Z -> list {t : Z & elt (cube_scheme oct)}) conn dbg x0 trs,
  distributed (cls := fun _ => cube_scheme oct) P K ml lv loc -> c_connected oct K conn -> 0 <= ml <= c_maxlevel oct ->
  (forall p, 0 <= p < P -> local_trees (cls := fun _ => cube_scheme oct) loc p (trs p)) ->
  exists rem out, begun (fun _ => cube_faces oct) (neighbor (cube_crossing oct) conn) 3 P K ml loc dbg x0 trs rem out /\
  forall s, asteps P (astart out (fun p => length (g_procs (rem p)))) s -> (adone P s \/ exists s', astep P s s') /\
    (adone P s -> forall p, 0 <= p < P -> exists h, receive (g_procs (rem p)) (a_got s p) = Ok h /\
       picks (ghost_of (fun _ => cube_faces oct) (neighbor (cube_crossing oct) conn) P ml loc p) (all_leaves K lv) (ghost_leaves h) /\ ghost_trees_ok h).
Proof.
  intros oct P K ml lv loc conn dbg x0 trs D HC Hml HT. assert (HM := cube_mesh HC Hml). destruct (@C42_ghost_begins _ P K ml lv loc _ _ dbg x0 trs D HM HT) as (rem & out & B). exists rem, out. split; [exact B|].
  intros s ST. split; [exact (proj2 (C42_exchange_ends D HM HT B) s ST)|]. intros DN p Hp. exact (C42_ghost_layer D HM HT B ST DN Hp).
Qed.
Print Assumptions C42_cube_ghost_layer.
(** C34 *)
Theorem C34_cube_neighbors : forall oct P K ml (lv : Z -> list (elt (cube_scheme oct))) (loc : Z -> list {t : Z & elt (cube_scheme oct)}) conn dbg x0 me ts h (is_ghost : bool) l f,
  distributed (cls := fun _ => cube_scheme oct) P K ml lv loc -> c_connected oct K conn -> 0 <= ml <= c_maxlevel oct -> 0 <= me < P -> local_trees (cls := fun _ => cube_scheme oct) loc me ts ->
  let fc := fun _ => cube_faces oct in let nb := neighbor (cube_crossing oct) conn in
  ghosts_complete fc nb P K ml lv loc me h -> In l (if is_ghost then ghosts_of h else loc me) -> 0 <= f < c_num_faces oct ->
  exists r, call fc nb dbg P K ml loc x0 me ts h is_ghost l f = Ok (r, match nb l f with Some (m, _) => projT1 m | None => -1 end) /\
    forall m g i, In (m, g, i) r <-> 0 <= i /\ nth_error (loc me ++ ghosts_of h) (Z.to_nat i) = Some m /\ meet fc nb ml l f m g.
Proof.
  intros oct P K ml lv loc conn dbg x0 me ts h is_ghost l f D HC Hml Hme HT fc nb HG I Hf. assert (HM := cube_mesh HC Hml).
  apply (@C34_leaf_neighbors_exact (fun _ => cube_scheme oct) P K ml lv loc fc nb dbg x0 me ts h is_ghost l f D HM Hme HT HG I). exact Hf.
Qed.
Print Assumptions C34_cube_neighbors.

(** ** example: two hexahedra, the face 1 of the tree 0 is the face 4 of the tree 1, turned; on two processes with one tree each *)
Definition ex_hexes : connection := fun t f => if (t =? 0) && (f =? 1) then Some (1, 4, 2) else if (t =? 1) && (f =? 4) then Some (0, 1, 2) else None.
Example ex_hexes_connected : c_connected true 2 ex_hexes.
Proof.
  intros t f t' f' o Ht Hf E. unfold ex_hexes in E. destruct ((t =? 0) && (f =? 1)) eqn:E1.
  - injection E as <- <- <-. apply andb_true_iff in E1. destruct E1 as [A B]. apply Z.eqb_eq in A, B. subst. cbn [c_num_faces]. repeat split; (lia || reflexivity).
  - destruct ((t =? 1) && (f =? 4)) eqn:E2; [|discriminate]. injection E as <- <- <-. apply andb_true_iff in E2. destruct E2 as [A B]. apply Z.eqb_eq in A, B. subst. cbn [c_num_faces]. repeat split; (lia || reflexivity).
Qed.
Example ex_hex_neighbor : PropertiesNeighbor.meet (cube_crossing true) ex_hexes 0 (c_walk true [5; 7; 3]) 1 1 (c_walk true [3; 1; 0]) 4 /\
  element_face_neighbor (cube_crossing true) ex_hexes (existT _ 0 (c_root true)) 0 = Ok None.
Proof. split; [split; reflexivity|reflexivity]. Qed.
Notation hex := (cube_scheme true).
Definition hx_lv (t : Z) : list (elt hex) := if t =? 0 then [c_root true] else c_children_of true (c_root true).
Definition hx_trs (p : Z) : list (ltree (fun _ => hex)) := [existT (fun _ => list (elt hex)) p (hx_lv p)].
Example hx_distributed : distributed (cls := fun _ => hex) 2 2 18 hx_lv (leaves_at hx_trs).
Proof.
  split; [lia|]. split; [lia|]. split; [|reflexivity]. intros t Ht. split; [exact (cube_laws true)|]. split; [split; vm_compute; discriminate|].
  assert (R : valid (S := hex) (c_root true)) by exact (@valid_root hex).
  assert (C : t = 0 \/ t = 1) by lia. destruct C as [-> | ->]; (split; [split|]).
  - constructor; [exact R|constructor].
  - change (hx_lv 0) with [s_root hex]. apply region_one.
  - constructor; [vm_compute; discriminate|constructor].
  - assert (L : s_level (s_root hex) < s_maxlevel hex) by reflexivity. exact (children_valid (cube_laws true) R L).
  - assert (L : s_level (s_root hex) < s_maxlevel hex) by reflexivity. exact (cells_children (cube_laws true) R L).
  - apply Forall_forall. intros x Hx. change (hx_lv 1) with (map (c_child true (c_root true)) (zseq 0 8)) in Hx. apply in_map_iff in Hx. destruct Hx as (i & <- & _). vm_compute. discriminate.
Qed.
Example hx_local_trees p : 0 <= p < 2 -> local_trees (cls := fun _ => hex) (leaves_at hx_trs) p (hx_trs p).
Proof.
  intros Hp. split; [repeat constructor|]. assert (C : p = 0 \/ p = 1) by lia. destruct C as [-> | ->]; (split; [repeat constructor; discriminate|reflexivity]).
Qed.
(** the ghost layer of these hexahedra is created *)
Example hx_ghosts : exists rem out, begun (cls := fun _ => hex) (fun _ => cube_faces true) (neighbor (cube_crossing true) ex_hexes) 3 2 2 18 (leaves_at hx_trs) true 0 hx_trs rem out.
Proof.
  assert (M : 0 <= 18 <= c_maxlevel true) by (cbn; lia).
  destruct (@C42_cube_ghost_layer true 2 2 18 hx_lv (leaves_at hx_trs) ex_hexes true 0 hx_trs hx_distributed ex_hexes_connected M hx_local_trees) as (rem & out & B & _). exists rem, out. exact B.
Qed.

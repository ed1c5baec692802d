(** C36 and C42: the ghost layer and the exchange of ghost data.  The vocabulary is in FaceSpec.v ([adjacent], [mesh_ok]), GhostSpec.v
    ([ghost_of], [picks], [local_trees], [data_of]), OwnerSpec.v ([distributed]: the leaves of the forest are on P processes) and
    NeighborSpec.v ([connected]: the trees of the mesh are connected at their faces). *)
From Coq Require Import Sorting.Sorted.
From Verif Require Import Prelude PathSpec LineModel SimplexModel SchemeModel SchemeSpec SchemeProofs SchemeOrderProofs SchemeInstances ExampleLine PartitionSpec OwnerModel OwnerSpec OwnerMainProofs PropertiesOwner.
From Verif Require Import FaceModel FaceSpec FaceProofs GhostModel GhostSpec GhostOwnerProofs GhostRemoteProofs GhostSearchProofs GhostExchangeProofs GhostDataProofs AnyNetModel AnyNetProofs GhostMainProofs GhostLayerProofs.
From Verif Require Import NeighborModel NeighborSpec NeighborInstances.
Set Implicit Arguments.

(** The ghost creation of all processes up to the point where messages are exchanged: each process p computed its remote elements [rem p]
    and the messages [out p] to send, with the tables of the forest and its local trees [trs p] *)
Definition begun {cls : Z -> scheme} (fc : forall t, faces (cls t)) (nb : {t : Z & elt (cls t)} -> Z -> option ({t : Z & elt (cls t)} * Z))
  (version P K ml : Z) (loc : Z -> list {t : Z & elt (cls t)}) (dbg : bool) (x0 : Z) (trs : Z -> list (ltree cls)) (rem : Z -> remotes cls) (out : Z -> list (Z * message cls)) : Prop :=
  exists to, create_tree_offsets P K ml loc = Ok to /\ forall p, 0 <= p < P ->
    ghost_begin fc nb dbg P ml p (element_offsets P loc) to (create_first_desc P ml loc ++ [x0]) version (trs p) = Ok (rem p, out p).
(** the leaves in the ghost trees, in order *)
Definition ghost_leaves {cls : Z -> scheme} (h : ghosts cls) : list {t : Z & elt (cls t)} := flat_map gt_elems (gh_trees h).
(** the ghosts are stored by tree, the trees in increasing order, and each tree knows how many ghosts are before it *)
Definition ghost_trees_ok {cls : Z -> scheme} (h : ghosts cls) : Prop :=
  gh_num h = zlen (ghost_leaves h) /\ StronglySorted Z.lt (map gt_tree (gh_trees h)) /\
  forall pre T post, gh_trees h = pre ++ T :: post -> gt_elems T <> [] /\ (forall x, In x (gt_elems T) -> projT1 x = gt_tree T) /\ gt_offset T = zlen (flat_map gt_elems pre).

Section general.
Variable cls : Z -> scheme.
Notation leaf := {t : Z & elt (cls t)}.
Lemma trees_ok_of (h : ghosts cls) G : gok h G -> ghost_leaves h = G /\ ghost_trees_ok h.
Proof.
  intros ((A & B & C) & D & E). split; [exact D|]. unfold ghost_trees_ok, ghost_leaves. rewrite D. split; [exact E|]. split; [exact B|]. intros pre T post EQ. rewrite EQ in A. apply Forall_app in A. destruct A as [_ A]. apply Forall_cons_iff in A. destruct A as [[A1 A2] _]. split; [exact A1|]. split; [|exact (C _ _ _ EQ)].
  intros x Hx. exact (proj1 (Forall_forall _ _) A2 x Hx).
Qed.
End general.

(** C42: the top-down ghost creation always begins (no failed assertion, no access outside an array) *)
Theorem C42_ghost_begins : forall cls P K ml (lv : forall t, list (elt (cls t))) (loc : Z -> list {t : Z & elt (cls t)}) fc nb dbg x0 (trs : Z -> list (ltree cls)),
  distributed P K ml lv loc -> mesh_ok fc nb K ml -> (forall p, 0 <= p < P -> local_trees loc p (trs p)) ->
  exists rem out, begun fc nb 3 P K ml loc dbg x0 trs rem out.
Proof.
  intros cls P K ml lv loc fc nb dbg x0 trs D HM HT. destruct (ghost_begin_ok D HM dbg x0 HT) as (to & ET & H).
  set (f := fun p => match ghost_begin fc nb dbg P ml p (element_offsets P loc) to (create_first_desc P ml loc ++ [x0]) 3 (trs p) with Ok r => r | _ => (no_remotes, []) end).
  exists (fun p => fst (f p)), (fun p => snd (f p)), to. split; [exact ET|]. intros p Hp. destruct (H p Hp) as (g & ms & E). unfold f. rewrite E. exact eq_refl.
Qed.
Print Assumptions C42_ghost_begins.
(** C42: whatever the order in which the messages are sent and received, the exchange never hangs and ends *)
Theorem C42_exchange_ends : forall cls P K ml (lv : forall t, list (elt (cls t))) (loc : Z -> list {t : Z & elt (cls t)}) fc nb dbg x0 (trs : Z -> list (ltree cls)) rem out,
  distributed P K ml lv loc -> mesh_ok fc nb K ml -> (forall p, 0 <= p < P -> local_trees loc p (trs p)) -> begun fc nb 3 P K ml loc dbg x0 trs rem out ->
  well_founded (fun s' s : anet (message cls) => astep P s s') /\
  forall s, asteps P (astart out (fun p => length (g_procs (rem p)))) s -> adone P s \/ exists s', astep P s s'.
Proof.
  intros cls P K ml lv loc fc nb dbg x0 trs rem out D HM HT (to & ET & EB). split; [apply steps_end|]. intros s ST. exact (ghost_progress D HM HT ET EB ST).
Qed.
Print Assumptions C42_exchange_ends.
(** C42: the ghost layer is complete and exact: when the exchange is done, the ghosts of each process are the leaves of the other
    processes that share a part of a face with one of its leaves, each once, in the order of the forest *)
Theorem C42_ghost_layer : forall cls P K ml (lv : forall t, list (elt (cls t))) (loc : Z -> list {t : Z & elt (cls t)}) fc nb dbg x0 (trs : Z -> list (ltree cls)) rem out s,
  distributed P K ml lv loc -> mesh_ok fc nb K ml -> (forall p, 0 <= p < P -> local_trees loc p (trs p)) -> begun fc nb 3 P K ml loc dbg x0 trs rem out ->
  asteps P (astart out (fun p => length (g_procs (rem p)))) s -> adone P s ->
  forall p, 0 <= p < P -> exists h, receive (g_procs (rem p)) (a_got s p) = Ok h /\ picks (ghost_of fc nb P ml loc p) (all_leaves K lv) (ghost_leaves h) /\ ghost_trees_ok h.
Proof.
  intros cls P K ml lv loc fc nb dbg x0 trs rem out s D HM HT (to & ET & EB) ST DN p Hp. destruct (ghost_result D HM HT ET EB ST DN Hp) as (h & E & G & _). exists h. split; [exact E|].
  destruct (trees_ok_of G) as [L T]. rewrite L. split; [|exact T]. exact (ghost_list_picks D HM ET HT (ER EB) Hp).
Qed.
Print Assumptions C42_ghost_layer.
(** C42, for the meshes of lines, triangles and tetrahedra: the trees may be connected at their faces in any way *)
Theorem C42_line_ghost_layer : forall P K ml (lv : Z -> list (elt line_scheme)) (loc : Z -> list {t : Z & elt line_scheme}) conn dbg x0 trs,
  distributed (cls := fun _ => line_scheme) P K ml lv loc -> connected 2 1 K conn -> 0 <= ml <= LMAX -> (forall p, 0 <= p < P -> local_trees (cls := fun _ => line_scheme) loc p (trs p)) ->
  exists rem out, begun (fun _ => line_faces) (neighbor line_crossing conn) 3 P K ml loc dbg x0 trs rem out /\
  forall s, asteps P (astart out (fun p => length (g_procs (rem p)))) s -> (adone P s \/ exists s', astep P s s') /\
    (adone P s -> forall p, 0 <= p < P -> exists h, receive (g_procs (rem p)) (a_got s p) = Ok h /\
       picks (ghost_of (fun _ => line_faces) (neighbor line_crossing conn) P ml loc p) (all_leaves K lv) (ghost_leaves h) /\ ghost_trees_ok h).
Proof.
  intros P K ml lv loc conn dbg x0 trs D HC Hml HT. assert (HM := line_mesh HC Hml). destruct (@C42_ghost_begins _ P K ml lv loc _ _ dbg x0 trs D HM HT) as (rem & out & B). exists rem, out. split; [exact B|].
  intros s ST. split; [exact (proj2 (C42_exchange_ends D HM HT B) s ST)|]. intros DN p Hp. exact (C42_ghost_layer D HM HT B ST DN Hp).
Qed.
Print Assumptions C42_line_ghost_layer.
Theorem C42_triangle_ghost_layer : forall P K ml (lv : Z -> list (elt (simplex_scheme false))) (loc : Z -> list {t : Z & elt (simplex_scheme false)}) conn dbg x0 trs,
  distributed (cls := fun _ => simplex_scheme false) P K ml lv loc -> connected 3 2 K conn -> 0 <= ml <= s_maxlevel (simplex_scheme false) ->
  (forall p, 0 <= p < P -> local_trees (cls := fun _ => simplex_scheme false) loc p (trs p)) ->
  exists rem out, begun (fun _ => simplex_faces false) (neighbor tri_crossing conn) 3 P K ml loc dbg x0 trs rem out /\
  forall s, asteps P (astart out (fun p => length (g_procs (rem p)))) s -> (adone P s \/ exists s', astep P s s') /\
    (adone P s -> forall p, 0 <= p < P -> exists h, receive (g_procs (rem p)) (a_got s p) = Ok h /\
       picks (ghost_of (fun _ => simplex_faces false) (neighbor tri_crossing conn) P ml loc p) (all_leaves K lv) (ghost_leaves h) /\ ghost_trees_ok h).
Proof.
  intros P K ml lv loc conn dbg x0 trs D HC Hml HT. assert (HM := tri_mesh HC Hml). destruct (@C42_ghost_begins _ P K ml lv loc _ _ dbg x0 trs D HM HT) as (rem & out & B). exists rem, out. split; [exact B|].
  intros s ST. split; [exact (proj2 (C42_exchange_ends D HM HT B) s ST)|]. intros DN p Hp. exact (C42_ghost_layer D HM HT B ST DN Hp).
Qed.
Print Assumptions C42_triangle_ghost_layer.
Theorem C42_tetrahedron_ghost_layer : forall P K ml (lv : Z -> list (elt (simplex_scheme true))) (loc : Z -> list {t : Z & elt (simplex_scheme true)}) conn dbg x0 trs,
  distributed (cls := fun _ => simplex_scheme true) P K ml lv loc -> connected 4 3 K conn -> 0 <= ml <= s_maxlevel (simplex_scheme true) ->
  (forall p, 0 <= p < P -> local_trees (cls := fun _ => simplex_scheme true) loc p (trs p)) ->
  exists rem out, begun (fun _ => simplex_faces true) (neighbor tet_crossing conn) 3 P K ml loc dbg x0 trs rem out /\
  forall s, asteps P (astart out (fun p => length (g_procs (rem p)))) s -> (adone P s \/ exists s', astep P s s') /\
    (adone P s -> forall p, 0 <= p < P -> exists h, receive (g_procs (rem p)) (a_got s p) = Ok h /\
       picks (ghost_of (fun _ => simplex_faces true) (neighbor tet_crossing conn) P ml loc p) (all_leaves K lv) (ghost_leaves h) /\ ghost_trees_ok h).
Proof.
  intros P K ml lv loc conn dbg x0 trs D HC Hml HT. assert (HM := tet_mesh HC Hml). destruct (@C42_ghost_begins _ P K ml lv loc _ _ dbg x0 trs D HM HT) as (rem & out & B). exists rem, out. split; [exact B|].
  intros s ST. split; [exact (proj2 (C42_exchange_ends D HM HT B) s ST)|]. intros DN p Hp. exact (C42_ghost_layer D HM HT B ST DN Hp).
Qed.
Print Assumptions C42_tetrahedron_ghost_layer.

(** C36: a leaf x of the process q is a ghost of the process p if and only if q has x among the remote elements of p *)
Theorem C36_ghosts_are_remotes : forall cls P K ml (lv : forall t, list (elt (cls t))) (loc : Z -> list {t : Z & elt (cls t)}) fc nb dbg x0 (trs : Z -> list (ltree cls)) rem out s,
  distributed P K ml lv loc -> mesh_ok fc nb K ml -> (forall p, 0 <= p < P -> local_trees loc p (trs p)) -> begun fc nb 3 P K ml loc dbg x0 trs rem out ->
  asteps P (astart out (fun p => length (g_procs (rem p)))) s -> adone P s ->
  forall p q, 0 <= p < P -> 0 <= q < P -> exists h, receive (g_procs (rem p)) (a_got s p) = Ok h /\
    forall x, (In x (ghost_leaves h) /\ In x (loc q)) <-> exists r rt i, In r (g_remotes (rem q)) /\ r_rank r = p /\ In rt (r_trees r) /\ In (x, i) (rt_elems rt).
Proof.
  intros cls P K ml lv loc fc nb dbg x0 trs rem out s D HM HT (to & ET & EB) ST DN p q Hp Hq. destruct (ghost_result D HM HT ET EB ST DN Hp) as (h & E & G & _). exists h. split; [exact E|]. intros x.
  destruct (trees_ok_of G) as [L _]. rewrite L, (remote_iff D HM HT ET EB x Hp Hq). split.
  - intros (r & i & A & B & C). apply in_flat_map in C. destruct C as (rt & C1 & C2). exists r, rt, i. auto.
  - intros (r & rt & i & A & B & C1 & C2). exists r, i. split; [exact A|]. split; [exact B|]. apply in_flat_map. eauto.
Qed.
Print Assumptions C36_ghosts_are_remotes.
(** C36: the remote processes: p lists q iff q lists p, iff p has ghosts of q, and each is listed once, in increasing order *)
Theorem C36_remote_processes : forall cls P K ml (lv : forall t, list (elt (cls t))) (loc : Z -> list {t : Z & elt (cls t)}) fc nb dbg x0 (trs : Z -> list (ltree cls)) rem out,
  distributed P K ml lv loc -> mesh_ok fc nb K ml -> (forall p, 0 <= p < P -> local_trees loc p (trs p)) -> begun fc nb 3 P K ml loc dbg x0 trs rem out ->
  forall p, 0 <= p < P -> StronglySorted Z.lt (remote_processes (rem p)) /\
    forall q, In q (remote_processes (rem p)) <-> 0 <= q < P /\ q <> p /\ exists x, In x (loc q) /\ ghost_of fc nb P ml loc p x.
Proof.
  intros cls P K ml lv loc fc nb dbg x0 trs rem out D HM HT (to & ET & EB) p Hp. assert (ERp := ER EB). destruct (remote_procs D HM ET HT Hp (ERp p Hp)) as [ND IP]. split; [exact (sort_sorted ND)|].
  intros q. assert (Q : In q (remote_processes (rem p)) <-> In q (g_procs (rem p))). { unfold remote_processes. split; intros I; eapply Permutation.Permutation_in; try exact I; [apply sort_perm|symmetry; apply sort_perm]. }
  rewrite Q. split.
  - intros I. assert (Hq : 0 <= q < P) by exact (procs_range D HM ET HT ERp Hp I). apply (procs_sym D HM ET HT ERp Hp Hq) in I. destruct (remote_procs D HM ET HT Hq (ERp q Hq)) as [_ IQ]. apply IQ in I. destruct I as (_ & N & x & Ix & m & Im & A). split; [exact Hq|]. split; [congruence|]. exists x. split; [exact Ix|]. split; [exists q; split; [exact Hq|]; split; [congruence|exact Ix]|].
    exists m. split; [exact Im|]. destruct x as [t e]. apply (adjacent_sym HM) with (1 := proj1 (leaf_ok D (in_loc_all D Hq Ix))). exact A.
  - intros (Hq & N & x & Ix & _ & m & Im & A). apply IP. split; [exact Hq|]. split; [exact N|]. exists m. split; [exact Im|]. exists x. auto.
Qed.
Print Assumptions C36_remote_processes.
(** C36: the exchange of ghost data never hangs and ends, and then the entry of each ghost is the data of its owner; the entries of the
    local leaves are unchanged *)
Theorem C36_ghost_data : forall cls P K ml (lv : forall t, list (elt (cls t))) (loc : Z -> list {t : Z & elt (cls t)}) fc nb dbg x0 (trs : Z -> list (ltree cls)) rem out s (hs : Z -> ghosts cls) DT (dat : Z -> list DT),
  distributed P K ml lv loc -> mesh_ok fc nb K ml -> (forall p, 0 <= p < P -> local_trees loc p (trs p)) -> begun fc nb 3 P K ml loc dbg x0 trs rem out ->
  asteps P (astart out (fun p => length (g_procs (rem p)))) s -> adone P s -> (forall p, 0 <= p < P -> receive (g_procs (rem p)) (a_got s p) = Ok (hs p)) ->
  (forall p, 0 <= p < P -> zlen (dat p) = zlen (loc p) + gh_num (hs p)) ->
  exists dout, (forall p, 0 <= p < P -> data_messages (dat p) (tree_offset (trs p)) (rem p) (remote_processes (rem p)) = Ok (dout p)) /\
  well_founded (fun s' s : anet (list DT) => astep P s s') /\
  forall s', asteps P (astart dout (fun p => length (remote_processes (rem p)))) s' -> (adone P s' \/ exists s'', astep P s' s'') /\
    (adone P s' -> forall p, 0 <= p < P -> exists ds, receive_data (remote_processes (rem p)) (hs p) (zlen (loc p)) (a_got s' p) (dat p) = Ok (firstn (length (loc p)) (dat p) ++ ds) /\
       Forall2 (data_of P loc dat) (ghost_leaves (hs p)) ds).
Proof.
  intros cls P K ml lv loc fc nb dbg x0 trs rem out s hs DT dat D HM HT (to & ET & EB) ST DN RV ZL.
  assert (G : forall p, 0 <= p < P -> gok (hs p) (ghost_list rem p) /\ procs_ok (hs p) (fun q => remote_msg (rem q) p) (sort_ranks (g_procs (rem p)))).
  { intros p Hp. destruct (ghost_result D HM HT ET EB ST DN Hp) as (h & E & G). rewrite (RV p Hp) in E. injection E as ->. exact G. }
  assert (HD : forall p, 0 <= p < P -> (length (loc p) <= length (dat p))%nat).
  { intros p Hp. destruct (G p Hp) as [(_ & _ & GN) _]. assert (Z1 := ZL p Hp). rewrite GN in Z1. pose proof (zlen_ge0 (ghost_list rem p)) as Z2. clear - Z1 Z2. unfold zlen in *. lia. }
  set (dout := fun p => match data_messages (dat p) (tree_offset (trs p)) (rem p) (remote_processes (rem p)) with Ok ms => ms | _ => [] end).
  assert (ED : forall p, 0 <= p < P -> data_messages (dat p) (tree_offset (trs p)) (rem p) (remote_processes (rem p)) = Ok (dout p)).
  { intros p Hp. destruct (data_begin_ok D HM HT ET EB HD Hp) as (ms & E). unfold dout. rewrite E. reflexivity. }
  exists dout. split; [exact ED|]. split; [apply steps_end|]. intros s' ST'. split; [exact (data_progress D HM HT ET EB HD ED ST')|]. intros DN' p Hp. destruct (G p Hp) as [G1 G2].
  unfold ghost_leaves. rewrite (proj1 (proj2 G1)). exact (data_result D HM HT ET EB HD ED ST' DN' Hp G1 G2 (ZL p Hp)).
Qed.
Print Assumptions C36_ghost_data.

(** ** example: the two trees of lines of PropertiesOwner.v on five processes; face 1 of the tree 0 is face 0 of the tree 1 *)
Definition ex_conn : connection := fun t f => if (t =? 0) && (f =? 1) then Some (1, 0, 0) else if (t =? 1) && (f =? 0) then Some (0, 1, 0) else None.
Example ex_connected : connected 2 1 2 ex_conn.
Proof.
  intros t f t' f' o Ht Hf. assert (C : (t = 0 \/ t = 1) /\ (f = 0 \/ f = 1)) by lia. destruct C as [[-> | ->] [-> | ->]]; intros E; vm_compute in E; try discriminate; injection E as <- <- <-; repeat split; (lia || reflexivity).
Qed.
Definition ex_trs (p : Z) : list (ltree (fun _ => line_scheme)) :=
  let m t ps := existT (fun _ => list (elt line_scheme)) t (map ln ps) in
  if p =? 1 then [m 0 [[0]; [1; 0]]] else if p =? 2 then [m 0 [[1; 1]]; m 1 [[0; 0]]] else if p =? 4 then [m 1 [[0; 1]; [1]]] else [].
Example ex_local_trees p : 0 <= p < 5 -> local_trees (cls := fun _ => line_scheme) ex_loc p (ex_trs p).
Proof.
  intros Hp. unfold ex_trs, ex_loc, local_trees. destruct (p =? 1); [|destruct (p =? 2); [|destruct (p =? 4)]]; cbn [map projT1 projT2]; (split; [|split; [|reflexivity]]).
  all: repeat (constructor; try lia; try discriminate).
Qed.
Definition lf (t : Z) (q : list Z) : {t : Z & elt line_scheme} := existT (fun _ => elt line_scheme) t (ln q).
(** the computation of all processes *)
Definition is_ok {A} (x : outcome A) : bool := match x with Ok _ => true | _ => false end.
Definition the {A} (d : A) (x : outcome A) : A := match x with Ok a => a | _ => d end.
Definition ex_begin (version : Z) (conn : connection) (p : Z) : outcome (remotes (fun _ => line_scheme) * list (Z * message (fun _ => line_scheme))) :=
  ghost_begin (fun _ => line_faces) (neighbor line_crossing conn) true 5 30 p (element_offsets 5 ex_loc) [0; 0; -1; 2; -2; 2] (create_first_desc 5 30 ex_loc ++ [7]) version (ex_trs p).
Lemma ex_begun version conn : forallb (fun p => is_ok (ex_begin version conn p)) [0; 1; 2; 3; 4] = true ->
  begun (fun _ => line_faces) (neighbor line_crossing conn) version 5 2 30 ex_loc true 7 ex_trs (fun p => fst (the (no_remotes, []) (ex_begin version conn p))) (fun p => snd (the (no_remotes, []) (ex_begin version conn p))).
Proof.
  intros H. rewrite forallb_forall in H. exists [0; 0; -1; 2; -2; 2]. split; [vm_cast_no_check (@eq_refl (outcome (list Z)) (Ok [0; 0; -1; 2; -2; 2]))|]. intros p Hp. assert (I : In p [0; 1; 2; 3; 4]) by (cbn [In]; lia). specialize (H p I). unfold ex_begin in *. destruct (ghost_begin _ _ _ _ _ _ _ _ _ _ _) as [[g ms]| | |]; try discriminate. exact eq_refl.
Qed.
(** the process 2 has a leaf of each tree; its ghosts are the last leaf of the process 1 and the first of the process 4, whatever the
    order in which their messages arrive *)
Example ex_ghosts : exists rem out, begun (fun _ => line_faces) (neighbor line_crossing ex_conn) 3 5 2 30 ex_loc true 7 ex_trs rem out /\
  remote_processes (rem 2) = [1; 4] /\ out 1 = [(2, [(0, [lf 0 [1; 0]])])] /\ out 4 = [(2, [(1, [lf 1 [0; 1]])])] /\ out 3 = [] /\
  exists h, receive (g_procs (rem 2)) [(4, [(1, [lf 1 [0; 1]])]); (1, [(0, [lf 0 [1; 0]])])] = Ok h /\ ghost_leaves h = [lf 0 [1; 0]; lf 1 [0; 1]] /\ gh_num h = 2.
Proof.
  eexists. eexists. split; [apply ex_begun; vm_compute; reflexivity|]. cbv beta.
  split; [vm_cast_no_check (@eq_refl (list Z) [1; 4])|]. split; [vm_cast_no_check (@eq_refl (list (Z * message (fun _ => line_scheme))) [(2, [(0, [lf 0 [1; 0]])])])|].
  split; [vm_cast_no_check (@eq_refl (list (Z * message (fun _ => line_scheme))) [(2, [(1, [lf 1 [0; 1]])])])|]. split; [vm_compute; exact eq_refl|].
  exists (Ghosts [GTree 0 0 [lf 0 [1; 0]]; GTree 1 1 [lf 1 [0; 1]]] 2 [GProc 1 0 0 0; GProc 4 1 0 1]). split; [|split; reflexivity].
  vm_cast_no_check (@eq_refl (outcome (ghosts (fun _ => line_scheme))) (Ok (Ghosts [GTree 0 0 [lf 0 [1; 0]]; GTree 1 1 [lf 1 [0; 1]]] 2 [GProc 1 0 0 0; GProc 4 1 0 1]))).
Qed.
(** the hypotheses of the theorems are met by this example *)
Example ex_ghost_layer : exists rem out, begun (fun _ => line_faces) (neighbor line_crossing ex_conn) 3 5 2 30 ex_loc true 7 ex_trs rem out /\
  forall s, asteps 5 (astart out (fun p => length (g_procs (rem p)))) s -> (adone 5 s \/ exists s', astep 5 s s') /\
    (adone 5 s -> forall p, 0 <= p < 5 -> exists h, receive (g_procs (rem p)) (a_got s p) = Ok h /\
       picks (ghost_of (fun _ => line_faces) (neighbor line_crossing ex_conn) 5 30 ex_loc p) (all_leaves 2 ex_lv) (ghost_leaves h) /\ ghost_trees_ok h).
Proof.
  assert (L : 0 <= 30 <= LMAX) by (split; vm_compute; discriminate). apply C42_line_ghost_layer; [exact ex_distributed|exact ex_connected|exact L|exact ex_local_trees].
Qed.

(** C42 is false for the versions 1 (balanced only) and 2 (unbalanced) of the ghost creation, which t8_forest_set_ghost_ext and
    t8_forest_ghost_create_ext offer as well: they never add a remote element, so that there is no ghost although processes share faces *)
Definition ex_ring : connection := fun t f => if f =? 1 then Some (1 - t, 0, 0) else Some (1 - t, 1, 0).
Lemma ex_ring_connected : connected 2 1 2 ex_ring.
Proof.
  intros t f t' f' o Ht Hf. assert (C : (t = 0 \/ t = 1) /\ (f = 0 \/ f = 1)) by lia. destruct C as [[-> | ->] [-> | ->]]; intros E; vm_compute in E; injection E as <- <- <-; repeat split; (lia || reflexivity).
Qed.
Theorem C42_versions_refuted : forall version, version = 1 \/ version = 2 ->
  exists P K ml (lv : Z -> list (elt line_scheme)) (loc : Z -> list {t : Z & elt line_scheme}) conn dbg x0 trs rem out p x,
  distributed (cls := fun _ => line_scheme) P K ml lv loc /\ connected 2 1 K conn /\ 0 <= ml <= LMAX /\ (forall p, 0 <= p < P -> local_trees (cls := fun _ => line_scheme) loc p (trs p)) /\
  begun (fun _ => line_faces) (neighbor line_crossing conn) version P K ml loc dbg x0 trs rem out /\
  (forall p, 0 <= p < P -> g_remotes (rem p) = [] /\ g_procs (rem p) = [] /\ out p = []) /\
  0 <= p < P /\ ghost_of (fun _ => line_faces) (neighbor line_crossing conn) P ml loc p x.
Proof.
  intros v Hv. exists 5, 2, 30, ex_lv, ex_loc, ex_ring, true, 7, ex_trs, (fun p => fst (the (no_remotes, []) (ex_begin v ex_ring p))), (fun p => snd (the (no_remotes, []) (ex_begin v ex_ring p))), 2, (lf 0 [1; 0]).
  split; [exact ex_distributed|]. split; [exact ex_ring_connected|]. split; [split; vm_compute; discriminate|]. split; [exact ex_local_trees|]. split.
  { apply ex_begun. destruct Hv as [-> | ->]; vm_compute; reflexivity. }
  split. { intros p Hp. assert (C : p = 0 \/ p = 1 \/ p = 2 \/ p = 3 \/ p = 4) by lia. destruct Hv as [-> | ->]; destruct C as [-> |[-> |[-> |[-> | ->]]]]; split; [reflexivity|split; reflexivity|reflexivity|split; reflexivity|reflexivity|split; reflexivity|reflexivity|split; reflexivity|reflexivity|split; reflexivity|reflexivity|split; reflexivity|reflexivity|split; reflexivity|reflexivity|split; reflexivity|reflexivity|split; reflexivity|reflexivity|split; reflexivity]. }
  split; [lia|]. split.
  - exists 1. split; [lia|]. split; [discriminate|]. right. left. reflexivity.
  - exists (lf 0 [1; 1]). split; [left; reflexivity|]. exists (lf 0 [1; 1]), (lf 0 [1; 0]), 0, 1.
    assert (B : forall q, gpath line_scheme q -> in_leaf (cls := fun _ => line_scheme) (lf 0 q) (lf 0 q)). { intros q Hq. exists 0, (ln q), (ln q). split; [reflexivity|]. split; [reflexivity|]. exact (below_refl (valid_walk Hq)). }
    split; [apply B, ln_path; reflexivity|]. split; [apply B, ln_path; reflexivity|]. split; [vm_compute; discriminate|]. split; [split; vm_compute; [discriminate|reflexivity]|]. reflexivity.
Qed.
Print Assumptions C42_versions_refuted.
(** and the version 1 does not work at all on a mesh with a boundary: it allocates elements of the class T8_ECLASS_INVALID *)
Theorem C42_balanced_boundary_refuted : exists P K ml (lv : Z -> list (elt line_scheme)) (loc : Z -> list {t : Z & elt line_scheme}) conn to trs p,
  distributed (cls := fun _ => line_scheme) P K ml lv loc /\ connected 2 1 K conn /\ (forall p, 0 <= p < P -> local_trees (cls := fun _ => line_scheme) loc p (trs p)) /\
  create_tree_offsets P K ml loc = Ok to /\ 0 <= p < P /\
  ghost_begin (cls := fun _ => line_scheme) (fun _ => line_faces) (neighbor line_crossing conn) false P ml p (element_offsets P loc) to (create_first_desc P ml loc ++ [0]) 1 (trs p) = Oob.
Proof.
  exists 5, 2, 30, ex_lv, ex_loc, ex_conn, [0; 0; -1; 2; -2; 2], ex_trs, 1. split; [exact ex_distributed|]. split; [exact ex_connected|]. split; [exact ex_local_trees|]. split; [vm_cast_no_check (@eq_refl (outcome (list Z)) (Ok [0; 0; -1; 2; -2; 2]))|]. split; [lia|].
  vm_cast_no_check (@eq_refl (outcome (remotes (fun _ => line_scheme) * list (Z * message (fun _ => line_scheme)))) Oob).
Qed.
Print Assumptions C42_balanced_boundary_refuted.

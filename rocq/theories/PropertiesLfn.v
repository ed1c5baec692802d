(** C34: the leaf neighbours at a face.  The vocabulary is in LfnSpec.v ([meet]: two elements share a subface, [neighbors_at]), GhostSpec.v
    ([local_trees], [ghost_of], [picks]) and OwnerSpec.v ([distributed]). *)
From Coq Require Import Sorting.Sorted.
From Verif Require Import Prelude PathSpec LineModel SimplexModel SchemeModel SchemeSpec SchemeProofs SchemeOrderProofs SchemeInstances ExampleLine PartitionSpec OwnerModel OwnerSpec OwnerMainProofs PropertiesOwner.
From Verif Require Import FaceModel FaceSpec FaceProofs GhostModel GhostSpec GhostOwnerProofs GhostSearchProofs PropertiesGhost NeighborModel NeighborSpec NeighborInstances LfnModel LfnSpec LfnProofs.
Set Implicit Arguments.

(** The ghosts of the process me, or none: they are the ghost layer, as the ghost creation makes it (C42_ghost_layer) *)
Definition ghosts_complete {cls : Z -> scheme} (fc : forall t, faces (cls t)) (nb : {t : Z & elt (cls t)} -> Z -> option ({t : Z & elt (cls t)} * Z))
  (P K ml : Z) (lv : forall t, list (elt (cls t))) (loc : Z -> list {t : Z & elt (cls t)}) (me : Z) (h : option (ghosts cls)) : Prop :=
  match h with Some h => ghost_trees_ok h /\ picks (ghost_of fc nb P ml loc me) (all_leaves K lv) (ghost_leaves h) | None => True end.
Definition ghosts_of {cls : Z -> scheme} (h : option (ghosts cls)) : list {t : Z & elt (cls t)} := match h with Some h => ghost_leaves h | None => [] end.
(** the call on the process me, with the tables of the forest *)
Definition call {cls : Z -> scheme} (fc : forall t, faces (cls t)) (nb : {t : Z & elt (cls t)} -> Z -> option ({t : Z & elt (cls t)} * Z)) (dbg : bool)
  (P K ml : Z) (loc : Z -> list {t : Z & elt (cls t)}) (x0 me : Z) (ts : list (ltree cls)) (h : option (ghosts cls)) (is_ghost : bool) (l : {t : Z & elt (cls t)}) (f : Z)
  : outcome (list ({t : Z & elt (cls t)} * Z * Z) * Z) :=
  do to <- create_tree_offsets P K ml loc;
  leaf_face_neighbors fc nb dbg P ml me (element_offsets P loc) to (create_first_desc P ml loc ++ [x0]) ts (zlen (loc me)) h is_ghost (projT2 l) f.

Section general.
Variable cls : Z -> scheme.
Notation leaf := {t : Z & elt (cls t)}.
Lemma sorted_in (stored : list leaf) fc nb ml l f off r m g i : neighbors_at fc nb ml l f stored off r -> In (m, g, i) r -> off <= i < off + zlen stored.
Proof. intros [_ H] I. apply H in I. destruct I as (A & B & _). assert (Z.to_nat (i - off) < length stored)%nat by (apply nth_error_Some; congruence). unfold zlen. lia. Qed.
Lemma call_main P K ml (lv : forall t, list (elt (cls t))) (loc : Z -> list leaf) fc nb dbg x0 me ts h (is_ghost : bool) (l : leaf) f :
  distributed P K ml lv loc -> mesh_ok fc nb K ml -> 0 <= me < P -> local_trees loc me ts -> ghosts_complete fc nb P K ml lv loc me h ->
  In l (if is_ghost then ghosts_of h else loc me) -> leaf_face fc l f ->
  exists L G r t', call fc nb dbg P K ml loc x0 me ts h is_ghost l f = Ok (r, t') /\
    neighbors_at fc nb ml l f (loc me) 0 L /\ neighbors_at fc nb ml l f (ghosts_of h) (zlen (loc me)) G /\
    (r = L ++ G \/ r = L ++ L ++ G) /\ (L <> [] -> G <> [] -> r = L ++ L ++ G) /\ (L = [] -> r = G) /\ (is_ghost = false -> G = [] -> r = L) /\
    t' = match nb l f with Some (m, _) => projT1 m | None => -1 end.
Proof.
  intros D HM Hme HT HG I Hf. destruct (tree_offsets_ok D) as (to & ET & _). unfold call. rewrite ET. cbn [obind]. destruct l as [t e].
  apply (lfn_main D HM dbg ET x0 Hme HT (h := h) HG); [intros ->; exact I|intros ->; exact I|exact Hf].
Qed.
Lemma nodup_app_sorted (L G : list (leaf * Z * Z)) n : StronglySorted Z.lt (map snd L) -> StronglySorted Z.lt (map snd G) -> (forall m g i, In (m, g, i) L -> i < n) -> (forall m g i, In (m, g, i) G -> n <= i) -> StronglySorted Z.lt (map snd (L ++ G)).
Proof.
  intros S1 S2 B1 B2. rewrite map_app. apply sorted_app. split; [exact S1|]. split; [exact S2|]. intros x y Hx Hy. apply in_map_iff in Hx, Hy. destruct Hx as ([[m g] i] & <- & Hx). destruct Hy as ([[m' g'] i'] & <- & Hy). cbn [snd]. specialize (B1 _ _ _ Hx). specialize (B2 _ _ _ Hy). lia.
Qed.
End general.

(** C34: for each local leaf and each ghost and each of its faces, the function returns (no failed assertion, no access outside an array)
    exactly those local leaves and ghosts that share a subface with it, each with its face there and its index; the local leaves have the
    indices from 0 on, the ghosts follow.  The tree is the one on the other side of the face, or -1 at the boundary. *)
Theorem C34_leaf_neighbors_exact : forall cls P K ml (lv : forall t, list (elt (cls t))) (loc : Z -> list {t : Z & elt (cls t)}) fc nb dbg x0 me ts h (is_ghost : bool) l f,
  distributed P K ml lv loc -> mesh_ok fc nb K ml -> 0 <= me < P -> local_trees loc me ts -> ghosts_complete fc nb P K ml lv loc me h ->
  In l (if is_ghost then ghosts_of h else loc me) -> leaf_face fc l f ->
  exists r, call fc nb dbg P K ml loc x0 me ts h is_ghost l f = Ok (r, match nb l f with Some (m, _) => projT1 m | None => -1 end) /\
    forall m g i, In (m, g, i) r <-> 0 <= i /\ nth_error (loc me ++ ghosts_of h) (Z.to_nat i) = Some m /\ meet fc nb ml l f m g.
Proof.
  intros cls P K ml lv loc fc nb dbg x0 me ts h is_ghost l f D HM Hme HT HG I Hf. destruct (call_main dbg x0 D HM Hme HT HG I Hf) as (L & G & r & t' & E & NL & NG & C & _ & _ & _ & ET).
  rewrite ET in E. exists r. split; [exact E|]. intros m g i. transitivity (In (m, g, i) L \/ In (m, g, i) G).
  { destruct C as [-> | ->]; rewrite !in_app_iff; tauto. }
  split.
  - intros [J|J].
    + assert (B := sorted_in NL J). apply NL in J. destruct J as (A & Q & M). split; [lia|]. split; [|exact M]. rewrite nth_error_app1 by (unfold zlen in B; lia). replace i with (i - 0) by lia. exact Q.
    + assert (B := sorted_in NG J). apply NG in J. destruct J as (A & Q & M). pose proof (zlen_ge0 (loc me)). split; [lia|]. split; [|exact M]. rewrite nth_error_app2 by (unfold zlen in B; lia). replace (Z.to_nat i - length (loc me))%nat with (Z.to_nat (i - zlen (loc me))) by (unfold zlen in *; lia). exact Q.
  - intros (A & Q & M). destruct (Z.lt_ge_cases i (zlen (loc me))) as [B|B].
    + left. apply NL. split; [lia|]. split; [|exact M]. rewrite nth_error_app1 in Q by (unfold zlen in B; lia). now rewrite Z.sub_0_r.
    + right. apply NG. split; [exact B|]. split; [|exact M]. rewrite nth_error_app2 in Q by (unfold zlen in B; lia). replace (Z.to_nat (i - zlen (loc me))) with (Z.to_nat i - length (loc me))%nat by (unfold zlen in *; lia). exact Q.
Qed.
Print Assumptions C34_leaf_neighbors_exact.

(** C34: no neighbour is missing: a local leaf of a forest with ghosts, or on one process, gets every leaf of the forest that shares a
    subface with its face *)
Theorem C34_leaf_neighbors_complete : forall cls P K ml (lv : forall t, list (elt (cls t))) (loc : Z -> list {t : Z & elt (cls t)}) fc nb dbg x0 me ts h l f r t' m g,
  distributed P K ml lv loc -> mesh_ok fc nb K ml -> 0 <= me < P -> local_trees loc me ts -> ghosts_complete fc nb P K ml lv loc me h ->
  h <> None \/ P = 1 -> In l (loc me) -> leaf_face fc l f -> call fc nb dbg P K ml loc x0 me ts h false l f = Ok (r, t') ->
  In m (all_leaves K lv) -> meet fc nb ml l f m g -> exists i, In (m, g, i) r.
Proof.
  intros cls P K ml lv loc fc nb dbg x0 me ts h l f r t' m g D HM Hme HT HG NH I Hf E Im M. destruct (@C34_leaf_neighbors_exact cls P K ml lv loc fc nb dbg x0 me ts h false l f D HM Hme HT HG I Hf) as (r' & E' & Q). rewrite E' in E. injection E as -> _.
  destruct l as [t e]. assert (Ie := in_loc_all D Hme I). assert (S : In m (loc me ++ ghosts_of h)).
  { apply in_or_app. destruct (in_all_loc D Im) as (q & Hq & Iq). destruct (Z.eq_dec q me) as [->|N]; [now left|]. right. destruct NH as [NH|NH]; [|lia].
    destruct h as [h|]; [|congruence]. cbn [ghosts_of ghosts_complete] in *. apply (picks_in (proj2 HG)). split; [exact Im|]. split; [exists q; auto|]. exists (existT (fun s => elt (cls s)) t e). split; [exact I|]. exact (meet_adjacent D HM Ie Hf Im M). }
  destruct (In_nth_error _ _ S) as (j & Ej). exists (Z.of_nat j). apply Q. rewrite Nat2Z.id. split; [lia|]. auto.
Qed.
Print Assumptions C34_leaf_neighbors_complete.

(** C34: each neighbour is listed exactly once, in increasing order of the indices, if not both local leaves and ghosts share a subface
    with the face (in particular in a forest without ghosts or on one process).  Missing: faces with neighbours of both kinds, see
    C34_both_kinds and C34_once_refuted; for ghosts, faces at which the only neighbours are local. *)
Theorem C34_leaf_neighbors_once_partial : forall cls P K ml (lv : forall t, list (elt (cls t))) (loc : Z -> list {t : Z & elt (cls t)}) fc nb dbg x0 me ts h (is_ghost : bool) l f r t',
  distributed P K ml lv loc -> mesh_ok fc nb K ml -> 0 <= me < P -> local_trees loc me ts -> ghosts_complete fc nb P K ml lv loc me h ->
  In l (if is_ghost then ghosts_of h else loc me) -> leaf_face fc l f -> call fc nb dbg P K ml loc x0 me ts h is_ghost l f = Ok (r, t') ->
  (forall m g, In m (loc me) -> ~ meet fc nb ml l f m g) \/ (is_ghost = false /\ forall m g, In m (ghosts_of h) -> ~ meet fc nb ml l f m g) ->
  StronglySorted Z.lt (map snd r).
Proof.
  intros cls P K ml lv loc fc nb dbg x0 me ts h is_ghost l f r t' D HM Hme HT HG I Hf E C. destruct (call_main dbg x0 D HM Hme HT HG I Hf) as (L & G & r' & t'' & E' & NL & NG & _ & _ & C1 & C2 & _). rewrite E' in E. injection E as -> _.
  assert (EMP : forall stored off X, neighbors_at fc nb ml l f stored off X -> (forall m g, In m stored -> ~ meet fc nb ml l f m g) -> X = []).
  { intros stored off X NX H. destruct X as [|[[m g] i] X]; [reflexivity|exfalso]. destruct (proj1 (proj2 NX m g i) (or_introl eq_refl)) as (_ & Q & M). exact (H m g (nth_error_In _ _ Q) M). }
  destruct C as [C|[IG C]].
  - rewrite (C1 (EMP _ _ _ NL C)). apply NG.
  - rewrite (C2 IG (EMP _ _ _ NG C)). apply NL.
Qed.
Print Assumptions C34_leaf_neighbors_once_partial.

(** C34: if both local leaves and ghosts share a subface with the face, the result lists the local ones twice *)
Theorem C34_both_kinds : forall cls P K ml (lv : forall t, list (elt (cls t))) (loc : Z -> list {t : Z & elt (cls t)}) fc nb dbg x0 me ts h (is_ghost : bool) l f r t' m1 g1 m2 g2,
  distributed P K ml lv loc -> mesh_ok fc nb K ml -> 0 <= me < P -> local_trees loc me ts -> ghosts_complete fc nb P K ml lv loc me h ->
  In l (if is_ghost then ghosts_of h else loc me) -> leaf_face fc l f -> call fc nb dbg P K ml loc x0 me ts h is_ghost l f = Ok (r, t') ->
  In m1 (loc me) -> meet fc nb ml l f m1 g1 -> In m2 (ghosts_of h) -> meet fc nb ml l f m2 g2 ->
  exists L G, neighbors_at fc nb ml l f (loc me) 0 L /\ neighbors_at fc nb ml l f (ghosts_of h) (zlen (loc me)) G /\ r = L ++ L ++ G /\ L <> [].
Proof.
  intros cls P K ml lv loc fc nb dbg x0 me ts h is_ghost l f r t' m1 g1 m2 g2 D HM Hme HT HG I Hf E I1 M1 I2 M2. destruct (call_main dbg x0 D HM Hme HT HG I Hf) as (L & G & r' & t'' & E' & NL & NG & _ & C & _). rewrite E' in E. injection E as -> _.
  assert (NE : forall stored off X m g, neighbors_at fc nb ml l f stored off X -> In m stored -> meet fc nb ml l f m g -> X <> []).
  { intros stored off X m g NX Im M EX. destruct (In_nth_error _ _ Im) as (j & Ej). assert (Q : In (m, g, off + Z.of_nat j) X) by (apply NX; split; [lia|]; split; [replace (Z.to_nat (off + Z.of_nat j - off)) with j by lia; exact Ej|exact M]). rewrite EX in Q. destruct Q. }
  exists L, G. split; [exact NL|]. split; [exact NG|]. assert (NL0 := NE _ _ _ _ _ NL I1 M1). split; [exact (C NL0 (NE _ _ _ _ _ NG I2 M2))|exact NL0].
Qed.
Print Assumptions C34_both_kinds.

(** C34 for meshes of triangles and of tetrahedra that are connected at their faces (lines have at most one neighbour at a face) *)
Theorem C34_line_neighbors : forall P K ml (lv : Z -> list (elt line_scheme)) (loc : Z -> list {t : Z & elt line_scheme}) conn dbg x0 me ts h (is_ghost : bool) l f,
  distributed (cls := fun _ => line_scheme) P K ml lv loc -> connected 2 1 K conn -> 0 <= ml <= LMAX -> 0 <= me < P -> local_trees (cls := fun _ => line_scheme) loc me ts ->
  let fc := fun _ => line_faces in let nb := neighbor line_crossing conn in
  ghosts_complete fc nb P K ml lv loc me h -> In l (if is_ghost then ghosts_of h else loc me) -> 0 <= f < 2 ->
  exists r, call fc nb dbg P K ml loc x0 me ts h is_ghost l f = Ok (r, match nb l f with Some (m, _) => projT1 m | None => -1 end) /\
    forall m g i, In (m, g, i) r <-> 0 <= i /\ nth_error (loc me ++ ghosts_of h) (Z.to_nat i) = Some m /\ meet fc nb ml l f m g.
Proof.
  intros P K ml lv loc conn dbg x0 me ts h is_ghost l f D HC Hml Hme HT fc nb HG I Hf. assert (HM := line_mesh HC Hml).
  apply (@C34_leaf_neighbors_exact (fun _ => line_scheme) P K ml lv loc fc nb dbg x0 me ts h is_ghost l f D HM Hme HT HG I). exact Hf.
Qed.
Print Assumptions C34_line_neighbors.
Theorem C34_triangle_neighbors : forall P K ml (lv : Z -> list (elt (simplex_scheme false))) (loc : Z -> list {t : Z & elt (simplex_scheme false)}) conn dbg x0 me ts h (is_ghost : bool) l f,
  distributed (cls := fun _ => simplex_scheme false) P K ml lv loc -> connected 3 2 K conn -> 0 <= ml <= MAXLEVEL false -> 0 <= me < P -> local_trees (cls := fun _ => simplex_scheme false) loc me ts ->
  let fc := fun _ => simplex_faces false in let nb := neighbor tri_crossing conn in
  ghosts_complete fc nb P K ml lv loc me h -> In l (if is_ghost then ghosts_of h else loc me) -> 0 <= f < 3 ->
  exists r, call fc nb dbg P K ml loc x0 me ts h is_ghost l f = Ok (r, match nb l f with Some (m, _) => projT1 m | None => -1 end) /\
    forall m g i, In (m, g, i) r <-> 0 <= i /\ nth_error (loc me ++ ghosts_of h) (Z.to_nat i) = Some m /\ meet fc nb ml l f m g.
Proof.
  intros P K ml lv loc conn dbg x0 me ts h is_ghost l f D HC Hml Hme HT fc nb HG I Hf. assert (HM := tri_mesh HC Hml).
  apply (@C34_leaf_neighbors_exact (fun _ => simplex_scheme false) P K ml lv loc fc nb dbg x0 me ts h is_ghost l f D HM Hme HT HG I). exact Hf.
Qed.
Print Assumptions C34_triangle_neighbors.
Theorem C34_tetrahedron_neighbors : forall P K ml (lv : Z -> list (elt (simplex_scheme true))) (loc : Z -> list {t : Z & elt (simplex_scheme true)}) conn dbg x0 me ts h (is_ghost : bool) l f,
  distributed (cls := fun _ => simplex_scheme true) P K ml lv loc -> connected 4 3 K conn -> 0 <= ml <= MAXLEVEL true -> 0 <= me < P -> local_trees (cls := fun _ => simplex_scheme true) loc me ts ->
  let fc := fun _ => simplex_faces true in let nb := neighbor tet_crossing conn in
  ghosts_complete fc nb P K ml lv loc me h -> In l (if is_ghost then ghosts_of h else loc me) -> 0 <= f < 4 ->
  exists r, call fc nb dbg P K ml loc x0 me ts h is_ghost l f = Ok (r, match nb l f with Some (m, _) => projT1 m | None => -1 end) /\
    forall m g i, In (m, g, i) r <-> 0 <= i /\ nth_error (loc me ++ ghosts_of h) (Z.to_nat i) = Some m /\ meet fc nb ml l f m g.
Proof.
  intros P K ml lv loc conn dbg x0 me ts h is_ghost l f D HC Hml Hme HT fc nb HG I Hf. assert (HM := tet_mesh HC Hml).
  apply (@C34_leaf_neighbors_exact (fun _ => simplex_scheme true) P K ml lv loc fc nb dbg x0 me ts h is_ghost l f D HM Hme HT HG I). exact Hf.
Qed.
Print Assumptions C34_tetrahedron_neighbors.

(** ** example: one triangle, its third child refined again, on two processes *)
Notation tri := (simplex_scheme false).
Definition tw (q : list Z) : elt tri := gwalk tri q.
Definition tl (q : list Z) : {t : Z & elt tri} := existT (fun _ => elt tri) 0 (tw q).
Definition tx_paths : list (list Z) := [[0]; [1]; [2; 0]; [2; 1]; [2; 2]; [2; 3]; [3]].
Definition tx_lv (t : Z) : list (elt tri) := map tw tx_paths.
Definition tx_loc (p : Z) : list {t : Z & elt tri} := if p =? 0 then map tl [[0]; [1]; [2; 0]; [2; 1]; [2; 2]] else if p =? 1 then map tl [[2; 3]; [3]] else [].
Definition tx_ts (p : Z) : list (ltree (fun _ => tri)) := if p =? 0 then [existT (fun _ => list (elt tri)) 0 (map tw [[0]; [1]; [2; 0]; [2; 1]; [2; 2]])] else [existT (fun _ => list (elt tri)) 0 (map tw [[2; 3]; [3]])].
Definition tx_nb := neighbor tri_crossing (fun _ _ => None).
(** the ghosts of the process 0 *)
Definition tx_ghosts : ghosts (fun _ => tri) := Ghosts [GTree (cls := fun _ => tri) 0 0 (map tl [[2; 3]; [3]])] 2 [].
Lemma tw_path p : forallb (fun i => (0 <=? i) && (i <? 4)) p && (zlen p <=? 29) = true -> gpath tri p.
Proof.
  intros H. apply andb_true_iff in H. destruct H as [H1 H2]. apply simplex_path. split; [|apply Z.leb_le; exact H2]. rewrite forallb_forall in H1. apply Forall_forall. intros i Hi. specialize (H1 i Hi). apply andb_true_iff in H1. destruct H1 as [A B]. apply Z.leb_le in A. apply Z.ltb_lt in B. split; [exact A|exact B].
Qed.
Lemma tri_split ps p qs : gpath tri p -> zlen p < 29 -> region (map tw (ps ++ [p ++ [0]; p ++ [1]; p ++ [2]; p ++ [3]] ++ qs)) = region (map tw (ps ++ [p] ++ qs)).
Proof.
  intros Hp HL. rewrite !map_app, !(region_app (S := tri)). f_equal. f_equal. cbn [map]. rewrite region_one.
  rewrite <- (cells_children (simplex_laws false) (e := tw p)) by (try (now apply valid_walk); unfold tw; rewrite (law_level (simplex_laws false) Hp); exact HL).
  f_equal. unfold s_children, tw. rewrite !gwalk_snoc. reflexivity.
Qed.
Lemma tx_in p q t : In q tx_paths -> In (tl q) (tx_loc p) -> p = 0 -> t = 1 -> In (tl q) (tx_loc t) -> False.
Proof.
  intros _ H -> -> H'. unfold tx_loc in *. cbn [Z.eqb Pos.eqb map In] in H, H'.
  set (key := fun l : {t : Z & elt tri} => (SimplexModel.sx (projT2 l), SimplexModel.sy (projT2 l), SimplexModel.lv (projT2 l), SimplexModel.ty (projT2 l))).
  assert (K1 : In (key (tl q)) (map key (map tl [[0]; [1]; [2; 0]; [2; 1]; [2; 2]]))) by (apply in_map; exact H). assert (K2 : In (key (tl q)) (map key (map tl [[2; 3]; [3]]))) by (apply in_map; exact H').
  generalize dependent (key (tl q)). clear. intros k K1 K2. vm_compute in K1, K2. destruct K2 as [<-|[<-|[]]]; repeat (destruct K1 as [K1|K1]; [discriminate|]); exact K1.
Qed.
Example tx_distributed : distributed (cls := fun _ => tri) 2 1 29 tx_lv tx_loc.
Proof.
  split; [lia|]. split; [lia|]. split; [|reflexivity]. intros t Ht. split; [exact (simplex_laws false)|]. split; [split; vm_compute; discriminate|]. split; [split|].
  - apply Forall_forall. intros x Hx. apply in_map_iff in Hx. destruct Hx as (q & <- & Hq). apply valid_walk, tw_path. unfold tx_paths in Hq. cbn [In] in Hq. repeat (destruct Hq as [<-|Hq]; [reflexivity|]). destruct Hq.
  - unfold tx_lv, tx_paths. assert (Q := @tri_split [[0]; [1]] [2] [[3]] (@tw_path [2] eq_refl) ltac:(reflexivity)). cbn [app] in Q. etransitivity; [exact Q|].
    assert (Q2 := @tri_split [] [] [] (gp_nil _) ltac:(reflexivity)). cbn [app] in Q2. etransitivity; [exact Q2|]. cbn [map]. rewrite region_one. reflexivity.
  - apply Forall_forall. intros x Hx. apply in_map_iff in Hx. destruct Hx as (q & <- & Hq). unfold tx_paths in Hq. cbn [In] in Hq. repeat (destruct Hq as [<-|Hq]; [vm_compute; discriminate|]). destruct Hq.
Qed.
Example tx_connected : connected 3 2 1 (fun _ _ => None).
Proof. intros t f t' f' o _ _ H. discriminate. Qed.
Example tx_local_trees : local_trees (cls := fun _ => tri) tx_loc 0 (tx_ts 0).
Proof. split; [repeat constructor|]. split; [repeat constructor; discriminate|reflexivity]. Qed.
Lemma tl_in p q : gpath tri (p ++ q) -> in_leaf (cls := fun _ => tri) (tl p) (tl (p ++ q)).
Proof. intros H. exists 0, (tw p), (tw (p ++ q)). split; [reflexivity|]. split; [reflexivity|]. exists p, q. auto. Qed.
Example tx_ghosts_complete : ghosts_complete (cls := fun _ => tri) (fun _ => simplex_faces false) tx_nb 2 1 29 tx_lv tx_loc 0 (Some tx_ghosts).
Proof.
  split.
  - split; [reflexivity|]. split; [repeat constructor|]. intros pre T post E. cbn [gh_trees tx_ghosts] in E. destruct pre as [|a [|b pre]]; cbn [app] in E; [|discriminate|discriminate]. injection E as <- <-. split; [discriminate|]. split; [|reflexivity].
    intros x [<-|[<-|[]]]; reflexivity.
  - assert (NO : forall q, In q [[0]; [1]; [2; 0]; [2; 1]; [2; 2]] -> ~ ghost_of (cls := fun _ => tri) (fun _ => simplex_faces false) tx_nb 2 29 tx_loc 0 (tl q)).
    { intros q Hq [(r & Hr & N & I) _]. assert (r = 1) by lia. apply (@tx_in 0 q r); auto; [unfold tx_paths; cbn [In] in *; tauto|]. unfold tx_loc. cbn [Z.eqb]. apply in_map. exact Hq. }
    assert (YES : forall q p i j f g, In (tl q) (tx_loc 1) -> In (tl p) (tx_loc 0) -> gpath tri (p ++ i) -> gpath tri (q ++ j) -> s_level (tw (p ++ i)) <= 29 -> 0 <= f < 3 -> tx_nb (tl (p ++ i)) f = Some (tl (q ++ j), g) ->
      ghost_of (cls := fun _ => tri) (fun _ => simplex_faces false) tx_nb 2 29 tx_loc 0 (tl q)).
    { intros q p i j f g Iq Ip Gi Gj L Hf E. split; [exists 1; split; [lia|]; split; [discriminate|exact Iq]|]. exists (tl p). split; [exact Ip|]. exists (tl (p ++ i)), (tl (q ++ j)), f, g. split; [now apply tl_in|]. split; [now apply tl_in|]. split; [exact L|]. split; [exact Hf|exact E]. }
    change (all_leaves (cls := fun _ => tri) 1 tx_lv) with (map tl tx_paths). change (ghost_leaves tx_ghosts) with (map tl [[2; 3]; [3]]). unfold tx_paths. cbn [map].
    do 5 (apply picks_skip; [apply NO; cbn [In]; tauto|]). apply picks_take; [|apply picks_take; [|constructor]].
    + apply (@YES [2; 3] [2; 1] [] [] 0 2); [left; reflexivity|right; right; right; left; reflexivity|apply tw_path; reflexivity|apply tw_path; reflexivity|vm_compute; discriminate|lia|]. vm_cast_no_check (@eq_refl (option ({t : Z & elt tri} * Z)) (Some (tl [2; 3], 2))).
    + apply (@YES [3] [2; 2] [] [0] 0 2); [right; left; reflexivity|do 4 right; left; reflexivity|apply tw_path; reflexivity|apply tw_path; reflexivity|vm_compute; discriminate|lia|]. vm_cast_no_check (@eq_refl (option ({t : Z & elt tri} * Z)) (Some (tl [3; 0], 2))).
Qed.
(** the second child of the triangle has two neighbours at its face 1: a local leaf and a ghost.  The local one is listed twice *)
Definition tx_result : list ({t : Z & elt tri} * Z * Z) := [(tl [2; 0], 1, 2); (tl [2; 0], 1, 2); (tl [2; 3], 1, 5)].
Example tx_call : call (cls := fun _ => tri) (fun _ => simplex_faces false) tx_nb true 2 1 29 tx_loc 7 0 (tx_ts 0) (Some tx_ghosts) false (tl [1]) 1 = Ok (tx_result, 0).
Proof. vm_cast_no_check (@eq_refl (outcome (list ({t : Z & elt tri} * Z * Z) * Z)) (Ok (tx_result, 0))). Qed.
(** C34 as stated is false: a neighbour may be listed twice *)
Theorem C34_once_refuted : exists P K ml (lv : Z -> list (elt tri)) (loc : Z -> list {t : Z & elt tri}) conn dbg x0 me ts h l f r t',
  distributed (cls := fun _ => tri) P K ml lv loc /\ connected 3 2 K conn /\ 0 <= ml <= MAXLEVEL false /\ 0 <= me < P /\ local_trees (cls := fun _ => tri) loc me ts /\
  ghosts_complete (cls := fun _ => tri) (fun _ => simplex_faces false) (neighbor tri_crossing conn) P K ml lv loc me h /\ In l (loc me) /\ 0 <= f < 3 /\
  call (cls := fun _ => tri) (fun _ => simplex_faces false) (neighbor tri_crossing conn) dbg P K ml loc x0 me ts h false l f = Ok (r, t') /\ ~ NoDup r.
Proof.
  exists 2, 1, 29, tx_lv, tx_loc, (fun _ _ => None), true, 7, 0, (tx_ts 0), (Some tx_ghosts), (tl [1]), 1, tx_result, 0.
  split; [exact tx_distributed|]. split; [exact tx_connected|]. split; [split; vm_compute; discriminate|]. split; [lia|]. split; [exact tx_local_trees|]. split; [exact tx_ghosts_complete|]. split; [right; left; reflexivity|]. split; [lia|]. split; [exact tx_call|].
  intros H. apply NoDup_cons_iff in H. destruct H as [H _]. apply H. now left.
Qed.
Print Assumptions C34_once_refuted.

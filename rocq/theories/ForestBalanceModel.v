(** Model of 2:1 balancing: src/t8_forest/t8_forest_balance.cxx and, of src/t8_forest/t8_forest.cxx, t8_forest_element_half_face_neighbors
    (1530-1580) and t8_forest_element_has_leaf_desc (2816-2889).  As in GhostModel.v, [nb] is t8_forest_element_face_neighbor and trees are
    given by their global ids; t8_forest_element_neighbor_eclass (1417-1440) is invalid exactly if there is no neighbour.  [ml] is
    forest->maxlevel.  An abort (SC_CHECK_ABORT) is [AssertFail] as well.  Not modelled: profiling, reference counts and log output. *)
From Coq Require Import Sorting.Sorted.
From Verif Require Import Prelude SchemeModel LeafModel SearchModel OwnerModel FaceModel GhostModel LfnModel AnyNetModel AdaptModel.

Section balance.
Variable cls : Z -> scheme.
Variable fc : forall t, faces (cls t).
Notation leaf := (leaf cls).
Notation ltree := (ltree cls).
Notation el t e := (existT (fun s => elt (cls s)) t e).
Variable nb : leaf -> Z -> option (leaf * Z).
Variable dbg : bool.
Variables P K ml : Z.

(** element_get_num_face_children: the number of children at the face *)
Definition num_face_children (l : leaf) (face : Z) : Z := zlen (f_child_ids (fc (projT1 l)) (projT2 l) face).
(** t8_forest.cxx:1530-1580 t8_forest_element_half_face_neighbors: the children at the face of the neighbour of the same level, or None.
    That there are num_neighs of them is asserted in a debug build; in a release build another number would be undefined behaviour.
    The dual faces are not computed (dual_faces is NULL in all calls of the balance code). *)
Definition half_face_neighbors (l : leaf) (face num_neighs : Z) : outcome (option ltree) :=
  if num_neighs <=? 0 then Ok None
  else match nb l face with
       | None => Ok None
       | Some (existT _ t' n, dual) =>
           if negb (s_level n <? ml) then AssertFail
           else if negb (num_neighs =? zlen (f_child_ids (fc t') n dual)) then AssertFail
           else Ok (Some (existT (fun t => list (elt (cls t))) t' (f_children (fc t') n dual)))
       end.

(** t8_forest.cxx:2845-2861 and 2869-2884: the search in one array of leaves; the descendant found *)
Definition array_desc (t : Z) (elements : list (elt (cls t))) (element : elt (cls t)) : outcome (option (elt (cls t))) :=
  let last_desc_id := s_linear_id (s_last_desc element ml) ml in
  do index <- bin_search_lower elements last_desc_id ml;
  if 0 <=? index then
    match nth_error elements (Z.to_nat index) with
    | None => Oob
    | Some elem_found =>
        Ok (if (s_linear_id element ml <=? s_linear_id elem_found ml) && (s_level element <? s_level elem_found) then Some elem_found else None)
    end
  else Ok None.
(** t8_forest.cxx:2816-2889 t8_forest_element_has_leaf_desc *)
Definition has_leaf_desc (ts : list ltree) (h : option (ghosts cls)) (t : Z) (element : elt (cls t)) : outcome bool :=
  do b <- match find_local ts t with
          | Some (ls, _) =>
              do o <- array_desc ls element;
              match o with
              | Some elem_found => do leaf <- (if dbg then element_is_leaf ls elem_found else Ok true); if leaf then Ok true else AssertFail
              | None => Ok false
              end
          | None => Ok false
          end;
  if b then Ok true
  else match h with
       | Some h => match find_ghost h t with
                   | Some (ls, _) => do o <- array_desc ls element; Ok (match o with Some _ => true | None => false end)
                   | None => Ok false
                   end
       | None => Ok false
       end.
(** t8_forest_balance.cxx:104-114: the loop over the half neighbours *)
Fixpoint any_has_desc (ts : list ltree) (h : option (ghosts cls)) (t : Z) (els : list (elt (cls t))) : outcome bool :=
  match els with
  | [] => Ok false
  | e :: r => do b <- has_leaf_desc ts h e; if b then Ok true else any_has_desc ts h r
  end.
(** t8_forest_balance.cxx:86-120: the loop over the faces *)
Fixpoint any_face (ts : list ltree) (h : option (ghosts cls)) (l : leaf) (faces : list Z) : outcome bool :=
  match faces with
  | [] => Ok false
  | face :: r =>
      match nb l face with
      | None => any_face ts h l r
      | Some _ =>
          do o <- half_face_neighbors l face (num_face_children l face);
          do b <- match o with Some (existT _ t' els) => any_has_desc ts h els | None => Ok false end;
          if b then Ok true else any_face ts h l r
      end
  end.
(** t8_forest_balance.cxx:62-124 t8_forest_balance_adapt: whether the element is to be refined; [ts] and [h] are the local trees and the
    ghosts of forest_from and [mle] is forest_from->maxlevel_existing *)
Definition balance_adapt (mle : Z) (ts : list ltree) (h : option (ghosts cls)) (l : leaf) : outcome bool :=
  if (mle <=? 0) || (s_level (projT2 l) <=? mle - 2)
  then any_face ts h l (zseq 0 (Z.to_nat (f_num (fc (projT1 l)) (projT2 l))))
  else Ok false.

(** The same as a callback of t8_forest_adapt.  The state is *pdone (true for 1), or the failure of a call before. *)
Definition balance_cb (mle : Z) (ts : list ltree) (h : option (ghosts cls)) (t : Z) (st : outcome bool) (ltree lelement : Z) (is_family : bool)
  (elements : list (elt (cls t))) : outcome bool * Z :=
  match st with
  | Ok done =>
      match elements with
      | [] => (Oob, 0)
      | e :: _ => match balance_adapt mle ts h (el t e) with
                  | Ok true => (Ok false, 1)
                  | Ok false => (Ok done, 0)
                  | Oob => (Oob, 0) | AssertFail => (AssertFail, 0) | OutOfFuel => (OutOfFuel, 0)
                  end
      end
  | _ => (st, 0)
  end.
(** t8_forest_adapt.cxx:440-652 for trees with global ids (AdaptModel.adapt_trees is the same for a list of trees without ids) *)
Fixpoint adapt_trees (St : Type) (cb : forall t, St -> Z -> Z -> bool -> list (elt (cls t)) -> St * Z) (A : aenv) (st : St) (k : Z) (ts : list ltree)
  : outcome (St * list ltree) :=
  match ts with
  | [] => Ok (st, [])
  | existT _ t ls :: r =>
      do x <- adapt_tree (cb t) A (length ls) st k ls false;
      let '(st, new, _) := x in
      do y <- adapt_trees cb A st (k + 1) r;
      let '(st, r') := y in Ok (st, existT (fun t => list (elt (cls t))) t new :: r')
  end.
(** t8_forest_balance.cxx:205-222: one round on the process p: the new local trees and done *)
Definition balance_round (mle p : Z) (ts : list ltree) (h : option (ghosts cls)) : outcome (list ltree * bool) :=
  do x <- adapt_trees (@balance_cb mle ts h) (AEnv false false ml p P (zlen ts)) (Ok true) 0 ts;
  let '(st, ts') := x in
  do done <- st; Ok (ts', done).

(** t8_forest_balance.cxx:131-149: the maximum over the local leaves *)
Definition local_max_level (ts : list ltree) : Z :=
  fold_left (fun m (tr : ltree) => fold_left (fun m e => Z.max m (s_level e)) (projT2 tr) m) ts 0.
(** t8_forest_balance.cxx:150-152: the maximum over all processes (sc_MPI_MAX) *)
Definition max_element_level (trs : Z -> list ltree) : Z := fold_right Z.max 0 (map (fun p => local_max_level (trs p)) (zseq 0 (Z.to_nat P))).

(** t8_forest_balance.cxx:342-383 t8_forest_is_balanced *)
Fixpoint none_refined (mle : Z) (ts : list ltree) (h : option (ghosts cls)) (ls : list leaf) : outcome bool :=
  match ls with
  | [] => Ok true
  | l :: r => do b <- balance_adapt mle ts h l; if b then Ok false else none_refined mle ts h r
  end.
Definition is_balanced (mle : Z) (ts : list ltree) (h : option (ghosts cls)) : outcome bool :=
  none_refined mle ts h (flat_map (fun tr : ltree => map (fun e => el (projT1 tr) e) (projT2 tr)) ts).

(** The leaves of the process p, and of all processes *)
Definition leaves_at (trs : Z -> list ltree) (p : Z) : list leaf := flat_map (fun tr : ltree => map (fun e => el (projT1 tr) e) (projT2 tr)) (trs p).
Definition leaves_all (trs : Z -> list ltree) : list leaf := flat_map (leaves_at trs) (zseq 0 (Z.to_nat P)).
(** t8_forest_commit (t8_forest.cxx:3461-3480) creates the ghosts with t8_forest_ghost_create_topdown (GhostModel.v; all messages are exchanged
    in any order), but only if there is more than one process; [x0] is the entry of the first descendants that is never set *)
Definition ghosts_created (trs : Z -> list ltree) (hs : Z -> option (ghosts cls)) : Prop :=
  if P =? 1 then hs 0 = None
  else exists to x0 rem out s, create_tree_offsets P K ml (leaves_at trs) = Ok to /\
    (forall p, 0 <= p < P -> ghost_begin fc nb dbg P ml p (element_offsets P (leaves_at trs)) to (create_first_desc P ml (leaves_at trs) ++ [x0]) 3 (trs p)
                             = Ok (rem p, out p)) /\
    asteps P (astart out (fun p => length (g_procs (rem p)))) s /\ adone P s /\
    forall p, 0 <= p < P -> exists h, receive (g_procs (rem p)) (a_got s p) = Ok h /\ hs p = Some h.

(** t8_forest_balance.cxx:155-292 t8_forest_balance: the local trees and the ghosts of forest_from on each process, and done_global.  A step
    is one execution of the loop body 205-289 on all processes; t8_forest_partition, which is modelled in PartitionModel.v, is any
    redistribution of the leaves in which no process has a tree without leaves. *)
Record bstate := BState { b_trees : Z -> list ltree; b_ghosts : Z -> option (ghosts cls); b_done : bool }.
Definition redistributes (trs trs' : Z -> list ltree) : Prop := leaves_all trs' = leaves_all trs /\
  forall p, 0 <= p < P -> StronglySorted Z.lt (map (@projT1 _ _) (trs' p)) /\ Forall (fun tr : ltree => projT2 tr <> []) (trs' p).
Inductive bstep (repartition : bool) (mle : Z) (s : bstate) : bstate -> Prop :=
| bstep_round trs (d : Z -> bool) trs' hs :
    b_done s = false ->
    (forall p, 0 <= p < P -> balance_round mle p (b_trees s p) (b_ghosts s p) = Ok (trs p, d p)) ->
    let done := forallb d (zseq 0 (Z.to_nat P)) in
    (if repartition && negb done then redistributes trs trs' else trs' = trs) ->
    (if repartition && done then hs = fun _ => None else ghosts_created trs' hs) ->
    bstep repartition mle s (BState trs' hs done).
Inductive bsteps (repartition : bool) (mle : Z) : nat -> bstate -> bstate -> Prop :=
| bsteps_refl s : bsteps repartition mle 0 s s
| bsteps_step n s s' s'' : bsteps repartition mle n s s' -> bstep repartition mle s' s'' -> bsteps repartition mle (S n) s s''.
End balance.
Arguments BState {cls}.
Arguments b_trees {cls}.
Arguments b_ghosts {cls}.
Arguments b_done {cls}.
Arguments leaves_at {cls}.
Arguments leaves_all {cls}.

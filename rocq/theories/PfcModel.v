(** Model of partition for coarsening: src/t8_forest/t8_forest_partition_for_coarsening.cxx, t8_forest_pfc_helper.cxx and
    t8_forest_pfc_message.hxx, called at the end of t8_forest_partition_compute_new_offset (t8_forest_partition.cxx:618-622).
    The forest of one process is the record [pforest] of PartitionModel.v; an element is stored with its class.  The scheme functions
    get a class and an element: an element of another class is [Oob] (the C code would read the memory as the wrong struct).
    Simplifications: a message is passed as a value (the byte layout of its element is C16; that mpi_Isend frees the send buffer
    before the send has completed, t8_forest_pfc_message.hxx:150-163, is recorded in DESIGN.md); the elements allocated and destroyed
    are values; t8_gloidx_t and t8_locidx_t are Z except for the conversion of the first tree (see [index_from_globalid]). *)
From Verif Require Import Prelude SchemeModel OffsetModel LeafModel NetModel PartitionModel.
#[local] Unset Implicit Arguments.

(** a 32 bit integer (t8_locidx_t) *)
Definition i32 (z : Z) : Z := (z + 2 ^ 31) mod 2 ^ 32 - 2 ^ 31.
(** src/t8_eclass/t8_eclass.h:84 T8_ECLASS_MAX_CHILDREN *)
Definition T8_ECLASS_MAX_CHILDREN : Z := 10.

(** [f] on every member of a list, in order, the first error ends it *)
Fixpoint omap {A B} (f : A -> outcome B) (l : list A) : outcome (list B) :=
  match l with [] => Ok [] | x :: r => do y <- f x; do ys <- omap f r; Ok (y :: ys) end.

(** t8_forest_partition_for_coarsening.cxx:47-60 proc_owner: std::upper_bound on the first mpisize entries, minus one *)
Definition proc_owner (partition : list Z) (mpisize element_id : Z) : outcome Z :=
  do i <- std_upper_bound (fun x => x) (firstn (Z.to_nat mpisize) partition) element_id; Ok (i - 1).

(** t8_forest_partition_for_coarsening.cxx:75-99 get_relevant_process_range: begin and end *)
Definition relevant_process_range (partition_old : list Z) (rank mpisize : Z) : outcome (Z * Z) :=
  let max_num_siblings := T8_ECLASS_MAX_CHILDREN in
  let relevant_eles_begin := Z.max 0 (ent partition_old rank - (max_num_siblings - 1)) in
  let relevant_eles_end := Z.min (ent partition_old mpisize) (ent partition_old (rank + 1) + (max_num_siblings - 1)) in
  do proc_range_begin <- proc_owner partition_old mpisize relevant_eles_begin;
  do last <- proc_owner partition_old mpisize (relevant_eles_end - 1);
  let proc_range_end := last + 1 in
  if (0 <=? proc_range_begin) && (proc_range_begin <=? proc_range_end) && (proc_range_end <=? mpisize)
  then Ok (proc_range_begin, proc_range_end) else AssertFail.

(** the processes of the loops of send_loop_range (138-143) and recv_loop_range (189-194): without empty ones and the own rank *)
Definition partner_procs (partition_old : list Z) (rank mpisize : Z) : outcome (list Z) :=
  do be <- relevant_process_range partition_old rank mpisize;
  Ok (filter (fun iproc => negb ((ent partition_old (iproc + 1) <=? ent partition_old iproc) || (iproc =? rank)))
             (zseq (fst be) (Z.to_nat (snd be - fst be)))).

Section pfc.
(** the scheme of each element class *)
Variable sch : Z -> scheme.
(** an element with its class *)
Definition celt : Type := {c : Z & elt (sch c)}.
Notation ptree := (ptree celt).
Notation pforest := (pforest celt).

(** an element used as an element of class c *)
Definition as_class (c : Z) (e : celt) : outcome (elt (sch c)) :=
  match Z.eq_dec (projT1 e) c with
  | left E => Ok (eq_rect (projT1 e) (fun c => elt (sch c)) (projT2 e) c E)
  | right _ => Oob
  end.
(** t8_forest_get_tree_leaf_element (src/t8_forest/t8_forest_private.cxx:31-37): element i of a tree *)
Definition tree_leaf (t : ptree) (i : Z) : outcome (elt (sch (pt_class t))) :=
  if i <? 0 then Oob else match nth_error (pt_elems t) (Z.to_nat i) with Some e => as_class (pt_class t) e | None => Oob end.

(** t8_forest_pfc_helper.cxx:76-94: the loop over the possible siblings *)
Fixpoint sibling_loop (fuel : nat) (t : ptree) (parent_start : elt (sch (pt_class t))) (inc check ielem extreme : Z) : outcome Z :=
  match fuel with
  | O => OutOfFuel
  | S f =>
    if (ielem - check) * inc <=? 0 then
      do possible_sibling <- tree_leaf t ielem;
      if s_equal parent_start (s_parent possible_sibling) then sibling_loop f t parent_start inc check (ielem + inc) ielem
      else Ok extreme
    else Ok extreme
  end.
(** t8_forest_pfc_helper.cxx:37-101 t8_forest_pfc_extreme_local_sibling *)
Definition extreme_local_sibling (t : ptree) (start inc : Z) : outcome Z :=
  if negb (Z.abs inc =? 1) then AssertFail
  else
    do start_element <- tree_leaf t start;
    if s_level start_element =? 0 then Ok start
    else
      let parent_start := s_parent start_element in
      let num_children := s_num_children parent_start in
      let check := Z.max 0 (Z.min (start + inc * num_children) (zlen (pt_elems t) - 1)) in
      sibling_loop (Z.to_nat (num_children + 2)) t parent_start inc check start start.

(** t8_forest_pfc_helper.cxx:103-122 t8_forest_pfc_helper_index_in_tree_from_globalid: global tree id, tree, index in the tree and
    element.  [first_local] is the global id of the first local element.  The first local tree id is stored in a t8_locidx_t. *)
Definition index_from_globalid (f : pforest) (first_local gelement_id : Z) : outcome (Z * ptree * Z * celt) :=
  let lelement_id := gelement_id - first_local in
  do r <- get_leaf_element true (map (fun t => Tree (pt_offset t) (pt_elems t)) (pf_trees f)) (pf_num f) lelement_id;
  match r with
  | None => Oob
  | Some (element, ltree_id) =>
    do tree <- get_tree (pf_trees f) ltree_id;
    let index_in_tree := lelement_id - pt_offset tree in
    Ok (i32 (pf_first f) + ltree_id, tree, index_in_tree, element)
  end.

(** t8_forest_pfc_message.hxx:293-307: what is sent *)
Record pmsg := PMsg { pm_itree : Z; pm_class : Z; pm_parent : elt (sch pm_class); pm_num_siblings : Z }.

(** t8_forest_pfc_message.hxx:193-239 fill; the class is found again from the global tree id (t8_forest_get_local_id,
    t8_forest_get_eclass) *)
Definition fill (f : pforest) (partition : list Z) (rank iproc : Z) : outcome pmsg :=
  let closest_to_rank_gid := if iproc <=? rank then ent partition rank else ent partition (rank + 1) - 1 in
  do r <- index_from_globalid f (ent partition rank) closest_to_rank_gid;
  let '(itree, tree, index_in_tree, element) := r in
  let local_id := if (pf_first f <=? itree) && (itree <=? pf_last f) then itree - pf_first f else -1 in
  do ctree <- get_tree (pf_trees f) local_id;
  let eclass := pt_class ctree in
  do el <- as_class eclass element;
  if s_level el =? 0 then Ok (PMsg itree eclass el 0)
  else
    let parent := s_parent el in
    if rank <? iproc then
      do min_id <- extreme_local_sibling tree index_in_tree (-1);
      Ok (PMsg itree eclass parent (index_in_tree - min_id + 1))
    else if iproc =? rank then AssertFail
    else
      do max_id <- extreme_local_sibling tree index_in_tree 1;
      Ok (PMsg itree eclass parent (max_id - index_in_tree + 1)).

(** t8_forest_partition_for_coarsening.cxx:118-155 send_loop_range: the messages with their destinations *)
Definition pfc_sends (f : pforest) (partition_old : list Z) (rank mpisize : Z) : outcome (list (Z * pmsg)) :=
  do procs <- partner_procs partition_old rank mpisize;
  omap (fun iproc => do m <- fill f partition_old rank iproc; Ok (iproc, m)) procs.
(** t8_forest_partition_for_coarsening.cxx:170-216 recv_loop_range: the processes received from *)
Definition pfc_sources (partition_old : list Z) (rank mpisize : Z) : outcome (list Z) := partner_procs partition_old rank mpisize.
(** t8_forest_partition_for_coarsening.cxx:376-396: an empty process neither sends nor receives *)
Definition pfc_exchange (f : pforest) (partition_old : list Z) (rank mpisize : Z) : outcome (list (Z * pmsg) * list Z) :=
  if negb (pf_num f =? 0) then
    do sends <- pfc_sends f partition_old rank mpisize;
    do sources <- pfc_sources partition_old rank mpisize;
    Ok (sends, sources)
  else Ok ([], []).

(** t8_forest_partition_for_coarsening.cxx:284-304: one message changes the range; same tree and same parent *)
Definition add_message (rank gtree_id c : Z) (parent : elt (sch c)) (range : Z * Z) (m : Z * pmsg) : outcome (Z * Z) :=
  let '(iproc, m) := m in
  let '(family_begin, family_end) := range in
  if pm_itree m =? gtree_id then
    do p <- as_class c (existT _ (pm_class m) (pm_parent m));
    if s_equal parent p then
      if iproc <? rank then Ok (family_begin - pm_num_siblings m, family_end)
      else Ok (family_begin, family_end + pm_num_siblings m)
    else Ok (family_begin, family_end)
  else Ok (family_begin, family_end).
Fixpoint add_messages (rank gtree_id c : Z) (parent : elt (sch c)) (range : Z * Z) (ms : list (Z * pmsg)) : outcome (Z * Z) :=
  match ms with [] => Ok range | m :: r => do range' <- add_message rank gtree_id c parent range m; add_messages rank gtree_id c parent range' r end.
(** t8_forest_partition_for_coarsening.cxx:247-316 t8_forest_pfc_family_range_around_border: whether there is a full family, and its
    begin and end *)
Definition family_range_around_border (f : pforest) (partition_old : list Z) (rank border_element_id : Z) (messages : list (Z * pmsg))
  : outcome (bool * Z * Z) :=
  let first_local := ent partition_old rank in
  do r <- index_from_globalid f first_local border_element_id;
  let '(gtree_id, tree, index_in_tree, element) := r in
  do el <- as_class (pt_class tree) element;
  if s_level el =? 0 then Ok (false, border_element_id, border_element_id)
  else
    let parent := s_parent el in
    let first_tree_element := first_local + pt_offset tree in
    do lo <- extreme_local_sibling tree index_in_tree (-1);
    do hi <- extreme_local_sibling tree index_in_tree 1;
    do range <- add_messages rank gtree_id (pt_class tree) parent (first_tree_element + lo, first_tree_element + hi + 1) messages;
    let '(family_begin, family_end) := range in
    Ok (family_end - family_begin =? s_num_children parent, family_begin, family_end).

(** t8_forest_partition_for_coarsening.cxx:345-364: the loop body, the corrected offset of one rank *)
Definition correct_offset (f : pforest) (partition_old partition_new : list Z) (rank mpisize : Z) (messages : list (Z * pmsg)) (border_rank : Z)
  : outcome Z :=
  do r <- family_range_around_border f partition_old rank (ent partition_new border_rank) messages;
  let '(full, family_begin, family_end) := r in
  if full then
    do rank_family_begin <- proc_owner partition_new mpisize family_begin;
    Ok (if border_rank <=? rank_family_begin then family_begin else family_end)
  else Ok (ent partition_new border_rank).
(** t8_forest_partition_for_coarsening.cxx:318-366 t8_forest_pfc_correct_local_offsets *)
Definition correct_local_offsets (f : pforest) (partition_old partition_new : list Z) (rank mpisize : Z) (messages : list (Z * pmsg))
  : outcome (list Z) :=
  let old_offset_this_process := ent partition_old rank in
  let old_offset_next_process := ent partition_old (rank + 1) in
  do min_local_proc <- std_lower_bound (fun x => x) (firstn (Z.to_nat mpisize) partition_new) old_offset_this_process;
  do next_min_local_proc <- std_lower_bound (fun x => x) (firstn (Z.to_nat mpisize) partition_new) old_offset_next_process;
  omap (correct_offset f partition_old partition_new rank mpisize messages)
       (zseq min_local_proc (Z.to_nat (next_min_local_proc - min_local_proc))).
(** t8_forest_partition_for_coarsening.cxx:376-396: the offsets one process contributes; [messages] in the order of reception *)
Definition pfc_local (f : pforest) (partition_old partition_new : list Z) (rank mpisize : Z) (messages : list (Z * pmsg)) : outcome (list Z) :=
  if negb (pf_num f =? 0) then correct_local_offsets f partition_old partition_new rank mpisize messages else Ok [].
(** t8_forest_partition_for_coarsening.cxx:398-400 and t8_shmem_array_allgatherv (src/t8_data/t8_shmem.c:335-405): the contributions
    of all processes, one after the other, overwrite the beginning of the table *)
Definition allgatherv_into (partition_new : list Z) (locals : list (list Z)) : outcome (list Z) :=
  let all := concat locals in
  if zlen all <=? zlen partition_new then Ok (all ++ skipn (length all) partition_new) else Oob.
End pfc.
Arguments PMsg {sch}.
Arguments pm_itree {sch}.
Arguments pm_class {sch}.
Arguments pm_parent {sch}.
Arguments pm_num_siblings {sch}.

(** Model of the construction of a uniform forest:
    - src/t8_cmesh/t8_cmesh.hxx:72-96 t8_cmesh_get_first_element_of_process,
    - src/t8_cmesh/t8_cmesh.cxx:1472-1595 t8_cmesh_uniform_bounds_equal_element_count, 1646-1758 t8_cmesh_uniform_bounds_from_unpartioned,
      2336-2405 t8_cmesh_uniform_bounds_for_irregular_refinement on a replicated coarse mesh,
    - src/t8_forest/t8_forest.cxx:1124-1213 t8_forest_populate,
    - src/t8_cmesh/t8_cmesh_internal/t8_cmesh_partition.cxx:184-235 t8_cmesh_gather_treecount_ext and 1577-1590 (uniform partition of a
      coarse mesh).
    [counts] lists count_leaves_from_root of the class of every tree at the level of the forest.  Simplifications: the sum over the
    classes of (number of trees of the class) * (leaves of the class) is taken tree by tree; the common number of leaves of the classes
    in use is read from the last tree. *)
From Verif Require Import Prelude SchemeModel OffsetModel PartitionModel OwnerModel.

(** t8_cmesh.hxx:72-96; all operations are on uint64_t *)
Definition first_element_of_process (process mpisize global_num : Z) : outcome Z :=
  if negb ((0 <? mpisize) && (process <=? mpisize)) then AssertFail else
  let elem_over_size := global_num / mpisize in
  let remainder_0 := global_num mod mpisize in
  let proc_over_size := process / mpisize in
  let remainder_1 := process mod mpisize in
  let sum_0 := u64 (u64 (elem_over_size * proc_over_size) * mpisize) in
  let sum_1 := u64 (elem_over_size * (process mod mpisize)) in
  let sum_2 := u64 (proc_over_size * (global_num mod mpisize)) in
  let sum_3 := u64 (remainder_0 * remainder_1) / mpisize in
  Ok (u64 (u64 (u64 (sum_0 + sum_1) + sum_2) + sum_3)).

(** The output parameters first_local_tree, child_in_tree_begin, last_local_tree, child_in_tree_end, first_tree_shared.  None: not written. *)
Record bounds := Bounds { b_first : option Z; b_begin : option Z; b_last : Z; b_end : option Z; b_shared : option bool }.

(** the global number of elements, a t8_gloidx_t *)
Definition sum_counts (counts : list Z) : Z := fold_left (fun s c => i64 (s + c)) counts 0.

(** t8_cmesh.cxx:1472-1595; int division truncates *)
Definition bounds_equal (mpirank mpisize : Z) (counts : list Z) : outcome bounds :=
  let children_per_tree := last counts 0 in
  if negb (forallb (fun c => c =? children_per_tree) counts) then AssertFail          (* 1500-1520 *)
  else if (children_per_tree <? 0) || (children_per_tree =? 0) then AssertFail        (* 1530, 1534 *)
  else
    let global_num := sum_counts counts in
    do first_child <- (if mpirank =? 0 then Ok 0 else do v <- first_element_of_process mpirank mpisize (u64 global_num); Ok (i64 v));
    do last_child <- (if mpirank =? mpisize - 1 then Ok global_num
                      else do v <- first_element_of_process (mpirank + 1) mpisize (u64 global_num); Ok (i64 v));
    if negb ((0 <=? first_child) && (first_child <=? global_num) && (0 <=? last_child) && (last_child <=? global_num)) then AssertFail
    else
      let first_tree := Z.quot first_child children_per_tree in
      let begin_ := first_child - first_tree * children_per_tree in
      let last_tree := Z.quot (last_child - 1) children_per_tree in
      let is_empty := (last_tree <=? first_tree) && (last_child <=? first_child) in
      let shared := negb is_empty && (0 <? mpirank) && (0 <? begin_) in
      let end_ := last_child - last_tree * children_per_tree in
      if is_empty then
        let first_tree' := Z.quot last_child children_per_tree + (if Z.rem first_child children_per_tree =? 0 then 0 else 1) in
        Ok (Bounds (Some first_tree') (Some begin_) (first_tree' - 1) (Some end_) (Some shared))
      else Ok (Bounds (Some first_tree) (Some begin_) last_tree (Some end_) (Some shared)).

(** t8_cmesh.cxx:1672-1679: the do-while loop over the next processes; the result is next_non_empty and the range of the last
    process looked at *)
Fixpoint next_non_empty (fuel : nat) (mpisize num next : Z) : outcome (Z * Z * Z) :=
  match fuel with
  | O => OutOfFuel
  | S f =>
    do a <- first_element_of_process next mpisize num;
    do b <- first_element_of_process (next + 1) mpisize num;
    if (i64 b <=? i64 a) && (next + 1 <? mpisize - 1) then next_non_empty f mpisize num (next + 1) else Ok (next + 1, i64 a, i64 b)
  end.
(** 1691-1714: the loop over all trees on an empty process *)
Fixpoint empty_loop (counts : list Z) (igtree off first : Z) (b : bounds) : bounds :=
  match counts with
  | [] => b
  | c :: r =>
    let b' := if (off <=? first) && (first <? off + c)
              then Bounds (Some igtree) (Some (first - off)) (igtree - 1) (b_end b) (Some (off <? first)) else b in
    empty_loop r (igtree + 1) (off + c) first b'
  end.
(** 1717-1752: the loop over all trees on a process with elements *)
Fixpoint nonempty_loop (counts : list Z) (num_trees igtree off first last : Z) (b : bounds) : outcome bounds :=
  match counts with
  | [] => if num_trees =? 0 then Ok (Bounds (Some (-1)) (Some (-1)) (-1) (Some (-1)) (Some false)) else AssertFail
  | c :: r =>
    let b1 := if (off <=? first) && (first <? off + c)
              then Bounds (Some igtree) (Some (first - off)) (b_last b) (b_end b) (Some (off <? first)) else b in
    if (off <? last) && (last <=? off + c) then
      match b_first b1 with
      | None => Oob
      | Some ft =>
        if (ft <=? igtree) && (0 <=? ft) && (ft <? num_trees) && (0 <=? igtree) && (igtree <? num_trees)
        then Ok (Bounds (b_first b1) (b_begin b1) igtree (Some (last - off)) (b_shared b1)) else AssertFail
      end
    else nonempty_loop r num_trees (igtree + 1) (off + c) first last b1
  end.
(** t8_cmesh.cxx:1646-1758 *)
Definition bounds_unpartitioned (mpirank mpisize : Z) (counts : list Z) : outcome bounds :=
  let num := u64 (sum_counts counts) in
  do a <- first_element_of_process mpirank mpisize num;
  do b <- first_element_of_process (mpirank + 1) mpisize num;
  let first := i64 a in
  let last := i64 b in
  let b0 := Bounds None None (-1) None None in
  if last <=? first then
    do n <- next_non_empty (Z.to_nat mpisize) mpisize num (mpirank + 1);
    let '(next, fn, ln) := n in
    do fl <- (if mpisize - 1 <=? next then
                do fn <- first_element_of_process (mpisize - 1) mpisize num;
                do ln <- first_element_of_process mpisize mpisize num;
                Ok (i64 fn, i64 ln)
              else Ok (fn, ln));
    if negb (fst fl <? snd fl) then AssertFail
    else Ok (empty_loop counts 0 0 (fst fl) b0)
  else nonempty_loop counts (zlen counts) 0 0 first last b0.
(** t8_cmesh.cxx:2336-2393 for a replicated coarse mesh *)
Definition bounds_irregular (mpirank mpisize : Z) (counts : list Z) : outcome bounds :=
  if zlen counts =? 0 then Ok (Bounds (Some (-1)) (Some (-1)) (-1) (Some (-1)) (Some false))
  else bounds_unpartitioned mpirank mpisize counts.

(** ** t8_forest.cxx:1124-1213 t8_forest_populate *)
Definition oget {A} (x : option A) : outcome A := match x with Some a => Ok a | None => Oob end.
(** 1196-1205: the first element by its id, the others as successors *)
Fixpoint successors {S : scheme} (e : elt S) (n : nat) : list (elt S) :=
  match n with O => [] | Datatypes.S n' => e :: successors (s_successor e) n' end.
Section populate.
Variable cls : Z -> scheme.
(** 1177-1207: the loop over the local trees; [class] is the number of the class of a tree *)
Fixpoint populate_trees (n : nat) (class : Z -> Z) (level first last begin_ end_ jt count : Z) : outcome (Z * list (ptree (leaf cls))) :=
  match n with
  | O => Ok (count, [])
  | S n' =>
    let start := if jt =? first then begin_ else 0 in
    let stop := if jt =? last then end_ else s_count_root (cls jt) level in
    if stop - start <=? 0 then AssertFail
    else
      let es := successors (s_set_linear_id (cls jt) level start) (Z.to_nat (stop - start)) in
      do r <- populate_trees n' class level first last begin_ end_ (jt + 1) (count + zlen es);
      Ok (fst r, PTree (class jt) count (map (fun e => existT (fun t => elt (cls t)) jt e) es) :: snd r)
  end.
(** [maxlevel]: the maximum level of the forest; [cfirst], [cnum]: the first local tree and the number of local trees of the coarse
    mesh *)
Definition populate (class : Z -> Z) (maxlevel level cfirst cnum : Z) (b : bounds) : outcome (pforest (leaf cls)) :=
  if maxlevel <? level then AssertFail
  else
    do first <- oget (b_first b);
    let last := b_last b in
    do is_empty <- (if last <? first then Ok true
                    else if first =? last then do s <- oget (b_begin b); do e <- oget (b_end b); Ok (e <=? s) else Ok false);
    if is_empty then Ok (PForest (last + 1) last 0 [])
    else if negb ((cfirst <=? first) && (last <=? cfirst + cnum - 1)) then AssertFail
    else
      do s <- oget (b_begin b);
      do e <- oget (b_end b);
      do r <- populate_trees (Z.to_nat (last - first + 1)) class level first last s e first 0;
      Ok (PForest first last (fst r) (snd r)).
(** the numbers of leaves of trees 0, ..., K-1 *)
Definition tree_counts (K level : Z) : list Z := map (fun t => s_count_root (cls t) level) (zseq 0 (Z.to_nat K)).
(** the uniform forest on one process, on a replicated coarse mesh of K trees; [irregular]: t8_forest_refines_irregular *)
Definition uniform_forest (irregular : bool) (class : Z -> Z) (maxlevel K level mpisize mpirank : Z) : outcome (pforest (leaf cls)) :=
  do b <- (if irregular then bounds_irregular mpirank mpisize (tree_counts K level) else bounds_equal mpirank mpisize (tree_counts K level));
  populate class maxlevel level 0 K b.
End populate.
Arguments populate {cls}.
Arguments populate_trees {cls}.

(** ** the tree offset table of a uniform partition of a coarse mesh *)
(** t8_cmesh_partition.cxx:1577-1590 and 197: the first entry of a process, and its number of local trees *)
Definition raw_entry (b : bounds) : outcome (Z * Z) :=
  do f <- oget (b_first b);
  do s <- oget (b_shared b);
  Ok ((if s : bool then - f - 1 else f), b_last b - f + 1).
Fixpoint raw_entries (mpisize : Z) (counts : list Z) (ranks : list Z) : outcome (list (Z * Z)) :=
  match ranks with
  | [] => Ok []
  | p :: r => do b <- bounds_irregular p mpisize counts; do e <- raw_entry b; do l <- raw_entries mpisize counts r; Ok (e :: l)
  end.
(** 219-235: the second round for the empty processes *)
Fixpoint second_entries (mpisize : Z) (arr : list Z) (p : Z) (raw : list (Z * Z)) : outcome (list Z) :=
  match raw with
  | [] => Ok []
  | (e, n) :: r =>
    do e' <- (if n <=? 0 then
                do next <- t8_offset_next_nonempty_rank (Z.to_nat (mpisize + 2)) p arr;
                do f <- rd_first arr next;
                do x <- rd arr next;
                Ok (if x <? 0 then f + 1 else f)
              else Ok e);
    do l <- second_entries mpisize arr (p + 1) r;
    Ok (e' :: l)
  end.
Definition cmesh_uniform_table (mpisize : Z) (counts : list Z) : outcome (list Z) :=
  do raw <- raw_entries mpisize counts (zseq 0 (Z.to_nat mpisize));
  let arr := map fst raw ++ [zlen counts] in
  if existsb (fun x => snd x <=? 0) raw then do l <- second_entries mpisize arr 0 raw; Ok (l ++ [zlen counts]) else Ok arr.

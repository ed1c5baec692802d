(** Model of the owner search of a forest: which process stores the leaf that contains a given element.
    - src/t8_forest/t8_forest.cxx:2192-2262 t8_forest_element_check_owner, 2318-2447 t8_forest_element_find_owner_ext, 2449-2454
      t8_forest_element_find_owner, 1224-1346 t8_forest_tree_shared,
    - src/t8_forest/t8_forest_partition.cxx:306-389 t8_forest_partition_create_first_desc, 391-472
      t8_forest_partition_create_tree_offsets,
    together with the tables of t8_cmesh_offset.c (OffsetModel.v) and the element offsets (PartitionModel.v, create_offsets).
    t8_linearidx_t (uint64) and t8_gloidx_t (int64) are Z.  All collective calls (allgather, allreduce) are modelled by what they
    compute from the values of all processes.  The deprecated t8_forest_element_find_owner_old (2456-2535) is not modelled. *)
From Verif Require Import Prelude SchemeModel OffsetModel PartitionModel.

(** array[i], Oob outside the array *)
Definition rd (l : list Z) (i : Z) : outcome Z := if (0 <=? i) && (i <? zlen l) then Ok (znth 0 l i) else Oob.
(** t8_cmesh_offset.c:39-45 t8_offset_first, with the bounds of the array checked *)
Definition rd_first (o : list Z) (p : Z) : outcome Z := do e <- rd o p; Ok (Z.abs e + t8_glo_kl0 e).

(** ** the search on the tables: [eo] element_offsets, [to] tree_offsets, [fd] global_first_desc *)

(** t8_forest.cxx:2371-2392: the loop that skips empty processes.  Result: lower bound, upper bound, guess, direction *)
Fixpoint skip_empty (fuel : nat) (eo : list Z) (lower upper guess last_guess dir : Z) : outcome (Z * Z * Z * Z) :=
  match fuel with
  | O => OutOfFuel
  | S f =>
    if negb (in_bounds guess eo) then Oob
    else if t8_offset_empty guess eo then
      if ((dir =? -1) && (guess <=? lower)) || ((dir =? 1) && (upper <=? guess)) then
        (* 2376-2389: change direction, reset the guess, move the bound that was reached *)
        if 0 <? dir then skip_empty f eo lower last_guess (last_guess - dir) last_guess (- dir)
        else skip_empty f eo last_guess upper (last_guess - dir) last_guess (- dir)
      else skip_empty f eo lower upper (guess + dir) last_guess dir
    else Ok (lower, upper, guess, dir)
  end.

(** t8_forest.cxx:2361-2439: the while loop; int division truncates *)
Fixpoint owner_loop (fuel : nat) (P : Z) (eo to fd : list Z) (gtree id lower upper guess dir : Z) : outcome Z :=
  match fuel with
  | O => OutOfFuel
  | S f =>
    if negb (lower <=? upper) then AssertFail
    else if upper =? lower then Ok upper
    else
      do st <- skip_empty (Z.to_nat (P + 2)) eo lower upper guess guess dir;
      let '(lower, upper, guess, dir) := st in
      do first_tree <- rd_first to guess;
      if gtree <? first_tree then owner_loop f P eo to fd gtree id lower (guess - 1) (Z.quot (guess - 1 + lower) 2) (-1)
      else
        do current_id <- rd fd guess;
        if (first_tree =? gtree) && (id <? current_id) then
          owner_loop f P eo to fd gtree id lower (guess - 1) (Z.quot (guess - 1 + lower) 2) (-1)
        else
          do next <- t8_offset_next_nonempty_rank (Z.to_nat (P + 2)) guess to;
          do first_tree <- rd_first to next;
          if first_tree <? gtree then owner_loop f P eo to fd gtree id next upper (Z.quot (upper + next) 2) 1
          else
            do current_id <- rd fd next;
            if (first_tree =? gtree) && (current_id <=? id) then
              owner_loop f P eo to fd gtree id (guess + 1) upper (Z.quot (upper + (guess + 1)) 2) 1
            else Ok guess
  end.

(** t8_forest.cxx:2207-2258: the decision of t8_forest_element_check_owner on the tables *)
Definition check_owner_tables (P : Z) (to fd : list Z) (gtree id rank : Z) : outcome bool :=
  if negb (in_bounds rank to) then Oob
  else if t8_offset_in_range gtree rank to then
    let is_first := t8_offset_first rank to =? gtree in
    let is_last := gtree =? t8_offset_last rank to in
    if is_first || is_last then
      do next <- t8_offset_next_nonempty_rank (Z.to_nat (P + 2)) rank to;
      let check_next := is_last && (next <? P) && t8_offset_in_range gtree next to in
      do rfirst <- rd fd rank;
      do rnext <- (if check_next then rd fd next else Ok (2 ^ 64 - 1));
      Ok (negb ((is_first && (id <? rfirst)) || (check_next && (rnext <=? id))))
    else Ok true
  else Ok false.

(** ** with elements *)
Section owner.
(** the scheme of the class of each tree *)
Variable cls : Z -> scheme.
(** a leaf with the global id of its tree *)
Definition leaf : Type := {t : Z & elt (cls t)}.

(** t8_forest.cxx:2192-2262; the early exits and the computation of the id commute *)
Definition check_owner (P ml : Z) (to fd : list Z) (gtree : Z) (e : elt (cls gtree)) (rank : Z) (is_desc : bool) : outcome bool :=
  check_owner_tables P to fd gtree (s_linear_id (if is_desc then e else s_first_desc e ml) ml) rank.

(** t8_forest.cxx:2318-2447; debug adds the assertion at the end *)
Definition find_owner_ext (debug : bool) (P ml : Z) (eo to fd : list Z) (gtree : Z) (e : elt (cls gtree)) (lower upper guess : Z)
    (is_desc : bool) : outcome Z :=
  if negb ((0 <=? lower) && (lower <=? upper) && (upper <? P) && (lower <=? guess) && (guess <=? upper)) then AssertFail
  else if upper =? lower then Ok upper
  else
    let f := if is_desc then e else s_first_desc e ml in
    do r <- owner_loop (Z.to_nat (P + 1)) P eo to fd gtree (s_linear_id f (s_level f)) lower upper guess 1;
    if debug then do b <- check_owner P ml to fd e r is_desc; if b then Ok r else AssertFail
    else Ok r.
(** t8_forest.cxx:2449-2454 *)
Definition find_owner (debug : bool) (P ml : Z) (eo to fd : list Z) (gtree : Z) (e : elt (cls gtree)) : outcome Z :=
  find_owner_ext debug P ml eo to fd e 0 (P - 1) (Z.quot (P - 1) 2) false.

(** ** the tables, made from the leaves of all processes *)

(** t8_forest.cxx:1224-1346 t8_forest_tree_shared (forest, 0) for a forest without incomplete trees (1303-1342); the stored first_desc
    of the first tree is the first descendant of its first element (t8_forest.cxx:1107-1112) *)
Definition first_tree_shared (P ml : Z) (l : list leaf) : bool :=
  if P =? 1 then false
  else match l with
       | [] => false
       | existT _ t e :: _ => negb (s_equal (s_first_desc (s_root (cls t)) ml) (s_first_desc e ml))
       end.
(** the last local tree, -1 for a process without elements (t8_forest_partition.cxx:1324) *)
Definition last_local_tree (l : list leaf) : Z := match rev l with [] => -1 | existT _ t _ :: _ => t end.
Definition first_local_tree (l : list leaf) : Z := match l with [] => 0 | existT _ t _ :: _ => t end.
(** t8_forest.cxx:1259-1301: the same question for a forest with incomplete trees; the last local tree of the process before is
    received from it *)
Definition first_tree_shared_incomplete (P rank : Z) (before l : list leaf) : bool :=
  if P =? 1 then false
  else if rank =? 0 then false
  else (last_local_tree before =? first_local_tree l) && negb (last_local_tree l =? -1).

(** t8_forest_partition.cxx:408-417: the first value of an entry; K is global_num_trees *)
Definition raw_tree_offset (K : Z) (shared : bool) (l : list leaf) : Z :=
  match l with [] => K | existT _ t _ :: _ => if shared then - t - 1 else t end.
(** t8_forest_partition.cxx:450-453: the next process that is not empty *)
Fixpoint next_filled (fuel : nat) (P K : Z) (arr : list Z) (next : Z) : outcome Z :=
  match fuel with
  | O => OutOfFuel
  | S f => if next <? P then do e <- rd arr next; if K <=? e then next_filled f P K arr (next + 1) else Ok next
           else Ok next
  end.
(** t8_forest_partition.cxx:446-460: the second value of the entry of an empty process *)
Definition fixed_tree_offset (P K : Z) (arr : list Z) (rank : Z) : outcome Z :=
  do next <- next_filled (Z.to_nat (P + 1)) P K arr (rank + 1);
  do first <- rd_first arr next;
  do e <- rd arr next;
  Ok (if e <? 0 then first + 1 else first).
Definition is_empty (l : list leaf) : bool := match l with [] => true | _ => false end.
(** all entries in order *)
Fixpoint collect (l : list (outcome Z)) : outcome (list Z) :=
  match l with [] => Ok [] | x :: r => do a <- x; do b <- collect r; Ok (a :: b) end.
(** t8_forest_partition.cxx:391-472; [shared] is the answer of t8_forest_first_tree_shared on each process *)
Definition create_tree_offsets_with (shared : Z -> bool) (P K : Z) (loc : Z -> list leaf) : outcome (list Z) :=
  let ranks := zseq 0 (Z.to_nat P) in
  let arr := map (fun p => raw_tree_offset K (shared p) (loc p)) ranks ++ [K] in
  if existsb (fun p => is_empty (loc p)) ranks then
    do new <- collect (map (fun p => if is_empty (loc p) then fixed_tree_offset P K arr p else Ok (raw_tree_offset K (shared p) (loc p))) ranks);
    Ok (new ++ [K])
  else Ok arr.
Definition create_tree_offsets (P K ml : Z) (loc : Z -> list leaf) : outcome (list Z) :=
  create_tree_offsets_with (fun p => first_tree_shared P ml (loc p)) P K loc.
Definition create_tree_offsets_incomplete (P K : Z) (loc : Z -> list leaf) : outcome (list Z) :=
  create_tree_offsets_with (fun p => first_tree_shared_incomplete P p (loc (p - 1)) (loc p)) P K loc.

(** t8_forest_partition.cxx:334-361 for a forest without incomplete trees *)
Definition local_first_desc (ml : Z) (l : list leaf) : Z :=
  match l with [] => 0 | existT _ _ e :: _ => s_linear_id (s_first_desc e ml) ml end.
(** t8_forest_partition.cxx:306-389 *)
Definition create_first_desc (P ml : Z) (loc : Z -> list leaf) : list Z := map (fun p => local_first_desc ml (loc p)) (zseq 0 (Z.to_nat P)).
(** the element offsets of the forest (PartitionModel.v) *)
Definition element_offsets (P : Z) (loc : Z -> list leaf) : list Z :=
  let nums := map (fun p => zlen (loc p)) (zseq 0 (Z.to_nat P)) in create_offsets (fold_right Z.add 0 nums) nums.
End owner.
Arguments check_owner {cls} P ml to fd {gtree} e rank is_desc.
Arguments find_owner_ext {cls} debug P ml eo to fd {gtree} e lower upper guess is_desc.
Arguments find_owner {cls} debug P ml eo to fd {gtree} e.
Arguments first_tree_shared {cls}.
Arguments first_tree_shared_incomplete {cls}.
Arguments raw_tree_offset {cls}.
Arguments create_tree_offsets_with {cls}.
Arguments create_tree_offsets {cls}.
Arguments create_tree_offsets_incomplete {cls}.
Arguments create_first_desc {cls}.
Arguments local_first_desc {cls}.
Arguments element_offsets {cls}.
Arguments is_empty {cls}.

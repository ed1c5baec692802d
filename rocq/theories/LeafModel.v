(** Model of the searches in the leaf arrays: src/t8_forest/t8_forest_private.cxx:60-223, src/t8_data/t8_containers.cxx:330-361 and
    of the access to leaves by local index, src/t8_forest/t8_forest.cxx:3670-3752, 4168-4188.
    A leaf array (t8_element_array_t) of one tree is a list of elements. *)
From Verif Require Import Prelude SchemeModel.

(** The loop of std::upper_bound / std::lower_bound of the C++ standard library (binary search for the first position at which the
    predicate [go_right] fails).  Reading outside of the array is [Oob]. *)
Fixpoint partition_loop (A : Type) (fuel : nat) (go_right : A -> bool) (l : list A) (first count : Z) : outcome Z :=
  match fuel with
  | O => OutOfFuel
  | S f =>
    if 0 <? count then
      let step := Z.quot count 2 in
      match nth_error l (Z.to_nat (first + step)) with
      | None => Oob
      | Some x => if go_right x then partition_loop f go_right l (first + step + 1) (count - (step + 1))
                  else partition_loop f go_right l first step
      end
    else Ok first
  end.
Definition std_upper_bound (A : Type) (id : A -> Z) (l : list A) (x : Z) : outcome Z :=
  partition_loop (S (length l)) (fun e => negb (x <? id e)) l 0 (zlen l).
Definition std_lower_bound (A : Type) (id : A -> Z) (l : list A) (x : Z) : outcome Z :=
  partition_loop (S (length l)) (fun e => id e <? x) l 0 (zlen l).

Section leaf.
Variable S : scheme.
Notation elt := (elt S).

(** t8_forest_private.cxx:73-102 t8_forest_bin_search_lower.  The first element is read without a check that there is one. *)
Definition bin_search_lower (elements : list elt) (element_id level : Z) : outcome Z :=
  match elements with
  | [] => Oob
  | query :: _ =>
    if element_id <? s_linear_id query level then Ok (-1)
    else do i <- std_upper_bound (fun e => s_linear_id e level) elements element_id; Ok (i - 1)
  end.
(** t8_forest_private.cxx:109-147 t8_forest_bin_search_upper *)
Definition bin_search_upper (elements : list elt) (element_id level : Z) : outcome Z :=
  let num_elements := zlen elements in
  if num_elements =? 0 then Ok (-1)
  else match nth_error elements (Z.to_nat (num_elements - 1)) with
  | None => Oob
  | Some query =>
    if s_linear_id query level <? element_id then Ok (-1)
    else do i <- std_lower_bound (fun e => s_linear_id e level) elements element_id;
         if i =? num_elements then Ok (-1) else Ok i
  end.
(** t8_forest_private.cxx:154-222 t8_forest_bin_search_first_descendant_ancestor: the index and *element_found *)
Definition bin_search_first_descendant_ancestor (elements : list elt) (element : elt) : outcome (Z * option elt) :=
  let element_level := s_level element in
  let element_id := s_linear_id element element_level in
  do lower <- bin_search_lower elements element_id element_level;
  let check_upper :=
    do upper <- bin_search_upper elements element_id element_level;
    if 0 <=? upper then
      match nth_error elements (Z.to_nat upper) with
      | None => Oob
      | Some f => if s_is_ancestor element f then Ok (upper, Some f) else Ok (-1, None)
      end
    else Ok (-1, None) in
  if 0 <=? lower then
    match nth_error elements (Z.to_nat lower) with
    | None => Oob
    | Some f => if s_is_ancestor f element then Ok (lower, Some f) else check_upper
    end
  else check_upper.
(** t8_containers.cxx:330-361 t8_element_array_find *)
Definition element_array_find (elements : list elt) (element : elt) : outcome Z :=
  let element_level := s_level element in
  let element_id := s_linear_id element element_level in
  do search_result <- bin_search_lower elements element_id element_level;
  if search_result <? 0 then Ok (-1)
  else match nth_error elements (Z.to_nat search_result) with
  | None => Oob
  | Some check_element => if s_equal element check_element then Ok search_result else Ok (-1)
  end.
(** t8_forest.cxx:2157-2190 t8_forest_element_is_leaf *)
Definition element_is_leaf (elements : list elt) (element : elt) : outcome bool :=
  do i <- element_array_find elements element; Ok (0 <=? i).
End leaf.
Arguments bin_search_lower {S}.
Arguments bin_search_upper {S}.
Arguments bin_search_first_descendant_ancestor {S}.
Arguments element_array_find {S}.
Arguments element_is_leaf {S}.

(** ** Leaves by local index.  [E] is the type of the elements (a union over the tree classes). *)
Section index.
Variable E : Type.
(** The part of struct t8_tree (src/t8_forest/t8_forest_types.h, t8_tree_t) used here. *)
Record tree := Tree { t_offset : Z; t_leaves : list E }.

(** t8_forest.cxx:4168-4188 t8_forest_compute_elements_offset; [num] is forest->local_num_leaf_elements, compared at the end *)
Fixpoint offset_loop (trees : list tree) (current : Z) : list tree * Z :=
  match trees with
  | [] => ([], current)
  | t :: r => let '(r', c) := offset_loop r (current + zlen (t_leaves t)) in (Tree current (t_leaves t) :: r', c)
  end.
Definition compute_elements_offset (trees : list tree) (num : Z) : outcome (list tree) :=
  let '(ts, c) := offset_loop trees 0 in if c =? num then Ok ts else AssertFail.

(** t8_forest.cxx:3670-3692 t8_forest_compare_elem_tree *)
Definition compare_elem_tree (leid : Z) (t : tree) : Z :=
  if leid <? t_offset t then -1 else if leid <? t_offset t + zlen (t_leaves t) then 0 else 1.
(** sc_array_bsearch (libsc, not in /repo) calls bsearch of the C library; this is the loop of glibc (stdlib/bsearch.c).  The result
    is the index found, or -1. *)
Fixpoint bsearch_loop (fuel : nat) (leid : Z) (trees : list tree) (l u : Z) : outcome Z :=
  match fuel with
  | O => OutOfFuel
  | Datatypes.S f =>
    if l <? u then
      let idx := Z.quot (l + u) 2 in
      match nth_error trees (Z.to_nat idx) with
      | None => Oob
      | Some t => let c := compare_elem_tree leid t in
                  if c <? 0 then bsearch_loop f leid trees l idx
                  else if 0 <? c then bsearch_loop f leid trees (idx + 1) u else Ok idx
      end
    else Ok (-1)
  end.
(** t8_forest.cxx:3711-3732: the search that debug builds run for comparison; the result is ltreedebug *)
Fixpoint debug_loop (fuel : nat) (leid : Z) (trees : list tree) (a b cur : Z) : outcome Z :=
  match fuel with
  | O => OutOfFuel
  | Datatypes.S f =>
    if a <? b then
      let m := Z.quot (a + b) 2 in
      match nth_error trees (Z.to_nat m) with
      | None => Oob
      | Some t => if leid <? t_offset t then debug_loop f leid trees a m m
                  else if leid <? t_offset t + zlen (t_leaves t) then debug_loop f leid trees b b m
                  else debug_loop f leid trees m b m
      end
    else Ok cur
  end.
(** t8_forest.cxx:3694-3752 t8_forest_get_leaf_element, debug build (with [debug = false]: release build, without the comparison).
    [num] is the number of local leaf elements; the result is NULL or the element and its local tree. *)
Definition get_leaf_element (debug : bool) (trees : list tree) (num leid : Z) : outcome (option (E * Z)) :=
  if leid <? 0 then AssertFail
  else if num <=? leid then Ok None
  else
    let fuel := Datatypes.S (length trees) in
    do dbg <- (if debug then debug_loop fuel leid trees 0 (zlen trees) (Z.quot (zlen trees) 2) else Ok 0);
    do ltree <- bsearch_loop fuel leid trees 0 (zlen trees);
    if debug && negb (dbg =? ltree) then AssertFail
    else match (if ltree <? 0 then None else nth_error trees (Z.to_nat ltree)) with
    | None => Oob
    | Some t =>
      if (t_offset t <=? leid) && (leid <? t_offset t + zlen (t_leaves t)) then
        match nth_error (t_leaves t) (Z.to_nat (leid - t_offset t)) with
        | None => Oob
        | Some e => Ok (Some (e, ltree))
        end
      else AssertFail
    end.
End index.
Arguments Tree {E}.

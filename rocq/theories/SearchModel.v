(** Model of the top-down search: t8_forest_split_array and t8_forest_search (src/t8_forest/t8_forest_iterate.cxx) and the class
    t8_search with its variants with queries (src/t8_forest/t8_forest_search/t8_forest_search.{cxx,hxx}).
    Callbacks may have a state (the user data): they take it and return the new one. *)
From Verif Require Import Prelude SchemeModel LeafModel AdaptModel.

(** ** sc_array_split of libsc (not in /repo, reproduced from libsc src/sc_containers.c).  [ty] is the type function, [count] the
    number of elements of the array, [num] the number of types; the result are the offsets. *)
Section split.
Variable ty : Z -> outcome Z.
Variable num : Z.
(** for (zi = step; zi <= type; zi++) offsets[zi] = guess *)
Definition write_offsets (offs : list Z) (step type guess : Z) : list Z :=
  firstn (Z.to_nat step) offs ++ repeat guess (Z.to_nat (type + 1 - step)) ++ skipn (Z.to_nat (type + 1)) offs.
(** while (low == high) { ++step; high = offsets[step]; if (step == num_types) return; }; the result None is the return *)
Fixpoint split_advance (fuel : nat) (offs : list Z) (low step high : Z) : outcome (option (Z * Z)) :=
  match fuel with
  | O => OutOfFuel
  | S f =>
    if low =? high then
      match nth_error offs (Z.to_nat (step + 1)) with
      | None => Oob
      | Some high => if step + 1 =? num then Ok None else split_advance f offs low (step + 1) high
      end
    else Ok (Some (step, high))
  end.
Fixpoint split_loop (fuel : nat) (offs : list Z) (low high step : Z) : outcome (list Z) :=
  match fuel with
  | O => OutOfFuel
  | S f =>
    let guess := low + Z.quot (high - low) 2 in
    do type <- ty guess;
    if (type <? 0) || (num <=? type) then AssertFail
    else
      let '(offs, low, high) := if type <? step then (offs, guess + 1, high) else (write_offsets offs step type guess, low, guess) in
      do r <- split_advance (S (Z.to_nat num)) offs low step high;
      match r with
      | None => Ok offs
      | Some (step, high) => split_loop f offs low high step
      end
  end.
Definition sc_array_split (count : Z) : outcome (list Z) :=
  let offs := 0 :: repeat count (Z.to_nat num) in
  if (count =? 0) || (num <=? 1) then Ok offs
  else split_loop (S (Z.to_nat num * S (Z.to_nat count))) offs 0 count 1.
End split.

Section tree.
Variable S : scheme.
Notation elt := (elt S).
(** t8_forest_iterate.cxx:56-67 t8_forest_determine_child_type *)
Definition determine_child_type (level : Z) (leaf_elements : list elt) (index : Z) : outcome Z :=
  match nth_error leaf_elements (Z.to_nat index) with
  | None => Oob
  | Some element => if level <? s_level element then Ok (s_ancestor_id element (level + 1)) else AssertFail
  end.
(** t8_forest_iterate.cxx:69-93 t8_forest_split_array *)
Definition split_array (element : elt) (leaf_elements : list elt) : outcome (list Z) :=
  sc_array_split (determine_child_type (s_level element) leaf_elements) (s_num_children element) (zlen leaf_elements).
End tree.
Arguments determine_child_type {S}.
Arguments split_array {S}.

(** The callbacks, for all classes of elements.  Arguments: state, local tree, element, is_leaf, leaves of the element, tree index of
    the first of them. *)
Definition element_callback (St : Type) := forall S : scheme, St -> Z -> elt S -> bool -> list (elt S) -> Z -> St * bool.
(** one query (given by its number) *)
Definition query_callback (St : Type) := forall S : scheme, St -> Z -> elt S -> bool -> list (elt S) -> Z -> Z -> St * bool.
(** all active queries at once; the result is the vector of matches, as a function of the query number *)
Definition batched_callback (St : Type) := forall S : scheme, St -> Z -> elt S -> bool -> list (elt S) -> Z -> list Z -> St * (Z -> bool).
(** the three classes t8_search, t8_search_with_queries, t8_search_with_batched_queries with their number of queries *)
Inductive queries (St : Type) :=
| QNone
| QSingle (n : nat) (cb : query_callback St)
| QBatched (n : nat) (cb : batched_callback St).
Arguments QNone {St}.
Arguments QSingle {St}.
Arguments QBatched {St}.

Section search.
Variable St : Type.
Variable cb : element_callback St.
Variable Q : queries St.

(** t8_forest_search.hxx:381-385, 495-499, 608-612 stop_due_to_queries *)
Definition stop_due_to_queries (active : list Z) : bool :=
  match Q with QNone => false | _ => match active with [] => true | _ => false end end.
(** std::copy_if with a predicate that has a state *)
Fixpoint copy_if (f : St -> Z -> St * bool) (st : St) (l : list Z) : St * list Z :=
  match l with
  | [] => (st, [])
  | q :: l' => let (st, b) := f st q in let (st, r) := copy_if f st l' in (st, if b then q :: r else r)
  end.
(** t8_forest_search.hxx:413-421 (nothing), 510-524, 623-637 check_queries: the new active queries *)
Definition check_queries (S : scheme) (st : St) (active : list Z) (lt : Z) (e : elt S) (is_leaf : bool) (leaves : list (elt S)) (index : Z)
  : St * list Z :=
  match Q with
  | QNone => (st, [])
  | QSingle _ qcb => match active with [] => (st, []) | _ => copy_if (fun st q => qcb S st lt e is_leaf leaves index q) st active end
  | QBatched _ qcb =>
      match active with
      | [] => (st, [])
      | _ => let (st, matches) := qcb S st lt e is_leaf leaves index active in (st, filter matches active)
      end
  end.
(** t8_forest_search.hxx:426-430 (nothing), 529-533, 642-646 update_queries *)
Definition update_queries (new active : list Z) : list Z := match Q with QNone => active | _ => new end.
(** t8_forest_search.hxx:435-439 (nothing), 538-543, 651-656 init_queries *)
Definition init_queries (active : list Z) : list Z :=
  match Q with QNone => active | QSingle n _ | QBatched n _ => zseq 0 n end.

Section one_tree.
Variable S : scheme.
Notation elt := (elt S).
(** all leaves of the tree, for the assertion t8_forest_element_is_leaf *)
Variable all : list elt.
Variable ltreeid : Z.

(** t8_forest_search.cxx:92-108: the loop over the children; t8_element_array_init_view asserts that the view is inside *)
Fixpoint children_loop (rec : elt -> list elt -> Z -> St * list Z -> outcome (St * list Z)) (element : elt) (leaves : list elt) (first : Z)
  (offs new_active : list Z) (ichildren : list Z) (s : St * list Z) : outcome (St * list Z) :=
  match ichildren with
  | [] => Ok s
  | ichild :: r =>
      match nth_error offs (Z.to_nat ichild), nth_error offs (Z.to_nat (ichild + 1)) with
      | Some indexa, Some indexb =>
          if indexa <? indexb then
            if zlen leaves <? indexb then AssertFail
            else
              let child_leaves := firstn (Z.to_nat (indexb - indexa)) (skipn (Z.to_nat indexa) leaves) in
              do s <- rec (s_child element ichild) child_leaves (indexa + first) (fst s, update_queries new_active (snd s));
              children_loop rec element leaves first offs new_active r s
          else children_loop rec element leaves first offs new_active r s
      | _, _ => Oob
      end
  end.
(** t8_forest_search.cxx:56-70: is the element the only leaf that is left? *)
Definition check_is_leaf (element : elt) (leaves : list elt) : outcome bool :=
  match leaves with
  | [leaf] =>
      if s_level leaf <? s_level element then AssertFail
      else if s_level element =? s_level leaf then
        do b <- element_is_leaf all leaf; if b && s_equal element leaf then Ok true else AssertFail
      else Ok false
  | _ => Ok false
  end.
(** t8_forest_search.cxx:35-114 t8_search_base::search_recursion.  The state is the one of the callbacks and the member
    active_queries of the object. *)
Fixpoint search_recursion (fuel : nat) (element : elt) (leaves : list elt) (first : Z) (s : St * list Z) : outcome (St * list Z) :=
  match fuel with
  | O => OutOfFuel
  | Datatypes.S f =>
    let (st, active) := s in
    if zlen leaves =? 0 then Ok (st, active)
    else if stop_due_to_queries active then Ok (st, active)
    else
      do is_leaf <- check_is_leaf element leaves;
      let (st, ret) := cb st ltreeid element is_leaf leaves first in
      if negb ret then Ok (st, active)
      else
        let (st, new_active) := check_queries st active ltreeid element is_leaf leaves first in
        if is_leaf then Ok (st, active)
        else
          do offs <- split_array element leaves;
          children_loop (search_recursion f) element leaves first offs new_active (zseq 0 (Z.to_nat (s_num_children element))) (st, active)
  end.
(** t8_forest_search.cxx:118-137 search_tree.  The first and the last leaf are read without a check that there is one. *)
Definition search_tree (s : St * list Z) : outcome (St * list Z) :=
  match nth_error all 0, nth_error all (Z.to_nat (zlen all - 1)) with
  | Some first_el, Some last_el => search_recursion (Datatypes.S (Z.to_nat (s_maxlevel S))) (s_nca first_el last_el) all 0 s
  | _, _ => Oob
  end.
End one_tree.
(** t8_forest_search.cxx:140-149 do_search *)
Fixpoint do_search (itree : Z) (ts : list tree) (s : St * list Z) : outcome (St * list Z) :=
  match ts with
  | [] => Ok s
  | t :: r => do s <- search_tree (t_elems t) itree (fst s, init_queries (snd s)); do_search (itree + 1) r s
  end.
End search.

(** ** The C function t8_forest_search, t8_forest_iterate.cxx:221-397.  The query callback gets the active queries and writes an array
    of matches; entry i belongs to the i-th active query. *)
Definition c_query_fn (St : Type) := forall S : scheme, St -> Z -> elt S -> bool -> list (elt S) -> Z -> list Z -> St * (nat -> bool).
Section c_search.
Variable St : Type.

(** 285-291: the active queries whose match is nonzero, [i] counts the active queries *)
Fixpoint push_matches (m : nat -> bool) (i : nat) (active : list Z) : list Z :=
  match active with [] => [] | q :: r => if m i then q :: push_matches m (Datatypes.S i) r else push_matches m (Datatypes.S i) r end.
Section one_tree.
Variable S : scheme.
Notation elt := (elt S).
(** the callbacks, for elements of this class; None: queries == NULL *)
Variable cb : St -> Z -> elt -> bool -> list elt -> Z -> St * bool.
Variable query_fn : option (St -> Z -> elt -> bool -> list elt -> Z -> list Z -> St * (nat -> bool)).
Variable all : list elt.
Variable ltreeid : Z.
Fixpoint c_children_loop (rec : elt -> list elt -> Z -> list Z -> St -> outcome St) (element : elt) (leaves : list elt) (first : Z)
  (offs new_active : list Z) (ichildren : list Z) (st : St) : outcome St :=
  match ichildren with
  | [] => Ok st
  | ichild :: r =>
      match nth_error offs (Z.to_nat ichild), nth_error offs (Z.to_nat (ichild + 1)) with
      | Some indexa, Some indexb =>
          if indexa <? indexb then
            if zlen leaves <? indexb then AssertFail
            else
              do st <- rec (s_child element ichild) (firstn (Z.to_nat (indexb - indexa)) (skipn (Z.to_nat indexa) leaves)) (indexa + first) new_active st;
              c_children_loop rec element leaves first offs new_active r st
          else c_children_loop rec element leaves first offs new_active r st
      | _, _ => Oob
      end
  end.
(** 221-337 t8_forest_search_recursion; [active] is the content of the array active_queries (ignored without queries) *)
Fixpoint c_search_recursion (fuel : nat) (element : elt) (leaves : list elt) (first : Z) (active : list Z) (st : St) : outcome St :=
  match fuel with
  | O => OutOfFuel
  | Datatypes.S f =>
    if zlen leaves =? 0 then Ok st
    else if match query_fn with None => false | Some _ => zlen active =? 0 end then Ok st
    else
      do is_leaf <- check_is_leaf all element leaves;
      let (st, ret) := cb st ltreeid element is_leaf leaves first in
      if negb ret then Ok st
      else
        let (st, new_active) :=
          match query_fn with
          | None => (st, [])
          | Some fn => let (st, m) := fn st ltreeid element is_leaf leaves first active in (st, if is_leaf then [] else push_matches m 0 active)
          end in
        if is_leaf then Ok st
        else if match query_fn with None => false | Some _ => zlen new_active =? 0 end then Ok st
        else
          do offs <- split_array element leaves;
          c_children_loop (c_search_recursion f) element leaves first offs new_active (zseq 0 (Z.to_nat (s_num_children element))) st
  end.
(** 348-372 t8_forest_search_tree *)
Definition c_search_tree (active : list Z) (st : St) : outcome St :=
  match nth_error all 0, nth_error all (Z.to_nat (zlen all - 1)) with
  | Some first_el, Some last_el => c_search_recursion (Datatypes.S (Z.to_nat (s_maxlevel S))) (s_nca first_el last_el) all 0 active st
  | _, _ => Oob
  end.
End one_tree.
Variable cb : element_callback St.
Variable query_fn : option (c_query_fn St).
Definition query_in (S : scheme) := match query_fn with None => None | Some fn => Some (@fn S) end.
Fixpoint c_search_trees (active : list Z) (itree : Z) (ts : list tree) (st : St) : outcome St :=
  match ts with
  | [] => Ok st
  | t :: r => do st <- c_search_tree (@cb (t_scheme t)) (query_in (t_scheme t)) (t_elems t) itree active st; c_search_trees active (itree + 1) r st
  end.
(** 374-397 t8_forest_search; [n] is the number of queries *)
Definition c_search (n : nat) (ts : list tree) (st : St) : outcome St := c_search_trees (zseq 0 n) 0 ts st.
End c_search.

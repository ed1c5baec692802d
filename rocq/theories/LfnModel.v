(** Model of the leaf neighbours at a face: t8_forest_iterate_faces (src/t8_forest/t8_forest_iterate.cxx) and
    t8_forest_leaf_face_neighbors_ext (src/t8_forest/t8_forest.cxx).  As in GhostModel.v, [nb] is t8_forest_element_face_neighbor and trees
    are given by their global ids.  Not modelled: the orientation and the element class that are returned as well, and the memory of the
    result arrays; the check that the forest has no deleted elements. *)
From Verif Require Import Prelude SchemeModel LeafModel SearchModel OwnerModel FaceModel GhostModel.

(** ** t8_forest_iterate.cxx:96-205 t8_forest_iterate_faces *)
Section iterate.
Variable S : scheme.
Variable F : faces S.
Notation elt := (elt S).
Variable dbg : bool.
(** all leaves of the local tree or ghost tree *)
Variable all : list elt.
Variable St : Type.
(** t8_forest_iterate_face_fn; arguments: state, element, face, is_leaf, leaves of the element, index in the tree of the first of them *)
Variable cb : St -> elt -> Z -> bool -> list elt -> Z -> outcome (St * bool).
(** 172-197: the loop over the face children; [iface] is the number of the next one; the child numbers are child_indices *)
Fixpoint faces_loop (rec : elt -> Z -> list elt -> Z -> St -> outcome St) (element : elt) (face : Z) (leaves : list elt) (first : Z)
  (offs : list Z) (iface : Z) (ids : list Z) (st : St) : outcome St :=
  match ids with
  | [] => Ok st
  | i :: r =>
      match nth_error offs (Z.to_nat i), nth_error offs (Z.to_nat (i + 1)) with
      | Some indexa, Some indexb =>
          if indexa <? indexb then
            if zlen leaves <? indexb then AssertFail
            else
              let child_leaves := firstn (Z.to_nat (indexb - indexa)) (skipn (Z.to_nat indexa) leaves) in
              do st <- rec (s_child element i) (f_child_face F element face iface) child_leaves (indexa + first) st;
              faces_loop rec element face leaves first offs (iface + 1) r st
          else faces_loop rec element face leaves first offs (iface + 1) r st
      | _, _ => Oob
      end
  end.
(** 131-144: the assertions about the leaves of an element that is not a leaf *)
Definition leaves_check (element : elt) (leaves : list elt) : outcome bool :=
  match leaves with
  | [] => Oob
  | leaf :: _ =>
      do b <- element_is_leaf all leaf;
      Ok (b && (s_level element <? s_level leaf) && forallb (s_is_ancestor element) leaves)
  end.
Fixpoint iterate_faces (fuel : nat) (element : elt) (face : Z) (leaves : list elt) (first : Z) (st : St) : outcome St :=
  match fuel with
  | O => OutOfFuel
  | Datatypes.S fuel =>
    match leaves with
    | [] => Ok st
    | _ =>
      do is_leaf <- element_is_leaf all element;
      do ok <- (if dbg && negb is_leaf then leaves_check element leaves else Ok true);
      if negb ok then AssertFail
      else
        do r <- cb st element face is_leaf leaves first;
        let '(st, ret) := r in
        if negb ret || is_leaf then Ok st
        else
          do offs <- split_array element leaves;
          faces_loop (iterate_faces fuel) element face leaves first offs 0 (f_child_ids F element face) st
    end
  end.
End iterate.

(** ** t8_forest.cxx:1614-1994 *)
Section lfn.
Variable cls : Z -> scheme.
Variable fc : forall t, faces (cls t).
Notation leaf := (leaf cls).
Notation el t e := (existT (fun t => elt (cls t)) t e).
Variable nb : leaf -> Z -> option (leaf * Z).
Variable dbg : bool.
Variables P ml me : Z.
Variables eo to fd : list Z.

(** the three vectors of t8_lfn_user_data as one: neighbours, dual_faces, element_indices *)
Definition found : Type := list (leaf * Z * Z).
(** 1614-1655 t8_forest_leaf_face_neighbors_iterate.  [all] are the leaves of the tree, [offset] is the index of the first of them among
    the local leaves, or for a ghost tree among the local leaves followed by the ghosts *)
Definition lfn_cb (t : Z) (all : list (elt (cls t))) (offset : Z) (st : found) (element : elt (cls t)) (face : Z) (is_leaf : bool)
  (leaves : list (elt (cls t))) (tree_leaf_index : Z) : outcome (found * bool) :=
  if negb is_leaf then Ok (st, true)
  else
    do b <- (if dbg then element_is_leaf all element else Ok true);
    if negb b then AssertFail
    else match (if tree_leaf_index <? 0 then None else nth_error all (Z.to_nat tree_leaf_index)) with
         | None => Oob
         | Some e => Ok (st ++ [(el t e, face, offset + tree_leaf_index)], true)
         end.
(** t8_element_array_init_view: a part of an array, asserted to be inside *)
Definition view {A} (l : list A) (offset count : Z) : outcome (list A) :=
  if (0 <=? offset) && (0 <=? count) && (offset + count <=? zlen l) then Ok (firstn (Z.to_nat count) (skipn (Z.to_nat offset) l)) else AssertFail.
(** 1902-1940: the last index of the leaves that are to be searched *)
Definition last_search_index (t : Z) (tree_leaves : list (elt (cls t))) (neighbor : elt (cls t)) : outcome Z :=
  let leaf_count := zlen tree_leaves in
  match nth_error tree_leaves (Z.to_nat (leaf_count - 1)) with
  | None => Oob
  | Some last_leaf =>
      if s_is_ancestor neighbor last_leaf then Ok (leaf_count - 1)
      else
        let successor := s_successor neighbor in
        let successor_level := s_level successor in
        do upper <- bin_search_upper tree_leaves (s_linear_id successor successor_level) successor_level;
        Ok (if upper <? 0 then leaf_count - 1 else upper - 1)
  end.
(** 1853-1955: the search in one array of leaves.  None if no leaf overlaps with the neighbour, else the new user data *)
Definition search_array (t : Z) (neighbor : elt (cls t)) (dual_face : Z) (tree_leaves : list (elt (cls t))) (offset : Z) (ud : found)
  : outcome (option found) :=
  do x <- bin_search_first_descendant_ancestor tree_leaves neighbor;
  let '(first, o) := x in
  if 0 <=? first then
    match o with
    | None => AssertFail
    | Some first_descendant =>
        let unique := s_level first_descendant <=? s_level neighbor in
        let element := if unique then first_descendant else neighbor in
        do face <- (if unique then ancestor_face (fc t) neighbor (s_level first_descendant) dual_face else Ok dual_face);
        do reduced <- (if unique then view tree_leaves first 1
                       else do last <- last_search_index tree_leaves neighbor;
                            if last - first + 1 <=? 0 then AssertFail else view tree_leaves first (last - first + 1));
        do ud <- iterate_faces (fc t) dbg tree_leaves (lfn_cb tree_leaves offset) (Datatypes.S (Z.to_nat (s_maxlevel (cls t) - s_level element)))
                   element face reduced first ud;
        Ok (Some ud)
    end
  else Ok None.
(** 1850-1978: the loop over the arrays of leaves (with the index of their first leaf).  [ud] is user_data, which keeps its entries from one array to the
    next, and [out] the result so far *)
Fixpoint arrays_loop (t : Z) (neighbor : elt (cls t)) (dual_face : Z) (arrays : list (list (elt (cls t)) * Z)) (ud out : found) : outcome found :=
  match arrays with
  | [] => Ok out
  | (leaves, offset) :: r =>
      do x <- search_array neighbor dual_face leaves offset ud;
      match x with
      | None => arrays_loop neighbor dual_face r ud out
      | Some ud => arrays_loop neighbor dual_face r ud (out ++ ud)
      end
  end.

(** t8_forest_get_local_id: the local tree with the global id; with the index of its first leaf *)
Fixpoint find_local (ts : list (ltree cls)) (t : Z) : option (list (elt (cls t)) * Z) :=
  match ts with
  | [] => None
  | existT _ u ls :: r =>
      match Z.eq_dec u t with
      | left E => Some (eq_rect u (fun u => list (elt (cls u))) ls t E, 0)
      | right _ => option_map (fun x => (fst x, zlen ls + snd x)) (find_local r t)
      end
  end.
(** the elements of a ghost tree as elements of the tree t *)
Fixpoint elems_of (t : Z) (l : list leaf) : list (elt (cls t)) :=
  match l with
  | [] => []
  | existT _ u e :: r => match Z.eq_dec u t with left E => eq_rect u (fun u => elt (cls u)) e t E :: elems_of t r | right _ => elems_of t r end
  end.
(** t8_forest_ghost_get_ghost_treeid, t8_forest_ghost_get_tree_leaf_elements and t8_forest_ghost_get_tree_element_offset *)
Definition find_ghost (h : ghosts cls) (t : Z) : option (list (elt (cls t)) * Z) :=
  option_map (fun k => let T := nth k (gh_trees h) (GTree 0 0 []) in (elems_of t (gt_elems T), gt_offset T)) (tree_pos (gh_trees h) t).

(** 1685-1994 t8_forest_leaf_face_neighbors_ext for the leaf or ghost (t, e); [ts] are the local trees, [num] the number of local leaves,
    [h] the ghosts, if any, [is_ghost] whether the tree id is the one of a ghost tree.  The result are the neighbours and the global id of their tree. *)
Definition leaf_face_neighbors (ts : list (ltree cls)) (num : Z) (h : option (ghosts cls)) (is_ghost : bool) (t : Z) (e : elt (cls t)) (face : Z)
  : outcome (found * Z) :=
  do ok <- (if dbg then
              match (if is_ghost then match h with Some h => find_ghost h t | None => None end else find_local ts t) with
              | Some (ls, _) => element_is_leaf ls e
              | None => Ok false
              end
            else Ok true);
  if negb ok then AssertFail
  else
  match nb (el t e) face with
  | None => Ok ([], -1)
  | Some (existT _ t' neighbor, dual_face) =>
      do b <- owners_at_face_bounds fc dbg P ml eo to fd neighbor dual_face 0 (P - 1);
      let '(lower, upper) := b in
      let local := if (lower <=? me) && (me <=? upper) then match find_local ts t' with Some x => [x] | None => [] end else [] in
      let ghost := match h with
                   | Some h => if negb (lower =? me) || negb (upper =? me)
                               then match find_ghost h t' with Some (ls, off) => [(ls, num + off)] | None => [] end else []
                   | None => []
                   end in
      do out <- arrays_loop neighbor dual_face (local ++ ghost) [] [];
      if dbg && negb is_ghost && (match h with Some _ => true | None => false end) && (zlen out =? 0) then AssertFail
      else Ok (out, t')
  end.
End lfn.

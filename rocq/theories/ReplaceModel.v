(** Model of t8_forest_iterate_replace, src/t8_forest/t8_forest_iterate.cxx:399-592.  The calls of replace_fn are collected in a list.
    Both forests have the same scheme, number of local trees and tree classes (asserted in the code, part of the types here). *)
From Verif Require Import Prelude SchemeModel.

(** one call of replace_fn: local tree, refine, num_outgoing, first_outgoing, num_incoming, first_incoming *)
Record report := Report { rp_tree : Z; rp_refine : Z; rp_num_old : Z; rp_first_old : Z; rp_num_new : Z; rp_first_new : Z }.

Section tree.
Variable S : scheme.
Notation elt := (elt S).
Variables old new : list elt.
Variable itree : Z.
(** element_get_parent, which asserts that the element is not the root *)
Definition checked_parent (e : elt) : outcome elt := if 0 <? s_level e then Ok (s_parent e) else AssertFail.
Definition old_at (i : Z) : outcome elt := match nth_error old (Z.to_nat i) with Some e => if i <? 0 then Oob else Ok e | None => Oob end.
Definition new_at (i : Z) : outcome elt := match nth_error new (Z.to_nat i) with Some e => if i <? 0 then Oob else Ok e | None => Oob end.
(** 474-483: the number of siblings that follow; the result also contains the last value of elem_old *)
Fixpoint count_family (elem_new : elt) (ielem_old : Z) (ielems : list Z) (elem_old : elt) (family_size : Z) : outcome (Z * elt) :=
  match ielems with
  | [] => Ok (family_size, elem_old)
  | ielem :: r =>
      if ielem + ielem_old <? zlen old then
        do elem_old <- old_at (ielem_old + ielem);
        do parent <- checked_parent elem_old;
        count_family elem_new ielem_old r elem_old (if s_equal elem_new parent then family_size + 1 else family_size)
      else Ok (family_size, elem_old)
  end.
(** 485-494: the check of debug builds that the element is the first of its family *)
Fixpoint check_first (elem_new : elt) (ielem_old : Z) (ielems : list Z) : outcome unit :=
  match ielems with
  | [] => Ok tt
  | ielem :: r =>
      if 0 <=? ielem_old - ielem then
        do elem <- old_at (ielem_old - ielem);
        do parent <- checked_parent elem;
        if s_equal elem_new parent then AssertFail else check_first elem_new ielem_old r
      else Ok tt
  end.
(** 422-573: the loop over the elements of a tree; [inc] is forest_new->incomplete_trees, [inc_old] forest_old->incomplete_trees.
    Result: the calls in order and the final value of ielem_old and ielem_new.  The block under T8_DEBUG (454-463) is never compiled
    (the macro is T8_ENABLE_DEBUG) and not modelled. *)
Fixpoint replace_loop (fuel : nat) (inc inc_old : bool) (ielem_old ielem_new : Z) : outcome (list report * Z * Z) :=
  if ielem_new <? zlen new then
    match fuel with
    | O => OutOfFuel
    | Datatypes.S f =>
      if negb (ielem_old <? zlen old) then AssertFail
      else
        do elem_new <- new_at ielem_new;
        do elem_old <- old_at ielem_old;
        let level_new := s_level elem_new in
        let level_old := s_level elem_old in
        let go (refine num_old num_new : Z) :=
          do r <- replace_loop f inc inc_old (ielem_old + num_old) (ielem_new + num_new);
          let '(l, a, b) := r in
          Ok (Report itree refine num_old ielem_old num_new ielem_new :: l, a, b) in
        let removed :=
          do r <- replace_loop f inc inc_old (ielem_old + 1) ielem_new;
          let '(l, a, b) := r in
          Ok (Report itree (-2) 1 ielem_old 0 (-1) :: l, a, b) in
        if inc then
          if level_old <? level_new then
            do parent <- checked_parent elem_new;
            if s_equal elem_old parent then
              if negb (level_new =? level_old + 1) then AssertFail else go 1 1 (s_num_children elem_old)
            else removed
          else if level_new <? level_old then
            do parent <- checked_parent elem_old;
            if s_equal elem_new parent then
              if negb (level_new =? level_old - 1) then AssertFail
              else
                do r <- count_family elem_new ielem_old (zseq 1 (Z.to_nat (s_num_children elem_new - 1))) elem_old 1;
                let (family_size, elem_old) := r in
                if s_num_children elem_new <? family_size then AssertFail
                else
                  do _ <- check_first elem_new ielem_old (zseq 1 (Z.to_nat (s_num_children elem_old - 1)));
                  go (-1) family_size 1
            else removed
          else if s_equal elem_new elem_old then go 0 1 1
          else removed
        else if inc_old then AssertFail
        else
          if level_old <? level_new then
            if negb (level_new =? level_old + 1) then AssertFail else go 1 1 (s_num_children elem_old)
          else if level_new <? level_old then
            if negb (level_new =? level_old - 1) then AssertFail else go (-1) (s_num_children elem_new) 1
          else if s_equal elem_new elem_old then go 0 1 1
          else AssertFail
    end
  else Ok ([], ielem_old, ielem_new).
(** 416-586: one tree *)
Definition replace_tree (inc inc_old : bool) : outcome (list report) :=
  do r <- replace_loop (Datatypes.S (length old)) inc inc_old 0 0;
  let '(l, ielem_old, ielem_new) := r in
  if negb (ielem_new =? zlen new) then AssertFail
  else if inc then Ok (l ++ map (fun i => Report itree (-2) 1 i 0 (-1)) (zseq ielem_old (Z.to_nat (zlen old - ielem_old))))
  else if ielem_old =? zlen old then Ok l else AssertFail.
End tree.

(** the local trees of the two forests: class, old and new leaves *)
Record tree_pair := TreePair { tp_class : scheme; tp_old : list (elt tp_class); tp_new : list (elt tp_class) }.
(** 399-592 t8_forest_iterate_replace *)
Fixpoint replace_trees (inc inc_old : bool) (itree : Z) (ts : list tree_pair) : outcome (list report) :=
  match ts with
  | [] => Ok []
  | t :: r =>
      do l <- replace_tree (tp_old t) (tp_new t) itree inc inc_old;
      do l' <- replace_trees inc inc_old (itree + 1) r;
      Ok (l ++ l')
  end.
Definition iterate_replace (inc inc_old : bool) (ts : list tree_pair) : outcome (list report) := replace_trees inc inc_old 0 ts.

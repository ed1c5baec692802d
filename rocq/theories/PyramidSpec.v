(** Specification vocabulary for the elements of pyramid trees, in terms of the interface: children, number of children, vertices. *)
From Verif Require Import Prelude PathSpec SimplexModel PyramidModel.

(** the element reached from the root by the child numbers p *)
Definition y_walk (p : list Z) : pyr := fold_left y_child p y_root.
(** the refinement paths: at most 21 refinements, every child number below the number of children of the element it refines *)
Inductive y_path : list Z -> Prop :=
| yp_nil : y_path []
| yp_snoc p i : y_path p -> zlen p < YMAX -> 0 <= i < y_num_children (y_walk p) -> y_path (p ++ [i]).
(** a full family: all children of one element, in order *)
Definition y_children_of (e : pyr) : list pyr := map (y_child e) (zseq 0 (Z.to_nat (y_num_children e))).
(** the descendants of an element, n levels below it, in depth-first order *)
Fixpoint y_descend (n : nat) (e : pyr) : list pyr :=
  match n with O => [e] | S n' => flat_map (y_descend n') (y_children_of e) end.

(** What a balanced forest is (independent of the model). *)
From Verif Require Import Prelude SchemeModel SchemeSpec FaceModel FaceSpec OwnerSpec.

Section forest.
Variable cls : Z -> scheme.
Notation leaf := {t : Z & elt (cls t)}.
Notation leaves := (forall t, list (elt (cls t))).
Variable fc : forall t, faces (cls t).
Variable nb : leaf -> Z -> option (leaf * Z).
Variables K ml : Z.

(** the leaves [lv t] of each of the K trees cover it, and have at most the level ml *)
Definition forest (lv : leaves) : Prop := forall t, 0 <= t < K -> covers (lv t) /\ Forall (fun e => s_level e <= ml) (lv t).
(** no leaf shares a part of a face with a leaf that is more than one level finer *)
Definition balanced (lv : leaves) : Prop := forall l m, In l (all_leaves K lv) -> In m (all_leaves K lv) -> adjacent fc nb ml l m ->
  leaf_level m <= leaf_level l + 1.
(** each leaf of lv' is a leaf of lv or a descendant of one *)
Definition refinement (lv lv' : leaves) : Prop := forall x, In x (all_leaves K lv') -> exists l, In l (all_leaves K lv) /\ in_leaf l x.
(** m is the maximum level of the leaves *)
Definition max_level (lv : leaves) (m : Z) : Prop := (exists l, In l (all_leaves K lv) /\ leaf_level l = m) /\
  forall l, In l (all_leaves K lv) -> leaf_level l <= m.
End forest.
Arguments forest {cls}.
Arguments balanced {cls}.
Arguments refinement {cls}.
Arguments max_level {cls}.

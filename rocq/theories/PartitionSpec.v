(** Specification vocabulary for the partition of a forest (independent of the model).

    The elements of a distributed forest form one global sequence: the elements of rank 0, then those of rank 1, and so on, each
    element together with the global id and the class of its tree. *)
From Verif Require Import Prelude NetModel PartitionModel.

(** An element table for P ranks and N elements: rank p has the elements number [at_ o p] to [at_ o (p+1) - 1]. *)
Definition at_ (o : list Z) (p : Z) : Z := nth (Z.to_nat p) o 0.
Definition element_table (P N : Z) (o : list Z) : Prop :=
  1 <= P /\ zlen o = P + 1 /\ at_ o 0 = 0 /\ at_ o P = N /\ forall p, 0 <= p < P -> at_ o p <= at_ o (p + 1).

(** the part a, a+1, ..., b-1 of a sequence *)
Definition part {A} (l : list A) (a b : Z) : list A := firstn (Z.to_nat (b - a)) (skipn (Z.to_nat a) l).

(** the items of all ranks 0, ..., P-1 one after the other *)
Definition gather {A} (P : Z) (f : Z -> list A) : list A := flat_map f (zseq 0 (Z.to_nat P)).

(** tree ids along a sequence of (tree, class, element): they go up in steps of 0 or 1, and the class belongs to the tree *)
Fixpoint consecutive {E} (l : list (Z * Z * E)) : Prop :=
  match l with
  | (t, c, _) :: (((t', c', _) :: _) as r) => ((t' = t /\ c' = c) \/ t' = t + 1) /\ consecutive r
  | _ => True
  end.

(** The state of one rank, read off the records of the forest (only the records are used from PartitionModel.v) *)
Section state.
Variable E : Type.
Implicit Types (t : ptree E) (ts : list (ptree E)) (f : pforest E).
(** the elements of consecutive trees, with tree id and class *)
Fixpoint tag_trees (first : Z) ts : list (Z * Z * E) :=
  match ts with [] => [] | t :: r => map (fun e => (first, pt_class t, e)) (pt_elems t) ++ tag_trees (first + 1) r end.
Definition tagged f : list (Z * Z * E) := tag_trees (pf_first f) (pf_trees f).
(** no tree is empty and the offset of a tree counts the elements before it *)
Fixpoint trees_ok (off : Z) ts : Prop :=
  match ts with [] => True | t :: r => pt_offset t = off /\ pt_elems t <> [] /\ trees_ok (off + zlen (pt_elems t)) r end.
Definition local_forest f : Prop :=
  trees_ok 0 (pf_trees f) /\ pf_num f = zlen (tagged f) /\ pf_last f - pf_first f + 1 = zlen (pf_trees f).

End state.

(** The number of sends and receives all programs have together. *)
Definition num_actions {M} (P : Z) (prog : Z -> list (action M)) : Z := fold_right Z.add 0 (map (fun p => zlen (prog p)) (zseq 0 (Z.to_nat P))).

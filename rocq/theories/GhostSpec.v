(** Specification vocabulary for the ghost layer (independent of the model). *)
From Coq Require Import Sorting.Sorted.
From Verif Require Import Prelude SchemeModel SchemeSpec FaceModel FaceSpec.

(** r lists exactly those members of l that satisfy Pr, in the same order *)
Inductive picks {A : Type} (Pr : A -> Prop) : list A -> list A -> Prop :=
| picks_nil : picks Pr [] []
| picks_take x l r : Pr x -> picks Pr l r -> picks Pr (x :: l) (x :: r)
| picks_skip x l r : ~ Pr x -> picks Pr l r -> picks Pr (x :: l) r.

Section forest.
Variable cls : Z -> scheme.
Notation leaf := {t : Z & elt (cls t)}.
Notation tree := {t : Z & list (elt (cls t))}.
Notation el t e := (existT (fun s => elt (cls s)) t e).
Variable fc : forall t, faces (cls t).
Variable nb : leaf -> Z -> option (leaf * Z).
Variables P ml : Z.
(** [loc p] are the leaves of process p *)
Variable loc : Z -> list leaf.

(** the leaves of some trees, and the same with the index of each leaf in its tree *)
Definition leaves_of (ts : list tree) : list leaf := flat_map (fun tr => map (fun e => el (projT1 tr) e) (projT2 tr)) ts.
Definition indexed (ts : list tree) : list (leaf * Z) :=
  flat_map (fun tr => combine (map (fun e => el (projT1 tr) e) (projT2 tr)) (zseq 0 (length (projT2 tr)))) ts.
(** [ts] are the local trees of process p: increasing global ids, each with at least one leaf *)
Definition local_trees (p : Z) (ts : list tree) : Prop :=
  StronglySorted Z.lt (map (@projT1 _ _) ts) /\ Forall (fun tr => projT2 tr <> []) ts /\ leaves_of ts = loc p.
(** x shares a part of a face with a leaf of process p *)
Definition at_process (p : Z) (x : leaf) : Prop := exists m, In m (loc p) /\ adjacent fc nb ml x m.
(** x is to be a ghost of process p: it is a leaf of another process and shares a part of a face with a leaf of p *)
Definition ghost_of (p : Z) (x : leaf) : Prop :=
  (exists q, 0 <= q < P /\ q <> p /\ In x (loc q)) /\ exists m, In m (loc p) /\ adjacent fc nb ml m x.
(** d is the data of the leaf x, if each process q has the data [dat q] of its leaves *)
Definition data_of {D : Type} (dat : Z -> list D) (x : leaf) (d : D) : Prop :=
  exists q j, 0 <= q < P /\ nth_error (loc q) j = Some x /\ nth_error (dat q) j = Some d.
End forest.
Arguments leaves_of {cls}.
Arguments indexed {cls}.
Arguments local_trees {cls}.
Arguments at_process {cls}.
Arguments ghost_of {cls}.
Arguments data_of {cls} P loc {D}.

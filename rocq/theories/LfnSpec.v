(** What it means that two elements meet at given faces, and which list of neighbours is right (independent of the model). *)
From Coq Require Import Sorting.Sorted.
From Verif Require Import Prelude SchemeModel SchemeSpec FaceModel FaceSpec.

Section forest.
Variable cls : Z -> scheme.
Notation leaf := {t : Z & elt (cls t)}.
Notation el t e := (existT (fun s => elt (cls s)) t e).
Variable fc : forall t, faces (cls t).
Variable nb : leaf -> Z -> option (leaf * Z).
Variable ml : Z.

(** the descendants of level ml at the face f of l *)
Definition face_cells (l : leaf) (f : Z) : list (elt (cls (projT1 l)) * Z) :=
  face_descend (fc (projT1 l)) (Z.to_nat (ml - leaf_level l)) (projT2 l) f.
(** the face f of l and the face g of m share a subface: a descendant of l at its face f is the neighbour of a descendant of m at g *)
Definition meet (l : leaf) (f : Z) (m : leaf) (g : Z) : Prop := leaf_face fc l f /\ leaf_face fc m g /\
  exists x a y b, In (x, a) (face_cells l f) /\ In (y, b) (face_cells m g) /\ nb (el (projT1 l) x) a = Some (el (projT1 m) y, b).
(** r lists the members of stored that share a subface with the face f of l, each exactly once and in order: with the face there and the
    index, where the first member has index off *)
Definition neighbors_at (l : leaf) (f : Z) (stored : list leaf) (off : Z) (r : list (leaf * Z * Z)) : Prop :=
  StronglySorted Z.lt (map snd r) /\
  forall m g i, In (m, g, i) r <-> off <= i /\ nth_error stored (Z.to_nat (i - off)) = Some m /\ meet l f m g.
End forest.
Arguments face_cells {cls}.
Arguments meet {cls}.
Arguments neighbors_at {cls}.

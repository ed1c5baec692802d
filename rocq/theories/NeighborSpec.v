(** Meshes of trees that are connected at their faces. *)
From Verif Require Import Prelude SchemeModel SchemeSpec FaceModel NeighborModel.

(** K trees with faces 0, ..., num_faces - 1: if the face f of the tree t is connected to the face f' of the tree t', with orientation o,
    then the face f' of t' is connected to the face f of t, with the same orientation *)
Definition connected (num_faces num_orientations K : Z) (conn : connection) : Prop :=
  forall t f t' f' o, 0 <= t < K -> 0 <= f < num_faces -> conn t f = Some (t', f', o) ->
    0 <= t' < K /\ 0 <= f' < num_faces /\ 0 <= o < num_orientations /\ conn t' f' = Some (t, f, o).

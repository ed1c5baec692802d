(** Meshes whose coordinates are suited for the search of face connections by vertices.  [dbl v r] (FloatProofs.v) says that v is a finite double
    and r its value. *)
From Coq Require Import Reals SpecFloat.
From Verif Require Import Prelude EclassModel FloatModel JoinModel JoinSpec FloatProofs.
#[local] Open Scope R_scope.

(** all coordinates are finite; lo and hi are the least and the greatest of the first d coordinates of the vertices *)
Definition finite_coordinates (m : list jtree) : Prop := forall p v, is_vertex m p -> In v (coords p) -> exists r, dbl v r.
Definition counted_coordinate (m : list jtree) (d : Z) (r : R) : Prop :=
  exists p i v, is_vertex m p /\ (0 <= i < d)%Z /\ nth_error (coords p) (Z.to_nat i) = Some v /\ dbl v r.
Definition extent (m : list jtree) (d : Z) (lo hi : R) : Prop :=
  counted_coordinate m d lo /\ counted_coordinate m d hi /\ forall r, counted_coordinate m d r -> lo <= r <= hi.

(** two vertices differ in some coordinate by 2^-48 times the size of the domain *)
Definition apart (p q : point) (size : R) : Prop :=
  exists i v w r s, nth_error (coords p) i = Some v /\ nth_error (coords q) i = Some w /\ dbl v r /\ dbl w s /\ size * / 281474976710656 <= Rabs (r - s).

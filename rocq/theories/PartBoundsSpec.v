(** Specification vocabulary for uniform partitions of partitioned coarse meshes. *)
From Verif Require Import Prelude UniformSpec PartBoundsModel.

(** the trees number a to b - 1 of a list *)
Definition segment (counts : list Z) (a b : Z) : list Z := firstn (Z.to_nat (b - a)) (skipn (Z.to_nat a) counts).
(** The trees with the numbers of elements [counts] are distributed to processes: process p has the trees start p to start (p+1) - 1
    and, if its first tree is shared, also the tree before. *)
Definition coarse_partition (counts : list Z) (views : list view) (start : Z -> Z) : Prop :=
  start 0 = 0 /\ start (zlen views) = zlen counts /\
  forall p, 0 <= p < zlen views -> let v := nth (Z.to_nat p) views (View 0 false []) in let shift := if v_shared v then 1 else 0 in
    start p <= start (p + 1) /\ shift <= start p /\ v_first v = start p - shift /\ v_counts v = segment counts (start p - shift) (start (p + 1)).
(** element number g of N is on process p of P *)
Definition has_element (N P p g : Z) : Prop := 0 <= p < P /\ cut N P p <= g < cut N P (p + 1).
(** the process found for the first element of each tree is the one that has it *)
Definition tree_owners_exact (checks : bool) (counts : list Z) (P : Z) : Prop := forall t, 0 <= t < zlen counts ->
  exists p, determine_partition checks (psum counts t) (total counts) P 0 = Ok p /\ has_element (total counts) P p (psum counts t).

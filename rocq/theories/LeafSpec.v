(** What the searches in a list return, independent of how they search. *)
From Verif Require Import Prelude.

(** r is the largest index at which P holds, or -1 if it holds nowhere *)
Definition largest_index {A} (P : A -> Prop) (l : list A) (r : Z) : Prop :=
  (r = -1 /\ Forall (fun x => ~ P x) l) \/
  (0 <= r /\ exists x, nth_error l (Z.to_nat r) = Some x /\ P x /\ forall j y, nth_error l j = Some y -> r < Z.of_nat j -> ~ P y).
(** r is the smallest index at which P holds, or -1 if it holds nowhere *)
Definition smallest_index {A} (P : A -> Prop) (l : list A) (r : Z) : Prop :=
  (r = -1 /\ Forall (fun x => ~ P x) l) \/
  (0 <= r /\ exists x, nth_error l (Z.to_nat r) = Some x /\ P x /\ forall j y, nth_error l j = Some y -> Z.of_nat j < r -> ~ P y).

(** Specification vocabulary for the weighted partition. *)
From Coq Require Import SpecFloat.
From Verif Require Import Prelude.

Definition zsum (l : list Z) : Z := fold_right Z.add 0 l.
(** the weight of the elements 0, ..., j-1 *)
Definition weight_before (ks : list Z) (j : Z) : Z := zsum (firstn (Z.to_nat j) ks).
(** the double nearest to k * 2^s (equal to k * 2^s for |k| < 2^53 and moderate s) *)
Definition as_double (s k : Z) : spec_float := binary_normalize 53 1024 k s false.

(** Double precision arithmetic as the C++ code uses it: IEEE 754 binary64 with rounding to nearest even, by the executable
    specification of the standard library (Coq.Floats.SpecFloat; no axioms).  53 is the precision, 1024 the bound of the exponents. *)
From Coq Require Import SpecFloat.
From Verif Require Import Prelude.

(** static_cast<double> (n) and the implicit conversion of an int *)
Definition d_of_int (n : Z) : spec_float := binary_normalize 53 1024 n 0 false.
Definition d_add (x y : spec_float) : spec_float := SFadd 53 1024 x y.
Definition d_mul (x y : spec_float) : spec_float := SFmul 53 1024 x y.
Definition d_div (x y : spec_float) : spec_float := SFdiv 53 1024 x y.
(** x < y *)
Definition d_ltb (x y : spec_float) : bool := SFltb x y.

(** The mathematical floor and ceiling of a finite double; the floor of a number is m * 2^e rounded down, which is what shifting does.
    None: not a number or infinite. *)
Definition d_floor (x : spec_float) : option Z :=
  match x with
  | S754_zero _ => Some 0
  | S754_finite s m e => Some (Z.shiftl (if s then Z.neg m else Z.pos m) e)
  | _ => None
  end.
Definition d_ceil (x : spec_float) : option Z :=
  match d_floor (SFopp x) with Some z => Some (- z) | None => None end.

(** The conversion of std::floor (x) or std::ceil (x) to a signed integer type of the given number of bits.  C++ leaves the behaviour
    open if the value does not fit: [Oob]. *)
Definition to_int (bits : Z) (z : option Z) : outcome Z :=
  match z with
  | Some v => if (- 2 ^ (bits - 1) <=? v) && (v <? 2 ^ (bits - 1)) then Ok v else Oob
  | None => Oob
  end.

(** t8_forest_partition.cxx:539-542: element_offsets[i] = std::floor (static_cast<double> (global_num_leaf_elements) * i / mpisize) *)
Definition offset_entry (global_num mpisize i : Z) : outcome Z :=
  to_int 64 (d_floor (d_div (d_mul (d_of_int global_num) (d_of_int i)) (d_of_int mpisize))).
Fixpoint offset_entries (global_num mpisize : Z) (is_ : list Z) : outcome (list Z) :=
  match is_ with
  | [] => Ok []
  | i :: r => do v <- offset_entry global_num mpisize i; do l <- offset_entries global_num mpisize r; Ok (v :: l)
  end.
(** t8_forest_partition.cxx:506-513, 533-556 (compute_new_offset without weights and without custom offsets) *)
Definition balanced_offsets (global_num mpisize : Z) : outcome (list Z) :=
  if global_num =? 0 then Ok (repeat 0 (Z.to_nat (mpisize + 1)))
  else do l <- offset_entries global_num mpisize (zseq 0 (Z.to_nat mpisize)); Ok (l ++ [global_num]).

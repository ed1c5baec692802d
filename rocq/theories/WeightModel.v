(** Model of the weighted branch of src/t8_forest/t8_forest_partition.cxx:558-615 (compute_new_offset) with double arithmetic.
    [ws] lists, for every rank, the weights of its leaf elements in order (the two nested loops over trees and leaves run over this
    list).  Simplification: MPI_Exscan adds the sums of the ranks in the order of the ranks. *)
From Coq Require Import SpecFloat.
From Verif Require Import Prelude FloatModel.

Definition d_zero : spec_float := S754_zero false.

(** lines 563-571: partition_weight of one rank *)
Definition partition_weight (l : list spec_float) : spec_float := fold_left d_add l d_zero.

(** lines 573-579: partition_weight_offset of all ranks (MPI_Exscan; 0 on rank 0).  0 + w = w holds for all w but the negative zero. *)
Fixpoint exscan (acc : spec_float) (sums : list spec_float) : list spec_float :=
  match sums with [] => [] | w :: r => acc :: exscan (d_add acc w) r end.

(** lines 581-586: forest_weight, computed by the last rank *)
Definition forest_weight (sums : list spec_float) : spec_float := d_add (last (exscan d_zero sums) d_zero) (last sums d_zero).

(** line 603-608, the while loop.  [out]: the cells of local_offsets that have been written so far (iproc counts up from rank_begin,
    so cell number iproc - rank_begin is the next one).  A write outside of local_offsets is [Oob]. *)
Fixpoint weight_while (fuel : nat) (mpisize : Z) (W acc : spec_float) (rank_end idx iproc : Z) (out : list Z) : outcome (Z * list Z) :=
  if d_ltb (d_div (d_mul W (d_of_int iproc)) (d_of_int mpisize)) acc then
    match fuel with
    | O => OutOfFuel
    | S f => if iproc <? rank_end then weight_while f mpisize W acc rank_end idx (iproc + 1) (out ++ [idx]) else Oob
    end
  else Ok (iproc, out).
(** lines 600-611: the loop over the local elements *)
Fixpoint weight_elems (fuel : nat) (mpisize : Z) (W acc : spec_float) (rank_end idx iproc : Z) (out : list Z) (l : list spec_float)
  : outcome (Z * list Z) :=
  match l with
  | [] => Ok (iproc, out)
  | w :: r =>
    let acc' := d_add acc w in
    do s <- weight_while fuel mpisize W acc' rank_end idx iproc out;
    weight_elems fuel mpisize W acc' rank_end (idx + 1) (fst s) (snd s) r
  end.
(** lines 588-613: local_offsets of one rank; the vector cannot have a negative size, and all its cells must have been written *)
Definition local_offsets (mpisize : Z) (W off : spec_float) (first : Z) (l : list spec_float) : outcome (list Z) :=
  let w := partition_weight l in
  do rank_begin <- to_int 32 (d_ceil (d_div (d_mul (d_of_int mpisize) off) W));
  do rank_end <- to_int 32 (d_ceil (d_div (d_mul (d_of_int mpisize) (d_add off w)) W));
  if rank_end <? rank_begin then AssertFail
  else
    do s <- weight_elems (Z.to_nat (rank_end - rank_begin + 1)) mpisize W off rank_end first rank_begin [] l;
    if fst s =? rank_end then Ok (snd s) else AssertFail.
Fixpoint all_local_offsets (mpisize : Z) (W : spec_float) (offs : list spec_float) (first : Z) (ws : list (list spec_float))
  : outcome (list Z) :=
  match offs, ws with
  | off :: offs', l :: ws' =>
    do a <- local_offsets mpisize W off first l;
    do b <- all_local_offsets mpisize W offs' (first + zlen l) ws';
    Ok (a ++ b)
  | _, _ => Ok []
  end.
(** lines 615-626: all-gather the local offsets into the array with mpisize + 1 cells (a different total number leaves cells unset or
    writes behind the array), set the first and the last entry *)
Definition weighted_offsets (global_num : Z) (ws : list (list spec_float)) : outcome (list Z) :=
  let mpisize := zlen ws in
  if global_num =? 0 then Ok (repeat 0 (Z.to_nat (mpisize + 1)))
  else
    let sums := map partition_weight ws in
    do l <- all_local_offsets mpisize (forest_weight sums) (exscan d_zero sums) 0 ws;
    if zlen l =? mpisize then Ok (0 :: tl l ++ [global_num]) else Oob.

(** Model of src/t8_cmesh/t8_cmesh_internal/t8_cmesh_offset.c : the partition table ("offset array").
    An offset array is a list of mpisize+1 integers.  [ent o p] is the C expression offset[p]; every loop below checks that the
    rank it evaluates is inside 0..mpisize-1 (so that offset[p] and offset[p+1] are inside the array) and yields [Oob] if not.
    t8_gloidx_t (int64) is modelled by Z; no sums larger than the entries themselves are formed. *)
From Verif Require Import Prelude.

Definition ent (o : list Z) (p : Z) : Z := znth 0 o p.
(** mpisize as far as the array is concerned: number of entries minus one *)
Definition osize (o : list Z) : Z := zlen o - 1.

(** t8_cmesh_offset.c:32-36 t8_glo_kl0 *)
Definition t8_glo_kl0 (a : Z) : Z := if a <? 0 then -1 else 0.
(** t8_cmesh_offset.c:39-45 t8_offset_first *)
Definition t8_offset_first (p : Z) (o : list Z) : Z := Z.abs (ent o p) + t8_glo_kl0 (ent o p).
(** t8_cmesh_offset.c:52-56 t8_offset_first_tree_to_entry *)
Definition t8_offset_first_tree_to_entry (first_tree : Z) (shared : bool) : Z :=
  if shared then - first_tree - 1 else first_tree.
(** t8_cmesh_offset.c:59-72 t8_offset_num_trees (value only; the assertion num >= 0 is [num_trees_assert]) *)
Definition t8_offset_num_trees (p : Z) (o : list Z) : Z := Z.abs (ent o (p + 1)) - t8_offset_first p o.
Definition num_trees_assert (p : Z) (o : list Z) : bool := 0 <=? t8_offset_num_trees p o.
(** t8_cmesh_offset.c:75-82 t8_offset_last *)
Definition t8_offset_last (p : Z) (o : list Z) : Z := Z.abs (ent o (p + 1)) - 1.
(** t8_cmesh_offset.c:97-107 t8_offset_empty *)
Definition t8_offset_empty (p : Z) (o : list Z) : bool := t8_offset_num_trees p o <=? 0.
(** t8_cmesh_offset.c:161-165 t8_offset_in_range *)
Definition t8_offset_in_range (t p : Z) (o : list Z) : bool :=
  (t8_offset_first p o <=? t) && (t <=? t8_offset_last p o).

Definition in_bounds (p : Z) (o : list Z) : bool := (0 <=? p) && (p <? osize o).

(** t8_cmesh_offset.c:111-119 t8_offset_next_nonempty_rank *)
Fixpoint next_nonempty_loop (fuel : nat) (next : Z) (o : list Z) : outcome Z :=
  match fuel with
  | O => OutOfFuel
  | S f => if (next <? osize o) && t8_offset_empty next o then next_nonempty_loop f (next + 1) o else Ok next
  end.
Definition t8_offset_next_nonempty_rank (fuel : nat) (rank : Z) (o : list Z) : outcome Z :=
  next_nonempty_loop fuel (rank + 1) o.

(** t8_cmesh_offset.c:124-157 t8_offset_consistent, the debug check of a partition table.
    [consistent_loop n i last ret] runs the for loop for the n remaining ranks i, i+1, ...; None is a failed assertion
    in t8_offset_num_trees (called through t8_offset_empty). *)
Fixpoint consistent_loop (n : nat) (i last : Z) (ret : bool) (num_trees : Z) (o : list Z) : outcome bool :=
  match n with
  | O => Ok ret
  | S n' =>
    if ret then
      if negb (num_trees_assert i o) then AssertFail
      else if t8_offset_empty i o then
        consistent_loop n' (i + 1) last (0 <=? ent o i) num_trees o
      else
        let r1 := if ent o i <? 0 then t8_offset_first i o =? last else last <? t8_offset_first i o in
        let last' := t8_offset_last i o in
        consistent_loop n' (i + 1) last' (r1 && (last' <=? num_trees)) num_trees o
    else Ok ret
  end.
Definition t8_offset_consistent (mpisize : Z) (o : list Z) (num_trees : Z) : outcome bool :=
  let ret := ent o 0 =? 0 in
  let last := t8_offset_last 0 o in
  do r <- consistent_loop (Z.to_nat (mpisize - 1)) 1 last ret num_trees o;
  Ok (r && (ent o mpisize =? num_trees)).

(** t8_cmesh_offset.c:167-193 t8_offset_any_owner_of_tree_ext: the while loop.  lo, hi are range[0], range[1];
    int division truncates toward zero (Z.quot). *)
Fixpoint any_owner_loop (fuel : nat) (lo hi proc gtree : Z) (o : list Z) : outcome Z :=
  match fuel with
  | O => OutOfFuel
  | S f =>
    if negb (in_bounds proc o) then Oob
    else if t8_offset_in_range gtree proc o then Ok proc
    else if t8_offset_last proc o <? gtree then
      any_owner_loop f (proc + 1) hi (Z.quot (proc + 1 + hi) 2) gtree o
    else
      any_owner_loop f lo (proc - 1) (Z.quot (lo + (proc - 1)) 2) gtree o
  end.
Definition t8_offset_any_owner_of_tree_ext (fuel : nat) (mpisize start_proc gtree : Z) (o : list Z) : outcome Z :=
  any_owner_loop fuel 0 (mpisize - 1) start_proc gtree o.
(** t8_cmesh_offset.c:196-200 *)
Definition t8_offset_any_owner_of_tree (fuel : nat) (mpisize gtree : Z) (o : list Z) : outcome Z :=
  t8_offset_any_owner_of_tree_ext fuel mpisize (Z.quot (mpisize - 1) 2) gtree o.

(** The inner loops "skip empty processes" going down (lines 222-225) and up (230-233, 308-311), bounded by the guard
    in the source where there is one; without a guard (230, 316) an out-of-range rank is [Oob]. *)
Fixpoint skip_down (fuel : nat) (p : Z) (o : list Z) : outcome Z :=
  match fuel with
  | O => OutOfFuel
  | S f => if (0 <=? p) && t8_offset_empty p o then skip_down f (p - 1) o else Ok p
  end.
Fixpoint skip_up (fuel : nat) (p : Z) (o : list Z) : outcome Z :=
  match fuel with
  | O => OutOfFuel
  | S f => if (p <? osize o) && t8_offset_empty p o then skip_up f (p + 1) o else Ok p
  end.
Fixpoint skip_up_unguarded (fuel : nat) (p : Z) (o : list Z) : outcome Z :=
  match fuel with
  | O => OutOfFuel
  | S f => if negb (in_bounds p o) then Oob
           else if t8_offset_empty p o then skip_up_unguarded f (p + 1) o else Ok p
  end.
Fixpoint skip_down_unguarded (fuel : nat) (p : Z) (o : list Z) : outcome Z :=
  match fuel with
  | O => OutOfFuel
  | S f => if negb (in_bounds p o) then Oob
           else if t8_offset_empty p o then skip_down_unguarded f (p - 1) o else Ok p
  end.

(** t8_cmesh_offset.c:219-226, outer loop of t8_offset_first_owner_of_tree *)
Fixpoint first_owner_loop (fuel : nat) (p gtree : Z) (o : list Z) : outcome Z :=
  match fuel with
  | O => OutOfFuel
  | S f => if (0 <=? p) && t8_offset_in_range gtree p o
           then do p' <- skip_down f (p - 1) o; first_owner_loop f p' gtree o
           else Ok p
  end.
(** t8_cmesh_offset.c:206-242 t8_offset_first_owner_of_tree.  some_owner < 0 means "compute one". *)
Definition t8_offset_first_owner_of_tree (fuel : nat) (mpisize gtree : Z) (o : list Z) (some_owner : Z) : outcome Z :=
  do so <- (if some_owner <? 0 then t8_offset_any_owner_of_tree fuel mpisize gtree o else Ok some_owner);
  if negb (so <? mpisize) then AssertFail else
  do p <- first_owner_loop fuel so gtree o;
  if -1 <=? p then
    do q <- skip_up_unguarded fuel (p + 1) o;
    if t8_offset_in_range gtree q o then Ok q else AssertFail
  else AssertFail.

(** t8_cmesh_offset.c:305-312, outer loop of t8_offset_last_owner_of_tree *)
Fixpoint last_owner_loop (fuel : nat) (p gtree : Z) (o : list Z) : outcome Z :=
  match fuel with
  | O => OutOfFuel
  | S f => if (p <? osize o) && t8_offset_in_range gtree p o
           then do p' <- skip_up f (p + 1) o; last_owner_loop f p' gtree o
           else Ok p
  end.
(** t8_cmesh_offset.c:292-328 t8_offset_last_owner_of_tree *)
Definition t8_offset_last_owner_of_tree (fuel : nat) (mpisize gtree : Z) (o : list Z) (some_owner : Z) : outcome Z :=
  do so <- (if some_owner <? 0 then t8_offset_any_owner_of_tree fuel mpisize gtree o else Ok some_owner);
  if negb (so <? mpisize) then AssertFail else
  do p <- last_owner_loop fuel so gtree o;
  if p <=? mpisize then
    do q <- skip_down_unguarded fuel (p - 1) o;
    if t8_offset_in_range gtree q o then Ok q else AssertFail
  else AssertFail.

(** t8_cmesh_offset.c:245-264 t8_offset_next_prev_owner_of_tree, in the two directions used *)
Fixpoint skip_dir (fuel : nat) (p dir : Z) (o : list Z) : outcome Z :=
  match fuel with
  | O => OutOfFuel
  | S f => if (0 <=? p) && (p <? osize o) && t8_offset_empty p o then skip_dir f (p + dir) dir o else Ok p
  end.
Definition t8_offset_next_prev_owner_of_tree (fuel : nat) (mpisize gtree : Z) (o : list Z) (cur search_dir : Z)
  : outcome Z :=
  let dir := if 0 <? search_dir then 1 else -1 in
  do p <- skip_dir fuel (cur + dir) dir o;
  if (0 <=? p) && (p <? mpisize) && t8_offset_in_range gtree p o then Ok p else Ok (-1).
(** t8_cmesh_offset.c:270-286 *)
Definition t8_offset_next_owner_of_tree fuel mpisize gtree o cur :=
  t8_offset_next_prev_owner_of_tree fuel mpisize gtree o cur 1.
Definition t8_offset_prev_owner_of_tree fuel mpisize gtree o cur :=
  t8_offset_next_prev_owner_of_tree fuel mpisize gtree o cur (-1).

(** t8_cmesh_offset.c:333-361 t8_offset_all_owners_of_tree; the sc_array "owners" is the accumulated list *)
Fixpoint all_owners_loop (fuel : nat) (mpisize gtree : Z) (o : list Z) (proc : Z) (owners : list Z) : outcome (list Z) :=
  match fuel with
  | O => OutOfFuel
  | S f =>
    if 0 <=? proc then
      do q <- t8_offset_next_owner_of_tree f mpisize gtree o proc;
      all_owners_loop f mpisize gtree o q (if 0 <=? q then owners ++ [q] else owners)
    else Ok owners
  end.
Definition t8_offset_all_owners_of_tree (fuel : nat) (mpisize gtree : Z) (o : list Z) : outcome (list Z) :=
  do p <- t8_offset_first_owner_of_tree fuel mpisize gtree o (-1);
  all_owners_loop fuel mpisize gtree o p [p].

Definition b2z (b : bool) : Z := if b then 1 else 0.

(** t8_cmesh_offset.c:365-428 t8_offset_nosend *)
Definition t8_offset_nosend (fuel : nat) (proc mpisize : Z) (ofrom oto : list Z) : outcome bool :=
  let num_trees := t8_offset_num_trees proc ofrom in
  if t8_offset_empty proc ofrom then Ok true
  else if num_trees <=? 2 then
    let first_not_send :=
      (ent ofrom proc <? 0) && negb (t8_offset_in_range (t8_offset_first proc ofrom) proc oto) in
    if (first_not_send && (num_trees =? 2)) || (negb first_not_send && (num_trees =? 1)) then
      let last_tree := t8_offset_last proc ofrom in
      if t8_offset_in_range last_tree proc oto then Ok false
      else
        do temp_proc <- skip_up fuel (proc + 1) ofrom;
        if (mpisize <=? temp_proc) || negb (t8_offset_first temp_proc ofrom =? last_tree) then Ok false
        else
          do receivers <- t8_offset_all_owners_of_tree fuel mpisize last_tree oto;
          if existsb (fun r => negb (t8_offset_in_range last_tree r ofrom)) receivers then Ok false
          else Ok (num_trees - b2z first_not_send - 1 <=? 0)
    else Ok (num_trees - b2z first_not_send <=? 0)
  else Ok false.

(** t8_cmesh_offset.c:432-472 t8_offset_sendsto *)
Definition t8_offset_sendsto (a b : Z) (ofrom oto : list Z) : bool :=
  if t8_offset_empty a ofrom || t8_offset_empty b oto then false
  else
    let keeps_first := (ent ofrom b <? 0) && t8_offset_in_range (t8_offset_first b ofrom) b oto
                       && negb (t8_offset_empty b ofrom) in
    if (a =? b) && keeps_first then true
    else
      let a_first := t8_offset_first a ofrom + b2z (ent ofrom a <? 0) in
      let a_last0 := t8_offset_last a ofrom in
      let b_first := t8_offset_first b oto in
      let b_last := t8_offset_last b oto in
      let a_last := if keeps_first && (a_last0 =? t8_offset_first b ofrom) then a_last0 - 1 else a_last0 in
      (a_first <=? a_last) && (a_first <=? b_last)
      && (b_first + b2z (keeps_first && (b_first =? t8_offset_first b ofrom)) <=? a_last).

(** t8_cmesh_offset.c:476-508 t8_offset_sendstree *)
Definition t8_offset_sendstree (proc_send proc_to gtree : Z) (ofrom oto : list Z) : bool :=
  if negb (t8_offset_in_range gtree proc_send ofrom) then false
  else if negb (t8_offset_in_range gtree proc_to oto) then false
  else if negb (t8_offset_empty proc_to ofrom) && (gtree =? t8_offset_first proc_to ofrom)
          && negb (proc_send =? proc_to) then false
  else if negb (proc_send =? proc_to) && (gtree =? t8_offset_first proc_send ofrom) && (ent ofrom proc_send <? 0)
       then false
  else true.

(** t8_cmesh_offset.c:512-524 t8_offset_range_send *)
Definition t8_offset_range_send (start end_ mpirank : Z) (ofrom oto : list Z) : Z :=
  fold_left (fun count i => if t8_offset_sendsto i mpirank ofrom oto then count + 1 else count)
            (zseq start (Z.to_nat (end_ - start + 1))) 0.

(** Model of the bounds of a uniform partition computed on a partitioned coarse mesh:
    - src/t8_cmesh/t8_cmesh.cxx:1424-1470 t8_A_times_B_over_C_gloidx and t8_A_times_B_over_C_intA, 1601-1645
      t8_cmesh_determine_partition, 1782-1838 t8_cmesh_bounds_send_start_or_end, 1854-1890 recv_message, 1900-1906
      find_bounds_in_offset, 1908-2332 t8_cmesh_uniform_bounds_from_partition, 2336-2405
      t8_cmesh_uniform_bounds_for_irregular_refinement on a partitioned coarse mesh,
    - src/t8_helper_functions/t8_vector_algorithms.hxx:62-113 vector_split,
    - src/t8_data/t8_shmem.c:543-567 t8_shmem_array_binary_search.
    The trees of a process are given by their numbers of elements at the level of the partition (count_leaves_from_root of their class).
    [checks] says whether the assertions of a debug build are compiled in.  Messages are delivered reliably and in order per sender,
    receiver and tag; a receive without a matching message never returns, which is the outcome [OutOfFuel] of [receive].
    Simplifications: the buffer of the messages is not modelled (the requests are pushed to a copy of the vector of requests, 1785, so
    the wait at 2299 waits for nothing and the buffer is released while the sends may be under way); the counters of the debug build at
    1913-1918 and 2300-2331 are left out; all output pointers are non-null. *)
From Verif Require Import Prelude OwnerModel UniformModel.

(** ** long double *)
(** a long double of x86-64: the quotient of two integers rounded to 64 binary digits, half to even; n >= 0, d > 0.  The value is
    the first component divided by 2 to the second.  Exponents do not overflow for the numbers in use. *)
Definition ld_round (n d : Z) : Z * Z :=
  if n =? 0 then (0, 0) else
  let k := Z.log2 n - Z.log2 d in
  let e := if d * 2 ^ Z.max k 0 <=? n * 2 ^ Z.max (- k) 0 then k else k - 1 in       (* 2^e <= n/d < 2^(e+1) *)
  let s := 63 - e in
  let nn := n * 2 ^ Z.max s 0 in
  let dd := d * 2 ^ Z.max (- s) 0 in
  let q := nn / dd in
  let r := nn mod dd in
  let m := if (2 * r <? dd) || ((2 * r =? dd) && Z.even q) then q else q + 1 in
  if s <? 0 then (m * 2 ^ (- s), 0) else (m, s).
(** t8_cmesh.cxx:1437-1448 for 0 <= A, 0 <= B, 0 < C *)
Definition a_times_b_over_c (checks : bool) (A B C : Z) : outcome Z :=
  let a_over_c := A / C in
  let a_o_c_times_b := i64 (a_over_c * B) in
  if checks && negb ((a_over_c =? 0) || (a_o_c_times_b / a_over_c =? B)) then AssertFail else
  let '(m1, k1) := ld_round (A mod C) C in
  let '(m2, k2) := ld_round (m1 * B) (2 ^ k1) in
  let '(m3, k3) := ld_round (a_o_c_times_b * 2 ^ k2 + m2) (2 ^ k2) in
  Ok (m3 / 2 ^ k3).
(** t8_cmesh.cxx:1612-1645; the result is a size_t *)
Definition determine_partition (checks : bool) (element_index global_num num_procs process_offset : Z) : outcome Z :=
  if element_index =? global_num then Ok (u64 (num_procs - process_offset))
  else
    let mirror := global_num - element_index - 1 in
    do v <- a_times_b_over_c checks num_procs mirror global_num;
    let first_proc_rank := num_procs - 1 - v in
    if checks && negb ((0 <=? first_proc_rank) && (first_proc_rank <? num_procs)) then AssertFail
    else if negb checks then Ok (u64 (first_proc_rank - process_offset))
    else
      do a <- first_element_of_process first_proc_rank num_procs global_num;
      do b <- (if first_proc_rank =? num_procs - 1 then Ok (element_index + 1) else first_element_of_process (first_proc_rank + 1) num_procs global_num);
      if negb ((a <=? element_index) && (element_index <? b)) then AssertFail
      else Ok (u64 (first_proc_rank - process_offset)).

(** ** t8_vector_algorithms.hxx:62-113 vector_split *)
(** std::fill on the entries a, ..., b - 1 *)
Definition fill (l : list Z) (a b v : Z) : list Z :=
  map (fun i => if (a <=? i) && (i <? b) then v else znth 0 l i) (zseq 0 (length l)).
(** 105-111; None: return *)
Fixpoint split_advance (fuel : nat) (offs : list Z) (m low high step : Z) : outcome (option (Z * Z)) :=
  match fuel with
  | O => OutOfFuel
  | S f =>
    if low =? high then
      if step + 1 =? m then Ok None
      else do h <- rd offs (step + 1); split_advance f offs m low h (step + 1)
    else Ok (Some (high, step))
  end.
(** 88-112; [cat] is the category function *)
Fixpoint split_loop (fuel : nat) (cat : Z -> outcome Z) (l : list Z) (m low high step : Z) (offs : list Z) : outcome (list Z) :=
  match fuel with
  | O => OutOfFuel
  | S f =>
    if m <=? step then Ok offs
    else
      let guess := (low + high) / 2 in
      do x <- rd l guess;
      do c <- cat x;
      if m <? c then Oob
      else
        let low' := if c <? step then guess + 1 else low in
        let high' := if c <? step then high else guess in
        let offs' := if c <? step then offs else fill offs step (c + 1) guess in
        do a <- split_advance (Z.to_nat m + 1) offs' m low' high' step;
        match a with None => Ok offs' | Some (h, s) => split_loop f cat l m low' h s offs' end
  end.
(** 62-87; [size] is the length of the array of offsets *)
Definition vector_split (cat : Z -> outcome Z) (l : list Z) (size : Z) : outcome (list Z) :=
  if zlen l =? 0 then AssertFail
  else if size <=? 0 then AssertFail
  else
    let count := zlen l in
    let m := size - 1 in
    let offs := 0 :: repeat count (Z.to_nat m) in
    if m <=? 1 then Ok offs else split_loop (Z.to_nat ((count + 1) * (m + 1))) cat l m 0 count 1 offs.

(** ** t8_shmem.c:543-567 with t8_cmesh.cxx:1900-1906 *)
Fixpoint offset_search (fuel : nat) (off : list Z) (value low high : Z) : outcome Z :=
  match fuel with
  | O => OutOfFuel
  | S f =>
    if high <? low then Ok (-1)
    else
      let mid := low + (high - low) / 2 in
      do a <- rd off mid;
      do b <- rd off (mid + 1);
      if (a <=? value) && (value <=? b - 1) then Ok mid
      else if value <? a then offset_search f off value low (mid - 1)
      else offset_search f off value (mid + 1) high
  end.

(** ** t8_cmesh.cxx:1908-2332 *)
(** what a process knows of a partitioned coarse mesh: the global number of its first tree, whether this tree is also on a smaller
    process, the numbers of elements of its trees *)
Record view := View { v_first : Z; v_shared : bool; v_counts : list Z }.
Definition v_shift (v : view) : Z := if v_shared v then 1 else 0.                     (* 1952 *)
(** 1953: the trees that are not shared with a smaller process *)
Definition pure_trees (v : view) : list Z := skipn (Z.to_nat (v_shift v)) (v_counts v).
(** 2362-2373 *)
Definition local_num_children (v : view) : Z :=
  i64 (sum_counts (v_counts v) - (if v_shared v then hd 0 (v_counts v) else 0)).
(** 1925 t8_shmem_array_prefix *)
Fixpoint prefix_array (s : Z) (l : list Z) : list Z :=
  match l with [] => [s] | x :: r => s :: prefix_array (i64 (s + x)) r end.
(** a message: receiver, start or end message, global number of the tree, number of the element in the tree *)
Record message := Msg { m_to : Z; m_start : bool; m_tree : Z; m_index : Z }.

Section process.
Variables (checks : bool) (P N K : Z).       (* mpisize, global_num_elements, cmesh->num_trees *)
Definition chk (b : bool) : outcome unit := if checks && negb b then AssertFail else Ok tt.
Definition fe (p : Z) : outcome Z := do x <- first_element_of_process p P (u64 N); Ok (i64 x).

(** 1975-1986 *)
Fixpoint tree_firsts (s : Z) (l : list Z) : list Z :=
  match l with [] => [s] | c :: r => s :: tree_firsts (i64 (s + c)) r end.
(** 2007-2028; [first] is first_element_tree[0] *)
Fixpoint lower_send_first (fuel : nat) (first low high send_first : Z) : outcome Z :=
  match fuel with
  | O => OutOfFuel
  | S f =>
    if high <? low then Ok send_first
    else
      let mid := low + (high - low) / 2 in
      do a <- fe mid;
      do b <- fe (mid + 1);
      if (b <=? a) && (a =? first) then lower_send_first f first low (mid - 1) mid
      else lower_send_first f first (mid + 1) high send_first
  end.

Section send.
Variables (first_treeid shift : Z) (firsts : list Z) (send_first send_last : Z) (offs : list Z).
Definition num_pure : Z := zlen firsts - 1.
(** first_element_tree[num_pure_local_trees] *)
Definition end_element : Z := znth 0 firsts num_pure.
(** 2184-2196; the result is next_non_empty_proc after 2197 and first_child_next_non_empty *)
Fixpoint next_proc (fuel : nat) (next : Z) : outcome (Z * Z) :=
  match fuel with
  | O => OutOfFuel
  | S f =>
    do a <- fe next;
    do b <- fe (next + 1);
    if (next + 1 <? send_last) && (b <=? a) && (a <? end_element) then next_proc f (next + 1) else Ok (next, a)
  end.
(** 1792-1814: the message to iproc, here also if iproc is the process itself *)
Definition make_message (start proc_is_empty : bool) (tree iproc index : Z) : outcome (list message) :=
  let m := Msg iproc start (tree + first_treeid + (if proc_is_empty then 0 else shift)) index in
  do u <- chk (proc_is_empty || ((0 <=? m_tree m) && (m_tree m <? K)));
  do u <- chk (proc_is_empty || ((0 <=? m_index m) && (m_index m <=? N)));
  Ok [m].
(** 2087-2175: the messages for a process with the elements a to b - 1, a < b *)
Definition send_nonempty (iproc a b : Z) : outcome (list message) :=
  do pf <- rd offs (iproc - send_first);
  do pn <- rd offs (iproc + 1 - send_first);
  do fel <- rd firsts pf;
  let none := end_element <=? a in
  let first_tree := if none then -1 else if a <? fel then (if pf - 1 <? 0 then -1 else pf - 1) else pf in
  let send_start := negb none && negb ((a <? fel) && (pf - 1 <? 0)) in
  let send_end := negb none && negb (end_element <? b) in
  let last_tree := if negb send_end then -1
                   else if iproc =? send_last then num_pure - 1
                   else if pn =? pf then first_tree
                   else pn - 1 in
  do u <- chk (negb send_start || ((0 <=? first_tree) && (first_tree <? num_pure)));
  do u <- chk (negb send_end || ((0 <=? last_tree) && (last_tree <? num_pure)));
  do u <- chk ((first_tree =? -1) || (last_tree =? -1) || (first_tree <=? last_tree));
  do sm <- (if send_start then do x <- rd firsts first_tree; make_message true false first_tree iproc (a - x) else Ok []);
  do em <- (if send_end then do x <- rd firsts last_tree; make_message false false last_tree iproc (b - x) else Ok []);
  Ok (sm ++ em).
(** 2069-2262: the loop over the processes *)
Fixpoint send_loop (fuel : nat) (iproc : Z) : outcome (list message) :=
  match fuel with
  | O => OutOfFuel
  | S f =>
    if send_last <? iproc then Ok []
    else
      do a <- fe iproc;
      do b <- fe (iproc + 1);
      if b <=? a then
        do r <- next_proc (Z.to_nat P + 1) (iproc + 1);
        let '(next, fc) := r in
        do fp <- rd offs (next - send_first - 1);                                      (* 2198 *)
        if fc <? end_element then                                                      (* 2202-2225 *)
          do rest <- send_loop f next;
          Ok (map (fun q => Msg q true (fp + first_treeid) (-1)) (zseq iproc (Z.to_nat (next - iproc))) ++ rest)
        else send_loop f (iproc + 1)
      else
        do ms <- send_nonempty iproc a b;
        do rest <- send_loop f (iproc + 1);
        Ok (ms ++ rest)
  end.
End send.

(** 1965-2263: all messages of the process with rank p in the order in which they are sent, those to itself included; [off] is
    offset_array *)
Definition messages_of (off : list Z) (p : Z) (v : view) : outcome (list message) :=
  let pure := pure_trees v in
  if zlen pure <=? 0 then Ok []
  else
    do first <- rd off p;
    let firsts := tree_firsts first pure in
    let num := zlen pure in
    do after <- rd off (p + 1);
    do u <- chk (znth 0 firsts num =? after);
    do sf0 <- determine_partition checks first N P 0;
    do sl0 <- determine_partition checks (znth 0 firsts num) N P 0;
    let send_last := if P <=? sl0 then P - 1 else sl0 in
    do send_first <- lower_send_first (Z.to_nat P + 1) first 0 (sf0 - 1) sf0;
    do offs <- vector_split (fun x => determine_partition checks x N P send_first) firsts (send_last - send_first + 2);
    send_loop (v_first v) (v_shift v) firsts send_first send_last offs (Z.to_nat P + 1) send_first.
End process.

Definition matches (p : Z) (start : bool) (m : message) : bool := (m_to m =? p) && Bool.eqb (m_start m) start.
(** the copy to the own variables, 1815-1837, is done for each message to the process itself; the last one remains *)
Definition own_message (p : Z) (start : bool) (ms : list message) : option message :=
  match rev (filter (matches p start) ms) with [] => None | m :: _ => Some m end.
(** 1854-1868: receive from a given process; without a message the call does not return *)
Definition receive (p : Z) (start : bool) (ms : list message) : outcome message :=
  match filter (matches p start) ms with [] => OutOfFuel | m :: _ => Ok m end.

Section run.
Variables (checks : bool) (views : list view).
Definition run_size : Z := zlen views.
Definition run_offsets : list Z := prefix_array 0 (map local_num_children views).      (* 1921-1925 *)
Definition run_view (p : Z) : view := nth (Z.to_nat p) views (View 0 false []).
(** 1928-1930 *)
Definition run_num : outcome Z :=
  do n <- rd run_offsets run_size;
  if (0 <=? n) && (n <? 2 ^ 63 - 1) then Ok n else AssertFail.
Definition run_messages (K p : Z) : outcome (list message) :=
  do n <- run_num; messages_of checks run_size n K run_offsets p (run_view p).
(** 2275-2298: the process that has element number g in its trees and its messages *)
Definition run_receive (K p : Z) (start : bool) (g : Z) : outcome message :=
  do from <- offset_search (Z.to_nat run_size + 1) run_offsets g 0 (run_size - 1);
  if negb ((0 <=? from) && (from <? run_size)) then AssertFail
  else
    do ms <- run_messages K from;
    do m <- receive p start ms;
    do n <- run_num;
    do u <- chk checks ((m_tree m =? -1) || ((0 <=? m_tree m) && (m_tree m <=? K)));   (* 1871 *)
    do u <- chk checks ((m_index m =? -1) || (if start then (0 <=? m_index m) && (m_index m <? n)
                                              else (0 <? m_index m) && (m_index m <=? n)));  (* 1878 *)
    Ok m.
(** 1908-2332 on the process with rank p; K is the global number of trees *)
Definition bounds_partitioned (K p : Z) : outcome bounds :=
  do n <- run_num;
  do first_element <- fe run_size n p;
  do last_element <- fe run_size n (p + 1);
  let this_proc_is_empty := last_element <=? first_element in
  do own <- run_messages K p;
  let own_start := own_message p true own in
  let own_end := own_message p false own in
  do sm <- match own_start with Some m => Ok m | None => run_receive K p true first_element end;
  do em <- match own_end with
           | Some m => Ok (Some m)
           | None => if this_proc_is_empty then Ok None else do m <- run_receive K p false (last_element - 1); Ok (Some m)
           end;
  let last0 := match own_start with
               | Some _ => -1                                                          (* 1949 *)
               | None => if this_proc_is_empty then m_tree sm - 1 else -1              (* 2286-2290 *)
               end in
  let last_tree := match em with Some m => m_tree m | None => last0 end in
  let shared := negb this_proc_is_empty && (0 <? p) && (0 <? m_index sm) in            (* 2304-2312 *)
  Ok (Bounds (Some (m_tree sm)) (Some (m_index sm)) last_tree (match em with Some m => Some (m_index m) | None => None end) (Some shared)).
End run.

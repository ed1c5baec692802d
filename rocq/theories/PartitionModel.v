(** Model of src/t8_forest/t8_forest_partition.cxx: the exchange of the elements (or of user data) between the processes.
    An element is a value of a type E; a message buffer of bytes is the list of its tree infos and the list of its elements, read
    with a cursor like the C code does.  Simplifications: the sizes in bytes, the padding and the int overflow of byte counts of
    messages of 2 GB and more are not modelled (the layout of one element is C16); t8_locidx_t and t8_gloidx_t are Z. *)
From Verif Require Import Prelude OffsetModel NetModel.

(** t8_forest_partition.cxx:50-72 first_element, last_element, empty *)
Definition part_first_element (o : list Z) (rank : Z) : Z := ent o rank.
Definition part_last_element (o : list Z) (rank : Z) : Z := ent o (rank + 1) - 1.
Definition part_empty (o : list Z) (rank : Z) : bool := part_first_element o (rank + 1) <=? part_first_element o rank.

(** t8_forest_partition.cxx:76-90 compute_first_local_element_id (inclusive MPI_Scan, then the own number subtracted) and
    132-167 create_offsets: the table made of all first local element ids and the global number at the end.
    [nums]: local_num_leaf_elements of all processes in order of their ranks. *)
Fixpoint scan_loop (sum : Z) (nums : list Z) : list Z :=
  match nums with [] => [] | n :: r => (sum + n) - n :: scan_loop (sum + n) r end.
Definition create_offsets (global_num : Z) (nums : list Z) : list Z := scan_loop 0 nums ++ [global_num].

(** t8_forest_partition.cxx:92-117 new_gather: the value each rank passes to set_partition_offset, and 520-560 (compute_new_offset):
    the table made of these values *)
Definition gather_first (global_num gather_rank rank : Z) : Z := if rank <=? gather_rank then 0 else global_num.
Definition custom_offsets (global_num : Z) (firsts : list Z) : list Z :=
  if global_num =? 0 then repeat 0 (length firsts + 1) else firsts ++ [global_num].

(** t8_forest_partition.cxx:625-635 owner_of_element; the fuel bounds the binary search *)
Definition part_owner_of_element (mpisize mpirank gelement : Z) (o : list Z) : outcome Z :=
  t8_offset_any_owner_of_tree_ext (Z.to_nat mpisize) mpisize mpirank gelement o.

(** t8_forest_partition.cxx:637-661 recvrange *)
Definition part_recvrange (mpisize mpirank : Z) (offset_old offset_new : list Z) : outcome (Z * Z) :=
  let first_element := part_first_element offset_new mpirank in
  let last_element := part_last_element offset_new mpirank in
  if last_element <? first_element then Ok (0, -1)
  else
    do recv_first <- part_owner_of_element mpisize mpirank first_element offset_old;
    do recv_last <- part_owner_of_element mpisize mpirank last_element offset_old;
    Ok (recv_first, recv_last).
(** t8_forest_partition.cxx:663-688 sendrange; [local_num] is forest_from->local_num_leaf_elements *)
Definition part_sendrange (mpisize mpirank local_num : Z) (offset_old offset_new : list Z) : outcome (Z * Z) :=
  if local_num =? 0 then Ok (0, -1)
  else
    let first_element := part_first_element offset_old mpirank in
    let last_element := part_last_element offset_old mpirank in
    do send_first <- part_owner_of_element mpisize mpirank first_element offset_new;
    do send_last <- part_owner_of_element mpisize mpirank last_element offset_new;
    Ok (send_first, send_last).

(** t8_forest_partition.cxx:935-962: the local indices of the first and last element sent to iproc *)
Definition send_bounds (mpirank local_num send_first send_last : Z) (offset_from offset_to : list Z) (iproc : Z) : Z * Z :=
  let gfirst_local_element := ent offset_from mpirank in
  let first_element_send := if iproc =? send_first then 0 else ent offset_to iproc - gfirst_local_element in
  let last_element_send := if iproc =? send_last then local_num - 1 else ent offset_to (iproc + 1) - 1 - gfirst_local_element in
  (first_element_send, last_element_send).

(** A run of array cells; reading outside the array is [Oob].  (memcpy / t8_element_array_init_copy of num cells from index first) *)
Definition copy_range {A} (l : list A) (first num : Z) : outcome (list A) :=
  if num <? 0 then AssertFail
  else if num =? 0 then Ok []
  else if (0 <=? first) && (first + num <=? zlen l) then Ok (firstn (Z.to_nat num) (skipn (Z.to_nat first) l)) else Oob.

Section elements.
Variable E : Type.

(** the fields of t8_tree_struct_t and t8_forest_struct_t that partition uses *)
Record ptree := PTree { pt_class : Z; pt_offset : Z; pt_elems : list E }.
Record pforest := PForest { pf_first : Z; pf_last : Z; pf_num : Z; pf_trees : list ptree }.
(** t8_forest_partition.cxx:38-46 t8_forest_partition_tree_info_t; a message *)
Record tinfo := TInfo { ti_gtree : Z; ti_class : Z; ti_num : Z }.
Record msg := Msg { m_infos : list tinfo; m_elems : list E }.

Definition get_tree (ts : list ptree) (i : Z) : outcome ptree :=
  if i <? 0 then Oob else match nth_error ts (Z.to_nat i) with Some t => Ok t | None => Oob end.

(** t8_forest_partition.cxx:690-725 tree_first_last_el: first and last element of the tree to send, and whether the last element
    sent is the last of the tree *)
Definition tree_first_last_el (t : ptree) (tree_id first_send last_send current_tree : Z) : Z * Z * bool :=
  let first := if tree_id =? current_tree then first_send - pt_offset t else 0 in
  let num_elements := zlen (pt_elems t) in
  let last := if last_send <? pt_offset t + num_elements then last_send - pt_offset t else num_elements - 1 in
  (first, last, last_send - pt_offset t =? num_elements - 1).

(** t8_forest_partition.cxx:761-785: count the trees to send *)
Fixpoint count_loop (fuel : nat) (ts : list ptree) (first_send last_send current_tree cur_el tree_id num_trees : Z) (is_last : bool)
  : outcome (Z * bool) :=
  match fuel with
  | O => OutOfFuel
  | S f =>
    if cur_el <=? last_send then
      do t <- get_tree ts tree_id;
      let '(a, b, il) := tree_first_last_el t tree_id first_send last_send current_tree in
      let n := b - a + 1 in
      if n <? 0 then AssertFail
      else count_loop f ts first_send last_send current_tree (cur_el + n) (tree_id + 1) (num_trees + 1) il
    else Ok (num_trees, is_last)
  end.
(** t8_forest_partition.cxx:811-838: fill the infos and the elements, for the trees tree_id, ..., of which n remain *)
Fixpoint fill_loop (n : nat) (ts : list ptree) (first_local_tree first_send last_send current_tree tree_id : Z)
  : outcome (list tinfo * list E) :=
  match n with
  | O => Ok ([], [])
  | S n' =>
    do t <- get_tree ts (tree_id + current_tree);
    let '(a, b, _) := tree_first_last_el t (tree_id + current_tree) first_send last_send current_tree in
    do es <- copy_range (pt_elems t) a (b - a + 1);
    do rest <- fill_loop n' ts first_local_tree first_send last_send current_tree (tree_id + 1);
    Ok (TInfo (tree_id + current_tree + first_local_tree) (pt_class t) (b - a + 1) :: fst rest, es ++ snd rest)
  end.
(** t8_forest_partition.cxx:746-842 fill_buffer: the message and the new current_tree *)
Definition fill_buffer (f : pforest) (current_tree first_send last_send : Z) : outcome (msg * Z) :=
  do c <- count_loop (length (pf_trees f) + 2) (pf_trees f) first_send last_send current_tree first_send current_tree 0 false;
  let '(num_trees, is_last) := c in
  do m <- fill_loop (Z.to_nat num_trees) (pf_trees f) (pf_first f) first_send last_send current_tree 0;
  Ok (Msg (fst m) (snd m), current_tree + (num_trees - 1 + b2z is_last)).

(** t8_forest_partition.cxx:885-1002 sendloop, the for loop over the remaining processes; the result lists the messages in the
    order in which they are sent (the one to the own rank is not sent but handed over). *)
Fixpoint send_loop (procs : list Z) (f : pforest) (mpirank send_first send_last : Z) (offset_from offset_to : list Z)
    (current_tree : Z) : outcome (list (Z * msg)) :=
  match procs with
  | [] => Ok []
  | iproc :: r =>
    let '(a, b) := send_bounds mpirank (pf_num f) send_first send_last offset_from offset_to iproc in
    if 0 <? b - a + 1 then
      do mc <- fill_buffer f current_tree a b;
      do rest <- send_loop r f mpirank send_first send_last offset_from offset_to (snd mc);
      Ok ((iproc, fst mc) :: rest)
    else send_loop r f mpirank send_first send_last offset_from offset_to current_tree
  end.
Definition partition_send (mpisize mpirank : Z) (f : pforest) (offset_from offset_to : list Z) : outcome (list (Z * msg)) :=
  do sr <- part_sendrange mpisize mpirank (pf_num f) offset_from offset_to;
  let '(send_first, send_last) := sr in
  send_loop (zseq send_first (Z.to_nat (send_last - send_first + 1))) f mpirank send_first send_last offset_from offset_to 0.

(** t8_forest_partition.cxx:1148-1212 recv_message: the for loop over the tree infos; [es] is the rest of the element buffer. *)
Fixpoint recv_trees (itree : Z) (infos : list tinfo) (es : list E) (f : pforest) : outcome pforest :=
  match infos with
  | [] => Ok f
  | ti :: r =>
    if ti_gtree ti <? pf_last f then AssertFail
    else
      do new <- copy_range es 0 (ti_num ti);
      do trees <-
        (if pf_last f <? ti_gtree ti then
           do off <- (if pf_first f <=? pf_last f then
                        do lt <- get_tree (pf_trees f) (zlen (pf_trees f) - 1);
                        Ok (pt_offset lt + zlen (pt_elems lt))
                      else Ok 0);
           Ok (pf_trees f ++ [PTree (ti_class ti) off new])
         else
           if negb (itree =? 0) then AssertFail
           else
             let i := pf_last f - pf_first f in
             do t <- get_tree (pf_trees f) i;
             if negb (pt_class t =? ti_class ti) then AssertFail
             else Ok (firstn (Z.to_nat i) (pf_trees f) ++ PTree (pt_class t) (pt_offset t) (pt_elems t ++ new)
                      :: skipn (Z.to_nat (i + 1)) (pf_trees f)));
      recv_trees (itree + 1) r (skipn (Z.to_nat (ti_num ti)) es)
                 (PForest (pf_first f) (ti_gtree ti) (pf_num f + ti_num ti) trees)
  end.
(** t8_forest_partition.cxx:1087-1222 recv_message *)
Definition recv_message (prev_recvd : Z) (m : msg) (f : pforest) : outcome pforest :=
  do f1 <- (if prev_recvd =? 0 then
              match m_infos m with
              | ti :: _ => Ok (PForest (ti_gtree ti) (ti_gtree ti - 1) (pf_num f) (pf_trees f))
              | [] => Oob
              end
            else Ok f);
  recv_trees 0 (m_infos m) (m_elems m) f1.

(** t8_forest_partition.cxx:1228-1280 recvloop: which processes are received from, in order *)
Definition recv_procs (recv_first recv_last : Z) (offset_from : list Z) : list Z :=
  filter (fun iproc => negb (part_empty offset_from iproc)) (zseq recv_first (Z.to_nat (recv_last - recv_first + 1))).
(** the loop itself; [inbox p] is the message received from p (the own message for the own rank) *)
Fixpoint recv_loop (procs : list Z) (inbox : Z -> option msg) (prev_recvd : Z) (f : pforest) : outcome pforest :=
  match procs with
  | [] => Ok f
  | iproc :: r =>
    match inbox iproc with
    | None => Oob
    | Some m => do f' <- recv_message prev_recvd m f; recv_loop r inbox (prev_recvd + 1) f'
    end
  end.
(** t8_forest_partition.cxx:1284-1345 partition_given: the processes a rank waits for, and what it makes of the messages.  The new
    forest starts with an empty array of trees. *)
Definition partition_sources (mpisize mpirank : Z) (offset_from offset_to : list Z) : outcome (list Z) :=
  let num_new := ent offset_to (mpirank + 1) - ent offset_to mpirank in
  if 0 <? num_new then
    do rr <- part_recvrange mpisize mpirank offset_from offset_to;
    Ok (recv_procs (fst rr) (snd rr) offset_from)
  else Ok [].
Definition partition_recv (mpisize mpirank : Z) (offset_from offset_to : list Z) (inbox : Z -> option msg) : outcome pforest :=
  let num_new := ent offset_to (mpirank + 1) - ent offset_to mpirank in
  if 0 <? num_new then
    do rr <- part_recvrange mpisize mpirank offset_from offset_to;
    recv_loop (recv_procs (fst rr) (snd rr) offset_from) inbox 0 (PForest 0 (-1) 0 [])
  else Ok (PForest 0 (-1) 0 []).

(** The program of one process: all sends (not to itself), then all receives (not from itself). *)
Definition net_program {M} (mpirank : Z) (sends : list (Z * M)) (sources : list Z) : list (action M) :=
  map (fun x => Send (fst x) (snd x)) (filter (fun x => negb (fst x =? mpirank)) sends)
  ++ map Recv (filter (fun q => negb (q =? mpirank)) sources).
(** what process [mpirank] sees when it looks for the message of iproc: its own message, or the one in its log *)
Definition inbox_of {M} (mpirank : Z) (own : list (Z * M)) (log : list (Z * M)) (iproc : Z) : option M :=
  match find (fun x => fst x =? iproc) (if iproc =? mpirank then own else log) with Some x => Some (snd x) | None => None end.
End elements.

(** ** User data: t8_forest_partition.cxx:851-885 fill_buffer_data, 1021-1070 recv_message_data, and the data mode of the loops.
    A data entry is a value of a type D. *)
Section data.
Variable D : Type.
Fixpoint send_loop_data (procs : list Z) (data_in : list D) (mpirank local_num send_first send_last : Z)
    (offset_from offset_to : list Z) : outcome (list (Z * list D)) :=
  match procs with
  | [] => Ok []
  | iproc :: r =>
    let '(a, b) := send_bounds mpirank local_num send_first send_last offset_from offset_to iproc in
    if 0 <? b - a + 1 then
      do m <- copy_range data_in a (b - a + 1);
      do rest <- send_loop_data r data_in mpirank local_num send_first send_last offset_from offset_to;
      Ok ((iproc, m) :: rest)
    else send_loop_data r data_in mpirank local_num send_first send_last offset_from offset_to
  end.
Definition partition_send_data (mpisize mpirank local_num : Z) (data_in : list D) (offset_from offset_to : list Z)
  : outcome (list (Z * list D)) :=
  if negb (zlen data_in =? local_num) then AssertFail else
  do sr <- part_sendrange mpisize mpirank local_num offset_from offset_to;
  let '(send_first, send_last) := sr in
  send_loop_data (zseq send_first (Z.to_nat (send_last - send_first + 1))) data_in mpirank local_num send_first send_last
    offset_from offset_to.
(** memcpy of a message into data_out at entry [pos]; writing outside data_out is [Oob] *)
Definition write_at (out m : list D) (pos : Z) : outcome (list D) :=
  if (0 <=? pos) && (pos + zlen m <=? zlen out)
  then Ok (firstn (Z.to_nat pos) out ++ m ++ skipn (Z.to_nat (pos + zlen m)) out) else Oob.
Fixpoint recv_loop_data (procs : list Z) (inbox : Z -> option (list D)) (last_recvd : Z) (out : list D) : outcome (list D) :=
  match procs with
  | [] => Ok out
  | iproc :: r =>
    match inbox iproc with
    | None => Oob
    | Some m => do out' <- write_at out m last_recvd; recv_loop_data r inbox (last_recvd + zlen m) out'
    end
  end.
(** [data_out]: the array of the caller, overwritten; its length must be the local number of elements of forest_to *)
Definition partition_recv_data (mpisize mpirank local_num_to : Z) (data_out : list D) (offset_from offset_to : list Z)
    (inbox : Z -> option (list D)) : outcome (list D) :=
  if negb (zlen data_out =? local_num_to) then AssertFail else
  if 0 <? local_num_to then
    do rr <- part_recvrange mpisize mpirank offset_from offset_to;
    recv_loop_data (recv_procs (fst rr) (snd rr) offset_from) inbox 0 data_out
  else Ok data_out.
End data.

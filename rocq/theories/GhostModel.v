(** Model of the ghost layer of a forest: which leaves are sent to which process, the exchange of the leaves, and the exchange of data.
    - src/t8_forest/t8_forest_ghost.cxx: t8_ghost_add_remote, t8_forest_ghost_search_boundary, t8_forest_ghost_fill_remote_v3,
      t8_forest_ghost_fill_remote, send_start, parse_received_message, receive, create_ext, exchange_data,
    - src/t8_forest/t8_forest.cxx:2568-2812, the owners of the neighbours at a face.
    [cls] gives the element class of each tree, [fc] its face functions.  [nb] is t8_forest_element_face_neighbor
    (t8_forest.cxx:1443-1527): the neighbour of the same level across a face, in the same or another tree, with its face; None at the
    boundary of the mesh (there t8_forest_element_neighbor_eclass is T8_ECLASS_INVALID).  Trees are given by their global ids.  A message
    is the list of its trees with their elements; the byte layout (sizes, padding) is not modelled. *)
From Verif Require Import Prelude SchemeModel OwnerModel FaceModel SearchModel.

Section ghost.
Variable cls : Z -> scheme.
Variable fc : forall t, faces (cls t).
Notation leaf := (leaf cls).
Notation el t e := (existT (fun t => elt (cls t)) t e).
Variable nb : leaf -> Z -> option (leaf * Z).
(** debug build; number of processes, maximum level of the forest, own rank; element_offsets, tree_offsets, global_first_desc *)
Variable dbg : bool.
Variables P ml me : Z.
Variables eo to fd : list Z.

(** ** owners at a face *)
(** find_owner_ext for a finest descendant (element_is_desc = 1) *)
Definition owner_of_desc (t : Z) (e : elt (cls t)) (lower upper guess : Z) : outcome Z :=
  find_owner_ext dbg P ml eo to fd e lower upper guess true.
Section one_tree.
Variable t : Z.
Notation elt := (elt (cls t)).
(** t8_forest.cxx:2649-2660: the loop over the face children; [k] is the number of the next one, [rec] the recursion *)
Fixpoint face_children_loop (rec : elt -> Z -> option elt -> option elt -> list Z -> outcome (list Z)) (child_face : Z -> Z) (ff lf : elt)
  (k : Z) (cs : list elt) (owners : list Z) : outcome (list Z) :=
  match cs with
  | [] => Ok owners
  | c :: r =>
      do owners <- rec c (child_face k) (if k =? 0 then Some ff else None) (match r with [] => Some lf | _ => None end) owners;
      face_children_loop rec child_face ff lf (k + 1) r owners
  end.
(** t8_forest.cxx:2568-2665; first_desc and last_desc are the descendants at the face, if known already *)
Fixpoint owners_at_face_rec (fuel : nat) (lower upper : Z) (e : elt) (face : Z) (first_desc last_desc : option elt) (owners : list Z)
  : outcome (list Z) :=
  match fuel with
  | O => OutOfFuel
  | S fuel' =>
    let ff := match first_desc with Some x => x | None => f_first (fc t) e face ml end in
    let lf := match last_desc with Some x => x | None => f_last (fc t) e face ml end in
    if dbg && negb (s_equal (f_last (fc t) e face ml) lf && s_equal (f_first (fc t) e face ml) ff) then AssertFail
    else
      do first_owner <- owner_of_desc ff lower upper lower;
      do last_owner <- owner_of_desc lf lower upper upper;
      if last_owner <? first_owner then AssertFail
      else if first_owner =? last_owner then
        let owners' := if last owners (-1) <? first_owner then owners ++ [first_owner] else owners in
        if dbg then
          do a <- check_owner P ml to fd ff first_owner true;
          do b <- check_owner P ml to fd lf first_owner true;
          if a && b then Ok owners' else AssertFail
        else Ok owners'
      else if negb (s_level e <? ml) then AssertFail
      else face_children_loop (owners_at_face_rec fuel' lower upper) (f_child_face (fc t) e face) ff lf 0 (f_children (fc t) e face) owners
  end.
(** t8_forest.cxx:2668-2696; the first two entries of a non-empty array are bounds of the owners *)
Definition owners_at_face (e : elt) (face : Z) (owners : list Z) : outcome (list Z) :=
  do b <- match owners with [] => Ok (0, P - 1) | [_] => Oob | lower :: upper :: _ => Ok (lower, upper) end;
  let '(lower, upper) := b in
  if negb ((0 <=? lower) && (upper <? P)) then AssertFail
  else if lower =? upper then if lower <? P then Ok [lower] else AssertFail
  else if upper <? lower then Ok []
  else owners_at_face_rec (S (Z.to_nat (ml - s_level e))) lower upper e face None None [].
(** t8_forest.cxx:2699-2721 *)
Definition owners_bounds (e : elt) (lower upper : Z) : outcome (Z * Z) :=
  if upper <=? lower then Ok (lower, upper)
  else
    do lower <- owner_of_desc (s_first_desc e ml) lower upper lower;
    do upper <- owner_of_desc (s_last_desc e ml) lower upper upper;
    Ok (lower, upper).
(** t8_forest.cxx:2724-2745 *)
Definition owners_at_face_bounds (e : elt) (face lower upper : Z) : outcome (Z * Z) :=
  if upper <=? lower then Ok (lower, upper)
  else
    do lower <- owner_of_desc (f_first (fc t) e face ml) lower upper lower;
    do upper <- owner_of_desc (f_last (fc t) e face ml) lower upper upper;
    Ok (lower, upper).
End one_tree.
(** t8_forest.cxx:2748-2778 *)
Definition owners_at_neigh_face (t : Z) (e : elt (cls t)) (face : Z) (owners : list Z) : outcome (list Z) :=
  match nb (el t e) face with
  | None => Ok []
  | Some (existT _ t' e', face') => owners_at_face e' face' owners
  end.
(** t8_forest.cxx:2781-2812 *)
Definition owners_at_neigh_face_bounds (t : Z) (e : elt (cls t)) (face lower upper : Z) : outcome (Z * Z) :=
  match nb (el t e) face with
  | None => Ok (1, 0)
  | Some (existT _ t' e', face') => if upper <=? lower then Ok (lower, upper) else owners_at_face_bounds e' face' lower upper
  end.

(** ** the leaves that are ghosts of other processes *)
(** t8_forest_ghost.cxx t8_ghost_remote_tree_t: global id of the tree, elements with their index in the tree *)
Record rtree := RTree { rt_tree : Z; rt_elems : list (leaf * Z) }.
(** t8_ghost_remote_t *)
Record remote := Remote { r_rank : Z; r_num : Z; r_trees : list rtree }.
(** the members remote_ghosts (a hash array with the rank as key) and remote_processes of t8_forest_ghost *)
Record remotes := Remotes { g_remotes : list remote; g_procs : list Z }.

Definition same_elem (x : leaf) (t : Z) (e : elt (cls t)) : bool :=
  (s_level e =? s_level (projT2 x)) && (s_linear_id (projT2 x) (s_level (projT2 x)) =? s_linear_id e (s_level e)).
(** t8_forest_ghost.cxx:562-600: add the element to the tree unless it is the last one there; the flag says whether it was added *)
Definition add_elem (rt : rtree) (t : Z) (e : elt (cls t)) (index : Z) : outcome (rtree * bool) :=
  if dbg && existsb (fun x => same_elem (fst x) e) (removelast (rt_elems rt)) then AssertFail
  else match rev (rt_elems rt) with
       | (x, _) :: _ => if same_elem x e then Ok (rt, false) else Ok (RTree (rt_tree rt) (rt_elems rt ++ [(el t e, index)]), true)
       | [] => Ok (RTree (rt_tree rt) [(el t e, index)], true)
       end.
(** 541-561: the last tree of the entry is the tree, or a new one is added *)
Definition add_to_remote (r : remote) (t : Z) (e : elt (cls t)) (index : Z) : outcome remote :=
  match rev (r_trees r) with
  | [] => Oob
  | lt :: pre =>
      if rt_tree lt =? t then do x <- add_elem lt e index; Ok (Remote (r_rank r) (if snd x then r_num r + 1 else r_num r) (rev pre ++ [fst x]))
      else do x <- add_elem (RTree t []) e index; Ok (Remote (r_rank r) (if snd x then r_num r + 1 else r_num r) (r_trees r ++ [fst x]))
  end.
Fixpoint update_remote (rs : list remote) (rank t : Z) (e : elt (cls t)) (index : Z) : outcome (list remote) :=
  match rs with
  | [] => Oob
  | r :: rs => if r_rank r =? rank then do r <- add_to_remote r e index; Ok (r :: rs)
               else do rs <- update_remote rs rank e index; Ok (r :: rs)
  end.
(** t8_forest_ghost.cxx:510-601 t8_ghost_add_remote *)
Definition add_remote (g : remotes) (rank t : Z) (e : elt (cls t)) (index : Z) : outcome remotes :=
  if existsb (fun r => r_rank r =? rank) (g_remotes g) then
    do rs <- update_remote (g_remotes g) rank e index; Ok (Remotes rs (g_procs g))
  else
    do x <- add_elem (RTree t []) e index;
    Ok (Remotes (g_remotes g ++ [Remote rank (if snd x then 1 else 0) [fst x]]) (g_procs g ++ [rank])).

(** ** t8_forest_ghost.cxx:641-763 t8_forest_ghost_search_boundary, the callback of the search *)
(** t8_forest_ghost_boundary_data_t: gtreeid, level_nca, max_num_faces, bounds_per_level.  A row of bounds has an entry for each face
    and one for the element; None is an entry that was not written *)
Record bdata := BData { b_tree : Z; b_level : Z; b_max : Z; b_rows : list (list (option (Z * Z))) }.
Definition get_bounds (row : list (option (Z * Z))) (k : Z) : outcome (Z * Z) :=
  if k <? 0 then Oob else match nth_error row (Z.to_nat k) with Some (Some b) => Ok b | _ => Oob end.
Definition set_at {A} (l : list A) (k : Z) (b : A) : list A := firstn (Z.to_nat k) l ++ b :: skipn (S (Z.to_nat k)) l.
Definition set_bounds (row : list (option (Z * Z))) (k : Z) (b : Z * Z) : outcome (list (option (Z * Z))) :=
  if (0 <=? k) && (k <? zlen row) then Ok (set_at row k (Some b)) else Oob.
(** 745-750: the element is added for all owners but the own process *)
Fixpoint add_owners (t : Z) (e : elt (cls t)) (index : Z) (owners : list Z) (g : remotes) : outcome remotes :=
  match owners with
  | [] => Ok g
  | q :: r => if negb (q =? me) then do g <- add_remote g q e index; add_owners e index r g else add_owners e index r g
  end.
(** 703-752: the loop over the faces.  State: the row of the element, faces_totally_owned, the remotes *)
Fixpoint face_loop (t : Z) (e : elt (cls t)) (is_leaf : bool) (index : Z) (bounds : list (option (Z * Z))) (parent : Z * Z) (ifaces : list Z)
  (s : list (option (Z * Z)) * bool * remotes) : outcome (list (option (Z * Z)) * bool * remotes) :=
  match ifaces with
  | [] => Ok s
  | iface :: r =>
      let '(row, owned, g) := s in
      let pf := f_parent_face (fc t) e iface in
      do b <- (if 0 <=? pf then get_bounds bounds pf else Ok parent);
      let '(lower, upper) := b in
      if is_leaf then
        do owners <- owners_at_neigh_face e iface [lower; upper];
        do g <- add_owners e index owners g;
        face_loop e is_leaf index bounds parent r (row, owned, g)
      else
        do b <- owners_at_neigh_face_bounds e iface lower upper;
        do row <- set_bounds row iface b;
        let owned := if negb (fst b =? snd b) || negb (fst b =? me) then false else owned in
        face_loop e is_leaf index bounds parent r (row, owned, g)
  end.
Definition search_boundary (t : Z) (e : elt (cls t)) (is_leaf : bool) (index : Z) (s : bdata * remotes) : outcome (bdata * remotes * bool) :=
  let '(d, g) := s in
  let d := if t =? b_tree d then d
           else BData t (s_level e) (f_max (fc t) e) [repeat (Some (0, P - 1)) (Z.to_nat (f_max (fc t) e + 1))] in
  let i := s_level e - b_level d in
  if i <? 0 then AssertFail
  else
    do rows <- (if zlen (b_rows d) <=? i + 1 then
                  if zlen (b_rows d) =? i + 1 then Ok (b_rows d ++ [repeat None (Z.to_nat (b_max d + 1))]) else AssertFail
                else Ok (b_rows d));
    let row := nth (Z.to_nat (i + 1)) rows [] in
    let bounds := nth (Z.to_nat i) rows [] in
    do parent <- get_bounds bounds (b_max d);
    do own <- owners_bounds e (fst parent) (snd parent);
    do row <- set_bounds row (b_max d) own;
    do r <- face_loop e is_leaf index bounds parent (zseq 0 (Z.to_nat (f_num (fc t) e))) (row, true, g);
    let '(row, owned, g) := r in
    Ok (BData (b_tree d) (b_level d) (b_max d) (set_at rows (i + 1) row), g, negb (owned && (fst own =? snd own))).
(** the callback in the form of SearchModel.v; after an error nothing is done *)
Definition boundary_cb (t : Z) (st : outcome (bdata * remotes)) (ltree : Z) (e : elt (cls t)) (is_leaf : bool) (leaves : list (elt (cls t))) (index : Z)
  : outcome (bdata * remotes) * bool :=
  match st with
  | Ok s => match search_boundary e is_leaf index s with
            | Ok (s, r) => (Ok s, r)
            | Oob => (Oob, false) | AssertFail => (AssertFail, false) | OutOfFuel => (OutOfFuel, false)
            end
  | _ => (st, false)
  end.
(** a local tree with its leaves *)
Definition ltree : Type := {t : Z & list (elt (cls t))}.
(** t8_forest_iterate.cxx:374-397 t8_forest_search, over the local trees *)
Fixpoint search_trees (itree : Z) (ts : list ltree) (st : outcome (bdata * remotes)) : outcome (bdata * remotes) :=
  match ts with
  | [] => st
  | existT _ t ls :: r => do st <- c_search_tree (@boundary_cb t) None ls itree [] st; search_trees (itree + 1) r st
  end.
Definition no_remotes : remotes := Remotes [] [].
(** t8_forest_ghost.cxx:774-804 t8_forest_ghost_fill_remote_v3 *)
Definition fill_remote_v3 (ts : list ltree) : outcome remotes :=
  do s <- search_trees 0 ts (Ok (BData (-1) 0 0 [], no_remotes)); Ok (snd s).
(** t8_forest_ghost.cxx:821-916 t8_forest_ghost_fill_remote.  In the loop over the faces everything is inside [if (ghost_method == 0)];
    then an element below the maximum level only computes its half neighbours, which are not used (at the boundary of the mesh the
    elements of class T8_ECLASS_INVALID are allocated), and an element of the maximum level uses the array [owners], which was not
    initialised (it is only for ghost_method != 0). *)
Definition fill_remote (ghost_method : Z) (ts : list ltree) : outcome remotes :=
  if ghost_method =? 0 then
    if forallb (fun tr : ltree => let (t, ls) := tr in forallb (fun e => (s_level e <? s_maxlevel (cls t)) &&
         forallb (fun f => match nb (el t e) f with Some _ => true | None => false end) (zseq 0 (Z.to_nat (f_num (fc t) e)))) ls) ts
    then Ok no_remotes else Oob
  else Ok no_remotes.
End ghost.
Arguments RTree {cls}.
Arguments rt_tree {cls}.
Arguments rt_elems {cls}.
Arguments Remote {cls}.
Arguments r_rank {cls}.
Arguments r_num {cls}.
Arguments r_trees {cls}.
Arguments Remotes {cls}.
Arguments g_remotes {cls}.
Arguments g_procs {cls}.
Arguments no_remotes {cls}.

(** ** the messages and the ghosts *)
Section exchange.
Variable cls : Z -> scheme.
Notation leaf := (leaf cls).
(** the message to a process: the trees with their elements *)
Definition message : Type := list (Z * list leaf).
Definition find_remote (g : remotes cls) (q : Z) : outcome (remote cls) :=
  match find (fun r => r_rank r =? q) (g_remotes g) with Some r => Ok r | None => Oob end.
(** t8_forest_ghost.cxx:931-1043 t8_forest_ghost_send_start: one message for each remote process *)
Definition message_of (r : remote cls) : message := map (fun rt => (rt_tree rt, map fst (rt_elems rt))) (r_trees r).
Fixpoint messages (g : remotes cls) (procs : list Z) : outcome (list (Z * message)) :=
  match procs with
  | [] => Ok []
  | q :: r => do e <- find_remote g q; do ms <- messages g r; Ok ((q, message_of e) :: ms)
  end.

(** t8_ghost_tree_t: global id, element_offset, elements *)
Record gtree := GTree { gt_tree : Z; gt_offset : Z; gt_elems : list leaf }.
(** t8_ghost_process_hash_t: rank, tree_index, first_element, ghost_offset *)
Record gproc := GProc { gp_rank : Z; gp_tree : Z; gp_first : Z; gp_offset : Z }.
(** the members ghost_trees, num_ghosts_elements, process_offsets; the hash table global_tree_to_ghost_tree finds the entry of
    ghost_trees with a global id *)
Record ghosts := Ghosts { gh_trees : list gtree; gh_num : Z; gh_procs : list gproc }.
Definition no_ghosts : ghosts := Ghosts [] 0 [].
(** position of the tree in ghost_trees (t8_forest_ghost.cxx:401-421 t8_forest_ghost_get_ghost_treeid) *)
Fixpoint tree_pos (ts : list gtree) (t : Z) : option nat :=
  match ts with [] => None | x :: r => if gt_tree x =? t then Some O else option_map S (tree_pos r t) end.
Fixpoint append_to (ts : list gtree) (k : nat) (es : list leaf) : list gtree :=
  match ts, k with
  | [], _ => []
  | x :: r, O => GTree (gt_tree x) (gt_offset x) (gt_elems x ++ es) :: r
  | x :: r, S k => x :: append_to r k es
  end.
(** t8_forest_ghost.cxx:1169-1241: the loop over the trees of a message.  [off] is current_element_offset, [first] the indices of the first tree and element *)
Fixpoint parse_trees (m : message) (off : Z) (first : option (Z * Z)) (h : ghosts) : Z * option (Z * Z) * ghosts :=
  match m with
  | [] => (off, first, h)
  | (t, es) :: r =>
      let num := gh_num h + zlen es in
      match tree_pos (gh_trees h) t with
      | None =>
          let first := match first with None => Some (zlen (gh_trees h), 0) | _ => first end in
          parse_trees r (off + zlen es) first (Ghosts (gh_trees h ++ [GTree t off es]) num (gh_procs h))
      | Some k =>
          let first := match first with None => Some (Z.of_nat k, zlen (gt_elems (nth k (gh_trees h) (GTree 0 0 [])))) | _ => first end in
          parse_trees r (off + zlen es) first (Ghosts (append_to (gh_trees h) k es) num (gh_procs h))
      end
  end.
(** t8_forest_ghost.cxx:1136-1262 t8_forest_ghost_parse_received_message *)
Definition parse_message (rank : Z) (m : message) (off : Z) (h : ghosts) : outcome (Z * ghosts) :=
  let '(off, first, h') := parse_trees m off None h in
  if existsb (fun p => gp_rank p =? rank) (gh_procs h) then AssertFail
  else
    let '(ti, fe) := match first with None => (0, 0) | Some x => x end in
    Ok (off, Ghosts (gh_trees h') (gh_num h') (gh_procs h' ++ [GProc rank ti fe (gh_num h)])).
(** sc_array_sort (remote_processes, sc_int_compare) *)
Fixpoint insert_rank (q : Z) (l : list Z) : list Z := match l with [] => [q] | a :: r => if q <=? a then q :: l else a :: insert_rank q r end.
Definition sort_ranks (l : list Z) : list Z := fold_right insert_rank [] l.
(** the member remote_processes from then on *)
Definition remote_processes (g : remotes cls) : list Z := sort_ranks (g_procs g).
Fixpoint rank_pos (procs : list Z) (q : Z) : option nat :=
  match procs with [] => None | a :: r => if a =? q then Some O else option_map S (rank_pos r q) end.
(** 1443-1449: the messages that can be parsed now, from position k on *)
Fixpoint parse_ready (fuel : nat) (procs : list Z) (buf : list (option message)) (k : nat) (off : Z) (h : ghosts) : outcome (nat * Z * ghosts) :=
  match fuel with
  | O => OutOfFuel
  | S fuel =>
    match nth_error buf k with
    | Some (Some m) =>
        match nth_error procs k with
        | None => Oob
        | Some q => do r <- parse_message q m off h; parse_ready fuel procs buf (S k) (fst r) (snd r)
        end
    | _ => Ok (k, off, h)
    end
  end.
(** 1400-1470: the messages in the order in which they arrive, each with its source.  [k] is last_rank_parsed + 1, [buf] the buffers
    of the messages received so far (received_flag) *)
Fixpoint receive_loop (procs : list Z) (arrived : list (Z * message)) (buf : list (option message)) (k : nat) (off : Z) (h : ghosts)
  : outcome (nat * ghosts) :=
  match arrived with
  | [] => Ok (k, h)
  | (q, m) :: r =>
      match rank_pos procs q with
      | None => AssertFail
      | Some pos =>
          match nth_error buf pos with
          | Some None =>
              if (pos <? k)%nat then AssertFail
              else
                let buf := set_at buf (Z.of_nat pos) (Some m) in
                do x <- parse_ready (S (length procs)) procs buf k off h;
                let '(k, off, h) := x in receive_loop procs r buf k off h
          | _ => AssertFail
          end
      end
  end.
(** t8_forest_ghost.cxx:1301-1502 t8_forest_ghost_receive; the number of messages received is the number of remote processes *)
Definition receive (procs : list Z) (arrived : list (Z * message)) : outcome ghosts :=
  let procs := sort_ranks procs in
  do x <- receive_loop procs arrived (repeat None (length procs)) 0 0 no_ghosts;
  if Nat.eqb (fst x) (length procs) then Ok (snd x) else AssertFail.

(** ** t8_forest_ghost.cxx:1728-1945: the exchange of data.  [elements_offset] is the index of the first leaf of a local tree among all
    local leaves *)
(** t8_forest.cxx:3767-3773: the elements_offset of the local tree with a global id *)
Fixpoint tree_offset (ts : list (ltree cls)) (t : Z) : outcome Z :=
  match ts with
  | [] => Oob
  | existT _ u ls :: r => if u =? t then Ok 0 else do o <- tree_offset r t; Ok (zlen ls + o)
  end.
Section data.
Variable D : Type.
Fixpoint send_elems (data : list D) (off : Z) (es : list (leaf * Z)) : outcome (list D) :=
  match es with
  | [] => Ok []
  | (_, i) :: r =>
      if i <? 0 then AssertFail
      else match nth_error data (Z.to_nat (off + i)) with
           | None => Oob
           | Some d => do ds <- send_elems data off r; Ok (d :: ds)
           end
  end.
Fixpoint send_trees (data : list D) (elements_offset : Z -> outcome Z) (rts : list (rtree cls)) : outcome (list D) :=
  match rts with
  | [] => Ok []
  | rt :: r => do off <- elements_offset (rt_tree rt); do a <- send_elems data off (rt_elems rt); do b <- send_trees data elements_offset r; Ok (a ++ b)
  end.
(** 1728-1780; the buffer has room for num_elements entries *)
Definition fill_send_buffer (data : list D) (elements_offset : Z -> outcome Z) (g : remotes cls) (q : Z) : outcome (list D) :=
  do r <- find_remote g q;
  do ds <- send_trees data elements_offset (r_trees r);
  if zlen ds =? r_num r then Ok ds else Oob.
Fixpoint data_messages (data : list D) (elements_offset : Z -> outcome Z) (g : remotes cls) (procs : list Z) : outcome (list (Z * list D)) :=
  match procs with
  | [] => Ok []
  | q :: r => do b <- fill_send_buffer data elements_offset g q; do ms <- data_messages data elements_offset g r; Ok ((q, b) :: ms)
  end.
Definition proc_offset (h : ghosts) (q : Z) : outcome Z :=
  match find (fun p => gp_rank p =? q) (gh_procs h) with Some p => Ok (gp_offset p) | None => AssertFail end.
(** 1832-1871: where the data of the i-th remote process goes: (first index, number of entries) *)
Definition recv_range (procs : list Z) (h : ghosts) (q : Z) : outcome (Z * Z) :=
  match rank_pos procs q with
  | None => AssertFail
  | Some i =>
      do off <- proc_offset h q;
      do next <- match nth_error procs (S i) with Some q' => proc_offset h q' | None => Ok (gh_num h) end;
      Ok (off, next - off)
  end.
(** the message from q is written to its place; a message of another length than expected is an error *)
Definition write_data (data : list D) (pos : Z) (m : list D) : list D :=
  firstn (Z.to_nat pos) data ++ m ++ skipn (Z.to_nat (pos + zlen m)) data.
Fixpoint receive_data (procs : list Z) (h : ghosts) (ghost_start : Z) (arrived : list (Z * list D)) (data : list D) : outcome (list D) :=
  match arrived with
  | [] => Ok data
  | (q, m) :: r =>
      do rg <- recv_range procs h q;
      if negb (zlen m =? snd rg) then Oob
      else if (ghost_start + fst rg <? 0) || (zlen data <? ghost_start + fst rg + snd rg) then Oob
      else receive_data procs h ghost_start r (write_data data (ghost_start + fst rg) m)
  end.
End data.
End exchange.
Arguments GTree {cls}.
Arguments gt_tree {cls}.
Arguments gt_offset {cls}.
Arguments gt_elems {cls}.
Arguments Ghosts {cls}.
Arguments gh_trees {cls}.
Arguments gh_num {cls}.
Arguments gh_procs {cls}.
Arguments no_ghosts {cls}.

(** ** the creation of the ghost layer *)
Section create.
Variable cls : Z -> scheme.
Variable fc : forall t, faces (cls t).
Variable nb : leaf cls -> Z -> option (leaf cls * Z).
Variable dbg : bool.
Variables P ml me : Z.
Variables eo to fd : list Z.
(** t8_forest.cxx:3466-3482 and t8_forest_ghost.cxx:1517-1658: the remote elements in the versions 1 (t8_forest_ghost_create_balanced_only),
    2 (t8_forest_ghost_create) and 3 (t8_forest_ghost_create_topdown); the first two do nothing on one process, and none does anything
    without local leaves.  [ts] are the local trees. *)
Definition create_remotes (version : Z) (ts : list (ltree cls)) : outcome (remotes cls) :=
  match ts with
  | [] => Ok no_remotes
  | _ =>
      if version =? 1 then if 1 <? P then fill_remote fc nb 0 ts else Ok no_remotes
      else if version =? 2 then if 1 <? P then fill_remote fc nb 1 ts else Ok no_remotes
      else if version =? 3 then fill_remote_v3 fc nb dbg P ml me eo to fd ts
      else AssertFail
  end.
(** 1581-1585: the remote elements and the messages that are sent *)
Definition ghost_begin (version : Z) (ts : list (ltree cls)) : outcome (remotes cls * list (Z * message cls)) :=
  do g <- create_remotes version ts; do ms <- messages g (g_procs g); Ok (g, ms).
End create.

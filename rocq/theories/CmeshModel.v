(** Model of building a coarse mesh from API calls: the stash (src/t8_cmesh/t8_cmesh_internal/t8_cmesh_stash.c), the commit of a mesh from its stash
    (t8_cmesh_commit.cxx), the storage of trees, ghosts and attributes (t8_cmesh_trees.cxx) and the queries of a committed mesh (t8_cmesh.cxx).
    The trees and ghosts and their arrays of face neighbours are lists of records; the place of these arrays in the data block is kept as the byte offset the
    code computes.  The rest of the block, the attribute infos and the attribute data, is modelled byte by byte.  A block is always that of one part
    (from_proc has one entry), as after a commit from a stash.  Sizes are those of a 64 bit machine: t8_locidx_t and int 4 bytes, t8_gloidx_t and size_t 8.
    An access outside of the allocated part of the block is [Oob]; T8_ASSERT and SC_CHECK_ABORT are [AssertFail]. *)
From Verif Require Import Prelude EclassModel.

(** * Bytes *)
(** little endian representation of an integer with n bytes, and back *)
Fixpoint le (n : nat) (v : Z) : list Z := match n with O => [] | S n => v mod 256 :: le n (v / 256) end.
Fixpoint unle (l : list Z) : Z := match l with [] => 0 | b :: r => b + 256 * unle r end.
(** a signed int *)
Definition s32 (v : Z) : Z := if v <? 2 ^ 31 then v else v - 2 ^ 32.
(** conversion to int8_t *)
Definition i8 (v : Z) : Z := (v + 128) mod 256 - 128.

(** the bytes lo, ..., hi - 1 of a block *)
Record memory := mkMem { m_lo : Z; m_hi : Z; m_at : Z -> Z }.
(** memcpy to the block *)
Definition put (m : memory) (a : Z) (b : list Z) : outcome memory :=
  if (m_lo m <=? a) && (a + zlen b <=? m_hi m)
  then Ok (mkMem (m_lo m) (m_hi m) (fun x => if (a <=? x) && (x <? a + zlen b) then znth 0 b (x - a) else m_at m x)) else Oob.
(** reading n bytes of the block *)
Definition get (m : memory) (a : Z) (n : nat) : outcome (list Z) :=
  if (m_lo m <=? a) && (a + Z.of_nat n <=? m_hi m) then Ok (map (m_at m) (zseq a n)) else Oob.
Definition ld32 (m : memory) (a : Z) : outcome Z := do b <- get m a 4; Ok (s32 (unle b)).
Definition ld64 (m : memory) (a : Z) : outcome Z := do b <- get m a 8; Ok (unle b).

(** * The stash *)
(** t8_cmesh_stash.h: t8_stash_class_struct_t, t8_stash_joinface_struct_t, t8_stash_attribute_struct_t (attr_size is the length of the data) *)
Record sclass := mkSclass { k_id : Z; k_class : Z }.
Record sjoin := mkSjoin { j_id1 : Z; j_id2 : Z; j_face1 : Z; j_face2 : Z; j_orient : Z }.
Record sattr := mkSattr { a_id : Z; a_pkg : Z; a_key : Z; a_data : list Z }.
(** the parts of t8_cmesh_struct_t that the set functions change *)
Record building := mkBuilding { b_dim : Z; b_classes : list sclass; b_joins : list sjoin; b_attrs : list sattr }.
Definition empty_building := mkBuilding (-1) [] [] [].

(** the calls of the API between t8_cmesh_init and t8_cmesh_commit.  t8_cmesh_set_tree_vertices, _attribute_string and _attribute_gloidx_array are
    SetAttribute with the bytes of their argument; data_persists only decides when the bytes are copied. *)
Inductive call :=
| SetClass (gid c : Z)
| SetJoin (gid1 gid2 face1 face2 orientation : Z)
| SetAttribute (gid pkg key : Z) (data : list Z).

(** t8_cmesh_stash.c:123-138 t8_stash_add_facejoin *)
Definition stash_facejoin (gid1 gid2 face1 face2 orientation : Z) : sjoin :=
  if gid1 <=? gid2 then mkSjoin gid1 gid2 face1 face2 orientation else mkSjoin gid2 gid1 face2 face1 orientation.
(** t8_cmesh.cxx:529-554 t8_cmesh_set_tree_class; 570-577 t8_cmesh_set_join; 430-446 t8_cmesh_set_attribute *)
Definition run_call (b : building) (c : call) : outcome building :=
  match c with
  | SetClass gid c =>
    if (gid <? 0) then AssertFail else
    if (b_dim b =? -1) || (eclass_to_dimension c =? b_dim b)
    then Ok (mkBuilding (eclass_to_dimension c) (b_classes b ++ [mkSclass gid c]) (b_joins b) (b_attrs b)) else AssertFail
  | SetJoin g1 g2 f1 f2 o =>
    if 0 <=? o then Ok (mkBuilding (b_dim b) (b_classes b) (b_joins b ++ [stash_facejoin g1 g2 f1 f2 o]) (b_attrs b)) else AssertFail
  | SetAttribute gid pkg key data => Ok (mkBuilding (b_dim b) (b_classes b) (b_joins b) (b_attrs b ++ [mkSattr gid pkg key data]))
  end.
Fixpoint run_calls (b : building) (l : list call) : outcome building :=
  match l with [] => Ok b | c :: r => do b <- run_call b c; run_calls b r end.

(** t8_cmesh_stash.c:221-241 t8_stash_attribute_compare *)
Definition attr_lt (a b : sattr) : bool :=
  if a_id a =? a_id b then if a_pkg a =? a_pkg b then a_key a <? a_key b else a_pkg a <? a_pkg b else a_id a <? a_id b.
(** sc_array_sort, an insertion sort here.  The order of entries that compare equal is not specified for qsort. *)
Fixpoint insert {A} (lt : A -> A -> bool) (x : A) (l : list A) : list A :=
  match l with [] => [x] | y :: r => if lt y x then y :: insert lt x r else x :: l end.
Definition isort {A} (lt : A -> A -> bool) (l : list A) : list A := fold_right (insert lt) [] l.
(** t8_cmesh_stash.c:243-250 t8_stash_attribute_sort *)
Definition stash_attribute_sort : list sattr -> list sattr := isort attr_lt.

(** * Trees and ghosts *)
(** t8_cmesh_types.h:159-210 t8_ctree_struct_t (32 bytes) and t8_cghost_struct_t (40 bytes), with the arrays at their neigh_offset;
    t8_attribute_info_struct_t (24 bytes): package_id, key, attribute_offset, attribute_size *)
Record ctree := mkCtree { t_id : Z; t_class : Z; t_neigh : Z; t_att : Z; t_natt : Z; t_faces : list Z; t_ttf : list Z }.
Definition TREE_BYTES := 32.
Definition GHOST_BYTES := 40.
Definition INFO_BYTES := 24.
(** both kinds of trees have the same fields; the treeid and the neighbours of a ghost are global numbers *)
Definition zero_tree := mkCtree 0 0 0 0 0 [] [].

Definition lset {A} (l : list A) (i : Z) (v : A) : outcome (list A) :=
  if (0 <=? i) && (i <? zlen l) then Ok (firstn (Z.to_nat i) l ++ v :: skipn (Z.to_nat (i + 1)) l) else Oob.
Definition lget {A} (l : list A) (i : Z) : outcome A :=
  if i <? 0 then Oob else match nth_error l (Z.to_nat i) with Some x => Ok x | None => Oob end.

(** t8_cmesh_trees.cxx:88-107 t8_cmesh_trees_add_tree; 110-154 t8_cmesh_trees_add_ghost without its entry of the hash table *)
Definition add_tree (trees : list ctree) (index id c : Z) : outcome (list ctree) :=
  do t <- lget trees index; if (t_class t =? 0) && (t_id t =? 0) then lset trees index (mkCtree id c 0 0 0 [] []) else AssertFail.
(** the counting of attributes and their bytes, t8_cmesh_commit.cxx:163-171 and 369-391 *)
Definition count_attr (trees : list ctree) (index : Z) (a : sattr) : outcome (list ctree) :=
  do t <- lget trees index; lset trees index (mkCtree (t_id t) (t_class t) (t_neigh t) (t_att t + zlen (a_data a)) (t_natt t + 1) (t_faces t) (t_ttf t)).

(** t8.h:133-136 T8_ADD_PADDING, with 8 byte pointers *)
Definition padded (x : Z) : Z := x + (8 - x mod 8) mod 8.
(** t8_cmesh_trees.cxx:292-307 and 325-335: the offsets of the face neighbours.  block is sizeof of the struct, entry the bytes per face *)
Fixpoint set_neigh (block entry first_face : Z) (bytes off : Z) (l : list ctree) : list ctree * Z :=
  match l with
  | [] => ([], bytes)
  | t :: r =>
    let nf := eclass_num_faces (t_class t) in
    let '(r', bytes') := set_neigh block entry first_face (padded (bytes + nf * entry)) (off + block) r in
    (mkCtree (t_id t) (t_class t) (first_face + bytes - off) (t_att t) (t_natt t) (repeat 0 (Z.to_nat nf)) (repeat 0 (Z.to_nat nf)) :: r', bytes')
  end.
(** 338-353: the attribute offsets of trees.  Returns also the bytes of the data, the number of attributes and next_tree_offset *)
Fixpoint set_att (first : Z) (data num next off : Z) (l : list ctree) : list ctree * (Z * Z * Z) :=
  match l with
  | [] => ([], (data, num, next))
  | t :: r =>
    let att := first - off + num * INFO_BYTES in
    let '(r', x) := set_att first (data + t_att t) (num + t_natt t) (att + t_natt t * INFO_BYTES - TREE_BYTES) (off + TREE_BYTES) r in
    (mkCtree (t_id t) (t_class t) (t_neigh t) att (t_natt t) (t_faces t) (t_ttf t) :: r', x)
  end.
(** 281-286 and 309-323: for every ghost the number of attributes of the ghosts with a smaller global id *)
Fixpoint running (sum : Z) (l : list (Z * Z * Z)) : list (Z * Z) :=
  match l with [] => [] | (gid, it, natt) :: r => (it, sum) :: running (sum + natt) r end.
Definition ghost_entries (ghosts : list ctree) : list (Z * Z * Z) :=
  map (fun p => (t_id (snd p), fst p, t_natt (snd p))) (combine (zseq 0 (length ghosts)) ghosts).
Definition ghost_attr_offsets (ghosts : list ctree) : list Z :=
  map snd (isort (fun p q => fst p <? fst q) (running 0 (isort (fun p q => fst (fst p) <? fst (fst q)) (ghost_entries ghosts)))).
(** 356-374: the attribute offsets of ghosts.  Returns also the bytes of the data and the number of attributes *)
Fixpoint set_ghost_att (first : Z) (data num off : Z) (offsets : list Z) (l : list ctree) : list ctree * (Z * Z) :=
  match l, offsets with
  | t :: r, o :: os =>
    let '(r', x) := set_ghost_att first (data + t_att t) (num + t_natt t) (off + GHOST_BYTES) os r in
    (mkCtree (t_id t) (t_class t) (t_neigh t) (first + o * INFO_BYTES - off) (t_natt t) (t_faces t) (t_ttf t) :: r', x)
  | _, _ => ([], (data, num))
  end.
(** 252-401 t8_cmesh_trees_finish_part.  The block behind the face neighbours is zero, except for the offset of the first info of the trees and of the ghosts. *)
Definition finish_part (trees ghosts : list ctree) : outcome (list ctree * list ctree * memory) :=
  let first_ghost := zlen trees * TREE_BYTES in
  let first_face := first_ghost + zlen ghosts * GHOST_BYTES in
  let '(ghosts, gbytes) := set_neigh GHOST_BYTES 9 first_face 0 first_ghost ghosts in
  let offsets := ghost_attr_offsets ghosts in
  let '(trees, bytes) := set_neigh TREE_BYTES 5 first_face gbytes 0 trees in
  let '(trees, (tdata, tnum, next)) := set_att (first_face + bytes) 0 0 0 0 trees in
  let ttotal := tdata + tnum * INFO_BYTES in
  let '(ghosts, (gdata, gnum)) := set_ghost_att (next + tdata) 0 0 0 offsets ghosts in
  let gtotal := gdata + gnum * INFO_BYTES in
  let m := mkMem (first_face + bytes) (first_face + bytes + ttotal + gtotal) (fun _ => 0) in
  do m <- (if 0 <? tnum then put m (first_face + bytes + 8) (le 8 (tnum * INFO_BYTES)) else Ok m);
  do m <- (if 0 <? gnum then put m (first_face + bytes + ttotal + 8) (le 8 (gnum * INFO_BYTES)) else Ok m);
  Ok (trees, ghosts, m).

(** 403-436 t8_cmesh_trees_set_all_boundary: every face is connected to itself *)
Definition all_boundary (trees : list ctree) (self : Z -> ctree -> Z) : list ctree :=
  map (fun p => let t := snd p in let nf := Z.to_nat (eclass_num_faces (t_class t)) in
    mkCtree (t_id t) (t_class t) (t_neigh t) (t_att t) (t_natt t) (repeat (self (fst p) t) nf) (zseq 0 nf)) (combine (zseq 0 (length trees)) trees).
(** one entry of the face neighbours and of tree_to_face of a tree *)
Definition set_face (trees : list ctree) (index face neigh ttf : Z) : outcome (list ctree) :=
  do t <- lget trees index; do fs <- lset (t_faces t) face neigh; do tf <- lset (t_ttf t) face ttf;
  lset trees index (mkCtree (t_id t) (t_class t) (t_neigh t) (t_att t) (t_natt t) fs tf).

(** * Attributes *)
(** 704-747 t8_cmesh_trees_add_attribute and 749-795 t8_cmesh_trees_add_ghost_attribute.  fa is the address of the first attribute info of the tree,
    last says whether this is the last attribute of the part. *)
Definition add_attr (m : memory) (fa natt index : Z) (last : bool) (a : sattr) : outcome memory :=
  let info := fa + index * INFO_BYTES in
  do off <- ld64 m (info + 8);
  do m <- put m (fa + off) (a_data a);
  do m <- put m (info + 4) (le 4 (a_key a));
  do m <- put m info (le 4 (a_pkg a));
  do m <- put m (info + 16) (le 8 (zlen (a_data a)));
  if last then Ok m else
  do off <- ld64 m (info + 8);
  do m <- put m (info + INFO_BYTES + 8) (le 8 (off + zlen (a_data a)));
  if index =? natt - 1 then
    do off <- ld64 m (info + INFO_BYTES + 8);
    put m (info + INFO_BYTES + 8) (le 8 (off - natt * INFO_BYTES))
  else Ok m.
Definition add_tree_attr (trees : list ctree) (m : memory) (a : sattr) (tree_id index : Z) : outcome memory :=
  do t <- lget trees tree_id;
  add_attr m (tree_id * TREE_BYTES + t_att t) (t_natt t) index ((index =? t_natt t - 1) && (zlen trees =? tree_id + 1)) a.
Definition add_ghost_attr (num_trees : Z) (ghosts : list ctree) (m : memory) (a : sattr) (lghost inserted index : Z) : outcome memory :=
  do g <- lget ghosts lghost;
  add_attr m (num_trees * TREE_BYTES + lghost * GHOST_BYTES + t_att g) (t_natt g) index ((index =? t_natt g - 1) && (zlen ghosts =? inserted)) a.

(** the local number of a ghost in the hash table ghost_ids of the commit, whose entries are numbered in the order of insertion *)
Fixpoint index_of (x : Z) (l : list Z) : option Z :=
  match l with [] => None | y :: r => if x =? y then Some 0 else match index_of x r with Some i => Some (i + 1) | None => None end end.

(** t8_cmesh_commit.cxx:91-136 t8_cmesh_add_attributes.  counters are the attr_id of the entries of ghost_ids *)
Record adding := mkAdding { ad_mem : memory; ad_sj : Z; ad_ltree : Z; ad_inserted : Z; ad_counters : list Z }.
Definition add_attributes_step (first : Z) (trees ghosts : list ctree) (ghost_ids : option (list Z)) (s : adding) (a : sattr) : outcome adding :=
  let '(sj, ltree) := if ad_ltree s <? a_id a then (0, a_id a) else (ad_sj s, ad_ltree s) in
  if (first <=? a_id a) && (a_id a <? first + zlen trees) then
    do m <- add_tree_attr trees (ad_mem s) a (a_id a - first) sj; Ok (mkAdding m (sj + 1) ltree (ad_inserted s) (ad_counters s))
  else match ghost_ids with
  | None => AssertFail
  | Some ids =>
    match index_of (a_id a) ids with
    | None => Ok (mkAdding (ad_mem s) (sj + 1) ltree (ad_inserted s) (ad_counters s))
    | Some g =>
      do n <- lget (ad_counters s) g;
      if sj =? n then
        let inserted := if sj =? 0 then ad_inserted s + 1 else ad_inserted s in
        do m <- add_ghost_attr (zlen trees) ghosts (ad_mem s) a g inserted n;
        do cs <- lset (ad_counters s) g (n + 1);
        Ok (mkAdding m (sj + 1) ltree inserted cs)
      else AssertFail
    end
  end.
Fixpoint add_attributes_loop (first : Z) (trees ghosts : list ctree) (ghost_ids : option (list Z)) (s : adding) (l : list sattr) : outcome adding :=
  match l with [] => Ok s | a :: r => do s <- add_attributes_step first trees ghosts ghost_ids s a; add_attributes_loop first trees ghosts ghost_ids s r end.
Definition add_attributes (first : Z) (trees ghosts : list ctree) (ghost_ids : option (list Z)) (m : memory) (l : list sattr) : outcome memory :=
  do s <- add_attributes_loop first trees ghosts ghost_ids (mkAdding m 0 (-1) 0 (map (fun _ => 0) ghosts)) l; Ok (ad_mem s).

(** * Commit *)
(** t8_cmesh_trees.cxx:900-922 t8_cmesh_tree_to_face_encode *)
Definition ttf_encode (dim face orientation : Z) : outcome Z :=
  let F := eclass_max_num_faces dim in
  if (0 <=? face) && (face <? F) && (orientation * F + face =? i8 (orientation * F + face)) then Ok (orientation * F + face) else AssertFail.
(** a committed coarse mesh on one process.  table is the hash table ghost_globalid_to_local_id *)
Record cmesh := mkCmesh { c_dim : Z; c_partitioned : bool; c_first : Z; c_trees : list ctree; c_ghosts : list ctree; c_table : list (Z * Z); c_mem : memory }.

Fixpoint add_classes (trees : list ctree) (l : list sclass) : outcome (list ctree) :=
  match l with [] => Ok trees | k :: r => do trees <- add_tree trees (k_id k) (k_id k) (k_class k); add_classes trees r end.
Fixpoint count_attrs (trees : list ctree) (l : list sattr) : outcome (list ctree) :=
  match l with [] => Ok trees | a :: r => do trees <- count_attr trees (a_id a) a; count_attrs trees r end.
(** t8_cmesh_commit.cxx:194-205 *)
Definition join_step (dim : Z) (trees : list ctree) (j : sjoin) : outcome (list ctree) :=
  do t1 <- lget trees (j_id1 j); do t2 <- lget trees (j_id2 j);
  do e <- ttf_encode dim (j_face2 j) (j_orient j);
  do trees <- set_face trees (j_id1 j) (j_face1 j) (j_id2 j) e;
  do e <- ttf_encode dim (j_face1 j) (j_orient j);
  set_face trees (j_id2 j) (j_face2 j) (j_id1 j) e.
Fixpoint join_faces (dim : Z) (trees : list ctree) (l : list sjoin) : outcome (list ctree) :=
  match l with [] => Ok trees | j :: r => do trees <- join_step dim trees j; join_faces dim trees r end.
(** t8_cmesh_commit.cxx:138-209 t8_cmesh_commit_replicated_new.  Without classes there are no trees. *)
Definition commit_replicated (b : building) : outcome cmesh :=
  if zlen (b_classes b) <=? 0 then Ok (mkCmesh (b_dim b) false 0 [] [] [] (mkMem 0 0 (fun _ => 0))) else
  do trees <- add_classes (repeat zero_tree (length (b_classes b))) (b_classes b);
  do trees <- count_attrs trees (b_attrs b);
  do x <- finish_part trees [];
  let '(trees, ghosts, m) := x in
  do m <- add_attributes 0 trees [] None m (stash_attribute_sort (b_attrs b));
  do trees <- join_faces (b_dim b) (all_boundary trees (fun i _ => i)) (b_joins b);
  Ok (mkCmesh (b_dim b) false 0 trees [] [] m).

(** t8_cmesh_commit.cxx:287-325: the ghosts are the trees that are not local and are joined with a local one, in the order in which they first appear *)
Definition insert_unique (x : Z) (l : list Z) : list Z := match index_of x l with Some _ => l | None => l ++ [x] end.
Definition local (first n id : Z) : bool := (id <=? n + first - 1) && (first <=? id).
Definition ghost_step (first n : Z) (ids : list Z) (j : sjoin) : list Z :=
  if local first n (j_id1 j) || local first n (j_id2 j) then
    let ids := if local first n (j_id2 j) then ids else insert_unique (j_id2 j) ids in
    if local first n (j_id1 j) then ids else insert_unique (j_id1 j) ids
  else ids.
(** 349-366: the classes of the local trees and of the ghosts *)
Definition class_step (first n : Z) (ids : list Z) (s : list ctree * list ctree * list (Z * Z)) (k : sclass) : outcome (list ctree * list ctree * list (Z * Z)) :=
  let '(trees, ghosts, table) := s in
  if local first n (k_id k) then do trees <- add_tree trees (k_id k - first) (k_id k - first) (k_class k); Ok (trees, ghosts, table)
  else match index_of (k_id k) ids with
  | Some g => do ghosts <- add_tree ghosts g (k_id k) (k_class k); Ok (trees, ghosts, table ++ [(k_id k, g + n)])
  | None => Ok s
  end.
Fixpoint class_loop (first n : Z) (ids : list Z) (s : list ctree * list ctree * list (Z * Z)) (l : list sclass) : outcome (list ctree * list ctree * list (Z * Z)) :=
  match l with [] => Ok s | k :: r => do s <- class_step first n ids s k; class_loop first n ids s r end.
(** 373-391 *)
Definition count_step (first n : Z) (ids : list Z) (s : list ctree * list ctree) (a : sattr) : outcome (list ctree * list ctree) :=
  let '(trees, ghosts) := s in
  if (first <=? a_id a) && (a_id a <? first + n) then do trees <- count_attr trees (a_id a - first) a; Ok (trees, ghosts)
  else match index_of (a_id a) ids with
  | Some g => do ghosts <- count_attr ghosts g a; Ok (trees, ghosts)
  | None => Ok s
  end.
Fixpoint count_loop (first n : Z) (ids : list Z) (s : list ctree * list ctree) (l : list sattr) : outcome (list ctree * list ctree) :=
  match l with [] => Ok s | a :: r => do s <- count_step first n ids s a; count_loop first n ids s r end.
(** 397-474: both sides of a face connection, as far as they are local trees or ghosts.  A local tree stores the local number of its neighbour
    (the number of a ghost behind the local trees), a ghost the global one. *)
Definition side (first n : Z) (ids : list Z) (id : Z) : option Z := if local first n id then Some (id - first) else match index_of id ids with Some g => Some (g + n) | None => None end.
Definition pjoin_side (dim first n : Z) (ids : list Z) (s : list ctree * list ctree) (id face other other_face orientation : Z) : outcome (list ctree * list ctree) :=
  let '(trees, ghosts) := s in
  let ttf := i8 (eclass_max_num_faces dim * orientation + other_face) in
  if local first n id then
    match side first n ids other with
    | Some o => do trees <- set_face trees (id - first) face o ttf; Ok (trees, ghosts)
    | None => AssertFail
    end
  else match index_of id ids with
  | Some g => do ghosts <- set_face ghosts g face other ttf; Ok (trees, ghosts)
  | None => Ok s
  end.
Definition pjoin_step (dim first n : Z) (ids : list Z) (s : list ctree * list ctree) (j : sjoin) : outcome (list ctree * list ctree) :=
  do s <- pjoin_side dim first n ids s (j_id1 j) (j_face1 j) (j_id2 j) (j_face2 j) (j_orient j);
  pjoin_side dim first n ids s (j_id2 j) (j_face2 j) (j_id1 j) (j_face1 j) (j_orient j).
Fixpoint pjoin_loop (dim first n : Z) (ids : list Z) (s : list ctree * list ctree) (l : list sjoin) : outcome (list ctree * list ctree) :=
  match l with [] => Ok s | j :: r => do s <- pjoin_step dim first n ids s j; pjoin_loop dim first n ids s r end.
(** t8_cmesh_commit.cxx:211-499 t8_cmesh_commit_partitioned_new on a process with n local trees, the first of them having the global number first
    (both set by t8_cmesh_set_partition_range or read from the table of t8_cmesh_set_partition_offsets, see OffsetModel.v).  Not modelled: the global number
    of trees, which is only used in assertions. *)
Definition commit_partitioned (first n : Z) (b : building) : outcome cmesh :=
  let ids := fold_left (ghost_step first n) (b_joins b) [] in
  if (n =? 0) && (zlen ids =? 0) then Ok (mkCmesh (b_dim b) true first [] [] [] (mkMem 0 0 (fun _ => 0))) else
  do x <- class_loop first n ids (repeat zero_tree (Z.to_nat n), repeat zero_tree (length ids), []) (b_classes b);
  let '(trees, ghosts, table) := x in
  do y <- count_loop first n ids (trees, ghosts) (stash_attribute_sort (b_attrs b));
  do z <- finish_part (fst y) (snd y);
  let '(trees, ghosts, m) := z in
  do s <- pjoin_loop (b_dim b) first n ids (all_boundary trees (fun i _ => i), all_boundary ghosts (fun _ g => t_id g)) (b_joins b);
  do m <- add_attributes first (fst s) (snd s) (Some ids) m (stash_attribute_sort (b_attrs b));
  Ok (mkCmesh (b_dim b) true first (fst s) (snd s) table m).

(** * Queries *)
(** t8_cmesh.cxx:366-382 *)
Definition is_local_tree (c : cmesh) (lt : Z) : bool := (0 <=? lt) && (lt <? zlen (c_trees c)).
Definition is_ghost (c : cmesh) (lt : Z) : bool := (zlen (c_trees c) <=? lt) && (lt <? zlen (c_trees c) + zlen (c_ghosts c)).
(** a tree or a ghost by its local number *)
Definition get_tree (c : cmesh) (lt : Z) : outcome ctree := if is_local_tree c lt then lget (c_trees c) lt else lget (c_ghosts c) (lt - zlen (c_trees c)).
(** t8_cmesh.cxx:987-1010 t8_cmesh_get_tree_class, t8_cmesh_get_ghost_class *)
Definition get_class (c : cmesh) (lt : Z) : outcome Z := do t <- get_tree c lt; Ok (t_class t).
(** 1012-1022 t8_cmesh_get_global_id *)
Definition get_global_id (c : cmesh) (lt : Z) : outcome Z := if is_local_tree c lt then Ok (lt + c_first c) else do g <- get_tree c lt; Ok (t_id g).
(** 1024-1046 t8_cmesh_get_local_id with t8_cmesh_trees.cxx:648-667 t8_cmesh_trees_get_ghost_local_id *)
Definition get_local_id (c : cmesh) (gid : Z) : Z :=
  if negb (c_partitioned c) then gid
  else if is_local_tree c (gid - c_first c) then gid - c_first c
  else match find (fun p => fst p =? gid) (c_table c) with Some p => snd p | None => -1 end.
(** 951-985 t8_cmesh_tree_face_is_boundary *)
Definition face_is_boundary (c : cmesh) (lt face : Z) : outcome bool :=
  do t <- get_tree c lt; do nb <- lget (t_faces t) face; do ttf <- lget (t_ttf t) face;
  do self <- (if is_local_tree c lt then Ok lt else get_global_id c lt);
  Ok ((nb =? self) && (ttf =? face)).
(** t8_cmesh_trees.cxx:924-944 t8_cmesh_tree_to_face_decode (% and / of C) *)
Definition ttf_decode (dim ttf : Z) : Z * Z := let F := eclass_max_num_faces dim in (Z.rem ttf F, Z.quot ttf F).
(** t8_cmesh.cxx:1062-1130 t8_cmesh_get_face_neighbor: the local number of the neighbour, the dual face and the orientation, or None for -1 *)
Definition get_face_neighbor (c : cmesh) (lt face : Z) : outcome (option (Z * Z * Z)) :=
  do bd <- face_is_boundary c lt face;
  if bd then Ok None else
  do t <- get_tree c lt; do nb <- lget (t_faces t) face; do ttf <- lget (t_ttf t) face;
  let nb := if is_local_tree c lt then nb else get_local_id c nb in
  if (negb (is_local_tree c lt)) && (nb <? 0) then Ok None else
  Ok (Some (nb, fst (ttf_decode (c_dim c) ttf), snd (ttf_decode (c_dim c) ttf))).

(** sc_array_bsearch with t8_cmesh_trees.cxx:797-821 t8_cmesh_trees_compare_keyattr: the infos lo, ..., hi - 1 behind the address fa.
    libsc and bsearch are not in /repo; the loop is that of the C library. *)
Fixpoint info_bsearch (fuel : nat) (m : memory) (fa pkg key lo hi : Z) : outcome (option Z) :=
  match fuel with
  | O => OutOfFuel
  | S fuel =>
    if hi <=? lo then Ok None else
    let mid := (lo + hi) / 2 in
    do p <- ld32 m (fa + mid * INFO_BYTES); do k <- ld32 m (fa + mid * INFO_BYTES + 4);
    if pkg <? p then info_bsearch fuel m fa pkg key lo mid
    else if p <? pkg then info_bsearch fuel m fa pkg key (mid + 1) hi
    else if key <? k then info_bsearch fuel m fa pkg key lo mid
    else if k =? key then Ok (Some mid)
    else info_bsearch fuel m fa pkg key (mid + 1) hi
  end.
(** t8_cmesh.cxx:478-489 t8_cmesh_get_attribute with t8_cmesh_trees.cxx:823-889 t8_cmesh_trees_get_attribute.  The result is the attribute_size bytes
    behind the returned pointer, None for the null pointer. *)
Definition get_attribute (c : cmesh) (pkg key lt : Z) : outcome (option (list Z)) :=
  do t <- get_tree c lt;
  let fa := (if is_local_tree c lt then lt * TREE_BYTES else zlen (c_trees c) * TREE_BYTES + (lt - zlen (c_trees c)) * GHOST_BYTES) + t_att t in
  if t_natt t <=? 0 then Ok None else
  do i <- info_bsearch (S (Z.to_nat (t_natt t))) (c_mem c) fa pkg key 0 (t_natt t);
  match i with
  | None => Ok None
  | Some i =>
    do size <- ld64 (c_mem c) (fa + i * INFO_BYTES + 16); do off <- ld64 (c_mem c) (fa + i * INFO_BYTES + 8);
    do d <- get (c_mem c) (fa + off) (Z.to_nat size); Ok (Some d)
  end.

(** * Copies *)
(** t8_cmesh_trees.cxx:440-518: t8_cmesh_trees_neighbor_bytes, _attribute_size, get_part_alloc (entry is the bytes per face) *)
Definition neighbor_bytes (entry : Z) (t : ctree) : Z := padded (eclass_num_faces (t_class t) * entry).
Fixpoint attribute_bytes (m : memory) (info : Z) (n : nat) : outcome Z :=
  match n with O => Ok 0 | S n => do s <- ld64 m (info + 16); do r <- attribute_bytes m (info + INFO_BYTES) n; Ok (s + r) end.
Fixpoint alloc_bytes (m : memory) (block entry : Z) (addr : Z) (l : list ctree) : outcome Z :=
  match l with
  | [] => Ok 0
  | t :: r => do s <- attribute_bytes m (addr + t_att t) (Z.to_nat (t_natt t)); do rest <- alloc_bytes m block entry (addr + block) r;
    Ok (block + neighbor_bytes entry t + s + t_natt t * INFO_BYTES + rest)
  end.
(** t8_cmesh_copy.cxx:35-91 t8_cmesh_copy: the part is copied byte by byte (t8_cmesh_trees_copy_part), into as many bytes as get_part_alloc counts; the
    hash table of the ghosts is the empty one of t8_cmesh_trees_init *)
Definition copy (c : cmesh) : outcome cmesh :=
  do tb <- alloc_bytes (c_mem c) TREE_BYTES 5 0 (c_trees c);
  do gb <- alloc_bytes (c_mem c) GHOST_BYTES 9 (zlen (c_trees c) * TREE_BYTES) (c_ghosts c);
  Ok (mkCmesh (c_dim c) (c_partitioned c) (c_first c) (c_trees c) (c_ghosts c) [] (mkMem (m_lo (c_mem c)) (tb + gb) (m_at (c_mem c)))).

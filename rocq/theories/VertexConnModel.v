(** Model of the vertex connectivity of coarse meshes (src/t8_cmesh/t8_cmesh_vertex_connectivity/): the global vertex ids of the trees, which are stored as
    an attribute of the tree (CmeshModel.v), and the list of the trees at every global vertex.
    The assertions are those of the debugging mode.  The std::unordered_map from global vertex ids to lists of (tree, vertex) is an association list; its order
    is the order of the first insertion, and where the code iterates over the map the theorems allow every order. *)
From Verif Require Import Prelude EclassModel CmeshModel.

(** * From trees to vertices *)
(** t8_cmesh_types.h:59 *)
Definition GLOBAL_VERTICES_KEY := 1.
(** the bytes of an array of t8_gloidx_t *)
Definition gloidx_array (l : list Z) : list Z := flat_map (le 8) l.
(** t8_cmesh_vertex_conn_tree_to_vertex.hxx:97-121 set_global_vertex_ids_of_tree_vertices with t8_cmesh.cxx:460-468 t8_cmesh_set_attribute_gloidx_array.
    pkg is t8_get_package_id (). *)
Definition set_global_vertices (pkg gid : Z) (ids : list Z) : call := SetAttribute gid pkg GLOBAL_VERTICES_KEY (gloidx_array ids).
(** the first n entries of an array of t8_gloidx_t.  An access behind the attribute is Oob. *)
Fixpoint read_gloidx (n : nat) (d : list Z) : outcome (list Z) :=
  match n with
  | O => Ok []
  | S n => if 8 <=? zlen d then do r <- read_gloidx n (skipn 8 d); Ok (i64 (unle (firstn 8 d)) :: r) else Oob
  end.
(** 129-144 get_global_vertices; t8_cmesh_get_tree_class asserts that the tree is local *)
Definition get_global_vertices (pkg : Z) (c : cmesh) (lt : Z) : outcome (list Z) :=
  if is_local_tree c lt then
    do k <- get_class c lt;
    do a <- get_attribute c pkg GLOBAL_VERTICES_KEY lt;
    match a with Some d => read_gloidx (Z.to_nat (eclass_num_vertices k)) d | None => AssertFail end
  else AssertFail.
(** 155-171 get_global_vertex *)
Definition get_global_vertex (pkg : Z) (c : cmesh) (lt i : Z) : outcome Z :=
  if 0 <=? i then do ids <- get_global_vertices pkg c lt; if i <? zlen ids then lget ids i else AssertFail else AssertFail.

(** * From vertices to trees *)
(** t8_cmesh_vertex_conn_vertex_to_tree.hxx:227-237: the map and the state *)
Record vtt := mkVtt { v_map : list (Z * list (Z * Z)); v_committed : bool }.
(** hxx:73-76 the constructor *)
Definition vtt_init := mkVtt [] false.
(** vertex_to_tree[v].push_back (p) *)
Fixpoint map_push (m : list (Z * list (Z * Z))) (v : Z) (p : Z * Z) : list (Z * list (Z * Z)) :=
  match m with
  | [] => [(v, [p])]
  | (w, l) :: r => if w =? v then (w, l ++ [p]) :: r else (w, l) :: map_push r v p
  end.
(** t8_cmesh_vertex_conn_vertex_to_tree.cxx:72-103 add_vertex_to_tree *)
Definition add_vertex_to_tree (c : cmesh) (s : vtt) (v lt i : Z) : outcome vtt :=
  if v_committed s then AssertFail else
  if v <? 0 then AssertFail else
  if is_local_tree c lt || is_ghost c lt then
    do k <- get_class c lt;
    if (0 <=? i) && (i <? eclass_num_vertices k) then Ok (mkVtt (map_push (v_map s) v (lt, i)) false) else AssertFail
  else AssertFail.
Fixpoint add_vertices (c : cmesh) (s : vtt) (l : list (Z * (Z * Z))) : outcome vtt :=
  match l with [] => Ok s | (v, (lt, i)) :: r => do s <- add_vertex_to_tree c s v lt i; add_vertices c s r end.
(** 34-58 build_from_ttv; t8_cmesh_vertex_connectivity.hxx:92-98 build_vertex_to_tree and t8_cmesh_commit.cxx:609-611 call it after the commit of a mesh for which
    global vertices have been set *)
Fixpoint build_trees (pkg : Z) (c : cmesh) (s : vtt) (l : list Z) : outcome vtt :=
  match l with
  | [] => Ok s
  | lt :: r => do ids <- get_global_vertices pkg c lt; do s <- add_vertices c s (combine ids (combine (map (fun _ => lt) ids) (zseq 0 (length ids)))); build_trees pkg c s r
  end.
Definition build_from_ttv (pkg : Z) (c : cmesh) : outcome vtt :=
  do s <- build_trees pkg c vtt_init (zseq 0 (length (c_trees c) + length (c_ghosts c))); Ok (mkVtt (v_map s) true).
(** 105-121 t8_cmesh_tree_vertex_pair_compare *)
Definition pair_ltb (a b : Z * Z) : bool := if fst a =? fst b then snd a <? snd b else fst a <? fst b.
(** 123-136 sort_list_by_tree_id *)
Definition sort_lists (m : list (Z * list (Z * Z))) : list (Z * list (Z * Z)) := map (fun e => (fst e, isort pair_ltb (snd e))) m.
(** 138-198 contains_all_vertices *)
Fixpoint vertex_counts (c : cmesh) (l : list Z) : outcome (list Z) :=
  match l with [] => Ok [] | lt :: r => do k <- get_class c lt; do rest <- vertex_counts c r; Ok (eclass_num_vertices k :: rest) end.
Definition count_down (c : cmesh) (counts : list Z) (p : Z * Z) : outcome (list Z) :=
  if (0 <=? fst p) && (fst p <? zlen (c_trees c) + zlen (c_ghosts c)) then
    do k <- get_class c (fst p);
    if (0 <=? snd p) && (snd p <? eclass_num_vertices k) then
      do n <- lget counts (fst p);
      if 0 <=? n - 1 then lset counts (fst p) (n - 1) else AssertFail
    else AssertFail
  else AssertFail.
Fixpoint count_all (c : cmesh) (counts : list Z) (l : list (Z * Z)) : outcome (list Z) :=
  match l with [] => Ok counts | p :: r => do counts <- count_down c counts p; count_all c counts r end.
Definition contains_all_vertices (c : cmesh) (m : list (Z * list (Z * Z))) : outcome bool :=
  do counts <- vertex_counts c (zseq 0 (length (c_trees c) + length (c_ghosts c)));
  do counts <- count_all c counts (flat_map snd m);
  Ok (forallb (Z.eqb 0) counts).
(** 60-70 commit *)
Definition vtt_commit (c : cmesh) (s : vtt) : outcome vtt :=
  if v_committed s then AssertFail else
  let m := sort_lists (v_map s) in
  do ok <- contains_all_vertices c m;
  if ok then Ok (mkVtt m true) else AssertFail.
(** hxx:100-119 get_tree_list_of_vertex *)
Definition get_tree_list (s : vtt) (v : Z) : outcome (list (Z * Z)) :=
  if v_committed s && (0 <=? v) then match find (fun e => fst e =? v) (v_map s) with Some e => Ok (snd e) | None => AssertFail end else AssertFail.
(** t8_cmesh_vertex_connectivity.hxx:96 and 105-109 get_global_number_of_vertices, 222-229 get_num_trees_at_vertex *)
Definition num_global_vertices (s : vtt) : Z := zlen (v_map s).
Definition num_trees_at_vertex (s : vtt) (v : Z) : outcome Z := do l <- get_tree_list s v; Ok (zlen l).

(** * And back *)
(** t8_cmesh_vertex_conn_tree_to_vertex.cxx:32-93, the constructor from a vertex to tree list: the global vertices that it sets, by global tree id.
    m is the map in the order of the iteration. *)
Fixpoint scatter_list (v : Z) (buckets : list (list (Z * Z))) (l : list (Z * Z)) : outcome (list (list (Z * Z))) :=
  match l with [] => Ok buckets | (lt, i) :: r => do b <- lget buckets lt; do buckets <- lset buckets lt (b ++ [(v, i)]); scatter_list v buckets r end.
Fixpoint scatter (buckets : list (list (Z * Z))) (m : list (Z * list (Z * Z))) : outcome (list (list (Z * Z))) :=
  match m with [] => Ok buckets | (v, l) :: r => do buckets <- scatter_list v buckets l; scatter buckets r end.
Fixpoint gather (c : cmesh) (buckets : list (list (Z * Z))) (l : list Z) : outcome (list (Z * list Z)) :=
  match l with
  | [] => Ok []
  | lt :: r =>
    do b <- lget buckets lt;
    let b := isort (fun a b => snd a <? snd b) b in
    do k <- get_class c lt;
    if zlen b =? eclass_num_vertices k then
      do gid <- get_global_id c lt; do rest <- gather c buckets r; Ok ((gid, map fst b) :: rest)
    else AssertFail
  end.
Definition ttv_from_vtt (c : cmesh) (m : list (Z * list (Z * Z))) : outcome (list (Z * list Z)) :=
  let n := (length (c_trees c) + length (c_ghosts c))%nat in
  do buckets <- scatter (repeat [] n) m; gather c buckets (zseq 0 n).

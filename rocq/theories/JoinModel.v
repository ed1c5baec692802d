(** Model of src/t8_cmesh/t8_cmesh_helpers.cxx: the search for face connections from the coordinates of the vertices of the trees.
    Coordinates are doubles (FloatModel.v).  A tree is its class and the list of its vertices; the C array has room for 8 vertices per tree, of
    which the function reads the first t8_eclass_num_vertices [eclass].  The numbers of trees are assumed to fit into int, as the code does. *)
From Coq Require Import SpecFloat.
From Verif Require Import Prelude EclassModel FloatModel CmeshModel.

Definition d_sub (x y : spec_float) : spec_float := SFsub 53 1024 x y.
Definition d_abs (x : spec_float) : spec_float := SFabs x.

Definition point : Type := spec_float * spec_float * spec_float.
Definition coords (p : point) : list spec_float := let '(x, y, z) := p in [x; y; z].
Definition no_point : point := (S754_nan, S754_nan, S754_nan).
Record jtree := mkJtree { j_class : Z; j_points : list point }.
Definition no_jtree := mkJtree 0 [].
(** a face: the number of its tree and its number in the tree *)
Definition face : Type := Z * Z.

(** t8_cmesh_helpers.cxx:47-70: minimum and maximum of the coordinates, of each vertex only the first edim of the three *)
Definition bounds_coord (b : spec_float * spec_float) (c : spec_float) : spec_float * spec_float :=
  (if d_ltb c (fst b) then c else fst b, if d_ltb (snd b) c then c else snd b).
Definition bounds_point (edim : Z) (b : spec_float * spec_float) (p : point) : spec_float * spec_float :=
  fold_left bounds_coord (firstn (Z.to_nat edim) (coords p)) b.
Definition bounds_tree (b : spec_float * spec_float) (t : jtree) : spec_float * spec_float :=
  fold_left (bounds_point (eclass_to_dimension (j_class t))) (firstn (Z.to_nat (eclass_num_vertices (j_class t))) (j_points t)) b.
Definition domain_bounds (m : list jtree) : outcome (spec_float * spec_float) :=
  match m with
  | mkJtree _ ((x, _, _) :: _) :: _ => Ok (fold_left bounds_tree m (x, x))
  | _ => Oob
  end.

(** T8_PRECISION_EPS is SC_EPS, the difference of 1.0 and the next double: 2^-52 *)
Definition d_eps : spec_float := d_div (d_of_int 1) (d_of_int (2 ^ 52)).
(** t8_cmesh_helpers.cxx:73 *)
Definition tolerance_of (b : spec_float * spec_float) : spec_float :=
  d_mul (d_mul (d_of_int 10) d_eps) (d_abs (d_sub (snd b) (fst b))).
(** t8_cmesh_helpers.cxx:81-82 *)
Definition inverse_bin_size (b : spec_float * spec_float) : spec_float := d_div (d_of_int 1000000000) (d_sub (snd b) (fst b)).

(** static_cast<unsigned long> (x): rounds towards zero.  C++ leaves the behaviour open if the result does not fit: [Oob] *)
Definition to_ulong (x : spec_float) : outcome Z :=
  match x with
  | S754_zero _ => Ok 0
  | S754_finite s m e =>
      let v := Z.shiftl (Z.pos m) e in
      if s then (if v =? 0 then Ok 0 else Oob) else if v <? 2 ^ 64 then Ok v else Oob
  | _ => Oob
  end.
(** t8_cmesh_helpers.cxx:107, 110: the bin of a coordinate *)
Definition bin (b : spec_float * spec_float) (v : spec_float) : outcome Z :=
  to_ulong (d_add (d_mul (d_sub v (fst b)) (inverse_bin_size b)) (d_div (d_of_int 1) (d_of_int 2))).
(** t8_cmesh_helpers.cxx:105-111: hash = hash + icoord + bin, unsigned *)
Fixpoint hash_coords (b : spec_float * spec_float) (hash icoord : Z) (cs : list spec_float) : outcome Z :=
  match cs with
  | [] => Ok hash
  | v :: r => do k <- bin b v; hash_coords b ((hash + icoord + k) mod 2 ^ 64) (icoord + 1) r
  end.
(** t8_cmesh_helpers.cxx:98-112 *)
Fixpoint hash_points (b : spec_float * spec_float) (hash : Z) (ps : list point) : outcome Z :=
  match ps with
  | [] => Ok hash
  | p :: r => do h <- hash_coords b hash 0 (coords p); hash_points b h r
  end.

(** t8_cmesh_helpers.cxx:92, 101: the vertices of a face, in the order of the face *)
Definition face_points (m : list jtree) (x : face) : list point :=
  let t := znth no_jtree m (fst x) in
  map (fun i => znth no_point (j_points t) (face_vertex_to_tree_vertex (j_class t) (snd x) i))
      (zseq 0 (Z.to_nat (eclass_num_vertices (eclass_face_types (j_class t) (snd x))))).

(** t8_cmesh_helpers.cxx:148-165: all three coordinates differ by less than the tolerance *)
Definition same_point (tol : spec_float) (p q : point) : bool :=
  forallb (fun '(v, w) => d_ltb (d_abs (d_sub v w)) tol) (combine (coords p) (coords q)).
(** t8_cmesh_helpers.cxx:143-171, the inner loop for one vertex: the number of vertices of the neighbour that match, and the last of them (-1: none) *)
Fixpoint match_row (tol : spec_float) (p : point) (j : Z) (qs : list point) (acc : Z * Z) : Z * Z :=
  match qs with
  | [] => acc
  | q :: r => match_row tol p (j + 1) r (if same_point tol p q then (fst acc + 1, j) else acc)
  end.
(** t8_cmesh_helpers.cxx:130-172: match_count and face_vert_order *)
Fixpoint match_faces (tol : spec_float) (ps qs : list point) : Z * list Z :=
  match ps with
  | [] => (0, [])
  | p :: r =>
      let row := match_row tol p 0 qs (0, -1) in
      let rest := match_faces tol r qs in
      (fst row + fst rest, snd row :: snd rest)
  end.
(** t8_cmesh_helpers.cxx:202-207: the first position of 0, -1 if there is none *)
Fixpoint position_of_zero (i : Z) (order : list Z) : Z :=
  match order with [] => -1 | o :: r => if o =? 0 then i else position_of_zero (i + 1) r end.
(** t8_cmesh_helpers.cxx:181-208 *)
Definition join_orientation (m : list jtree) (x y : face) (order : list Z) : outcome Z :=
  do compare <- eclass_compare (j_class (znth no_jtree m (fst x))) (j_class (znth no_jtree m (fst y)));
  let smaller := if compare <? 0 then true else if 0 <? compare then false else snd x <? snd y in
  Ok (if smaller then znth (-1) order 0 else position_of_zero 0 order).

(** t8_cmesh_helpers.cxx:114-227: the loop over the registered faces with the same hash.  std::multimap keeps entries with equal keys in the
    order of their insertion. *)
Fixpoint find_match (m : list jtree) (tol : spec_float) (x : face) (hash : Z) (faces : list (Z * face)) : outcome (option (face * Z)) :=
  match faces with
  | [] => Ok None
  | (h, y) :: r =>
      if negb (h =? hash) then find_match m tol x hash r
      else if negb (zlen (face_points m x) =? zlen (face_points m y)) then find_match m tol x hash r
      else
        let '(count, order) := match_faces tol (face_points m x) (face_points m y) in
        if count =? zlen (face_points m x) then do o <- join_orientation m x y order; Ok (Some (y, o))
        else find_match m tol x hash r
  end.

(** The array conn: for each face the neighbour tree, the neighbour face and the orientation, initially -1.  T8_3D_TO_1D gives different faces
    different places as long as face numbers are below T8_ECLASS_MAX_FACES, so the array is a function here. *)
Definition connection : Type := face * Z.
Definition no_connection : connection := ((-1, -1), -1).
Definition face_eqb (x y : face) : bool := (fst x =? fst y) && (snd x =? snd y).
Definition set_conn (conn : face -> connection) (x : face) (v : connection) : face -> connection :=
  fun z => if face_eqb z x then v else conn z.

(** t8_cmesh_helpers.cxx:90-230: the body of the loop over the faces of a tree *)
Definition join_face (m : list jtree) (b : spec_float * spec_float) (both : bool) (s : list (Z * face) * (face -> connection)) (x : face)
  : outcome (list (Z * face) * (face -> connection)) :=
  let '(faces, conn) := s in
  do hash <- hash_points b 0 (face_points m x);
  do found <- find_match m (tolerance_of b) x hash faces;
  let conn' := match found with
               | None => conn
               | Some (y, o) =>
                   let c := set_conn conn x (y, o) in
                   if both then set_conn c y (x, o) else c
               end in
  Ok (faces ++ [(hash, x)], conn').
Fixpoint join_loop (m : list jtree) (b : spec_float * spec_float) (both : bool) (xs : list face)
    (s : list (Z * face) * (face -> connection)) : outcome (list (Z * face) * (face -> connection)) :=
  match xs with
  | [] => Ok s
  | x :: r => do s' <- join_face m b both s x; join_loop m b both r s'
  end.
(** t8_cmesh_helpers.cxx:84-90: the faces in the order of the two loops *)
Definition all_faces (m : list jtree) : list face :=
  flat_map (fun t => map (pair t) (zseq 0 (Z.to_nat (eclass_num_faces (j_class (znth no_jtree m t)))))) (zseq 0 (length m)).
(** t8_cmesh_helpers.cxx:37-231: the connectivity array that the caller gets *)
Definition join_by_vertices (m : list jtree) (both : bool) : outcome (face -> connection) :=
  do b <- domain_bounds m;
  do s <- join_loop m b both (all_faces m) ([], fun _ => no_connection);
  Ok (snd s).
(** t8_cmesh_helpers.cxx:233-249: the calls of t8_cmesh_set_join *)
Definition join_calls (m : list jtree) (conn : face -> connection) : list call :=
  flat_map (fun x => let '((nt, nf), o) := conn x in if -1 <? nt then [SetJoin (fst x) nt (snd x) nf o] else []) (all_faces m).

(** Model of the prism elements of the default scheme: a prism is a triangle times a line.
    Cited lines are those of src/t8_schemes/t8_default/t8_default_prism/t8_dprism_bits.c unless stated otherwise.
    Simplifications: int8/int32/uint64 are Z (the ids of prisms are below 8^21 = 2^63, so that no product of the id loops wraps);
    in-place aliasing is not modelled; T8_ASSERTs are preconditions of the theorems unless the function returns an [outcome]. *)
From Verif Require Import Prelude SimplexModel LineModel.

(** t8_dprism.h: T8_DPRISM_MAXLEVEL, T8_DPRISM_CHILDREN, T8_DPRISM_FACES, T8_DPRISM_ROOT_LEN *)
Definition PMAX : Z := 21.
Definition PCHILDREN : Z := 8.
Definition PFACES : Z := 5.
Definition PROOT : Z := Z.shiftl 1 PMAX.
(** t8_dprism.h: struct t8_dprism *)
Record prism := Prism { pline : dline; ptri : simp }.

(** t8_default_prism.cxx:456-466 set_to_root *)
Definition p_root : prism := Prism l_root init_root.
(** 31-36 t8_dprism_get_level *)
Definition p_level (p : prism) : Z := ll (pline p).
(** 46-50 t8_dprism_equal *)
Definition p_equal (a b : prism) : bool := l_equal (pline a) (pline b) && equal false (ptri a) (ptri b).
(** 104-114 t8_dprism_parent *)
Definition p_parent (p : prism) : prism := Prism (l_parent (pline p)) (parent false (ptri p)).
(** 241-249 t8_dprism_child *)
Definition p_child (p : prism) (childid : Z) : prism :=
  Prism (l_child (pline p) (childid / 4)) (child false (ptri p) (childid mod 4)).
(** 306-315 t8_dprism_childrenpv *)
Definition p_childrenpv (p : prism) : list prism := map (p_child p) [0;1;2;3;4;5;6;7].
(** 116-125 t8_dprism_child_id *)
Definition p_child_id (p : prism) : Z := child_id false (ptri p) + 4 * l_child_id (pline p).
(** 317-321 t8_dprism_ancestor_id *)
Definition p_ancestor_id (p : prism) (level : Z) : Z := 4 * l_ancestor_id (pline p) level + ancestor_id false (ptri p) level.

(** 589-596: the first loop of t8_dprism_linear_id, n iterations left *)
Fixpoint p_tri_part (n : nat) (tri_id prisms_of_size_i id : Z) : Z :=
  match n with O => id | S n' => p_tri_part n' (tri_id / 4) (prisms_of_size_i * 8) (id + tri_id mod 4 * prisms_of_size_i) end.
(** 599-606: the second loop *)
Fixpoint p_line_part (n : nat) (line_id lines_at_level prism_shift id : Z) : Z :=
  match n with
  | O => id
  | S n' => p_line_part n' (line_id mod lines_at_level) (lines_at_level / 2) (prism_shift / 8) (id + line_id / lines_at_level * prism_shift)
  end.
(** 566-609 t8_dprism_linear_id *)
Definition p_linear_id (p : prism) (level : Z) : Z :=
  if level =? 0 then 0
  else p_line_part (Z.to_nat level) (l_linear_id (pline p) level) (2 ^ (level - 1)) (8 / 2 * 8 ^ (level - 1))
         (p_tri_part (Z.to_nat level) (linear_id false (ptri p) level) 1 0).
(** 52-72 t8_dprism_compare *)
Definition p_compare (a b : prism) : Z :=
  let maxlvl := Z.max (p_level a) (p_level b) in
  let id1 := p_linear_id a maxlvl in let id2 := p_linear_id b maxlvl in
  if id1 =? id2 then p_level a - p_level b else if id1 <? id2 then -1 else 1.
(** 84-96: the loop of t8_dprism_init_linear_id, n iterations left, i the number of the iteration: (tri_id, line_id) *)
Fixpoint p_split (n : nat) (i id triangles_of_size_i tri_id line_id : Z) : Z * Z :=
  match n with
  | O => (tri_id, line_id)
  | S n' => p_split n' (i + 1) (id / 8) (triangles_of_size_i * 4) (tri_id + id mod 4 * triangles_of_size_i) (line_id + id mod 8 / 4 * 2 ^ i)
  end.
(** 74-102 t8_dprism_init_linear_id *)
Definition p_init_linear_id (level id : Z) : prism :=
  let '(tri_id, line_id) := p_split (S (Z.to_nat level)) 0 id 1 0 0 in
  Prism (l_init_linear_id level line_id) (init_linear_id false tri_id level).

Definition prism0 : prism := Prism dline0 dsimp.
(** 127-162 t8_dprism_is_familypv *)
Definition p_is_family (fam : list prism) : bool :=
  let f i := znth prism0 fam i in
  tri_is_familypv (map (fun j => ptri (f j)) [0;1;2;3]) && tri_is_familypv (map (fun j => ptri (f (j + 4))) [0;1;2;3])
  && forallb (fun i => l_is_family [pline (f i); pline (f (4 + i))]
       && (lv (ptri (f i)) =? lv (ptri (f (i + 4)))) && (ty (ptri (f i)) =? ty (ptri (f (i + 4))))
       && (sx (ptri (f i)) =? sx (ptri (f (i + 4)))) && (sy (ptri (f i)) =? sy (ptri (f (i + 4))))) [0;1;2;3]
  && forallb (fun i => ll (pline (f i)) =? lv (ptri (f i))) [0;1;2;3;4;5;6;7].
(** 164-186 t8_dprism_nearest_common_ancestor *)
Definition p_nca (a b : prism) : outcome prism :=
  do t <- nca false (ptri a) (ptri b);
  let l := l_nca (pline a) (pline b) in
  Ok (if lv t =? ll l then Prism l t
      else let level := Z.min (lv t) (ll l) in
           if ll l <? lv t then Prism l (ancestor false t level) else Prism (l_ancestor l level) t).

(** (v >> k) << k, 458-460 *)
Definition cut (v k : Z) : Z := Z.shiftl (Z.shiftr v k) k.
Definition with_level (p : prism) (level : Z) : prism :=
  Prism (Line level (lx (pline p))) (Simp level (ty (ptri p)) (sx (ptri p)) (sy (ptri p)) (sz (ptri p))).
(** 443-476 t8_dprism_successor; the argument is the level, which decreases in the recursive call; level 0 violates the assertion of line 452 *)
Fixpoint p_succ (p : prism) (level : nat) : outcome prism :=
  match level with
  | O => AssertFail
  | S level' =>
    let l := Z.of_nat level in
    let succ := with_level p l in
    let prism_child_id := p_child_id succ in
    if prism_child_id =? 8 - 1 then
      do s <- p_succ p level';
      let kt := MAXLEVEL false - l + 1 in
      Ok (Prism (Line l (cut (lx (pline s)) (LMAX - l + 1)))
            (Simp l (ty (ptri s)) (cut (sx (ptri s)) kt) (cut (sy (ptri s)) kt) (sz (ptri s))))
    else if (prism_child_id + 1) mod 4 =? 0 then Ok (p_child (p_parent succ) (prism_child_id + 1))
    else do t <- successor false (ptri p) l; Ok (Prism (pline succ) t)
  end.
Definition p_successor (p : prism) (level : Z) : outcome prism := p_succ p (Z.to_nat level).
(** 478-496 t8_dprism_first_descendant, 498-508 t8_dprism_last_descendant, 510-522 t8_dprism_corner_descendant *)
Definition p_first_descendant (p : prism) (level : Z) : prism :=
  Prism (l_first_descendant (pline p) level) (first_descendant false (ptri p) level).
Definition p_last_descendant (p : prism) (level : Z) : prism :=
  Prism (l_last_descendant (pline p) level) (last_descendant false (ptri p) level).
Definition p_corner_descendant (p : prism) (corner level : Z) : prism :=
  Prism (if corner <? 3 then l_first_descendant (pline p) level else l_last_descendant (pline p) level)
        (corner_descendant false (ptri p) (corner mod 3) level).
(** t8_default_common.hxx:201-226 element_is_ancestor, 280-286 element_count_leaves, 323-331 count_leaves_from_root, for prisms *)
Definition p_is_ancestor (a b : prism) : bool :=
  if p_level b <? p_level a then false else p_linear_id a (p_level a) =? p_linear_id b (p_level a).
Definition p_count_leaves (p : prism) (level : Z) : Z := count_leaves_from_level (p_level p) level 3.
Definition p_count_root (level : Z) : Z := count_leaves_from_level 0 level 3.

(** ** geometry *)
(** 524-536 t8_dprism_vertex_integer_coords; the divisions are exact for prisms up to level 21, so rounding does not matter *)
Definition p_vertex (p : prism) (vertex : Z) : Z * Z * Z :=
  match compute_integer_coords false (ptri p) (vertex mod 3) with
  | (x, y, _) => (x / Z.shiftl 1 (MAXLEVEL false - PMAX), y / Z.shiftl 1 (MAXLEVEL false - PMAX),
                  l_coords (pline p) (vertex / 3) / Z.shiftl 1 (LMAX - PMAX))
  end.
(** t8_default_prism.cxx:389-397 element_get_anchor; the coordinates are not negative *)
Definition p_anchor (p : prism) : Z * Z * Z :=
  (sx (ptri p) / ROOT_LEN false * PROOT, sy (ptri p) / ROOT_LEN false * PROOT, lx (pline p) / LROOT * PROOT).
(** 235-239 t8_dprism_is_inside_root *)
Definition p_is_inside_root (p : prism) : bool := is_inside_root false (ptri p) && l_is_inside_root (pline p).

(** ** faces *)
(** 29 t8_dprism_face_corners, 295-304 t8_dprism_get_face_corner (also t8_default_prism.cxx:288-294) *)
Definition p_face_corner : Z -> Z -> Z := tab2 [[1;2;4;5];[0;2;3;5];[0;1;3;4];[0;1;2;-1];[3;4;5;-1]].
(** 219-233 t8_dprism_is_root_boundary *)
Definition p_is_root_boundary (p : prism) (face : Z) : bool :=
  if face <? 3 then is_root_boundary false (ptri p) face else l_is_root_boundary (pline p) (if face =? 3 then 0 else 1).
(** 261-268 t8_dprism_num_face_children *)
Definition p_num_face_children (face : Z) : Z := if 3 <=? face then 4 else 2 * 2.
(** 270-293 t8_dprism_face_neighbour: (neighbour, face of the neighbour) *)
Definition p_face_neighbour (p : prism) (face : Z) : prism * Z :=
  if face <? 3 then (Prism (pline p) (fst (face_neighbour false (ptri p) face)), 2 - face)
  else if face =? 3 then (Prism (fst (l_face_neighbour (pline p) 0)) (ptri p), 4)
  else (Prism (fst (l_face_neighbour (pline p) 1)) (ptri p), 3).
(** t8_default_prism.cxx:333-348 element_get_face_neighbor_inside *)
Definition p_neighbor_inside (p : prism) (face : Z) : option (prism * Z) :=
  let n := p_face_neighbour p face in if p_is_inside_root (fst n) then Some n else None.
(** 323 children_at_face, 325-354 t8_dprism_children_at_face *)
Definition p_child_ids_at_face (p : prism) (face : Z) : list Z :=
  if face <? 3
  then map (fun i => tab2 [[1;3;5;7;0;3;4;7;0;1;4;5];[2;3;6;7;0;3;4;7;0;2;4;6]] (ty (ptri p)) (face * 4 + i)) [0;1;2;3]
  else map (fun i => face mod 3 * 4 + i) [0;1;2;3].
(** 356-363 t8_dprism_face_child_face *)
Definition p_face_child_face (p : prism) (face face_child : Z) : Z := face.
(** 365-379 t8_dprism_face_parent_face *)
Definition p_face_parent_face (p : prism) (face : Z) : Z :=
  if (face <? 3) && negb (face_parent_face false (ptri p) face =? -1) then face
  else if (3 <=? face) && negb (l_face_parent_face (pline p) (face - 3) =? -1) then face else -1.
(** 381-388 t8_dprism_tree_face *)
Definition p_tree_face (p : prism) (face : Z) : Z := face.
(** t8_default_prism.cxx:296-306 element_get_first_descendant_face, 308-324 element_get_last_descendant_face *)
Definition p_first_face (p : prism) (face level : Z) : prism := p_corner_descendant p (p_face_corner face 0) level.
Definition p_last_face (p : prism) (face level : Z) : prism :=
  p_corner_descendant p (p_face_corner face (if face <? 3 then 3 else 2)) level.

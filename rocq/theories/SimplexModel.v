(** Model of the triangle and tetrahedron element code of the default scheme.
    t8code compiles one source, src/t8_schemes/t8_default/t8_default_tri/t8_dtri_bits.c, twice: once for triangles and once,
    with the macro T8_DTRI_TO_DTET defined (t8_dtri_to_dtet.h:39-57), for tetrahedra.  The boolean [tet] plays the role of that
    macro.  File names without a path below are t8_dtri_bits.c; "tab" abbreviates t8_dtri_connectivity.c / t8_dtet_connectivity.c.

    Simplifications: int8/int32/uint64 are Z (the theorems show that all values stay inside the C ranges for elements of the
    tree); a triangle has a z coordinate that is never read; a table look-up outside a table, which would be undefined
    behaviour, yields the value -1; in-place aliasing of input and output element is not modelled. *)
From Verif Require Import Prelude.

(** t8_dtri.h:68-74 struct t8_dtri, t8_dtet.h:70-81 struct t8_dtet (sz unused for triangles). *)
Record simp := Simp { lv : Z; ty : Z; sx : Z; sy : Z; sz : Z }.

(** t8_dtri.h:47, t8_dtet.h:48 *)
Definition MAXLEVEL (tet : bool) : Z := if tet then 21 else 29.
(** T8_DTRI_DIM, T8_DTET_DIM: t8_dtri_connectivity.h / t8_dtet_connectivity.h *)
Definition DIM (tet : bool) : Z := if tet then 3 else 2.
(** t8_dtri.h:35,38,41,44,56 and t8_dtet.h:35,38,41,44,57 *)
Definition CHILDREN (tet : bool) : Z := if tet then 8 else 4.
Definition FACES (tet : bool) : Z := if tet then 4 else 3.
Definition FACE_CHILDREN (tet : bool) : Z := if tet then 4 else 2.
Definition CORNERS (tet : bool) : Z := if tet then 4 else 3.
Definition NUM_TYPES (tet : bool) : Z := if tet then 6 else 2.
(** t8_dtri.h:53, t8_dtet.h:54 : 1 << (MAXLEVEL - l) *)
Definition LEN (tet : bool) (l : Z) : Z := Z.shiftl 1 (MAXLEVEL tet - l).
(** t8_dtri.h:50, t8_dtet.h:51 *)
Definition ROOT_LEN (tet : bool) : Z := Z.shiftl 1 (MAXLEVEL tet).

Definition tab1 (t : list Z) (i : Z) : Z := if i <? 0 then -1 else znth (-1) t i.
Definition tab2 (t : list (list Z)) (i j : Z) : Z := if i <? 0 then -1 else tab1 (znth [] t i) j.
Definition tab3 (t : list (list (list Z))) (i j k : Z) : Z := if i <? 0 then -1 else tab2 (znth [] t i) j k.

(** tab tri:26-30, tet:26-34 *)
Definition cid_type_to_parenttype (tet : bool) : Z -> Z -> Z := tab2 (if tet
  then [[0;1;2;3;4;5];[0;1;1;1;0;0];[2;2;2;3;3;3];[1;1;2;2;2;1];[5;5;4;4;4;5];[0;0;0;5;5;5];[4;3;3;3;4;4];[0;1;2;3;4;5]]
  else [[0;1];[0;0];[1;1];[0;1]]).
(** tab tri:34-36, tet:38-45 *)
Definition type_of_child (tet : bool) : Z -> Z -> Z := tab2 (if tet
  then [[0;0;0;0;4;5;2;1];[1;1;1;1;3;2;5;0];[2;2;2;2;0;1;4;3];[3;3;3;3;5;4;1;2];[4;4;4;4;2;3;0;5];[5;5;5;5;1;0;3;4]]
  else [[0;0;0;1];[1;1;1;0]]).
(** tab tri:40-42, tet:49-55 *)
Definition type_of_child_morton (tet : bool) : Z -> Z -> Z := tab2 (if tet
  then [[0;0;4;5;0;1;2;0];[1;1;2;3;0;1;5;1];[2;0;1;2;2;3;4;2];[3;3;4;5;1;2;3;3];[4;2;3;4;0;4;5;4];[5;0;1;5;3;4;5;5]]
  else [[0;0;1;0];[1;0;1;1]]).
(** tab tri:46-48, tet:59-66 *)
Definition index_to_bey_number (tet : bool) : Z -> Z -> Z := tab2 (if tet
  then [[0;1;4;5;2;7;6;3];[0;1;5;4;7;2;6;3];[0;4;5;1;2;7;6;3];[0;1;5;4;6;7;2;3];[0;4;5;1;6;2;7;3];[0;5;4;1;6;7;2;3]]
  else [[0;1;3;2];[0;3;1;2]]).
(** tab tri:50, tet:68 *)
Definition beyid_to_vertex (tet : bool) : Z -> Z := tab1 (if tet then [0;1;2;3;1;1;2;2] else [0;1;2;1]).
(** tab tri:60-62, tet:72-79 *)
Definition type_cid_to_beyid (tet : bool) : Z -> Z -> Z := tab2 (if tet
  then [[0;1;4;7;5;2;6;3];[0;1;5;2;4;7;6;3];[0;5;1;2;4;6;7;3];[0;4;1;7;5;6;2;3];[0;4;5;6;1;7;2;3];[0;5;4;6;1;2;7;3]]
  else [[0;1;3;2];[0;3;1;2]]).
(** tab tri:66-68, tet:83-90 *)
Definition parenttype_beyid_to_Iloc (tet : bool) : Z -> Z -> Z := tab2 (if tet
  then [[0;1;4;7;2;3;6;5];[0;1;5;7;2;3;6;4];[0;3;4;7;1;2;6;5];[0;1;6;7;2;3;4;5];[0;3;5;7;1;2;4;6];[0;3;6;7;2;1;4;5]]
  else [[0;1;3;2];[0;2;3;1]]).
(** tab tri:70-72, tet:92-99 *)
Definition type_cid_to_Iloc (tet : bool) : Z -> Z -> Z := tab2 (if tet
  then [[0;1;1;4;1;4;4;7];[0;1;2;5;2;5;4;7];[0;2;3;4;1;6;5;7];[0;3;1;5;2;4;6;7];[0;2;2;6;3;5;5;7];[0;3;3;6;3;6;6;7]]
  else [[0;1;1;3];[0;2;2;3]]).
(** tab tri:74-76, tet:101-108 *)
Definition parenttype_Iloc_to_type (tet : bool) : Z -> Z -> Z := tab2 (if tet
  then [[0;0;4;5;0;1;2;0];[1;1;2;3;0;1;5;1];[2;0;1;2;2;3;4;2];[3;3;4;5;1;2;3;3];[4;2;3;4;0;4;5;4];[5;0;1;5;3;4;5;5]]
  else [[0;0;1;0];[1;0;1;1]]).
(** tab tri:78-80, tet:110-117 *)
Definition parenttype_Iloc_to_cid (tet : bool) : Z -> Z -> Z := tab2 (if tet
  then [[0;1;1;1;5;5;5;7];[0;1;1;1;3;3;3;7];[0;2;2;2;3;3;3;7];[0;2;2;2;6;6;6;7];[0;4;4;4;6;6;6;7];[0;4;4;4;5;5;5;7]]
  else [[0;1;1;3];[0;2;2;3]]).
(** tab tet:119-126 *)
Definition type_face_to_boundary : Z -> Z -> Z -> Z := tab3
  [[[1;0];[1;0];[2;0];[2;0]]; [[1;1];[-1;0];[-1;0];[-1;0]]; [[-1;0];[-1;0];[1;1];[-1;1]];
   [[-1;1];[-1;1];[-1;0];[-1;0]]; [[-1;0];[2;1];[-1;1];[-1;1]]; [[-1;1];[-1;1];[-1;1];[2;1]]].
(** tab tet:128-136 *)
Definition face_child_id_by_type : Z -> Z -> Z -> Z := tab3
  [[[1;4;5;7];[0;4;6;7];[0;1;2;7];[0;1;3;4]]; [[1;4;5;7];[0;5;6;7];[0;1;3;7];[0;1;2;5]];
   [[3;4;5;7];[0;4;6;7];[0;1;3;7];[0;2;3;4]]; [[1;5;6;7];[0;4;6;7];[0;1;3;7];[0;1;2;6]];
   [[3;5;6;7];[0;4;5;7];[0;1;3;7];[0;2;3;5]]; [[3;5;6;7];[0;4;6;7];[0;2;3;7];[0;1;3;6]]].
(** tab tet:138-145 *)
Definition parent_type_type_to_face : Z -> Z -> Z := tab2
  [[-1;0;2;-1;1;3];[0;-1;3;1;-1;2];[1;3;-1;0;2;-1];[-1;2;0;-1;3;1];[2;-1;1;3;-1;0];[3;1;-1;2;0;-1]].

(** the C expression (v & h) ? a : 0 *)
Definition bit_or0 (v h a : Z) : Z := if Z.land v h =? 0 then 0 else a.

(** 41-62 compute_cubeid *)
Definition compute_cubeid (tet : bool) (e : simp) (level : Z) : Z :=
  let h := LEN tet level in
  if level =? 0 then 0
  else
    let id := Z.lor (Z.lor 0 (bit_or0 (sx e) h 1)) (bit_or0 (sy e) h 2) in
    if tet then Z.lor id (bit_or0 (sz e) h 4) else id.

(** 85-89: the loop for (i = known_level; i > level; i--); n = number of remaining iterations *)
Fixpoint type_loop (tet : bool) (e : simp) (n : nat) (i type : Z) : Z :=
  match n with
  | O => type
  | S n' => type_loop tet e n' (i - 1) (cid_type_to_parenttype tet (compute_cubeid tet e i) type)
  end.
(** 69-91 compute_type_ext *)
Definition compute_type_ext (tet : bool) (e : simp) (level known_type known_level : Z) : Z :=
  if level =? known_level then known_type
  else if level =? 0 then 0
  else type_loop tet e (Z.to_nat (known_level - level)) known_level known_type.
(** 98-101 compute_type *)
Definition compute_type (tet : bool) (e : simp) (level : Z) : Z := compute_type_ext tet e level (ty e) (lv e).

(** 114-122 t8_dtri_equal, 1247-1255 t8_dtri_is_equal *)
Definition equal (tet : bool) (a b : simp) : bool :=
  (lv a =? lv b) && (ty a =? ty b) && (sx a =? sx b) && (sy a =? sy b) && (if tet then sz a =? sz b else true).

(** 1487-1492, the loop for (i = level; i > 0; i--) of t8_dtri_linear_id *)
Fixpoint linear_id_loop (tet : bool) (e : simp) (i : nat) (type exponent id : Z) : Z :=
  match i with
  | O => id
  | S i' =>
    let cid := compute_cubeid tet e (Z.of_nat i) in
    linear_id_loop tet e i' (cid_type_to_parenttype tet cid type) (exponent + DIM tet)
      (Z.lor id (Z.shiftl (type_cid_to_Iloc tet type cid) exponent))
  end.
(** 1464-1494 t8_dtri_linear_id *)
Definition linear_id (tet : bool) (e : simp) (level : Z) : Z :=
  if lv e <? level
  then linear_id_loop tet e (Z.to_nat (lv e)) (ty e) ((level - lv e) * DIM tet) 0
  else linear_id_loop tet e (Z.to_nat level) (compute_type tet e level) 0 0.

(** 125-142 t8_dtri_compare *)
Definition compare (tet : bool) (a b : simp) : Z :=
  let maxlvl := Z.max (lv a) (lv b) in
  let id1 := linear_id tet a maxlvl in
  let id2 := linear_id tet b maxlvl in
  if id1 =? id2 then lv a - lv b
  else if id1 <? id2 then -1 else 1.

(** v & ~h *)
Definition clear (v h : Z) : Z := Z.land v (Z.lnot h).

(** 145-163 t8_dtri_parent *)
Definition parent (tet : bool) (e : simp) : simp :=
  let h := LEN tet (lv e) in
  let cid := compute_cubeid tet e (lv e) in
  Simp (lv e - 1) (cid_type_to_parenttype tet cid (ty e))
       (clear (sx e) h) (clear (sy e) h) (if tet then clear (sz e) h else sz e).

(** 224-273: the elimination of possible types; [alive t] is possible_types[t] at the end *)
Definition ancestor_type_alive (delta_x delta_y delta_z type t : Z) : bool :=
  let diff_xy := delta_x - delta_y in
  let diff_xz := delta_x - delta_z in
  let diff_yz := delta_y - delta_z in
  let killed l := existsb (Z.eqb t) l in
  let k1 :=
    if 0 <? diff_xy then killed [2;3;4] else if diff_xy <? 0 then killed [0;1;5]
    else if (type =? 0) || (type =? 1) || (type =? 5) then killed [2;3;4] else killed [0;1;5] in
  let k2 :=
    if 0 <? diff_xz then killed [3;4;5] else if diff_xz <? 0 then killed [0;1;2]
    else if (type =? 0) || (type =? 1) || (type =? 2) then killed [3;4;5] else killed [0;1;2] in
  let k3 :=
    if 0 <? diff_yz then killed [0;4;5] else if diff_yz <? 0 then killed [1;2;3]
    else if (type =? 1) || (type =? 2) || (type =? 3) then killed [0;4;5] else killed [1;2;3] in
  negb (k1 || k2 || k3).
(** 278-287: the last surviving type wins; -1 if none (ancestor->type would stay uninitialised) *)
Definition ancestor_type_tet (delta_x delta_y delta_z type : Z) : Z :=
  fold_left (fun r i => if ancestor_type_alive delta_x delta_y delta_z type i then i else r) [0;1;2;3;4;5] (-1).
(** 200-212 *)
Definition ancestor_type_tri (delta_x delta_y type : Z) : Z :=
  let diff_xy := delta_x - delta_y in
  if 0 <? diff_xy then 0 else if diff_xy <? 0 then 1 else type.
(** 166-291 t8_dtri_ancestor *)
Definition ancestor (tet : bool) (e : simp) (level : Z) : simp :=
  let m := LEN tet level - 1 in
  let dx := Z.land (sx e) m in let dy := Z.land (sy e) m in let dz := Z.land (sz e) m in
  Simp level (if tet then ancestor_type_tet dx dy dz (ty e) else ancestor_type_tri dx dy (ty e))
       (clear (sx e) m) (clear (sy e) m) (if tet then clear (sz e) m else sz e).

(** coordinates as a triple; [add_at c i h] is coordinates[i] += h *)
Definition add_at (c : Z * Z * Z) (i h : Z) : Z * Z * Z :=
  match c with (x, y, z) =>
    if i =? 0 then (x + h, y, z) else if i =? 1 then (x, y + h, z) else if i =? 2 then (x, y, z + h) else c end.
(** 295-360 t8_dtri_compute_integer_coords *)
Definition compute_integer_coords (tet : bool) (e : simp) (vertex : Z) : Z * Z * Z :=
  let h := LEN tet (lv e) in
  let type := ty e in
  let c0 := (sx e, sy e, sz e) in
  if vertex =? 0 then c0
  else if tet then
    let ei := type / 2 in
    let ej := (ei + (if type mod 2 =? 0 then 2 else 1)) mod 3 in
    let c1 := add_at c0 ei h in
    if vertex =? 2 then add_at c1 ej h
    else if vertex =? 3 then add_at (add_at c1 ((ei + 1) mod 3) h) ((ei + 2) mod 3) h
    else c1
  else
    let ei := type in
    let c1 := add_at c0 ei h in
    if vertex =? 2 then add_at c1 (1 - ei) h else c1.

(** 550-588 t8_dtri_child *)
Definition child (tet : bool) (e : simp) (childid : Z) : simp :=
  let bey := index_to_bey_number tet (ty e) childid in
  let '(cx, cy, cz) :=
    if bey =? 0 then (sx e, sy e, sz e)
    else
      match compute_integer_coords tet e (beyid_to_vertex tet bey) with (tx, ty', tz) =>
        (Z.shiftr (sx e + tx) 1, Z.shiftr (sy e + ty') 1, if tet then Z.shiftr (sz e + tz) 1 else sz e) end in
  Simp (lv e + 1) (type_of_child tet (ty e) bey) cx cy cz.

(** 466-543 t8_dtri_compute_all_coords: coordinates[v] *)
Definition all_coords (tet : bool) (e : simp) (v : Z) : Z * Z * Z :=
  let h := LEN tet (lv e) in
  let c0 := (sx e, sy e, sz e) in
  let plus := (sx e + h, sy e + h, if tet then sz e + h else sz e) in
  if tet then
    let ei := ty e / 2 in
    let ej := (ei + (if ty e mod 2 =? 0 then 2 else 1)) mod 3 in
    if v =? 0 then c0 else if v =? 1 then add_at c0 ei h else if v =? 2 then add_at (add_at c0 ei h) ej h else plus
  else
    if v =? 0 then c0 else if v =? 1 then add_at c0 (ty e) h else plus.
(** 591-643 t8_dtri_childrenpv *)
Definition childrenpv (tet : bool) (e : simp) : list simp :=
  Simp (lv e + 1) (ty e) (sx e) (sy e) (sz e) ::
  map (fun i =>
    let bey := index_to_bey_number tet (ty e) i in
    match all_coords tet e (beyid_to_vertex tet bey) with (tx, ty', tz) =>
      Simp (lv e + 1) (type_of_child tet (ty e) bey)
        (Z.shiftr (sx e + tx) 1) (Z.shiftr (sy e + ty') 1) (if tet then Z.shiftr (sz e + tz) 1 else sz e) end)
    (zseq 1 (Z.to_nat (CHILDREN tet - 1))).

(** 681-687 t8_dtri_sibling *)
Definition sibling (tet : bool) (e : simp) (sibid : Z) : simp := child tet (parent tet e) sibid.

Definition coord_at (c : Z * Z * Z) (i : Z) : Z :=
  match c with (x, y, z) => if i =? 0 then x else if i =? 1 then y else if i =? 2 then z else -1 end.
Definition anchor (e : simp) : Z * Z * Z := (sx e, sy e, sz e).
Definition dsimp : simp := Simp 0 0 0 0 0.

(** 647-673 t8_dtri_is_familypv (triangles only); f is the array of 4 elements *)
Definition tri_is_familypv (f : list simp) : bool :=
  let f0 := znth dsimp f 0 in let f1 := znth dsimp f 1 in let f2 := znth dsimp f 2 in let f3 := znth dsimp f 3 in
  let level := lv f0 in
  if (level =? 0) || negb (level =? lv f1) || negb (level =? lv f2) || negb (level =? lv f3) then false
  else
    let type := ty f0 in
    if negb (ty f1 =? 0) && negb (ty f2 =? 1) && negb (ty f3 =? type) then false
    else if negb (sx f1 =? sx f2) || negb (sy f1 =? sy f2) then false
    else
      let dir1 := type in
      let inc := LEN false level in
      (coord_at (anchor f1) dir1 =? coord_at (anchor f0) dir1 + inc)
      && (coord_at (anchor f1) (1 - dir1) =? coord_at (anchor f0) (1 - dir1))
      && (sx f3 =? sx f0 + inc) && (sy f3 =? sy f0 + inc).

(** t8_default_tet/t8_dtet_bits.c:27-75 t8_dtet_is_familypv *)
Definition tet_is_familypv (f : list simp) : bool :=
  let g i := znth dsimp f i in
  let f0 := g 0 in
  let level := lv f0 in
  if (level =? 0) || existsb (fun i => negb (level =? lv (g i))) [1;2;3;4;5;6;7] then false
  else
    let type := ty f0 in
    if existsb (fun i => negb (ty (g i) =? type_of_child_morton true type i)) [1;2;3;4;5;6] then false
    else if existsb (fun ij => match ij with (i, j) =>
                negb (sx (g i) =? sx (g j)) || negb (sy (g i) =? sy (g j)) || negb (sz (g i) =? sz (g j)) end)
              [(1,2);(1,3);(4,5);(4,6)] then false
    else
      let dir1 := type / 2 in
      let dir2 := 2 - type mod 3 in
      let dir3 := ((type + 3) mod 6) / 2 in
      let inc := LEN true level in
      let c0 := coord_at (anchor f0) in let c1 := coord_at (anchor (g 1)) in let c2 := coord_at (anchor (g 4)) in
      (c1 dir1 =? c0 dir1 + inc) && (c1 dir2 =? c0 dir2) && (c1 dir3 =? c0 dir3)
      && (c2 dir1 =? c0 dir1 + inc) && (c2 dir2 =? c0 dir2 + inc) && (c2 dir3 =? c0 dir3)
      && (sx (g 7) =? sx f0 + inc) && (sy (g 7) =? sy f0 + inc) && (sz (g 7) =? sz f0 + inc).

(** t8_default_tri.cxx:187-197 / t8_default_tet.cxx:172-180 elements_are_family *)
Definition is_family (tet : bool) (f : list simp) : bool := if tet then tet_is_familypv f else tri_is_familypv f.

(** 692-764 t8_dtri_face_neighbour: (neighbour, face of the neighbour) *)
Definition face_neighbour (tet : bool) (e : simp) (face : Z) : simp * Z :=
  let level := lv e in
  let type_old := ty e in
  let c := anchor e in
  let h := LEN tet level in
  if negb tet then
    let ret := 2 - face in
    let type_new := 1 - type_old in
    let c' := if face =? 0 then add_at c type_old h
              else if face =? 2 then add_at c (1 - type_old) (- h) else c in
    (match c' with (x, y, z) => Simp level type_new x y z end, ret)
  else
    let type_new := type_old + 6 in
    if (face =? 1) || (face =? 2) then
      let sign := (if type_new mod 2 =? 0 then 1 else -1) * (if face mod 2 =? 0 then 1 else -1) in
      (match c with (x, y, z) => Simp level ((type_new + sign) mod 6) x y z end, face)
    else
      let '(c', type_new') :=
        if face =? 0 then (add_at c (type_old / 2) h, type_new + (if type_new mod 2 =? 0 then 4 else 2))
        else (add_at c (((type_new + 3) mod 6) / 2) (- h), type_new + (if type_new mod 2 =? 0 then 2 else 4)) in
      (match c' with (x, y, z) => Simp level (type_new' mod 6) x y z end, 3 - face).

(** libsc SC_LOG2_32: floor of log2, -1 for 0 *)
Definition log2_32 (v : Z) : Z := if v =? 0 then -1 else Z.log2 v.
(** 798-802 the while loop; fuel bounds the number of iterations *)
Fixpoint nca_loop (tet : bool) (a b : simp) (fuel : nat) (r_level t1 t2 : Z) : outcome Z :=
  if t1 =? t2 then Ok r_level
  else match fuel with
       | O => OutOfFuel
       | S f => let r := r_level - 1 in
                nca_loop tet a b f r (compute_type_ext tet a r t1 (r + 1)) (compute_type_ext tet b r t2 (r + 1))
       end.
(** 767-806 t8_dtri_nearest_common_ancestor *)
Definition nca (tet : bool) (a b : simp) : outcome simp :=
  let exclor := Z.lor (Z.lxor (sx a) (sx b)) (Z.lxor (sy a) (sy b)) in
  let maxclor := if tet then Z.lor exclor (Z.lxor (sz a) (sz b)) else exclor in
  let maxlevel := log2_32 maxclor + 1 in
  let c_level := Z.min (MAXLEVEL tet - maxlevel) (Z.min (lv a) (lv b)) in
  do r <- nca_loop tet a b (Z.to_nat c_level) c_level (compute_type tet a c_level) (compute_type tet b c_level);
  Ok (ancestor tet a r).

(** 832-843 the child ids at a face *)
Definition child_ids_at_face (tet : bool) (e : simp) (face : Z) : list Z :=
  if tet then map (face_child_id_by_type (ty e) face) [0;1;2;3]
  else [ (if face =? 0 then 1 + ty e else 0); (if face =? 2 then 1 + ty e else 3) ].
(** 818-852 t8_dtri_children_at_face *)
Definition children_at_face (tet : bool) (e : simp) (face : Z) : list simp :=
  map (child tet e) (child_ids_at_face tet e face).

(** 863-899 t8_dtri_tree_face *)
Definition tree_face (tet : bool) (e : simp) (face : Z) : Z :=
  if tet then tab1 [face; 0; 1; -1; 2; 3] (ty e) else face.
(** 910-948 t8_dtri_root_face_to_face *)
Definition root_face_to_face (tet : bool) (e : simp) (root_face : Z) : Z :=
  if tet then tab1 [root_face; 0; 2; -1; 1; 3] (ty e) else root_face.
(** 958-991 t8_dtri_face_child_face *)
Definition face_child_face (tet : bool) (e : simp) (face face_child : Z) : Z :=
  if tet then
    if (face =? 1) || (face =? 2) then
      let face_type := type_face_to_boundary (ty e) face 1 in
      if ((face_type =? 0) && (face_child =? 2)) || ((face_type =? 1) && (face_child =? 1))
      then Z.lxor face 3 else face
    else face
  else face.
(** 994-1062 t8_dtri_face_parent_face *)
Definition face_parent_face (tet : bool) (e : simp) (face : Z) : Z :=
  if lv e =? 0 then face
  else
    let cid := compute_cubeid tet e (lv e) in
    let parent_type := cid_type_to_parenttype tet cid (ty e) in
    let child_id := type_cid_to_beyid tet (ty e) cid in
    if tet then
      if (parent_type =? ty e) && negb (face =? child_id) then face
      else if parent_type_type_to_face parent_type (ty e) =? face then
        (if (face =? 1) || (face =? 2) then Z.lxor face 3 else face)
      else -1
    else if negb (parent_type =? ty e) then -1
    else if negb (face =? child_id) then face else -1.

(** 1067-1143 t8_dtri_transform_face (triangles only) *)
Definition transform_face (e : simp) (orientation : Z) (sign is_smaller_face : bool) : simp :=
  let h := LEN false (lv e) in
  let t1 := if sign then Simp (lv e) (ty e) (sx e) (if ty e =? 0 then sx e - sy e else sx e - sy e - h) (sz e) else e in
  let orientation := if negb is_smaller_face && negb (orientation =? 0) && negb sign then 3 - orientation else orientation in
  let x := sx t1 in
  if orientation =? 0 then t1
  else if orientation =? 1 then
    Simp (lv e) (ty e) (ROOT_LEN false - h - sy t1) (if ty t1 =? 0 then x - sy t1 else x - sy t1 - h) (sz e)
  else
    Simp (lv e) (ty e) (if ty t1 =? 0 then ROOT_LEN false - h + sy t1 - x else ROOT_LEN false + sy t1 - x)
         (ROOT_LEN false - h - x) (sz e).

(** 1147-1183 t8_dtri_is_inside_root (release build) *)
Definition is_inside_root (tet : bool) (e : simp) : bool :=
  let x := sx e in let y := sy e in let z := sz e in
  if lv e =? 0 then (ty e =? 0) && (x =? 0) && (y =? 0) && (if tet then z =? 0 else true)
  else if tet then
    (0 <=? x) && (x <? ROOT_LEN tet) && (0 <=? y) && (0 <=? z) && (z - x <=? 0) && (y - z <=? 0)
    && (if z =? x then (0 <=? ty e) && (ty e <? 3) else true)
    && (if y =? z then (0 =? ty e) || (4 <=? ty e) else true)
    && (if (x =? y) && (y =? z) then ty e =? 0 else true)
  else
    (0 <=? x) && (x <? ROOT_LEN tet) && (0 <=? y) && (y - x <=? 0) && (if y =? x then ty e =? 0 else true).

(** 1186-1244 t8_dtri_is_root_boundary *)
Definition is_root_boundary (tet : bool) (e : simp) (face : Z) : bool :=
  let x := sx e in let y := sy e in let z := sz e in
  let last := ROOT_LEN tet - LEN tet (lv e) in
  if tet then
    if ty e =? 0 then
      if face =? 0 then x =? last else if face =? 1 then x =? z else if face =? 2 then y =? z else y =? 0
    else if ty e =? 1 then (face =? 0) && (x =? last)
    else if ty e =? 2 then (face =? 2) && (x =? z)
    else if ty e =? 4 then (face =? 1) && (y =? z)
    else if ty e =? 5 then (face =? 3) && (y =? 0)
    else false
  else
    if ty e =? 0 then if face =? 0 then x =? last else if face =? 1 then x =? y else y =? 0
    else false.

(** 1260-1291 t8_dtri_is_sibling *)
Definition is_sibling (tet : bool) (a b : simp) : bool :=
  if lv a =? 0 then
    (lv b =? 0) && (sx a =? sx b) && (sy a =? sy b) && (if tet then sz a =? sz b else true)
  else
    let h := LEN tet (lv a) in
    let cid1 := compute_cubeid tet a (lv a) in
    let cid2 := compute_cubeid tet b (lv b) in
    (lv a =? lv b) && (clear (Z.lxor (sx a) (sx b)) h =? 0) && (clear (Z.lxor (sy a) (sy b)) h =? 0)
    && (if tet then clear (Z.lxor (sz a) (sz b)) h =? 0 else true)
    && (cid_type_to_parenttype tet cid1 (ty a) =? cid_type_to_parenttype tet cid2 (ty b)).

(** 1294-1305 t8_dtri_is_parent *)
Definition is_parent (tet : bool) (e c : simp) : bool :=
  let h := LEN tet (lv c) in
  let cid := compute_cubeid tet c (lv c) in
  (lv e + 1 =? lv c) && (sx e =? clear (sx c) h) && (sy e =? clear (sy c) h)
  && (if tet then sz e =? clear (sz c) h else true)
  && (ty e =? cid_type_to_parenttype tet cid (ty c)).

(** 1308-1383 t8_dtri_is_ancestor *)
Definition is_ancestor (tet : bool) (e c : simp) : bool :=
  if lv c <? lv e then false
  else if lv e =? lv c then equal tet e c
  else
    let s := MAXLEVEL tet - lv e in
    let dx := sx c - sx e in let dy := sy c - sy e in let dz := sz c - sz e in
    if (Z.shiftr (Z.lxor (sx e) (sx c)) s =? 0) && (Z.shiftr (Z.lxor (sy e) (sy c)) s =? 0)
       && (if tet then Z.shiftr (Z.lxor (sz e) (sz c)) s =? 0 else true)
    then
      let t := ty e in
      if tet then
        let n1 := if t / 2 =? 0 then dx else if t / 2 =? 2 then dz else dy in
        let n2 := if (t + 1) / 2 =? 2 then dx else if (t + 1) / 2 =? 1 then dz else dy in
        let dir3 := if t mod 3 =? 2 then dx else if t mod 3 =? 0 then dz else dy in
        let sign := if t mod 2 =? 0 then 1 else -1 in
        let t6 := t + 6 in
        negb ((LEN tet (lv e) <=? n1) || (n2 <? 0) || (0 <? dir3 - n1) || (0 <? n2 - dir3)
          || ((dir3 =? n2) && ((ty c =? (t6 + sign * 1) mod 6) || (ty c =? (t6 + sign * 2) mod 6) || (ty c =? (t6 + sign * 3) mod 6)))
          || ((dir3 =? n1) && ((ty c =? (t6 - sign * 1) mod 6) || (ty c =? (t6 - sign * 2) mod 6) || (ty c =? (t6 - sign * 3) mod 6)))
          || ((dir3 =? n2) && (n2 =? n1) && negb (t6 - 6 =? ty c)))
      else
        let n1 := if t =? 0 then dx else dy in
        let n2 := if t =? 0 then dy else dx in
        negb ((LEN tet (lv e) <=? n1) || (n2 <? 0) || (0 <? n2 - n1) || ((n2 =? n1) && (ty c =? 1 - t)))
    else false.

(** 1396-1414 t8_dtri_linear_id_last_desc *)
Definition linear_id_last_desc (tet : bool) (e : simp) (level : Z) : Z :=
  let t_id := linear_id tet e (lv e) in
  let exponent := level - lv e in
  Z.lor (Z.shiftl 1 (DIM tet * exponent) - 1) (Z.shiftl t_id (DIM tet * exponent)).
(** 1453-1457 the loop *)
Fixpoint corner_loop (tet : bool) (child_id : Z) (n : nat) (it id : Z) : Z :=
  match n with
  | O => id
  | S n' => corner_loop tet child_id n' (it + 1) (Z.lor id (Z.shiftl child_id (DIM tet * it)))
  end.
(** 1418-1461 t8_dtri_linear_id_corner_desc *)
Definition linear_id_corner_desc (tet : bool) (e : simp) (corner level : Z) : Z :=
  if corner =? 0 then linear_id tet e level
  else if corner =? DIM tet then linear_id_last_desc tet e level
  else
    let child_id := parenttype_beyid_to_Iloc tet (ty e) corner in
    let t_id := linear_id tet e (lv e) in
    Z.lor (corner_loop tet child_id (Z.to_nat (level - lv e)) 0 0) (Z.shiftl t_id (DIM tet * (level - lv e))).

(** v | (b ? 1 << o : 0) *)
Definition or_bit (v cid mask o : Z) : Z := Z.lor v (if Z.land cid mask =? 0 then 0 else Z.shiftl 1 o).
(** 1549-1562 the loop for (i = 1; i <= level; i++), n iterations remaining; element and type are the loop state *)
Fixpoint init_loop (tet : bool) (id level : Z) (n : nat) (i : Z) (type x y z : Z) : simp :=
  match n with
  | O => Simp level type x y z
  | S n' =>
    let offset_coords := MAXLEVEL tet - i in
    let offset_index := level - i in
    let local_index := Z.land (Z.shiftr id (DIM tet * offset_index)) (CHILDREN tet - 1) in
    let cid := parenttype_Iloc_to_cid tet type local_index in
    let type' := parenttype_Iloc_to_type tet type local_index in
    init_loop tet id level n' (i + 1) type' (or_bit x cid 1 offset_coords) (or_bit y cid 2 offset_coords)
      (if tet then or_bit z cid 4 offset_coords else z)
  end.
(** 1532-1564 t8_dtri_init_linear_id *)
Definition init_linear_id (tet : bool) (id level : Z) : simp := init_loop tet id level (Z.to_nat level) 1 0 0 0 0.
(** 1497-1529 t8_dtri_init_linear_id_with_level (used by pyramids): continue an element of level start_level-1..; the loop
    starts at start_level with the type of the parent and the bits already set in the element *)
Definition init_linear_id_with_level (tet : bool) (e : simp) (id start_level end_level parenttype : Z) : simp :=
  init_loop tet id end_level (Z.to_nat (end_level - start_level + 1)) start_level parenttype (sx e) (sy e) (sz e).

(** 1567-1576 t8_dtri_init_root *)
Definition init_root : simp := Simp 0 0 0 0 0.

(** (cid & mask) ? v | 1 << o : v & ~(1 << o) *)
Definition set_bit (v cid mask o : Z) : Z :=
  if Z.land cid mask =? 0 then clear v (Z.shiftl 1 o) else Z.lor v (Z.shiftl 1 o).
(** 1583-1622 t8_dtri_succ_pred_recursion; s is the in/out element; level 0 violates the assertion of line 1592 *)
Fixpoint succ_pred_recursion (tet : bool) (e s : simp) (level : nat) (increment : Z) : outcome simp :=
  match level with
  | O => AssertFail
  | S level' =>
    if increment =? 0 then Ok e
    else
      let l := Z.of_nat level in
      let cid := compute_cubeid tet e l in
      let type_level := compute_type tet e l in
      let local_index := (type_cid_to_Iloc tet type_level cid + CHILDREN tet + increment) mod CHILDREN tet in
      do sp <- (if local_index =? 0
                then do s' <- succ_pred_recursion tet e s level' (if increment <? 0 then -1 else 1); Ok (s', ty s')
                else Ok (s, cid_type_to_parenttype tet cid type_level));
      match sp with (s', type_p1) =>
        let type' := parenttype_Iloc_to_type tet type_p1 local_index in
        let cid' := parenttype_Iloc_to_cid tet type_p1 local_index in
        let o := MAXLEVEL tet - l in
        Ok (Simp l type' (set_bit (sx s') cid' 1 o) (set_bit (sy s') cid' 2 o)
                 (if tet then set_bit (sz s') cid' 4 o else sz s'))
      end
  end.
(** 1625-1629 t8_dtri_successor *)
Definition successor (tet : bool) (e : simp) (level : Z) : outcome simp := succ_pred_recursion tet e e (Z.to_nat level) 1.
(** 1686-1690 t8_dtri_predecessor *)
Definition predecessor (tet : bool) (e : simp) (level : Z) : outcome simp := succ_pred_recursion tet e e (Z.to_nat level) (-1).

(** 1632-1641 t8_dtri_first_descendant *)
Definition first_descendant (tet : bool) (e : simp) (level : Z) : simp := init_linear_id tet (linear_id tet e level) level.
(** 1644-1653 t8_dtri_last_descendant *)
Definition last_descendant (tet : bool) (e : simp) (level : Z) : simp :=
  init_linear_id tet (linear_id_last_desc tet e level) level.
(** 1656-1683 t8_dtri_corner_descendant *)
Definition corner_descendant (tet : bool) (e : simp) (corner level : Z) : simp :=
  if corner =? 0 then first_descendant tet e level
  else if corner =? DIM tet then last_descendant tet e level
  else init_linear_id tet (linear_id_corner_desc tet e corner level) level.

(** 1693-1704 t8_dtri_ancestor_id *)
Definition ancestor_id (tet : bool) (e : simp) (level : Z) : Z :=
  type_cid_to_Iloc tet (compute_type tet e level) (compute_cubeid tet e level).
(** 1707-1710 t8_dtri_child_id *)
Definition child_id (tet : bool) (e : simp) : Z := type_cid_to_Iloc tet (ty e) (compute_cubeid tet e (lv e)).

(** 1719-1742 t8_dtri_is_valid *)
Definition is_valid (tet : bool) (e : simp) : bool :=
  let max_coord := 2 * ROOT_LEN tet - 1 in
  let inr v := (- ROOT_LEN tet <=? v) && (v <=? max_coord) in
  (0 <=? lv e) && (lv e <=? MAXLEVEL tet) && inr (sx e) && inr (sy e) && (if tet then inr (sz e) else true)
  && (0 <=? ty e) && (ty e <? NUM_TYPES tet).

(** t8_default_common.hxx:82-86 count_leaves_from_level, 280-286 element_count_leaves, 323-331 count_leaves_from_root.
    1ULL << n is converted to the signed t8_gloidx_t (a shift by 64 or more bits does not occur). *)
Definition count_leaves_from_level (element_level refinement_level dimension : Z) : Z :=
  i64 (if refinement_level <? element_level then 0 else Z.shiftl 1 (dimension * (refinement_level - element_level))).
Definition element_count_leaves (tet : bool) (e : simp) (level : Z) : Z := count_leaves_from_level (lv e) level (DIM tet).
Definition count_leaves_from_root (tet : bool) (level : Z) : Z := count_leaves_from_level 0 level (DIM tet).
(** t8_default_common.hxx:201-226 element_is_ancestor (the scheme-level query) *)
Definition element_is_ancestor (tet : bool) (a b : simp) : bool :=
  if lv b <? lv a then false else linear_id tet a (lv a) =? linear_id tet b (lv a).

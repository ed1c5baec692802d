(** Model of the hypercubes of the standalone scheme: vertices, lines, quadrilaterals and hexahedra, with one implementation for all of them.
    Cited lines are those of src/t8_schemes/t8_standalone/t8_standalone_implementation.hxx unless stated otherwise.
    Simplifications: uint8/int32/uint64 are Z except where a conversion to 64 bits is written; in-place aliasing is not modelled; T8_ASSERTs
    are preconditions of the theorems.  The loops over the dimensions are over the array of coordinates, whose length is the dimension. *)
From Verif Require Import Prelude SimplexModel.

(** the template argument TEclass, of the four classes that are implemented (t8_standalone.cxx:33-39).  PQuad and PHex are no classes of the
    standalone scheme: they are quadrilaterals and hexahedra with the coordinates and the maximum levels of the default scheme, to which
    the functions of the default scheme are compared (CubeModel.v). *)
Inductive hclass := HVertex | HLine | HQuad | HHex | PQuad | PHex.
(** t8_standalone_elements.hxx:38 T8_ELEMENT_DIM *)
Definition hdim (c : hclass) : nat := match c with HVertex => 0 | HLine => 1 | HQuad | PQuad => 2 | HHex | PHex => 3 end.
(** t8_standalone_elements.hxx:46 T8_ELEMENT_MAXLEVEL: the maximum level, and the logarithm of the length of the root.  They are the same
    in the standalone scheme.  In the default scheme they are P4EST_QMAXLEVEL and P4EST_MAXLEVEL (t8_default_quad.cxx:44-48), and
    P8EST_OLD_QMAXLEVEL and P8EST_MAXLEVEL (t8_default_hex.cxx:29-30,43-47). *)
Definition hmax (c : hclass) : Z := match c with HVertex => 254 | HLine => 30 | HQuad => 30 | HHex => 21 | PQuad => 29 | PHex => 18 end.
Definition hbits (c : hclass) : Z := match c with PQuad | PHex => 30 | _ => hmax c end.
(** t8_standalone_elements.hxx:52 T8_ELEMENT_NUM_CHILDREN, 55 T8_ELEMENT_NUM_CORNERS, 58 T8_ELEMENT_NUM_FACES *)
Definition hchildren (c : hclass) : Z := match c with HVertex => 1 | HLine => 2 | HQuad | PQuad => 4 | HHex | PHex => 8 end.
Definition hcorners (c : hclass) : Z := match c with HVertex => 1 | HLine => 2 | HQuad | PQuad => 4 | HHex | PHex => 8 end.
Definition hfaces (c : hclass) : Z := match c with HVertex => 0 | HLine => 2 | HQuad | PQuad => 4 | HHex | PHex => 6 end.
(** t8_standalone_elements.hxx:89-95 struct t8_standalone_element *)
Record hcube := Cube { hl : Z; hx : list Z }.

(** a loop over the coordinates that computes a new coordinate from the old one and its index *)
Fixpoint imap (f : Z -> Z -> Z) (k : Z) (l : list Z) : list Z := match l with [] => [] | x :: l' => f k x :: imap f (k + 1) l' end.

(** 1688-1692 element_get_len.  The shift count is larger than the 31 bits of an int for vertices of small level (see DESIGN.md, F29);
    vertices have no coordinates, so that the value is not used *)
Definition h_len (c : hclass) (level : Z) : Z := Z.shiftl 1 (hbits c - level).
(** 1836-1845 get_root_len *)
Definition h_root_len (c : hclass) : Z := match c with HVertex => 0 | _ => Z.shiftl 1 (hbits c) end.
(** 331-342 set_to_root *)
Definition h_root (c : hclass) : hcube := Cube 0 (repeat 0 (hdim c)).
(** 294-312 element_is_equal *)
Fixpoint coords_equal (a b : list Z) : bool := match a, b with x :: a', y :: b' => (x =? y) && coords_equal a' b' | _, _ => true end.
Definition h_equal (a b : hcube) : bool := (hl a =? hl b) && coords_equal (hx a) (hx b).
(** 1808-1814 set_coords_at_level_to_zero, 356-377 element_get_parent *)
Definition h_parent (c : hclass) (e : hcube) : hcube := Cube (hl e - 1) (map (fun x => clear x (h_len c (hl e))) (hx e)).
(** 1688-1692 element_get_len, with the shift of an int by more than 30 as undefined behaviour ([Oob]); 356-377 element_get_parent and
    434-463 element_get_child with it: they compute the length also if there are no coordinates *)
Definition h_len_o (c : hclass) (level : Z) : outcome Z := if hbits c - level <? 31 then Ok (h_len c level) else Oob.
Definition h_parent_o (c : hclass) (e : hcube) : outcome hcube :=
  do length <- h_len_o c (hl e); Ok (Cube (hl e - 1) (map (fun x => clear x length) (hx e))).
Definition h_child_o (c : hclass) (e : hcube) (childid : Z) : outcome hcube :=
  do length <- h_len_o c (hl e + 1); Ok (Cube (hl e + 1) (imap (fun k x => x + (if Z.land childid (Z.shiftl 1 k) =? 0 then 0 else length)) 0 (hx e))).
(** 386-402 element_get_num_siblings *)
Definition h_num_siblings (c : hclass) (e : hcube) : Z := if hl e =? 0 then 1 else hchildren c.
(** 1823-1830 put_cube_id_at_level, 434-463 element_get_child *)
Definition h_child (c : hclass) (e : hcube) (childid : Z) : hcube :=
  Cube (hl e + 1) (imap (fun k x => x + (if Z.land childid (Z.shiftl 1 k) =? 0 then 0 else h_len c (hl e + 1))) 0 (hx e)).
(** 511-525 element_get_children, from the last to the first *)
Definition h_children (c : hclass) (e : hcube) : list hcube := map (h_child c e) (zseq 0 (Z.to_nat (hchildren c))).
(** 1698-1714 compute_cubeid *)
Fixpoint cube_bits (h k id : Z) (l : list Z) : Z :=
  match l with [] => id | x :: l' => cube_bits h (k + 1) (Z.lor id (if Z.land x h =? 0 then 0 else Z.shiftl 1 k)) l' end.
Definition h_cubeid (c : hclass) (e : hcube) (level : Z) : Z := if level =? 0 then 0 else cube_bits (h_len c level) 0 0 (hx e).
(** 532-550 element_get_child_id *)
Definition h_child_id (c : hclass) (e : hcube) : Z := if hl e =? 0 then -1 else h_cubeid c e (hl e).
(** 1788-1795 element_cut_coordinates, 1722-1744 element_get_ancestor *)
Definition h_ancestor (c : hclass) (e : hcube) (level : Z) : hcube :=
  if hl e =? level then e else Cube level (map (fun x => Z.shiftl (Z.shiftr x (hbits c - level)) (hbits c - level)) (hx e)).
(** 559-570 element_get_ancestor_id *)
Definition h_ancestor_id (c : hclass) (e : hcube) (level : Z) : Z := h_child_id c (h_ancestor c e level).
(** 620-654 element_is_ancestor *)
Definition h_is_ancestor (c : hclass) (a b : hcube) : bool := if hl b <? hl a then false else h_equal (h_ancestor c b (hl a)) a.
(** 1773-1780 number_of_leading_zeros, 1751-1766 element_get_cube_nca_level *)
Fixpoint xor_bits (m : Z) (a b : list Z) : Z := match a, b with x :: a', y :: b' => xor_bits (Z.lor m (Z.lxor x y)) a' b' | _, _ => m end.
Definition h_leading_zeros (c : hclass) (v : Z) : Z := hbits c - (log2_32 v + 1).
Definition h_nca_level (c : hclass) (a b : hcube) : Z := Z.min (h_leading_zeros c (xor_bits 0 (hx a) (hx b))) (Z.min (hl a) (hl b)).
(** 669-690 element_get_nca *)
Definition h_nca (c : hclass) (a b : hcube) : hcube := h_ancestor c a (h_nca_level c a b).
(** 697-713 element_get_first_descendant, 721-743 element_get_last_descendant *)
Definition h_first_descendant (c : hclass) (e : hcube) (level : Z) : hcube := Cube level (hx e).
Definition h_last_descendant (c : hclass) (e : hcube) (level : Z) : hcube :=
  Cube level (map (fun x => Z.lor x (h_len c (hl e) - h_len c level)) (hx e)).

(** 1853-1861 num_descendants_at_leveldiff: 1LL << n as an unsigned 64 bit number; 1307-1318 element_count_leaves, 1328-1336
    count_leaves_from_root: as a signed one *)
Definition h_num_descendants (c : hclass) (leveldiff : Z) : Z := u64 (Z.shiftl 1 (Z.of_nat (hdim c) * leveldiff)).
Definition h_count_leaves (c : hclass) (e : hcube) (level : Z) : Z := if level <? hl e then 0 else i64 (h_num_descendants c (level - hl e)).
Definition h_count_root (c : hclass) (level : Z) : Z := i64 (Z.shiftl 1 (level * Z.of_nat (hdim c))).

(** 1251-1258 the for loop: the descendants of the children number from .. from+n-1 *)
Fixpoint h_sum_children (c : hclass) (p : hcube) (level : Z) (n : nat) (from : Z) : Z :=
  match n with O => 0 | S n' => u64 (u64 (h_count_leaves c (h_child c p from) level) + h_sum_children c p level n' (from + 1)) end.
(** 1246-1260 the while loop; fuel is the level of the element *)
Fixpoint h_linear_loop (c : hclass) (level : Z) (fuel : nat) (anc : hcube) (id : Z) : outcome Z :=
  if hl anc =? 0 then Ok id
  else match fuel with
  | O => OutOfFuel
  | S f => let p := h_parent c anc in h_linear_loop c level f p (u64 (id + h_sum_children c p level (Z.to_nat (h_child_id c anc)) 0))
  end.
(** 1226-1263 element_get_linear_id *)
Definition h_linear_id_o (c : hclass) (e : hcube) (level : Z) : outcome Z :=
  let start := if level <? hl e then h_ancestor c e level else e in h_linear_loop c level (Z.to_nat (hl start)) start 0.
Definition h_linear_id (c : hclass) (e : hcube) (level : Z) : Z := match h_linear_id_o c e level with Ok z => z | _ => -1 end.

(** 1190-1206 the do-while loop: (the child number, the descendants of the children before it); fuel is the number of children, beyond which
    the assertion of line 1194 fails *)
Fixpoint h_find_child (c : hclass) (e : hcube) (level id : Z) (fuel : nat) (index until : Z) : outcome (Z * Z) :=
  match fuel with
  | O => AssertFail
  | S f => let until' := u64 (until + u64 (h_count_leaves c (h_child c e index) level)) in
           if until' <=? id then h_find_child c e level id f (index + 1) until' else Ok (index, until)
  end.
(** 1180-1212 the while loop; fuel is the number of levels *)
Fixpoint h_set_loop (c : hclass) (level : Z) (fuel : nat) (e : hcube) (id : Z) : outcome hcube :=
  if negb (hl e <? level) then Ok e
  else if id =? 0 then Ok (h_first_descendant c e level)
  else match fuel with
  | O => OutOfFuel
  | S f => do r <- h_find_child c e level id (Z.to_nat (hchildren c)) 0 0; h_set_loop c level f (h_child c e (fst r)) (id - snd r)
  end.
(** 1165-1215 element_set_linear_id *)
Definition h_set_linear_id (c : hclass) (level id : Z) : outcome hcube :=
  if level =? 0 then Ok (h_root c) else h_set_loop c level (Z.to_nat level) (h_root c) id.

(** 1269-1296 element_construct_successor; the recursion ends with the assertion of line 368 at the root, if there is no successor *)
Fixpoint h_successor_rec (c : hclass) (fuel : nat) (e : hcube) : outcome hcube :=
  match fuel with
  | O => AssertFail
  | S f => if h_child_id c e =? h_num_siblings c e - 1
           then (do s <- h_successor_rec c f (h_parent c e); Ok (h_child c s 0))
           else Ok (h_child c (h_parent c e) (h_child_id c e + 1))
  end.
Definition h_successor (c : hclass) (e : hcube) : outcome hcube := h_successor_rec c (Z.to_nat (hl e)) e.

(** 1346-1368 element_compare *)
Definition h_compare (c : hclass) (a b : hcube) : Z :=
  let m := Z.max (hl a) (hl b) in
  let i := h_linear_id c a m in let j := h_linear_id c b m in
  if i =? j then (if hl a =? hl b then 0 else hl a - hl b) else if i <? j then -1 else 1.
(** 579-612 elements_are_family; the assertion of line 367 (level > 0) of element_get_parent fails for the root *)
Definition cube0 : hcube := Cube 0 [].
Fixpoint h_family_loop (c : hclass) (fam : list hcube) (p : hcube) (n : nat) (i : Z) : outcome bool :=
  match n with
  | O => Ok true
  | S n' => let f := znth cube0 fam i in
            if hl f <=? 0 then AssertFail
            else if negb (h_compare c p (h_parent c f) =? 0) then Ok false
            else if negb (h_compare c f (h_child c p i) =? 0) then Ok false
            else h_family_loop c fam p n' (i + 1)
  end.
Definition h_is_family (c : hclass) (fam : list hcube) : outcome bool :=
  if hl (znth cube0 fam 0) <=? 0 then AssertFail
  else h_family_loop c fam (h_parent c (znth cube0 fam 0)) (Z.to_nat (hchildren c)) 0.

(** ** faces *)
(** 2119-2126 get_hypercube_face_corner_index *)
Definition h_corner_index (face_dim face_sign corner : Z) : Z :=
  Z.shiftl (Z.shiftr corner face_dim) (face_dim + 1) + Z.shiftl face_sign face_dim + Z.land corner (Z.shiftl 1 face_dim - 1).
(** 210-219 element_get_face_corner *)
Definition h_face_corner (face corner : Z) : Z := h_corner_index (face / 2) (face mod 2) corner.
(** 233-240 element_get_corner_face *)
Definition h_corner_face (corner face : Z) : Z := Z.land (Z.shiftr corner face) 1 + 2 * face.
(** 752-759 element_get_num_face_children *)
Definition h_num_face_children (c : hclass) : Z := match c with HVertex => 0 | _ => Z.shiftl 1 (Z.of_nat (hdim c) - 1) end.
(** 775-799 element_get_children_at_face *)
Definition h_child_ids_at_face (c : hclass) (face : Z) : list Z :=
  map (h_corner_index (face / 2) (face mod 2)) (zseq 0 (Z.to_nat (h_num_face_children c))).
Definition h_children_at_face (c : hclass) (e : hcube) (face : Z) : list hcube := map (h_child c e) (h_child_ids_at_face c face).
(** 819-824 element_face_get_child_face *)
Definition h_face_child_face (face face_child : Z) : Z := face.
(** 836-857 element_face_get_parent_face *)
Definition h_face_parent_face (c : hclass) (e : hcube) (face : Z) : Z :=
  if hl e =? 0 then -1
  else if negb (face mod 2 =? Z.rem (Z.shiftr (znth 0 (hx e) (face / 2)) (hbits c - hl e)) 2) then -1 else face.
(** 867-893 element_get_first_descendant_face *)
Definition h_first_descendant_face (c : hclass) (e : hcube) (face level : Z) : hcube :=
  Cube level (if face mod 2 =? 0 then hx e else imap (fun k x => if k =? face / 2 then x + (h_len c (hl e) - h_len c level) else x) 0 (hx e)).
(** 902-924 element_get_last_descendant_face *)
Definition h_last_descendant_face (c : hclass) (e : hcube) (face level : Z) : hcube :=
  Cube level (imap (fun k x => x + (if k =? face / 2 then face mod 2 else 1) * (h_len c (hl e) - h_len c level)) 0 (hx e)).
(** 933-983 element_is_root_boundary *)
Definition h_is_root_boundary (c : hclass) (e : hcube) (face : Z) : bool :=
  let x := znth 0 (hx e) (face / 2) in
  if negb (face mod 2 =? 0) then x =? h_root_len c - h_len c (hl e) else x =? 0.
(** 992-998 element_get_tree_face *)
Definition h_tree_face (face : Z) : Z := face.
(** 1889-1904 element_is_inside_root *)
Definition h_is_inside_root (c : hclass) (e : hcube) : bool := forallb (fun x => x =? 0) (hx (h_ancestor c e 0)).
(** 1015-1043 element_get_face_neighbor_inside: (neighbour, dual face), and whether the neighbour is inside of the root *)
Definition h_face_neighbour (c : hclass) (e : hcube) (face : Z) : hcube * Z :=
  (Cube (hl e) (imap (fun k x => if k =? face / 2 then x + h_len c (hl e) * (if face mod 2 =? 0 then -1 else 1) else x) 0 (hx e)), Z.lxor face 1).
Definition h_face_neighbor_inside (c : hclass) (e : hcube) (face : Z) : option hcube * Z :=
  let (n, g) := h_face_neighbour c e face in ((if h_is_inside_root c n then Some n else None), g).

(** 1981-2000 get_face_eclass *)
Definition h_face_class (c : hclass) : hclass := match c with HHex => HQuad | PHex => PQuad | HQuad | PQuad => HLine | _ => HVertex end.
(** 2136-2158 get_facedim *)
Definition h_facedim (idim root_face : Z) : Z := if idim =? root_face / 2 then -1 else if root_face / 2 <? idim then idim - 1 else idim.
(** 2011-2050 compute_boundary_face, 1129-1154 element_get_boundary_face: the coordinates of the face are written in order *)
Fixpoint boundary_coords (sh k root_face : Z) (l : list Z) : list Z :=
  match l with
  | [] => []
  | x :: l' => (if h_facedim k root_face =? -1 then [] else [Z.shiftl x sh]) ++ boundary_coords sh (k + 1) root_face l'
  end.
Definition h_boundary_face (c : hclass) (e : hcube) (face : Z) : hcube :=
  Cube (hl e) (boundary_coords (hbits (h_face_class c) - hbits c) 0 (h_tree_face face) (hx e)).
(** 2064-2110 extrude_face, 1090-1119 element_extrude_face: (element, face) *)
Definition h_extrude_face (c : hclass) (f : hcube) (root_face : Z) : hcube * Z :=
  (Cube (hl f) (map (fun k => let d := h_facedim k root_face in
     if negb (d =? -1) then Z.shiftr (znth 0 (hx f) d) (hbits (h_face_class c) - hbits c)
     else if negb (root_face mod 2 =? 0) then h_root_len c - h_len c (hl f) else 0) (zseq 0 (hdim c))), root_face).
(** 2184-2192, 2213-2234, 2254-2332 element_transform_face; there is none for hexahedra, which are no faces *)
Definition h_transform_face (c : hclass) (e : hcube) (orientation : Z) (sign is_smaller : bool) : outcome hcube :=
  match c with
  | HVertex => Ok e
  | HLine => Ok (if orientation =? 0 then e else Cube (hl e) [Z.shiftl 1 (hbits HLine) - Z.shiftl 1 (hbits HLine - hl e) - znth 0 (hx e) 0])
  | HQuad | PQuad =>
      let x0 := znth 0 (hx e) 0 in let y0 := znth 0 (hx e) 1 in
      let x := if sign then y0 else x0 in let y := if sign then x0 else y0 in
      let o := if negb is_smaller && ((orientation =? 1) || (orientation =? 2)) && negb sign then 3 - orientation else orientation in
      let R := h_root_len c in let h := h_len c (hl e) in
      if o =? 0 then Ok (Cube (hl e) [x; y])
      else if o =? 1 then Ok (Cube (hl e) [R - y - h; x])
      else if o =? 2 then Ok (Cube (hl e) [y; R - x - h])
      else if o =? 3 then Ok (Cube (hl e) [R - x - h; R - y - h])
      else AssertFail
  | HHex | PHex => AssertFail
  end.
(** 1869-1883 element_compute_coords *)
Definition h_coords (c : hclass) (e : hcube) (vertex : Z) : list Z :=
  imap (fun k x => x + Z.shiftr (Z.land vertex (Z.shiftl 1 k)) k * h_len c (hl e)) 0 (hx e).
(** 1545-1562 element_is_valid *)
Definition h_is_valid (c : hclass) (e : hcube) : bool :=
  (0 <=? hl e) && (hl e <=? hmax c) && forallb (fun x => (- h_root_len c <=? x) && (x <=? 2 * h_root_len c - 1)) (hx e).

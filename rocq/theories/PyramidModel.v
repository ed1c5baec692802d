(** Model of the elements of pyramid trees of the default scheme.  A pyramid is refined into six pyramids (of type 6, pointing up, or 7,
    pointing down) and four tetrahedra (of type 0 or 3); a tetrahedron is refined into eight tetrahedra, as in a tetrahedron tree.
    Cited lines are those of src/t8_schemes/t8_default/t8_default_pyramid/t8_dpyramid_bits.c unless stated otherwise; "tab" abbreviates
    t8_dpyramid_connectivity.c.
    Simplifications: int8/int32/uint64 are Z (a pyramid tree has 2 * 8^21 - 6^21 < 2^64 elements of level 21, so that no sum of the id
    loops wraps); a table look-up outside a table, which would be undefined behaviour, yields the value -1; in-place aliasing of input
    and output element is modelled only in the recursion of the successor; T8_ASSERTs are preconditions of the theorems unless the
    function returns an [outcome].  Reference coordinates, which are doubles, are not modelled. *)
From Verif Require Import Prelude SimplexModel.

(** t8_dpyramid.h:36-82: T8_DPYRAMID_MAXLEVEL, ROOT_LEN, LEN, ROOT_TYPE, FIRST_TYPE, SECOND_TYPE; T8_DPYRAMID_CHILDREN, FACES *)
Definition YMAX : Z := 21.
Definition YROOT : Z := Z.shiftl 1 YMAX.
Definition YLEN (l : Z) : Z := Z.shiftl 1 (YMAX - l).
Definition FIRST_TYPE : Z := 6.
Definition SECOND_TYPE : Z := 7.
Definition ROOT_TYPE : Z := 6.
(** t8_dpyramid.h:97-101 struct t8_dpyramid: the struct of a tetrahedron and switch_shape_at_level, the level of the coarsest ancestor in
    the shape of a tetrahedron, or -1 *)
Record pyr := Pyr { yt : simp; ysw : Z }.
Definition ylv (p : pyr) : Z := lv (yt p).
Definition yty (p : pyr) : Z := ty (yt p).
Definition yx (p : pyr) : Z := sx (yt p).
Definition yy (p : pyr) : Z := sy (yt p).
Definition yz (p : pyr) : Z := sz (yt p).
(** assignments to one member *)
Definition set_lv (p : pyr) (l : Z) : pyr := Pyr (Simp l (yty p) (yx p) (yy p) (yz p)) (ysw p).
Definition set_ty (p : pyr) (t : Z) : pyr := Pyr (Simp (ylv p) t (yx p) (yy p) (yz p)) (ysw p).
Definition set_sw (p : pyr) (s : Z) : pyr := Pyr (yt p) s.
(** t8_default_pyramid.cxx:448-458 set_to_root *)
Definition y_root : pyr := Pyr (Simp 0 ROOT_TYPE 0 0 0) (-1).

(** tab 29-38 t8_dpyramid_parenttype_Iloc_to_type *)
Definition y_Iloc_to_type : Z -> Z -> Z := tab2
  [[0;0;4;5;0;1;2;0;-1;-1]; [1;1;2;3;0;1;5;1;-1;-1]; [2;0;1;2;2;3;4;2;-1;-1]; [3;3;4;5;1;2;3;3;-1;-1];
   [4;2;3;4;0;4;5;4;-1;-1]; [5;0;1;5;3;4;5;5;-1;-1]; [6;3;6;0;6;0;3;6;7;6]; [7;0;3;6;7;3;7;0;7;7]].
(** tab 41-49 t8_dpyramid_parenttype_Iloc_to_cid *)
Definition y_Iloc_to_cid : Z -> Z -> Z := tab2
  [[0;1;1;1;5;5;5;7;-1;-1]; [0;1;1;1;3;3;3;7;-1;-1]; [0;2;2;2;3;3;3;7;-1;-1]; [0;2;2;2;6;6;6;7;-1;-1];
   [0;4;4;4;6;6;6;7;-1;-1]; [0;4;4;4;5;5;5;7;-1;-1]; [0;1;1;2;2;3;3;3;3;7]; [0;4;4;4;4;5;5;6;6;7]].
(** tab 53-61 t8_dpyramid_type_cid_to_Iloc *)
Definition y_type_cid_to_Iloc : Z -> Z -> Z := tab2
  [[0;1;3;5;1;4;7;7]; [0;1;2;5;2;5;4;7]; [0;2;3;4;1;6;5;7]; [0;1;1;6;2;5;6;7];
   [0;2;2;6;3;5;5;7]; [0;3;3;6;3;6;6;7]; [0;2;4;7;3;-1;-1;9]; [0;-1;-1;8;4;6;8;9]].
(** tab 65-73 t8_dpyramid_cid_type_to_parenttype *)
Definition y_cid_type_to_parenttype : Z -> Z -> Z := tab2
  [[0;1;2;3;4;5;6;7]; [0;1;1;1;0;0;6;-1]; [2;2;2;3;3;3;6;-1]; [1;1;2;2;2;1;6;6];
   [5;5;4;4;4;5;7;7]; [0;0;0;5;5;5;-1;7]; [4;3;3;3;4;4;-1;7]; [0;1;2;3;4;5;6;7]].
(** tab 81-83 t8_dpyramid_type_cid_to_parenttype, the row of type t is t - 6 *)
Definition y_type_cid_to_parenttype : Z -> Z -> Z := tab2 [[6;6;6;6;7;-1;-1;6]; [7;-1;-1;6;7;7;7;7]].
(** tab 97-99 t8_dpyramid_parenttype_iloc_pyra_w_lower_id *)
Definition y_pyra_w_lower_id : Z -> Z -> Z := tab2 [[0;1;1;2;2;3;3;3;4;5]; [0;1;1;1;2;3;3;4;4;5]].
(** tab 101-103 t8_dpyramid_type_face_to_nface *)
Definition y_type_face_to_nface : Z -> Z -> Z := tab2 [[2;3;2;3;4]; [1;0;1;0;4]].
(** tab 105-109 t8_dpyramid_face_childid_to_is_inside *)
Definition y_face_childid_to_is_inside : Z -> Z -> Z := tab2
  [[-1;0;0;0;-1;-1;-1;-1]; [0;-1;0;0;-1;-1;-1;-1]; [0;0;-1;0;-1;-1;-1;-1]; [0;0;0;-1;-1;-1;-1;-1]].
(** tab 111-113 t8_dpyramid_type_face_to_children_at_face *)
Definition y_children_at_face_ids : Z -> Z -> Z -> Z := tab3
  [[[0;3;4;9]; [2;5;7;9]; [0;1;2;9]; [4;6;7;9]; [0;2;4;7]]; [[0;7;8;9]; [0;1;4;6]; [0;5;6;9]; [0;2;4;8]; [4;6;8;9]]].
(** tab 115-117 t8_dpyramid_type_face_to_child_face *)
Definition y_type_face_to_child_face : Z -> Z -> Z -> Z := tab3
  [[[0;1;0;0]; [1;0;1;1]; [2;1;2;2]; [3;0;3;3]; [4;4;4;4]]; [[0;2;0;0]; [1;3;1;1]; [2;2;2;2]; [3;3;3;3]; [4;4;4;4]]].
(** tab 131-146 t8_dpyramid_face_corner *)
Definition y_face_corner_tab : Z -> Z -> Z -> Z := tab3
  [[[0;2;4;-1]; [1;3;4;-1]; [0;1;4;-1]; [2;3;4;-1]; [0;1;2;3]]; [[2;3;4;-1]; [0;1;4;-1]; [1;3;4;-1]; [0;2;4;-1]; [0;1;2;3]]].

(** 1440-1451 t8_dpyramid_shape: true for a pyramid, false for a tetrahedron *)
Definition is_pyra (p : pyr) : bool := negb (yty p <? FIRST_TYPE).
(** 1068-1078 num_corners, 1080-1090 num_children, 1092-1103 num_siblings, 1105-1115 num_faces *)
Definition y_num_corners (p : pyr) : Z := if is_pyra p then 5 else 4.
Definition y_num_children (p : pyr) : Z := if is_pyra p then 10 else 8.
Definition y_num_siblings (p : pyr) : Z := if is_pyra p || (ysw p =? ylv p) then 10 else 8.
Definition y_num_faces (p : pyr) : Z := if is_pyra p then 5 else 4.

(** 33-50 compute_cubeid (the same computation as for tetrahedra) *)
Definition y_cubeid (p : pyr) (level : Z) : Z :=
  let h := YLEN level in
  if level =? 0 then 0 else Z.lor (Z.lor (bit_or0 (yx p) h 1) (bit_or0 (yy p) h 2)) (bit_or0 (yz p) h 4).
(** 80-83: the loop, n iterations left *)
Fixpoint y_type_loop (p : pyr) (n : nat) (i type : Z) : Z :=
  match n with O => type | S n' => y_type_loop p n' (i - 1) (y_cid_type_to_parenttype (y_cubeid p i) type) end.
(** 63-85 compute_type_same_shape_ext *)
Definition y_type_ext (p : pyr) (level known_type known_level : Z) : Z :=
  if level =? known_level then known_type
  else if level =? 0 then ROOT_TYPE
  else y_type_loop p (Z.to_nat (known_level - level)) known_level known_type.
(** 95-100 compute_type_same_shape *)
Definition y_type_same (p : pyr) (level : Z) : Z := y_type_ext p level (yty p) (ylv p).
(** 107-114 t8_dpyramid_cut_coordinates *)
Definition cutc (v shift : Z) : Z := Z.shiftl (Z.shiftr v shift) shift.
Definition y_cut (p : pyr) (shift : Z) : pyr :=
  Pyr (Simp (ylv p) (yty p) (cutc (yx p) shift) (cutc (yy p) shift) (cutc (yz p) shift)) (ysw p).

(** 123-163 t8_dpyramid_is_inside_pyra: the type of the pyramid with anchor (cx, cy, cz) and level cl that contains the tetrahedron, or 0 *)
Definition y_is_inside_pyra (t : pyr) (cx cy cz cl : Z) : Z :=
  let length := YLEN cl in
  let diff := yz t - cz in
  if (cx + diff <=? yx t) && (yx t <? cx + length) && ((cy + diff <=? yy t) && (yy t <? cy + length)) && ((cz <=? yz t) && (yz t <? cz + length))
  then if ((cx + diff =? yx t) && ((yty t =? 3) || (yty t =? 1))) || ((cy + diff =? yy t) && ((yty t =? 0) || (yty t =? 2)))
       then 0 else FIRST_TYPE
  else if (cx <=? yx t) && (yx t <=? cx + diff) && ((cy <=? yy t) && (yy t <=? cy + diff)) && ((cz <=? yz t) && (yz t <? cz + length))
  then if ((cx + diff =? yx t) && ((yty t =? 0) || (yty t =? 2))) || ((cy + diff =? yy t) && ((yty t =? 3) || (yty t =? 1)))
       then 0 else SECOND_TYPE
  else 0.
(** 184-200: the loop of is_inside_tet, n iterations left, i the level *)
Fixpoint y_inside_tet_loop (t : pyr) (n : nat) (i cx cy cz : Z) : Z :=
  match n with
  | O => 0
  | S n' =>
    let c := Z.shiftl 1 (YMAX - i) in
    let cx := Z.lor cx (Z.land (yx t) c) in let cy := Z.lor cy (Z.land (yy t) c) in let cz := Z.lor cz (Z.land (yz t) c) in
    if y_is_inside_pyra t cx cy cz i =? 0 then i else y_inside_tet_loop t n' (i + 1) cx cy cz
  end.
(** 173-203 t8_dpyramid_is_inside_tet (the ancestor argument is always NULL) *)
Definition y_is_inside_tet (t : pyr) (level : Z) : Z := y_inside_tet_loop t (Z.to_nat (level - 1)) 1 0 0 0.
(** 219-222: the while loop of compute_switch_shape_at_level: (level, type) of the finest ancestor of type 0 or 3; a level below 0 fails
    the assertion of compute_type_same_shape_ext *)
Fixpoint y_type_03_loop (t : pyr) (level : nat) (type : Z) : outcome (Z * Z) :=
  if (type =? 0) || (type =? 3) then Ok (Z.of_nat level, type)
  else match level with
       | O => AssertFail
       | S l => y_type_03_loop t l (y_type_ext t (Z.of_nat l) type (Z.of_nat l + 1))
       end.
(** 209-236 t8_dpyramid_compute_switch_shape_at_level *)
Definition y_compute_switch (t : pyr) : outcome Z :=
  do lt <- y_type_03_loop t (Z.to_nat (ylv t)) (yty t);
  let last := y_is_inside_tet (set_ty (set_lv t (fst lt)) (snd lt)) (fst lt) in
  Ok (if last =? 0 then fst lt else last).
(** 245-253 t8_dpyramid_set_switch_shape_at_level *)
Definition y_set_switch (p : pyr) : outcome pyr :=
  if is_pyra p then Ok (set_sw p (-1)) else (do s <- y_compute_switch p; Ok (set_sw p s)).

(** 693-703 t8_dpyramid_tetparent_type *)
Definition y_tetparent_type (p : pyr) : Z := if Z.shiftr (yz p) (YMAX - ylv p) mod 2 =? 0 then FIRST_TYPE else SECOND_TYPE.
(** 1403-1437 t8_dpyramid_parent *)
Definition y_parent (p : pyr) : pyr :=
  let length := YLEN (ylv p) in
  let up t := Pyr (Simp (ylv p - 1) t (clear (yx p) length) (clear (yy p) length) (clear (yz p) length)) (-1) in
  if is_pyra p then up (y_type_cid_to_parenttype (yty p - FIRST_TYPE) (y_cubeid p (ylv p)))
  else if ysw p =? ylv p then up (y_tetparent_type p)
  else Pyr (parent true (yt p)) (ysw p).
(** 1259-1278 t8_dpyramid_child_id *)
Definition y_child_id (p : pyr) : Z :=
  if is_pyra p || (ysw p =? ylv p)
  then if ylv p =? 0 then 0 else y_type_cid_to_Iloc (yty p) (y_cubeid p (ylv p))
  else child_id true (yt p).
(** 1280-1309 t8_dpyramid_child *)
Definition y_child (p : pyr) (i : Z) : pyr :=
  if is_pyra p then
    let cid := y_Iloc_to_cid (yty p) i in
    let length := YLEN (ylv p + 1) in
    let c := Simp (ylv p + 1) (y_Iloc_to_type (yty p) i)
               (yx p + if Z.land cid 1 =? 0 then 0 else length) (yy p + if Z.land cid 2 =? 0 then 0 else length)
               (yz p + if Z.land cid 4 =? 0 then 0 else length) in
    Pyr c (if ty c <? FIRST_TYPE then lv c else -1)
  else Pyr (child true (yt p) i) (ysw p).
(** 1311-1319 t8_dpyramid_children *)
Definition y_children (p : pyr) : list pyr := map (y_child p) (zseq 0 (Z.to_nat (y_num_children p))).

(** 1597-1621 t8_dpyramid_ancestor, with the function type_at_level it calls as an argument *)
Definition y_ancestor_with (type_at_level : pyr -> Z -> Z) (p : pyr) (level : Z) : pyr :=
  if ylv p =? level then p
  else if level =? ylv p - 1 then y_parent p
  else
    let a := set_ty (set_lv (y_cut p (YMAX - level)) level) (type_at_level p level) in
    if is_pyra a then set_sw a (-1) else a.
(** 513-539 t8_dpyramid_type_at_level, which calls ancestor and is called by it.  [n] bounds the depth; the value for n = 0 is no type.
    Depth two suffices, because the ancestor computed here is the one of level switch_shape_at_level, for which line 521 applies. *)
Fixpoint y_type_at_level_n (n : nat) (p : pyr) (level : Z) : Z :=
  match n with
  | O => -1
  | S n' =>
    if ylv p <=? level then yty p
    else if is_pyra p || (ysw p <=? level) then y_type_same p level
    else
      let a := y_parent (y_ancestor_with (y_type_at_level_n n') p (ysw p)) in
      if level =? ylv a then yty a else y_type_same a level
  end.
Definition y_type_at_level : pyr -> Z -> Z := y_type_at_level_n 2.
Definition y_ancestor : pyr -> Z -> pyr := y_ancestor_with y_type_at_level.
(** 256-263 t8_dpyramid_ancestor_id *)
Definition y_ancestor_id (p : pyr) (level : Z) : Z := y_child_id (y_ancestor p level).

(** 554-583: the loop of linear_id, i the level (counted down) *)
Fixpoint y_id_loop (copy : pyr) (i : nat) (sum_1 sum_2 id : Z) : Z :=
  match i with
  | O => id
  | S i' =>
    let pyra_shift := Z.shiftl sum_1 1 - sum_2 in
    let par := y_parent copy in
    let local_id := y_child_id copy in
    let num_pyra := if is_pyra par then y_pyra_w_lower_id (yty par - FIRST_TYPE) local_id else 0 in
    let num_tet := local_id - num_pyra in
    y_id_loop par i' (Z.shiftl sum_1 3) (sum_2 * 6) (id + (num_pyra * pyra_shift + num_tet * sum_1))
  end.
(** 541-587 t8_dpyramid_linear_id *)
Definition y_linear_id (p : pyr) (level : Z) : Z :=
  y_id_loop (y_cut (set_lv (set_ty p (y_type_at_level p level)) level) (YMAX - level)) (Z.to_nat level) 1 1 0.
(** 392-417 t8_dpyramid_compare *)
Definition y_compare (a b : pyr) : Z :=
  let maxlvl := Z.max (ylv a) (ylv b) in
  let id1 := y_linear_id a maxlvl in let id2 := y_linear_id b maxlvl in
  if id1 =? id2 then (if ylv a =? ylv b then 0 else ylv a - ylv b) else if id1 <? id2 then -1 else 1.
(** 385-390 t8_dpyramid_equal *)
Definition y_equal (a b : pyr) : bool := equal true (yt a) (yt b) && (ysw a =? ysw b).
(** t8_default_common.hxx:201-226 element_is_ancestor *)
Definition y_is_ancestor (a b : pyr) : bool :=
  if ylv b <? ylv a then false else y_linear_id a (ylv a) =? y_linear_id b (ylv a).

(** 445-452: the do-while loop of update_index, n children left, [remain] the last child looked at, [test] the elements up to and with it;
    result: the local index and the remaining id *)
Fixpoint y_update_loop (n : nat) (type pyra tet id remain test : Z) : outcome (Z * Z) :=
  match n with
  | O => AssertFail
  | S n' =>
    let shift := if FIRST_TYPE <=? y_Iloc_to_type type (remain + 1) then pyra else tet in
    if test + shift <=? id then y_update_loop n' type pyra tet id (remain + 1) (test + shift)
    else Ok (remain + 1, id - test)
  end.
(** 436-458 t8_dpyramid_update_index; local indices above 9 fail the assertion *)
Definition y_update_index (id type pyra tet : Z) : outcome (Z * Z) := y_update_loop 10 type pyra tet id (-1) 0.
(** 473-499: the loop of init_linear_id, n iterations left, i the level *)
Fixpoint y_init_loop (level : Z) (n : nat) (i type x y z p_sum1 p_sum2 id : Z) : outcome pyr :=
  match n with
  | O => if id =? 0 then Ok (Pyr (Simp level type x y z) (if type <? FIRST_TYPE then level else -1)) else AssertFail
  | S n' =>
    let off := YMAX - i in
    let p_sum1 := Z.shiftr p_sum1 3 in let p_sum2 := p_sum2 / 6 in
    if (type =? 0) || (type =? 3) then
      Ok (Pyr (init_linear_id_with_level true (Simp i type x y z) id i level type) (i - 1))
    else
      do ri <- y_update_index id type (2 * p_sum1 - p_sum2) p_sum1;
      let cid := y_Iloc_to_cid type (fst ri) in
      y_init_loop level n' (i + 1) (y_Iloc_to_type type (fst ri))
        (Z.lor x (if cid mod 2 =? 1 then Z.shiftl 1 off else 0))
        (Z.lor y (if (cid =? 2) || (cid =? 3) || (cid =? 6) || (cid =? 7) then Z.shiftl 1 off else 0))
        (Z.lor z (if 3 <? cid then Z.shiftl 1 off else 0)) p_sum1 p_sum2 (snd ri)
  end.
(** 460-511 t8_dpyramid_init_linear_id *)
Definition y_init_linear_id (level id : Z) : outcome pyr :=
  y_init_loop level (Z.to_nat level) 1 ROOT_TYPE 0 0 0 (Z.shiftl 1 (3 * level)) (6 ^ level) id.

(** 916-932 t8_dpyramid_first_descendant *)
Definition y_first_descendant (p : pyr) (level : Z) : outcome pyr :=
  if is_pyra p then Ok (set_sw (set_lv p level) (-1)) else y_init_linear_id level (y_linear_id p level).
(** 1006-1029 t8_dpyramid_last_descendant *)
Definition y_last_descendant (p : pyr) (level : Z) : outcome pyr :=
  if is_pyra p then
    let o := YLEN (ylv p) - YLEN level in
    Ok (Pyr (Simp level (yty p) (Z.lor (yx p) o) (Z.lor (yy p) o) (Z.lor (yz p) o)) (ysw p))
  else y_init_linear_id level (Z.shiftl 1 (3 * (level - ylv p)) - 1 + y_linear_id p level).

(** 1453-1482 t8_dpyramid_successor_recursion.  In the recursive calls the arguments elem and succ are the same object. *)
Fixpoint y_succ_rec (same : bool) (elem : pyr) (level : nat) : outcome pyr :=
  match level with
  | O => AssertFail
  | S l =>
    let lev := Z.of_nat level in
    let s := set_lv elem lev in
    let s := if lev <? ysw s then set_sw s (-1) else s in
    let elem := if same then s else elem in
    let cid := y_child_id elem in
    if cid =? y_num_siblings elem - 1 then (do r <- y_succ_rec true s l; Ok (y_cut (set_lv r lev) (YMAX - lev + 1)))
    else Ok (set_lv (y_child (y_parent s) (cid + 1)) lev)
  end.
(** 1484-1496 t8_dpyramid_successor *)
Definition y_successor (p : pyr) (level : Z) : outcome pyr := y_succ_rec false p (Z.to_nat level).

(** 265-327 t8_dpyramid_is_family *)
Definition dpyr : pyr := Pyr dsimp 0.
Definition y_is_family (f : list pyr) : bool :=
  let g i := znth dpyr f i in
  let f0 := g 0 in
  let level := ylv f0 in
  if is_pyra f0 then
    if level =? 0 then false
    else if negb (forallb (fun i => (ylv (g i) =? level) && (y_Iloc_to_type (yty f0) i =? yty (g i))) [1;2;3;4;5;6;7;8;9]) then false
    else
      let inc := YLEN level in let x_inc := yx f0 + inc in let y_inc := yy f0 + inc in
      if yty f0 =? FIRST_TYPE then
        forallb (fun i => yz f0 =? yz (g i)) [1;2;3;4;5;6;7;8] && (yz f0 =? yz (g 9) - inc)
        && forallb (fun i => yx f0 =? yx (g i)) [3;4] && forallb (fun i => x_inc =? yx (g i)) [1;2;5;6;7;8;9]
        && forallb (fun i => yy f0 =? yy (g i)) [1;2] && forallb (fun i => y_inc =? yy (g i)) [3;4;5;6;7;8;9]
      else
        (yz (g 1) =? yz f0 + inc) && forallb (fun i => yz (g 1) =? yz (g i)) [2;3;4;5;6;7;8;9]
        && forallb (fun i => yx f0 =? yx (g i)) [1;2;3;4;7;8] && forallb (fun i => x_inc =? yx (g i)) [5;6;9]
        && forallb (fun i => yy f0 =? yy (g i)) [1;2;3;4;5;6] && forallb (fun i => y_inc =? yy (g i)) [7;8;9]
  else tet_is_familypv (map (fun i => yt (g i)) [0;1;2;3;4;5;6;7]).

(** 1638-1645, 1683-1690: the level up to which two coordinates agree *)
Definition y_cube_level (a b : pyr) : Z :=
  let maxclor := Z.lor (Z.lor (Z.lxor (yx a) (yx b)) (Z.lxor (yy a) (yy b))) (Z.lxor (yz a) (yz b)) in
  Z.min (YMAX - (log2_32 maxclor + 1)) (Z.min (ylv a) (ylv b)).
(** 1671-1675: the while loop for two pyramids: (real_level, type) *)
Fixpoint y_nca_loop (a b : pyr) (level : nat) (t1 t2 : Z) : outcome (Z * Z) :=
  if t1 =? t2 then Ok (Z.of_nat level, t1)
  else match level with
       | O => AssertFail
       | S l => let r := Z.of_nat l in y_nca_loop a b l (y_type_ext a r t1 (r + 1)) (y_type_ext b r t2 (r + 1))
       end.
(** 1652-1686: the case of two elements in the shape of a pyramid *)
Definition y_nca_pyra (a b : pyr) : outcome pyr :=
  let cube_level := y_cube_level a b in
  do lt <- y_nca_loop a b (Z.to_nat cube_level) (y_type_same a cube_level) (y_type_same b cube_level);
  Ok (set_ty (y_cut (set_lv a (fst lt)) (YMAX - fst lt)) (snd lt)).
(** 1722-1727: the while loop for two tetrahedra: real_level *)
Fixpoint y_nca_tet_loop (a b : pyr) (level : nat) (t1 t2 : Z) : outcome Z :=
  let r := Z.of_nat level in
  if negb (t1 =? t2) && (ysw a <=? r) && (ysw b <=? r)
  then match level with
       | O => AssertFail
       | S l => let r := Z.of_nat l in y_nca_tet_loop a b l (y_type_ext a r t1 (r + 1)) (y_type_ext b r t2 (r + 1))
       end
  else Ok r.
(** 1687-1739: the case of two elements in the shape of a tetrahedron *)
Definition y_nca_tet (a b : pyr) : outcome pyr :=
  let cube_level := y_cube_level a b in
  do r <- y_nca_tet_loop a b (Z.to_nat cube_level) (yty (y_ancestor a cube_level)) (yty (y_ancestor b cube_level));
  if (r <? ysw a) || (r <? ysw b) then y_nca_pyra (y_ancestor a (ysw a - 1)) (y_ancestor b (ysw b - 1))
  else Ok (Pyr (ancestor true (yt a) r) (ysw a)).
(** 1623-1741 t8_dpyramid_nearest_common_ancestor; the recursive calls are made with two elements in the shape of a pyramid *)
Definition y_nca (a b : pyr) : outcome pyr :=
  match is_pyra a, is_pyra b with
  | true, false => y_nca_pyra a (y_ancestor b (ysw b - 1))
  | false, true => y_nca_pyra (y_ancestor a (ysw a - 1)) b
  | true, true => y_nca_pyra a b
  | false, false => y_nca_tet a b
  end.

(** 1498-1543 t8_dpyramid_compute_integer_coords *)
Definition y_integer_coords (p : pyr) (vertex : Z) : Z * Z * Z :=
  if is_pyra p then
    let h := YLEN (ylv p) in
    let up := if yty p =? SECOND_TYPE then h else 0 in
    if vertex =? 0 then (yx p, yy p, yz p + up)
    else if vertex =? 1 then (yx p + h, yy p, yz p + up)
    else if vertex =? 2 then (yx p, yy p + h, yz p + up)
    else if vertex =? 3 then (yx p + h, yy p + h, yz p + up)
    else if yty p =? FIRST_TYPE then (yx p + h, yy p + h, yz p + h) else (yx p, yy p, yz p)
  else compute_integer_coords true (yt p) vertex.
(** t8_default_pyramid.cxx:375-383 element_get_anchor *)
Definition y_get_anchor (p : pyr) : Z * Z * Z := (yx p, yy p, yz p).

(** 877-899 t8_dpyramid_is_inside_root *)
Definition y_is_inside_root (t : simp) : bool :=
  if lv t =? 0 then (ty t =? ROOT_TYPE) && (sx t =? 0) && (sy t =? 0) && (sz t =? 0)
  else if (0 <=? sz t) && (sz t <? YROOT) && (sz t <=? sx t) && (sx t <? YROOT) && (sz t <=? sy t) && (sy t <? YROOT) then
    if ((sx t =? sz t) && ((ty t =? 3) || (ty t =? 5))) || ((sy t =? sz t) && ((ty t =? 0) || (ty t =? 4))) then false else true
  else false.
(** 330-372 t8_dpyramid_is_root_boundary *)
Definition y_is_root_boundary (p : pyr) (face : Z) : bool :=
  let touch := YROOT - YLEN (ylv p) in
  if negb (y_is_inside_root (yt p)) then false
  else if yty p =? 0 then ((face =? 1) && (yx p =? yz p)) || ((face =? 0) && (yx p =? touch))
  else if yty p =? 1 then ((face =? 2) && (yy p =? yz p)) || ((face =? 0) && (yx p =? touch))
  else if yty p =? 2 then ((face =? 2) && (yx p =? yz p)) || ((face =? 0) && (yy p =? touch))
  else if yty p =? 3 then ((face =? 1) && (yy p =? yz p)) || ((face =? 0) && (yy p =? touch))
  else if yty p =? 6 then
    if face =? 0 then yx p =? yz p else if face =? 1 then yx p =? touch else if face =? 2 then yy p =? yz p
    else if face =? 3 then yy p =? touch else yz p =? 0
  else false.
(** 847-875 t8_dpyramid_tree_face *)
Definition y_tree_face (p : pyr) (face : Z) : Z :=
  if y_is_root_boundary p face then
    if is_pyra p then face
    else if (face =? 0) && ((yty p =? 3) || (yty p =? 2)) then 3
    else if (face =? 0) && ((yty p =? 0) || (yty p =? 1)) then 1
    else if ((face =? 1) && (yty p =? 3)) || ((face =? 2) && (yty p =? 1)) then 2
    else if ((face =? 1) && (yty p =? 0)) || ((face =? 2) && (yty p =? 2)) then 0
    else -1
  else -1.
(** 791-814 t8_dpyramid_tet_pyra_face_connection *)
Definition y_tet_pyra_face_connection (p : pyr) (face : Z) : bool :=
  let cid := y_cubeid p (ylv p) in
  if ((cid =? 2) && negb (face =? 1)) || ((cid =? 6) && negb (face =? 2)) then yty p =? 0
  else if ((cid =? 1) && negb (face =? 1)) || ((cid =? 5) && negb (face =? 2)) then yty p =? 3
  else if cid =? 3 then negb (face =? 0)
  else if cid =? 4 then negb (face =? 3)
  else false.
(** 834-842: the loop of tet_boundary, n iterations left *)
Fixpoint y_corner_loop (p : pyr) (face : Z) (n : nat) (i type : Z) : bool :=
  match n with
  | O => true
  | S n' =>
    let cid := y_cubeid p i in
    if y_face_childid_to_is_inside face (type_cid_to_beyid true type cid) =? -1 then false
    else y_corner_loop p face n' (i - 1) (cid_type_to_parenttype true cid type)
  end.
(** 816-845 t8_dpyramid_tet_boundary *)
Definition y_tet_boundary (p : pyr) (face : Z) : bool :=
  if ylv p =? ysw p then y_tet_pyra_face_connection p face
  else
    let a := y_ancestor p (ysw p) in
    if y_tet_pyra_face_connection a face then y_corner_loop p face (Z.to_nat (ylv p - ylv a)) (ylv p) (yty p) else false.
(** 593-687 t8_dpyramid_face_neighbour; switch_shape_at_level of the result is not set.  A face outside of 0 .. 3 of a tetrahedron aborts
    (not modelled: the last case is face 3). *)
Definition y_face_neighbour (p : pyr) (face : Z) : simp * Z :=
  let h := YLEN (ylv p) in
  let first := yty p =? FIRST_TYPE in
  if is_pyra p then
    let t := if (face =? 0) || (face =? 1) then 3 else if (face =? 2) || (face =? 3) then 0 else if first then SECOND_TYPE else FIRST_TYPE in
    let dx := if face =? 1 then (if first then h else 0) else if face =? 3 then (if first then 0 else - h) else 0 in
    let dy := if face =? 1 then (if first then 0 else - h) else if face =? 3 then (if first then h else 0) else 0 in
    let dz := if face =? 4 then (if first then - h else h) else 0 in
    (Simp (ylv p) t (yx p + dx) (yy p + dy) (yz p + dz), y_type_face_to_nface (yty p - FIRST_TYPE) face)
  else if negb (yty p =? 0) && negb (yty p =? 3) then face_neighbour true (yt p) face
  else if y_tet_boundary p face then
    if yty p =? 0 then
      if face =? 0 then (Simp (ylv p) SECOND_TYPE (yx p + h) (yy p) (yz p), 3)
      else if face =? 1 then (Simp (ylv p) SECOND_TYPE (yx p) (yy p) (yz p), 2)
      else if face =? 2 then (Simp (ylv p) FIRST_TYPE (yx p) (yy p) (yz p), 2)
      else (Simp (ylv p) FIRST_TYPE (yx p) (yy p - h) (yz p), 3)
    else
      if face =? 0 then (Simp (ylv p) SECOND_TYPE (yx p) (yy p + h) (yz p), 1)
      else if face =? 1 then (Simp (ylv p) SECOND_TYPE (yx p) (yy p) (yz p), 0)
      else if face =? 2 then (Simp (ylv p) FIRST_TYPE (yx p) (yy p) (yz p), 0)
      else (Simp (ylv p) FIRST_TYPE (yx p - h) (yy p) (yz p), 1)
  else face_neighbour true (yt p) face.
(** 902-914 t8_dpyramid_face_neighbor_inside: the neighbour, if it is inside of the root (otherwise 0 is returned and the object holds no
    element of the tree), and the dual face *)
Definition y_face_neighbor_inside (p : pyr) (face : Z) : outcome (option pyr * Z) :=
  let '(n, nf) := y_face_neighbour p face in
  if y_is_inside_root n then (do s <- y_set_switch (Pyr n 0); Ok (Some s, nf)) else Ok (None, nf).
(** 705-784 t8_dpyramid_face_parent_face *)
Definition y_face_parent_face (p : pyr) (face : Z) : Z :=
  if ylv p =? 0 then face
  else if is_pyra p then
    let par := y_parent p in
    if existsb (fun i => y_children_at_face_ids (yty par - FIRST_TYPE) face i =? y_child_id p) [0;1;2;3] then face else -1
  else if ysw p <? ylv p then face_parent_face true (yt p) face
  else
    let c := y_child_id p in let par := y_tetparent_type p in
    if (yty p =? 0) && (par =? FIRST_TYPE) then
      if (c =? 3) && (face =? 1) then 0 else if (c =? 5) && (face =? 0) then 1 else -1
    else if (yty p =? 3) && (par =? FIRST_TYPE) then
      if (c =? 1) && (face =? 1) then 2 else if (c =? 6) && (face =? 0) then 3 else -1
    else if (yty p =? 0) && (par =? SECOND_TYPE) then
      if (c =? 1) && (face =? 3) then 1 else if (c =? 7) && (face =? 2) then 0 else -1
    else if (yty p =? 3) && (par =? SECOND_TYPE) then
      if (c =? 2) && (face =? 3) then 3 else if (c =? 5) && (face =? 2) then 2 else -1
    else -1.
(** 1321-1357 t8_dpyramid_children_at_face: child ids and children *)
Definition y_child_ids_at_face (p : pyr) (face : Z) : list Z :=
  if is_pyra p then map (y_children_at_face_ids (yty p - FIRST_TYPE) face) [0;1;2;3] else child_ids_at_face true (yt p) face.
Definition y_children_at_face (p : pyr) (face : Z) : list pyr :=
  if is_pyra p then map (y_child p) (y_child_ids_at_face p face)
  else map (fun t => Pyr t (ysw p)) (children_at_face true (yt p) face).
(** 1359-1371 t8_dpyramid_face_child_face *)
Definition y_face_child_face (p : pyr) (face face_child : Z) : Z :=
  if is_pyra p then y_type_face_to_child_face (yty p - FIRST_TYPE) face face_child else face_child_face true (yt p) face face_child.
(** t8_dtet_connectivity.h:95 t8_dtet_face_corner, the tetrahedron row of t8_eclass.h:106; 1389-1400 t8_dpyramid_get_face_corner *)
Definition tet_face_corner : Z -> Z -> Z := tab2 [[1;2;3]; [0;2;3]; [0;1;3]; [0;1;2]].
Definition y_get_face_corner (p : pyr) (face corner : Z) : Z :=
  if is_pyra p then y_face_corner_tab (yty p - FIRST_TYPE) face corner else tet_face_corner face corner.

(** 941-965 t8_dpyramid_corner_descendant: [None] if nothing is written to the output element *)
Fixpoint y_child_chain (n : nat) (p : pyr) (i : Z) : pyr := match n with O => p | S n' => y_child_chain n' (y_child p i) i end.
Definition y_corner_descendant (p : pyr) (corner level : Z) : outcome (option pyr) :=
  if corner =? 0 then (do d <- y_first_descendant p level; Ok (Some d))
  else if (corner =? 1) || (corner =? 2) then
    let n := Z.to_nat (level - ylv p) in
    Ok (match n with O => None | _ => Some (y_child_chain n p (parenttype_beyid_to_Iloc true (yty p) corner)) end)
  else (do d <- y_last_descendant p level; Ok (Some d)).
(** 967-1004 t8_dpyramid_first_descendant_face *)
Definition y_first_descendant_face (p : pyr) (face level : Z) : outcome (option pyr) :=
  if negb (is_pyra p) then y_corner_descendant p (tet_face_corner face 0) level
  else if ylv p =? YMAX then Ok (Some p)
  else
    let first := yty p =? FIRST_TYPE in
    if (first && ((face =? 0) || (face =? 2) || (face =? 4))) || (negb first && negb (face =? 4))
    then Ok (Some (set_lv (y_child p 0) level))
    else
      let o := YLEN (ylv p) - YLEN level in
      Ok (Some (Pyr (Simp level (yty p) (if first && (face =? 1) then Z.lor (yx p) o else yx p)
        (if first && (face =? 3) then Z.lor (yy p) o else yy p) (if negb first && (face =? 4) then Z.lor (yz p) o else yz p)) (ysw p))).
(** 1031-1065 t8_dpyramid_last_descendant_face *)
Definition y_last_descendant_face (p : pyr) (face level : Z) : outcome (option pyr) :=
  if negb (is_pyra p) then y_corner_descendant p (Z.max (tet_face_corner face 1) (tet_face_corner face 2)) level
  else
    let first := yty p =? FIRST_TYPE in
    let o := YLEN (ylv p) - YLEN level in
    if (first && negb (face =? 4)) || (negb first && ((face =? 0) || (face =? 2) || (face =? 4)))
    then (do d <- y_last_descendant p level; Ok (Some d))
    else
      let d x y z := Ok (Some (Pyr (Simp level (yty p) (if x : bool then Z.lor (yx p) o else yx p) (if y : bool then Z.lor (yy p) o else yy p)
        (if z : bool then Z.lor (yz p) o else yz p)) (ysw p))) in
      if negb first && (face =? 1) then d true false true
      else if negb first && (face =? 3) then d false true true
      else if first && (face =? 4) then d true true false
      else d false false false.

(** 1745-1776 t8_dpyramid_is_valid *)
Definition y_is_valid (p : pyr) : bool :=
  let max_coord := 2 * YROOT - 1 in
  let inr v := (- YROOT <=? v) && (v <=? max_coord) in
  (0 <=? ylv p) && (ylv p <=? YMAX) && inr (yx p) && inr (yy p) && inr (yz p) && (0 <=? yty p) && (yty p <? 8)
  && (if ylv p =? 0 then yty p =? ROOT_TYPE else true)
  && (if is_pyra p then ysw p <? 0
      else (0 <? ysw p) && (ysw p <=? YMAX) && match y_compute_switch p with Ok s => ysw p =? s | _ => false end).

(** t8_default_pyramid.cxx:114-117 count_leaves_from_root: unsigned 64 bit, converted to the signed t8_gloidx_t *)
Definition y_count_root (level : Z) : Z := i64 (2 * 8 ^ level - 6 ^ level).
(** t8_default_pyramid.cxx:306-317 element_count_leaves: signed 64 bit arithmetic, taken to wrap *)
Definition y_count_leaves (p : pyr) (level : Z) : Z :=
  if is_pyra p then (let d := level - ylv p in if level <? ylv p then 0 else i64 (2 * 8 ^ d - 6 ^ d))
  else count_leaves_from_level (ylv p) level 3.

(** Packing elements, partition-for-coarsening messages and vectors into MPI message buffers.

    A message buffer is its list of bytes; its length is the [buffer_size] argument of the C functions.  MPI_Pack and
    MPI_Unpack are modelled as copying the bytes of the object, least significant byte first, to and from the buffer at
    the current position (as they do between processes of the same kind; data conversion between different machines is
    not modelled).  Running past the end of the buffer, an MPI error on which SC_CHECK_MPI aborts, is [Oob]. *)
From Verif Require Import Prelude SimplexModel LineModel.

(** ** Bytes *)

Definition byte_of (v : Z) (i : nat) : Z := (v / 256 ^ Z.of_nat i) mod 256.
(** The object representation of an integer object of [n] bytes that holds [v]. *)
Definition to_bytes (n : nat) (v : Z) : list Z := map (byte_of v) (seq 0 n).
Fixpoint from_bytes (l : list Z) : Z := match l with [] => 0 | b :: r => b + 256 * from_bytes r end.
(** Interpretation of an [n]-byte pattern as a signed integer. *)
Definition as_signed (n : nat) (u : Z) : Z := if u <? 2 ^ (8 * Z.of_nat n - 1) then u else u - 2 ^ (8 * Z.of_nat n).

(** The MPI data types that occur: sc_MPI_INT8_T, sc_MPI_INT and T8_MPI_GLOIDX (src/t8.h:117, long long). *)
Inductive ctype := MPI_INT8 | MPI_INT | MPI_GLOIDX.
Definition tsize (t : ctype) : nat := match t with MPI_INT8 => 1 | MPI_INT => 4 | MPI_GLOIDX => 8 end.

(** sc_MPI_Pack_size (1, t, comm, &size). *)
Definition mpi_pack_size (t : ctype) : Z := Z.of_nat (tsize t).

(** sc_MPI_Pack (&v, 1, t, buffer, buffer_size, &pos, comm): the buffer and position afterwards. *)
Definition mpi_pack (t : ctype) (v : Z) (st : list Z * Z) : outcome (list Z * Z) :=
  let '(buf, pos) := st in
  if (pos <? 0) || (zlen buf <? pos + mpi_pack_size t) then Oob
  else Ok (firstn (Z.to_nat pos) buf ++ to_bytes (tsize t) v ++ skipn (Z.to_nat pos + tsize t) buf,
           pos + mpi_pack_size t).

(** sc_MPI_Unpack (buffer, buffer_size, &pos, &v, 1, t, comm): the byte pattern read, as an unsigned number, and the
    position afterwards. *)
Definition mpi_unpack (t : ctype) (buf : list Z) (pos : Z) : outcome (Z * Z) :=
  if (pos <? 0) || (zlen buf <? pos + mpi_pack_size t) then Oob
  else Ok (from_bytes (firstn (tsize t) (skipn (Z.to_nat pos) buf)), pos + mpi_pack_size t).

(** The same with a signed or an unsigned destination object. *)
Definition unpack_signed (t : ctype) (buf : list Z) (pos : Z) : outcome (Z * Z) :=
  do r <- mpi_unpack t buf pos; Ok (as_signed (tsize t) (fst r), snd r).
Definition unpack_unsigned (t : ctype) (buf : list Z) (pos : Z) : outcome (Z * Z) := mpi_unpack t buf pos.

(** ** Element structures not defined in the other model files *)

(** p4est_quadrant_t restricted to the members that define a quadrilateral, and the standalone quadrilateral
    (t8_standalone_elements.hxx:92-99). *)
Record quad := Quad { qx : Z; qy : Z; qlevel : Z }.
(** p8est_quadrant_t, and the standalone hexahedron. *)
Record hexa := Hex { hx : Z; hy : Z; hz : Z; hlevel : Z }.
(** t8_dprism_t (t8_dprism.h:66-72): a line and a triangle. *)
Record prism := Prism { pline : dline; ptri : simp }.
(** t8_dpyramid_t (t8_dpyramid.h:74-82): a tetrahedron structure and the level at which the shape switches. *)
Record pyra := Pyra { ptet : simp; pswitch : Z }.

(** One element of any class, t8_element_t. *)
Inductive element :=
| EVertex (level : Z) | ELine (l : dline) | EQuad (q : quad) | ETri (t : simp) | EHex (h : hexa) | ETet (t : simp)
| EPrism (p : prism) | EPyra (p : pyra).

(** t8_eclass_t of an element (t8_eclass.h:44-64). *)
Definition class_of (e : element) : Z :=
  match e with EVertex _ => 0 | ELine _ => 1 | EQuad _ => 2 | ETri _ => 3 | EHex _ => 4 | ETet _ => 5 | EPrism _ => 6
  | EPyra _ => 7 end.

(** ** One iteration of the packing loops *)

(** t8_default_vertex.cxx:379-382. *)
Definition vertex_pack (level : Z) (st : list Z * Z) : outcome (list Z * Z) := mpi_pack MPI_INT8 level st.
(** t8_default_vertex.cxx:407-410; the level is a uint8_t. *)
Definition vertex_unpack (buf : list Z) (pos : Z) (old : Z) : outcome (Z * Z) := unpack_unsigned MPI_INT8 buf pos.

(** t8_default_line.cxx:454-459. *)
Definition line_pack (l : dline) (st : list Z * Z) : outcome (list Z * Z) :=
  do s1 <- mpi_pack MPI_INT (lx l) st; mpi_pack MPI_INT8 (ll l) s1.
(** t8_default_line.cxx:487-492. *)
Definition line_unpack (buf : list Z) (pos : Z) (old : dline) : outcome (dline * Z) :=
  do x <- unpack_signed MPI_INT buf pos;
  let l1 := Line (ll old) (fst x) in
  do v <- unpack_signed MPI_INT8 buf (snd x);
  Ok (Line (fst v) (lx l1), snd v).

(** t8_default_quad.cxx:783-790. *)
Definition quad_pack (q : quad) (st : list Z * Z) : outcome (list Z * Z) :=
  do s1 <- mpi_pack MPI_INT (qx q) st; do s2 <- mpi_pack MPI_INT (qy q) s1; mpi_pack MPI_INT8 (qlevel q) s2.
(** t8_default_quad.cxx:823-830; the level is an int8_t. *)
Definition quad_unpack (buf : list Z) (pos : Z) (old : quad) : outcome (quad * Z) :=
  do x <- unpack_signed MPI_INT buf pos;
  let q1 := Quad (fst x) (qy old) (qlevel old) in
  do y <- unpack_signed MPI_INT buf (snd x);
  let q2 := Quad (qx q1) (fst y) (qlevel q1) in
  do v <- unpack_signed MPI_INT8 buf (snd y);
  Ok (Quad (qx q2) (qy q2) (fst v), snd v).

(** t8_default_hex.cxx:669-678. *)
Definition hex_pack (h : hexa) (st : list Z * Z) : outcome (list Z * Z) :=
  do s1 <- mpi_pack MPI_INT (hx h) st; do s2 <- mpi_pack MPI_INT (hy h) s1; do s3 <- mpi_pack MPI_INT (hz h) s2;
  mpi_pack MPI_INT8 (hlevel h) s3.
(** t8_default_hex.cxx:708-717. *)
Definition hex_unpack (buf : list Z) (pos : Z) (old : hexa) : outcome (hexa * Z) :=
  do x <- unpack_signed MPI_INT buf pos;
  let h1 := Hex (fst x) (hy old) (hz old) (hlevel old) in
  do y <- unpack_signed MPI_INT buf (snd x);
  let h2 := Hex (hx h1) (fst y) (hz h1) (hlevel h1) in
  do z <- unpack_signed MPI_INT buf (snd y);
  let h3 := Hex (hx h2) (hy h2) (fst z) (hlevel h2) in
  do v <- unpack_signed MPI_INT8 buf (snd z);
  Ok (Hex (hx h3) (hy h3) (hz h3) (fst v), snd v).

(** t8_dtri_bits.c:1757-1773; [tet] is T8_DTRI_TO_DTET. *)
Definition simplex_pack (tet : bool) (t : simp) (st : list Z * Z) : outcome (list Z * Z) :=
  do s1 <- mpi_pack MPI_INT (sx t) st; do s2 <- mpi_pack MPI_INT (sy t) s1;
  do s3 <- (if tet then mpi_pack MPI_INT (sz t) s2 else Ok s2);
  do s4 <- mpi_pack MPI_INT8 (ty t) s3; mpi_pack MPI_INT8 (lv t) s4.
(** t8_dtri_bits.c:1804-1819. *)
Definition simplex_unpack (tet : bool) (buf : list Z) (pos : Z) (old : simp) : outcome (simp * Z) :=
  do x <- unpack_signed MPI_INT buf pos;
  let t1 := Simp (lv old) (ty old) (fst x) (sy old) (sz old) in
  do y <- unpack_signed MPI_INT buf (snd x);
  let t2 := Simp (lv t1) (ty t1) (sx t1) (fst y) (sz t1) in
  do z <- (if tet then unpack_signed MPI_INT buf (snd y) else Ok (sz t2, snd y));
  let t3 := Simp (lv t2) (ty t2) (sx t2) (sy t2) (fst z) in
  do k <- unpack_signed MPI_INT8 buf (snd z);
  let t4 := Simp (lv t3) (fst k) (sx t3) (sy t3) (sz t3) in
  do v <- unpack_signed MPI_INT8 buf (snd k);
  Ok (Simp (fst v) (ty t4) (sx t4) (sy t4) (sz t4), snd v).

(** t8_default_prism.cxx:474-487. *)
Definition prism_pack (p : prism) (st : list Z * Z) : outcome (list Z * Z) :=
  do s1 <- mpi_pack MPI_INT (lx (pline p)) st;
  do s2 <- mpi_pack MPI_INT (sx (ptri p)) s1;
  do s3 <- mpi_pack MPI_INT (sy (ptri p)) s2;
  do s4 <- mpi_pack MPI_INT8 (ty (ptri p)) s3;
  if negb (ll (pline p) =? lv (ptri p)) then AssertFail
  else mpi_pack MPI_INT8 (ll (pline p)) s4.
(** t8_default_prism.cxx:519-531. *)
Definition prism_unpack (buf : list Z) (pos : Z) (old : prism) : outcome (prism * Z) :=
  let ol := pline old in let ot := ptri old in
  do lx' <- unpack_signed MPI_INT buf pos;
  let l1 := Line (ll ol) (fst lx') in
  do x <- unpack_signed MPI_INT buf (snd lx');
  let t1 := Simp (lv ot) (ty ot) (fst x) (sy ot) (sz ot) in
  do y <- unpack_signed MPI_INT buf (snd x);
  let t2 := Simp (lv t1) (ty t1) (sx t1) (fst y) (sz t1) in
  do k <- unpack_signed MPI_INT8 buf (snd y);
  let t3 := Simp (lv t2) (fst k) (sx t2) (sy t2) (sz t2) in
  do v <- unpack_signed MPI_INT8 buf (snd k);
  let t4 := Simp (fst v) (ty t3) (sx t3) (sy t3) (sz t3) in
  Ok (Prism (Line (lv t4) (lx l1)) t4, snd v).

(** t8_default_pyramid.cxx:464-470. *)
Definition pyra_pack (p : pyra) (st : list Z * Z) : outcome (list Z * Z) :=
  do s1 <- simplex_pack true (ptet p) st; mpi_pack MPI_INT8 (pswitch p) s1.
(** t8_default_pyramid.cxx:498-505. *)
Definition pyra_unpack (buf : list Z) (pos : Z) (old : pyra) : outcome (pyra * Z) :=
  do t <- simplex_unpack true buf pos (ptet old);
  do s <- unpack_signed MPI_INT8 buf (snd t);
  Ok (Pyra (fst t) (fst s), snd s).

(** ** The scheme's three functions, dispatched on the tree class (t8_scheme.cxx element_MPI_Pack, ..._Pack_size,
    ..._Unpack) *)

(** One element; an element of another class than the tree's is reinterpreted memory in C, here [AssertFail]. *)
Definition element_pack1 (eclass : Z) (e : element) (st : list Z * Z) : outcome (list Z * Z) :=
  if negb (class_of e =? eclass) then AssertFail
  else match e with
       | EVertex v => vertex_pack v st | ELine l => line_pack l st | EQuad q => quad_pack q st
       | ETri t => simplex_pack false t st | EHex h => hex_pack h st | ETet t => simplex_pack true t st
       | EPrism p => prism_pack p st | EPyra p => pyra_pack p st
       end.

Definition omap_fst {A B} (f : A -> B) (r : outcome (A * Z)) : outcome (B * Z) := do x <- r; Ok (f (fst x), snd x).

Definition element_unpack1 (eclass : Z) (buf : list Z) (pos : Z) (old : element) : outcome (element * Z) :=
  if negb (class_of old =? eclass) then AssertFail
  else match old with
       | EVertex v => omap_fst EVertex (vertex_unpack buf pos v)
       | ELine l => omap_fst ELine (line_unpack buf pos l)
       | EQuad q => omap_fst EQuad (quad_unpack buf pos q)
       | ETri t => omap_fst ETri (simplex_unpack false buf pos t)
       | EHex h => omap_fst EHex (hex_unpack buf pos h)
       | ETet t => omap_fst ETet (simplex_unpack true buf pos t)
       | EPrism p => omap_fst EPrism (prism_unpack buf pos p)
       | EPyra p => omap_fst EPyra (pyra_unpack buf pos p)
       end.

(** t8_element_MPI_Pack: the loop over the elements. *)
Fixpoint element_pack (eclass : Z) (es : list element) (st : list Z * Z) : outcome (list Z * Z) :=
  match es with [] => Ok st | e :: r => do s <- element_pack1 eclass e st; element_pack eclass r s end.

(** t8_element_MPI_Unpack: the loop over the (already allocated) elements, overwriting each. *)
Fixpoint element_unpack (eclass : Z) (buf : list Z) (pos : Z) (olds : list element) : outcome (list element * Z) :=
  match olds with
  | [] => Ok ([], pos)
  | o :: r => do x <- element_unpack1 eclass buf pos o;
              do y <- element_unpack eclass buf (snd x) r;
              Ok (fst x :: fst y, snd y)
  end.

(** The singlesize computed by the MPI_Pack_size functions: t8_default_vertex.cxx:391-395, _line 469-475, _quad 801-809,
    t8_dtri_bits.c:1784-1796, _hex 688-696, _prism 499-507, _pyramid 479-484. *)
Definition single_size (eclass : Z) : Z :=
  let i := mpi_pack_size MPI_INT in let b := mpi_pack_size MPI_INT8 in
  if eclass =? 0 then b
  else if eclass =? 1 then i + b
  else if eclass =? 2 then 2 * i + b
  else if eclass =? 3 then 2 * i + 2 * b
  else if eclass =? 4 then 3 * i + b
  else if eclass =? 5 then 3 * i + 2 * b
  else if eclass =? 6 then 3 * i + 2 * b
  else (3 * i + 2 * b) + b.

(** t8_element_MPI_Pack_size: count * singlesize is an unsigned product stored in an int. *)
Definition i32 (z : Z) : Z := (z + 2 ^ 31) mod 2 ^ 32 - 2 ^ 31.
Definition element_pack_size (eclass : Z) (count : Z) : Z := i32 ((count * single_size eclass) mod 2 ^ 32).

(** ** The standalone scheme (t8_standalone_implementation.hxx:1615-1677) *)

(** t8_standalone_element: coordinates and level (t8_standalone_elements.hxx:92-99). *)
Record standalone := Standalone { s_coords : list Z; s_level : Z }.

(** Lines 1628-1634; the loop over idim < T8_ELEMENT_DIM[TEclass], which is the length of the coordinate array. *)
Fixpoint coords_pack (cs : list Z) (st : list Z * Z) : outcome (list Z * Z) :=
  match cs with [] => Ok st | c :: r => do s <- mpi_pack MPI_INT c st; coords_pack r s end.
Definition standalone_pack1 (e : standalone) (st : list Z * Z) : outcome (list Z * Z) :=
  do s <- coords_pack (s_coords e) st; mpi_pack MPI_INT8 (s_level e) s.
(** Lines 1680-1687: the coordinate array of the existing element is overwritten entry by entry. *)
Fixpoint coords_unpack (buf : list Z) (pos : Z) (old : list Z) : outcome (list Z * Z) :=
  match old with
  | [] => Ok ([], pos)
  | _ :: r => do x <- unpack_signed MPI_INT buf pos;
              do y <- coords_unpack buf (snd x) r; Ok (fst x :: fst y, snd y)
  end.
(** The level is a uint8_t. *)
Definition standalone_unpack1 (buf : list Z) (pos : Z) (old : standalone) : outcome (standalone * Z) :=
  do c <- coords_unpack buf pos (s_coords old);
  do v <- unpack_unsigned MPI_INT8 buf (snd c);
  Ok (Standalone (fst c) (fst v), snd v).
Fixpoint standalone_pack (es : list standalone) (st : list Z * Z) : outcome (list Z * Z) :=
  match es with [] => Ok st | e :: r => do s <- standalone_pack1 e st; standalone_pack r s end.
Fixpoint standalone_unpack (buf : list Z) (pos : Z) (olds : list standalone) : outcome (list standalone * Z) :=
  match olds with
  | [] => Ok ([], pos)
  | o :: r => do x <- standalone_unpack1 buf pos o;
              do y <- standalone_unpack buf (snd x) r; Ok (fst x :: fst y, snd y)
  end.
(** Lines 1649-1663. *)
Definition standalone_pack_size (dim : Z) (count : Z) : Z :=
  i32 ((count * (dim * mpi_pack_size MPI_INT + mpi_pack_size MPI_INT8)) mod 2 ^ 32).

(** ** Messages of partition for coarsening (t8_forest_pfc_message.hxx) *)

(** The members that are sent. *)
Record pfc_message := PfcMessage { m_itree : Z; m_eclass : Z; m_parent : element; m_num_siblings : Z }.

(** pack, lines 60-75. *)
Definition message_pack (m : pfc_message) (st : list Z * Z) : outcome (list Z * Z) :=
  do s1 <- mpi_pack MPI_GLOIDX (m_itree m) st;
  do s2 <- mpi_pack MPI_INT (m_eclass m) s1;
  do s3 <- element_pack (m_eclass m) [m_parent m] s2;
  mpi_pack MPI_INT (m_num_siblings m) s3.

(** A new element of a class (t8_element_new); its contents are unspecified, here zero. *)
Definition new_element (eclass : Z) : element :=
  let t := Simp 0 0 0 0 0 in
  if eclass =? 0 then EVertex 0 else if eclass =? 1 then ELine (Line 0 0) else if eclass =? 2 then EQuad (Quad 0 0 0)
  else if eclass =? 3 then ETri t else if eclass =? 4 then EHex (Hex 0 0 0 0) else if eclass =? 5 then ETet t
  else if eclass =? 6 then EPrism (Prism (Line 0 0) t) else EPyra (Pyra t 0).

(** unpack, lines 89-106. *)
Definition message_unpack (buf : list Z) (pos : Z) : outcome (pfc_message * Z) :=
  do i <- unpack_signed MPI_GLOIDX buf pos;
  do c <- unpack_signed MPI_INT buf (snd i);
  do p <- element_unpack (fst c) buf (snd c) [new_element (fst c)];
  do n <- unpack_signed MPI_INT buf (snd p);
  match fst p with
  | [e] => Ok (PfcMessage (fst i) (fst c) e (fst n), snd n)
  | _ => AssertFail
  end.

(** pack_size, lines 120-143, of a message with a parent. *)
Definition message_size (m : pfc_message) : Z :=
  mpi_pack_size MPI_GLOIDX + mpi_pack_size MPI_INT + element_pack_size (m_eclass m) 1 + mpi_pack_size MPI_INT.

(** mpi_Isend and mpi_Recv (lines 150-187) pack into, and unpack from, a new buffer at position 0.  The bytes sent are
    those before the final position.  Waiting for the message and the lifetime of the buffer are not modelled here. *)
Definition message_send (m : pfc_message) : outcome (list Z) :=
  do s <- message_pack m (repeat 0 (Z.to_nat (message_size m)), 0);
  Ok (firstn (Z.to_nat (snd s)) (fst s)).
Definition message_recv (buf : list Z) : outcome pfc_message := do r <- message_unpack buf 0; Ok (fst r).

(** ** t8_vector_handler (src/t8_data/t8_vector_handler.hxx) *)

(** t8_data_handler<TType> (t8_data_handler.hxx:58-113): size, pack and unpack of one item, supplied per type. *)
Record handler (A : Type) := Handler {
  h_size : A -> Z;
  h_pack : A -> list Z * Z -> outcome (list Z * Z);
  h_unpack : list Z -> Z -> A -> outcome (A * Z);
  h_default : A }.

Section Vector.
  Variable A : Type.
  Variable H : handler A.

  (** buffer_size, lines 200-212. *)
  Definition vector_buffer_size (data : list A) : Z :=
    mpi_pack_size MPI_INT + fold_left (fun sum item => sum + h_size H item) data 0.

  (** pack_vector_prefix, lines 222-231. *)
  Fixpoint items_pack (data : list A) (st : list Z * Z) : outcome (list Z * Z) :=
    match data with [] => Ok st | a :: r => do s <- h_pack H a st; items_pack r s end.
  Definition pack_vector_prefix (data : list A) (st : list Z * Z) : outcome (list Z * Z) :=
    do s <- mpi_pack MPI_INT (zlen data) st; items_pack data s.

  (** unpack_vector_prefix, lines 242-259: the vector is resized to outcount default items, then each is overwritten. *)
  Fixpoint items_unpack (buf : list Z) (pos : Z) (olds : list A) : outcome (list A * Z) :=
    match olds with
    | [] => Ok ([], pos)
    | o :: r => do x <- h_unpack H buf pos o; do y <- items_unpack buf (snd x) r; Ok (fst x :: fst y, snd y)
    end.
  Definition unpack_vector_prefix (buf : list Z) (pos : Z) : outcome (list A * Z) :=
    do n <- unpack_signed MPI_INT buf pos;
    if fst n <? 0 then AssertFail else items_unpack buf (snd n) (repeat (h_default H) (Z.to_nat (fst n))).

  (** send, lines 272-283: the bytes handed to MPI_Send. *)
  Definition vector_send (data : list A) : outcome (list Z) :=
    do s <- pack_vector_prefix data (repeat 0 (Z.to_nat (vector_buffer_size data)), 0); Ok (fst s).
  (** recv, lines 299-316: the vector and its length, outcount. *)
  Definition vector_recv (buf : list Z) : outcome (list A * Z) :=
    do r <- unpack_vector_prefix buf 0; Ok (fst r, zlen (fst r)).
End Vector.

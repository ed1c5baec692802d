(** What packing has to achieve, said without reference to how the packing functions work. *)
From Verif Require Import Prelude SimplexModel LineModel PackModel.

(** Values that the C integer types hold. *)
Definition int8 (v : Z) : Prop := -128 <= v <= 127.
Definition uint8 (v : Z) : Prop := 0 <= v <= 255.
Definition int32 (v : Z) : Prop := - 2 ^ 31 <= v < 2 ^ 31.
Definition int64 (v : Z) : Prop := - 2 ^ 63 <= v < 2 ^ 63.

(** Every member of the structure holds a value of its type; nothing is said about the element being valid, inside its
    tree, or initialised in a particular way.  A triangle has no z member, the model's is 0. *)
Definition simplex_stored (t : simp) : Prop := int8 (lv t) /\ int8 (ty t) /\ int32 (sx t) /\ int32 (sy t) /\ int32 (sz t).
Definition line_stored (l : dline) : Prop := int8 (ll l) /\ int32 (lx l).
Definition triangle_stored (t : simp) : Prop := simplex_stored t /\ sz t = 0.
Definition stored (e : element) : Prop :=
  match e with
  | EVertex v => uint8 v
  | ELine l => line_stored l
  | EQuad q => int32 (qx q) /\ int32 (qy q) /\ int8 (qlevel q)
  | ETri t => triangle_stored t
  | EHex h => int32 (hx h) /\ int32 (hy h) /\ int32 (hz h) /\ int8 (hlevel h)
  | ETet t => simplex_stored t
  | EPrism p => line_stored (pline p) /\ triangle_stored (ptri p)
  | EPyra p => simplex_stored (ptet p) /\ int8 (pswitch p)
  end.

(** The line and the triangle of a prism have the same level, which is what an element of the prism scheme is. *)
Definition is_element (e : element) : Prop :=
  match e with EPrism p => ll (pline p) = lv (ptri p) | _ => True end.

(** A sequence of elements of one class, ready to be packed, and one ready to be overwritten. *)
Definition packable (eclass : Z) (es : list element) : Prop :=
  forall e, In e es -> class_of e = eclass /\ stored e /\ is_element e.
Definition allocated (eclass : Z) (es : list element) : Prop := forall e, In e es -> class_of e = eclass /\ stored e.

(** Bytes of one packed element of each class. *)
Definition element_bytes (eclass : Z) : Z := znth 0 [1; 5; 9; 10; 13; 14; 14; 15] eclass.

(** [new] is [old] except for the bytes at positions [a], ..., [b - 1]. *)
Definition changed_only (a b : Z) (old new : list Z) : Prop :=
  length new = length old /\ forall i, 0 <= i < a \/ b <= i -> znth 0 new i = znth 0 old i.
(** [msg] contains at positions [a], ..., [b - 1] the bytes that [buf] contains there. *)
Definition carries (a b : Z) (buf msg : list Z) : Prop :=
  b <= zlen msg /\ forall i, a <= i < b -> znth 0 msg i = znth 0 buf i.

(** A single item handler that keeps its contract: an item [a] is packed into exactly [h_size a] bytes, and unpacking
    these into any item gives [a] and stops behind them. *)
Definition handler_ok A (H : handler A) (good : A -> Prop) : Prop :=
  forall a, good a -> 0 <= h_size H a /\
  forall buf pos, 0 <= pos -> pos + h_size H a <= zlen buf ->
  exists buf', h_pack H a (buf, pos) = Ok (buf', pos + h_size H a) /\
               changed_only pos (pos + h_size H a) buf buf' /\
               forall msg old, carries pos (pos + h_size H a) buf' msg ->
                 h_unpack H msg pos old = Ok (a, pos + h_size H a).

(** What the face functions of a class of elements have to satisfy, and what it means that the elements of a mesh of trees fit together
    at their faces. *)
From Coq Require Import Sorting.Sorted.
From Verif Require Import Prelude SchemeModel SchemeSpec FaceModel.

Section one_class.
Variable S : scheme.
Variable F : faces S.
Notation elt := (elt S).
(** the children of e at its face f, each with its face that is part of f *)
Definition face_children (e : elt) (f : Z) : list (elt * Z) :=
  map (fun k => (nth k (f_children F e f) e, f_child_face F e f (Z.of_nat k))) (seq 0 (length (f_children F e f))).
(** the descendants of e at its face f, n levels below it *)
Fixpoint face_descend (n : nat) (e : elt) (f : Z) : list (elt * Z) :=
  match n with O => [(e, f)] | Datatypes.S n' => flat_map (fun c => face_descend n' (fst c) (snd c)) (face_children e f) end.
Definition is_face (e : elt) (f : Z) : Prop := 0 <= f < f_num F e.

Record flaws : Prop := {
  fl_max : forall a e, below a e -> 0 <= f_num F e <= f_max F a;
  (** there are children at each face, listed in increasing order *)
  fl_ids : forall e f, valid e -> s_level e < s_maxlevel S -> is_face e f ->
    f_child_ids F e f <> [] /\ StronglySorted Z.lt (f_child_ids F e f) /\ Forall (fun i => 0 <= i < s_num_children e) (f_child_ids F e f);
  fl_child_face : forall e f c g, valid e -> s_level e < s_maxlevel S -> is_face e f -> In (c, g) (face_children e f) -> is_face c g;
  (** a face of a child is a part of exactly one face of the parent, or of none *)
  fl_parent_face : forall e i g, valid e -> s_level e < s_maxlevel S -> 0 <= i < s_num_children e -> is_face (s_child e i) g ->
    (f_parent_face F (s_child e i) g = -1 \/ is_face e (f_parent_face F (s_child e i) g)) /\
    forall f, is_face e f -> (In (s_child e i, g) (face_children e f) <-> f = f_parent_face F (s_child e i) g);
  fl_up : forall e g, valid e -> is_face e g -> -1 <= f_parent_face F e g <= f_max F e;
  (** the first and the last descendant at a face *)
  fl_first : forall e f L, valid e -> s_level e <= L <= s_maxlevel S -> is_face e f ->
    exists g rest, face_descend (Z.to_nat (L - s_level e)) e f = (f_first F e f L, g) :: rest;
  fl_last : forall e f L, valid e -> s_level e <= L <= s_maxlevel S -> is_face e f ->
    exists pre g, face_descend (Z.to_nat (L - s_level e)) e f = pre ++ [(f_last F e f L, g)]
}.
End one_class.
Arguments face_children {S}.
Arguments face_descend {S}.
Arguments is_face {S}.
Arguments flaws {S}.

Section mesh.
Variable cls : Z -> scheme.
Variable fc : forall t, faces (cls t).
Notation leaf := {t : Z & elt (cls t)}.
Notation el t e := (existT (fun t => elt (cls t)) t e).
(** the neighbour of the same level at a face and its face there, None at the boundary of the mesh *)
Variable nb : leaf -> Z -> option (leaf * Z).

(** The elements of K trees, up to level ml, fit together at their faces *)
Record mesh_ok (K ml : Z) : Prop := {
  mo_class : forall t, 0 <= t < K -> laws (cls t) /\ flaws (fc t) /\ 0 <= ml <= s_maxlevel (cls t);
  (** a neighbour is an element of the same level of one of the trees, and the neighbour of the neighbour is the element *)
  mo_neighbor : forall t (e : elt (cls t)) f t' (e' : elt (cls t')) f', 0 <= t < K -> valid e -> s_level e <= ml -> is_face (fc t) e f ->
    nb (el t e) f = Some (el t' e', f') ->
    0 <= t' < K /\ valid e' /\ s_level e' = s_level e /\ is_face (fc t') e' f' /\ nb (el t' e') f' = Some (el t e, f);
  (** the children at a face meet children at the same face of the neighbour *)
  mo_refine : forall t (e : elt (cls t)) f t' (e' : elt (cls t')) f' c g, 0 <= t < K -> valid e -> s_level e < ml -> is_face (fc t) e f ->
    nb (el t e) f = Some (el t' e', f') -> In (c, g) (face_children (fc t) e f) ->
    exists c' g', In (c', g') (face_children (fc t') e' f') /\ nb (el t c) g = Some (el t' c', g');
  (** the children at a boundary face are at the boundary *)
  mo_boundary : forall t (e : elt (cls t)) f c g, 0 <= t < K -> valid e -> s_level e < ml -> is_face (fc t) e f ->
    nb (el t e) f = None -> In (c, g) (face_children (fc t) e f) -> nb (el t c) g = None;
  (** the other faces of the children are between two children *)
  mo_inner : forall t (e : elt (cls t)) i g, 0 <= t < K -> valid e -> s_level e < ml -> 0 <= i < s_num_children e ->
    is_face (fc t) (s_child e i) g -> f_parent_face (fc t) (s_child e i) g = -1 ->
    exists j g', 0 <= j < s_num_children e /\ nb (el t (s_child e i)) g = Some (el t (s_child e j), g')
}.

(** x is e or a descendant of e, in the same tree *)
Definition in_leaf (l x : leaf) : Prop := exists t (e d : elt (cls t)), l = el t e /\ x = el t d /\ below e d.
Definition leaf_level (l : leaf) : Z := s_level (projT2 l).
Definition leaf_face (l : leaf) (f : Z) : Prop := is_face (fc (projT1 l)) (projT2 l) f.
(** the elements l and m share a part of a face: a descendant of l has a descendant of m as its neighbour *)
Definition adjacent (ml : Z) (l m : leaf) : Prop := exists x y f g,
  in_leaf l x /\ in_leaf m y /\ leaf_level x <= ml /\ leaf_face x f /\ nb x f = Some (y, g).
End mesh.
Arguments mesh_ok {cls}.
Arguments in_leaf {cls}.
Arguments leaf_level {cls}.
Arguments leaf_face {cls}.
Arguments adjacent {cls}.

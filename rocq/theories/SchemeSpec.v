(** What a class of elements has to satisfy, in terms of refinement paths.  All algorithms on leaves are proved for every scheme
    that satisfies [laws]; SchemeInstances.v proves [laws] for the concrete schemes. *)
From Verif Require Import Prelude PathSpec SchemeModel.

Section spec.
Variable S : scheme.
Notation elt := (elt S).

(** the element reached from the root by the child numbers p *)
Definition gwalk (p : list Z) : elt := fold_left (@s_child S) p (s_root S).
(** the refinement paths of the tree: child numbers below the number of children of the element reached, at most maxlevel many *)
Inductive gpath : list Z -> Prop :=
| gp_nil : gpath []
| gp_snoc p i : gpath p -> zlen p < s_maxlevel S -> 0 <= i < s_num_children (gwalk p) -> gpath (p ++ [i]).
(** the elements of the tree *)
Definition valid (e : elt) : Prop := exists p, gpath p /\ e = gwalk p.

(** f is e or a descendant of e *)
Definition below (e f : elt) : Prop := exists p r, gpath (p ++ r) /\ e = gwalk p /\ f = gwalk (p ++ r).

(** the descendants of e, n levels below it, in depth-first order *)
Fixpoint descend (n : nat) (e : elt) : list elt :=
  match n with O => [e] | Datatypes.S n' => flat_map (descend n') (s_children e) end.
(** the finest descendants of e, and of a list of elements: the region of the tree covered, as an ordered list of cells *)
Definition cells (e : elt) : list elt := descend (Z.to_nat (s_maxlevel S - s_level e)) e.
Definition region (l : list elt) : list elt := flat_map cells l.
(** the number of a cell of the tree *)
Definition cell_id (e : elt) : Z := s_linear_id e (s_maxlevel S).

(** a list of elements that covers, in order and without overlaps or gaps, a part of the tree *)
Definition contiguous (l : list elt) : Prop := Forall valid l /\ exists a, map cell_id (region l) = zseq a (length (region l)).
(** a list of elements that is ordered and without overlaps, possibly with gaps *)
Definition ordered (l : list elt) : Prop := Forall valid l /\ forall i j d, (i < j < length (region l))%nat ->
  cell_id (nth i (region l) d) < cell_id (nth j (region l) d).

Record laws : Prop := {
  law_max : 0 <= s_maxlevel S;
  law_level : forall p, gpath p -> s_level (gwalk p) = zlen p;
  law_num_children : forall p, gpath p -> 1 <= s_num_children (gwalk p) <= s_max_children S;
  law_num_siblings : forall p i, gpath (p ++ [i]) -> s_num_siblings (gwalk (p ++ [i])) = s_num_children (gwalk p);
  law_num_siblings_root : 1 <= s_num_siblings (s_root S);
  law_parent : forall p i, gpath (p ++ [i]) -> s_parent (gwalk (p ++ [i])) = gwalk p;
  law_child_id : forall p i, gpath (p ++ [i]) -> s_child_id (gwalk (p ++ [i])) = i;
  law_equal : forall p q, gpath p -> gpath q -> (s_equal (gwalk p) (gwalk q) = true <-> p = q);
  law_compare : forall p q, gpath p -> gpath q -> (s_compare (gwalk p) (gwalk q) ?= 0) = path_cmp p q;
  law_nca : forall p q, gpath p -> gpath q -> s_nca (gwalk p) (gwalk q) = gwalk (lcp p q);
  law_is_ancestor : forall p q, gpath p -> gpath q -> (s_is_ancestor (gwalk p) (gwalk q) = true <-> prefix p q);
  law_first_desc : forall p L, gpath p -> zlen p <= L <= s_maxlevel S ->
    s_first_desc (gwalk p) L = gwalk (p ++ repeat 0 (Z.to_nat (L - zlen p)));
  (** the last descendant is the last one in depth-first order *)
  law_last_desc : forall p L, gpath p -> zlen p <= L <= s_maxlevel S ->
    exists pre, descend (Z.to_nat (L - zlen p)) (gwalk p) = pre ++ [s_last_desc (gwalk p) L];
  (** the linear ids at level L number the elements of level L consecutively in depth-first order *)
  law_linear_id : forall L, 0 <= L <= s_maxlevel S ->
    map (fun e => s_linear_id e L) (descend (Z.to_nat L) (s_root S)) = zseq 0 (length (descend (Z.to_nat L) (s_root S)));
  law_linear_id_coarse : forall p L, gpath p -> 0 <= L <= zlen p ->
    s_linear_id (gwalk p) L = s_linear_id (gwalk (firstn (Z.to_nat L) p)) L;
  law_linear_id_fine : forall p L, gpath p -> zlen p <= L <= s_maxlevel S ->
    s_linear_id (gwalk p) L = s_linear_id (s_first_desc (gwalk p) L) L;
  law_set_linear_id : forall p, gpath p -> s_set_linear_id S (zlen p) (s_linear_id (gwalk p) (zlen p)) = gwalk p;
  law_successor : forall p q, gpath p -> gpath q -> zlen p = zlen q ->
    s_linear_id (gwalk q) (zlen q) = s_linear_id (gwalk p) (zlen p) + 1 -> s_successor (gwalk p) = gwalk q;
  (** a complete family is recognised *)
  law_family : forall p, gpath p -> zlen p < s_maxlevel S -> s_is_family (s_children (gwalk p)) = true;
  (** a list without gaps that is accepted as a family is one *)
  law_family_only : forall l e, contiguous l -> hd_error l = Some e -> length l = Z.to_nat (s_num_siblings e) ->
    s_is_family l = true -> 0 < s_level e /\ l = s_children (s_parent e);
  (** the number of elements of level L, as a signed 64 bit integer *)
  law_count_root : forall L, 0 <= L <= s_maxlevel S -> s_count_root S L = i64 (Z.of_nat (length (descend (Z.to_nat L) (s_root S))));
  (** the child number of the ancestor of level L *)
  law_ancestor_id : forall p L, gpath p -> 1 <= L <= zlen p -> s_ancestor_id (gwalk p) L = nth (Z.to_nat (L - 1)) p 0
}.
End spec.
Arguments valid {S} e.
Arguments below {S} e f.
Arguments descend {S} n e.
Arguments cells {S} e.
Arguments region {S} l.
Arguments cell_id {S} e.
Arguments contiguous {S} l.
Arguments ordered {S} l.

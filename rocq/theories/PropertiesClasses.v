(** The properties of the element interface, once for every class of elements: vertices, lines, triangles, tetrahedra, quadrilaterals, hexahedra,
    prisms and pyramids of the default scheme and vertices, lines, quadrilaterals and hexahedra of the standalone scheme.  An element of a tree is what
    the root can be refined into ([element], [reach] in ClassSpec.v); no statement mentions coordinates, types or refinement paths.
    (The quadrilaterals and hexahedra of the default scheme rest on the contract of p4est written in CubeModel.v.) *)
From Verif Require Import Prelude SchemeModel SchemeSpec SchemeInstances HyperModel HyperScheme CubeScheme PrismScheme PyramidScheme ClassSpec ClassProofs.

(** C01: the child number i of e is an element one level finer whose parent is e, whose child number is i and who has as many siblings as e has children *)
Theorem C01_classes_child_parent S : element_class S -> forall (e : elt S) i, element e -> s_level e < s_maxlevel S -> 0 <= i < s_num_children e ->
  let c := s_child e i in
  element c /\ s_level c = s_level e + 1 /\ s_parent c = e /\ s_child_id c = i /\ s_num_siblings c = s_num_children e /\ 1 <= s_num_children e <= s_max_children S.
Proof. intros H. exact (child_parent (class_laws H)). Qed.
Print Assumptions C01_classes_child_parent.
(** C01: every element but the root is the child of its parent that its child number names *)
Theorem C01_classes_parent_child S : element_class S -> forall e : elt S, element e -> 0 < s_level e ->
  element (s_parent e) /\ s_level (s_parent e) = s_level e - 1 /\ 0 <= s_child_id e < s_num_children (s_parent e) /\ s_child (s_parent e) (s_child_id e) = e.
Proof. intros H. exact (parent_child (class_laws H)). Qed.
Print Assumptions C01_classes_parent_child.
(** C01: elements are equal in the sense of the interface only if they are the same element *)
Theorem C01_classes_equal S : element_class S -> forall e f : elt S, element e -> element f -> (s_equal e f = true <-> e = f).
Proof. intros H. exact (equal_iff (class_laws H)). Qed.
Print Assumptions C01_classes_equal.

(** C02: on every level L the linear ids number the elements 0, ..., n - 1 without gaps or repetition, building an element from its id inverts
    reading the id, and n is what counting the leaves of the root returns, read as a signed 64 bit integer *)
Theorem C02_classes_bijection S : element_class S -> forall L, 0 <= L <= s_maxlevel S -> exists n,
  (forall e : elt S, element e -> s_level e = L -> 0 <= s_linear_id e L < n /\ s_set_linear_id S L (s_linear_id e L) = e) /\
  (forall id, 0 <= id < n -> let e := s_set_linear_id S L id in element e /\ s_level e = L /\ s_linear_id e L = id) /\
  s_count_root S L = i64 n.
Proof. intros H L HL. eexists. exact (level_ids (class_laws H) HL). Qed.
Print Assumptions C02_classes_bijection.

(** C03: the successor of an element is the element of its level with the next linear id *)
Theorem C03_classes_successor S : element_class S -> forall e f : elt S, element e -> element f -> s_level e = s_level f ->
  s_linear_id f (s_level f) = s_linear_id e (s_level e) + 1 -> s_successor e = f.
Proof. intros H. exact (successor_next (class_laws H)). Qed.
Print Assumptions C03_classes_successor.

(** C04: comparing elements is a total order in which every element comes before its descendants, and which orders elements that do not contain
    each other as their linear ids do, at every level that is fine enough for both *)
Theorem C04_classes_total_order S : element_class S ->
  (forall e f : elt S, element e -> element f -> (s_compare e f = 0 <-> e = f) /\ (s_compare e f < 0 <-> 0 < s_compare f e)) /\
  (forall e f g : elt S, element e -> element f -> element g -> s_compare e f <= 0 -> s_compare f g <= 0 -> s_compare e g <= 0) /\
  (forall e f : elt S, element e -> reach e f -> s_compare e f <= 0) /\
  (forall (e f : elt S) L, element e -> element f -> ~ reach e f -> ~ reach f e -> s_level e <= L <= s_maxlevel S -> s_level f <= L ->
     (s_compare e f < 0 <-> s_linear_id e L < s_linear_id f L)).
Proof. intros H. exact (compare_order (class_laws H)). Qed.
Print Assumptions C04_classes_total_order.

(** C05: the elements of level L inside e are those whose linear ids lie between those of its first and its last descendant *)
Theorem C05_classes_descendants S : element_class S -> forall (e : elt S) L, element e -> s_level e <= L <= s_maxlevel S ->
  (reach e (s_first_desc e L) /\ s_level (s_first_desc e L) = L) /\ (reach e (s_last_desc e L) /\ s_level (s_last_desc e L) = L) /\
  forall f, element f -> s_level f = L -> (reach e f <-> s_linear_id (s_first_desc e L) L <= s_linear_id f L <= s_linear_id (s_last_desc e L) L).
Proof. intros H. exact (@desc_range S (class_laws H)). Qed.
Print Assumptions C05_classes_descendants.

(** C06: the nearest common ancestor contains both elements, and every element that contains both contains it *)
Theorem C06_classes_nca S : element_class S -> forall e f : elt S, element e -> element f ->
  element (s_nca e f) /\ forall a : elt S, element a -> (reach a e /\ reach a f <-> reach a (s_nca e f)).
Proof. intros H. exact (nca_greatest (class_laws H)). Qed.
Print Assumptions C06_classes_nca.

(** C07: the ancestor test answers exactly whether the second element is obtained by refining the first one *)
Theorem C07_classes_is_ancestor S : element_class S -> forall e f : elt S, element e -> element f -> (s_is_ancestor e f = true <-> reach e f).
Proof. intros H. exact (ancestor_iff (class_laws H)). Qed.
Print Assumptions C07_classes_is_ancestor.

(** C08: among elements that cover a part of the tree in order without gaps, as many as the first one has siblings, the family test accepts
    exactly the children of an element *)
Theorem C08_classes_family S : element_class S -> forall (l : list (elt S)) e, contiguous l -> hd_error l = Some e -> length l = Z.to_nat (s_num_siblings e) ->
  (s_is_family l = true <-> exists f, element f /\ s_level f < s_maxlevel S /\ l = s_children f).
Proof. intros H. exact (family_iff (class_laws H)). Qed.
Print Assumptions C08_classes_family.

(** witnesses: an element of each of several classes, two levels below the root *)
Definition two_down (S : scheme) (i j : Z) : elt S := s_child (s_child (s_root S) i) j.
Lemma two_down_ok S i j : (s_level (s_root S) <? s_maxlevel S) && ((0 <=? i) && (i <? s_num_children (s_root S)))
  && ((s_level (s_child (s_root S) i) <? s_maxlevel S) && ((0 <=? j) && (j <? s_num_children (s_child (s_root S) i)))) = true -> element (two_down S i j).
Proof. intros H. repeat (apply andb_true_iff in H; destruct H as [H ?]). rewrite !andb_true_iff, !Z.ltb_lt, !Z.leb_le in *. unfold two_down. constructor; [constructor; [constructor| |]| |]; lia. Qed.
Example ex_class_vertex : element (two_down vertex_scheme 0 0).
Proof. apply two_down_ok. reflexivity. Qed.
Example ex_class_line : element (two_down line_scheme 1 0).
Proof. apply two_down_ok. reflexivity. Qed.
Example ex_class_tet : element (two_down (simplex_scheme true) 5 7).
Proof. apply two_down_ok. vm_compute. reflexivity. Qed.
Example ex_class_hex : element (two_down (cube_scheme true) 5 7).
Proof. apply two_down_ok. vm_compute. reflexivity. Qed.
Example ex_class_prism : element (two_down prism_scheme 3 6).
Proof. apply two_down_ok. vm_compute. reflexivity. Qed.
Example ex_class_pyramid : element (two_down pyramid_scheme 9 2) /\ element (two_down pyramid_scheme 1 5).
Proof. split; apply two_down_ok; vm_compute; reflexivity. Qed.
(** two pyramids' descendants that do not contain each other, of different levels, and their order *)
Example ex_class_order : let e := two_down pyramid_scheme 9 2 in let f := s_child (s_root pyramid_scheme) 4 in
  (s_level e, s_level f, 0 <? s_compare e f, s_linear_id f 2 <? s_linear_id e 2) = (2, 1, true, true).
Proof. vm_compute. reflexivity. Qed.

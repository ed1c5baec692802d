(** Properties C30 and C35: searches in leaf arrays and access to leaves by index.  Vocabulary: SchemeSpec.v, LeafSpec.v. *)
From Verif Require Import Prelude PathSpec LineModel SchemeModel SchemeSpec SchemeProofs SchemeOrderProofs SchemeInstances.
From Verif Require Import ExampleLine LeafModel LeafSpec LeafProofs LeafIndexProofs.

(** C30: t8_forest_bin_search_lower, for every ordered nonempty array of leaves, every id and every level: the largest index whose id
    at that level is at most the given one, -1 if there is none *)
Theorem C30_search_lower : forall (S : scheme) (l : list (elt S)) id L,
  laws S -> ordered l -> l <> [] -> 0 <= L <= s_maxlevel S ->
  exists r, bin_search_lower l id L = Ok r /\ largest_index (fun x => s_linear_id x L <= id) l r.
Proof. intros S l id L LW O N HL. exact (lower_spec LW id O N HL). Qed.
Print Assumptions C30_search_lower.
(** C30: t8_forest_bin_search_upper: the smallest index whose id is at least the given one *)
Theorem C30_search_upper : forall (S : scheme) (l : list (elt S)) id L,
  laws S -> ordered l -> 0 <= L <= s_maxlevel S ->
  exists r, bin_search_upper l id L = Ok r /\ smallest_index (fun x => id <= s_linear_id x L) l r.
Proof. intros S l id L LW O HL. exact (upper_spec LW id O HL). Qed.
Print Assumptions C30_search_upper.
(** C30: t8_forest_bin_search_first_descendant_ancestor: the first leaf that is an ancestor or a descendant of the element (or the
    element itself), -1 and no element if there is none *)
Theorem C30_first_descendant_ancestor : forall (S : scheme) (l : list (elt S)) (e : elt S),
  laws S -> ordered l -> l <> [] -> valid e ->
  exists r o, bin_search_first_descendant_ancestor l e = Ok (r, o) /\
    smallest_index (fun x => below x e \/ below e x) l r /\ o = (if 0 <=? r then nth_error l (Z.to_nat r) else None).
Proof. intros S l e LW O N V. exact (first_desc_anc_spec LW O N V). Qed.
Print Assumptions C30_first_descendant_ancestor.
(** C30: t8_element_array_find / t8_forest_element_is_leaf: an element is found, at its index, iff it is in the array *)
Theorem C30_find : forall (S : scheme) (l : list (elt S)) (e : elt S),
  laws S -> ordered l -> l <> [] -> valid e ->
  exists r, element_array_find l e = Ok r /\ ((r = -1 /\ ~ In e l) \/ (0 <= r /\ nth_error l (Z.to_nat r) = Some e)).
Proof. intros S l e LW O N V. exact (find_spec LW O N V). Qed.
Print Assumptions C30_find.
Theorem C30_is_leaf : forall (S : scheme) (l : list (elt S)) (e : elt S),
  laws S -> ordered l -> l <> [] -> valid e -> exists b, element_is_leaf l e = Ok b /\ (b = true <-> In e l).
Proof.
  intros S l e LW O N V. destruct (find_spec LW O N V) as (r & E & H). unfold element_is_leaf. rewrite E. cbn [obind]. exists (0 <=? r). split; [reflexivity|].
  destruct H as [[-> H]|[H1 H2]]; split; intros Q; try lia; try contradiction. exact (nth_error_In _ _ H2).
Qed.
Print Assumptions C30_is_leaf.
(** C30 does not hold for an empty array: the searches read the first element without checking that there is one (an array of leaves
    can be empty: a process without elements of the tree) *)
Theorem C30_empty_array_refuted : forall (S : scheme) (e : elt S) id L,
  bin_search_lower (@nil (elt S)) id L = Oob /\ bin_search_first_descendant_ancestor [] e = Oob /\ element_array_find [] e = Oob.
Proof. intros S e id L. exact (conj eq_refl (conj eq_refl eq_refl)). Qed.
Print Assumptions C30_empty_array_refuted.

(** C35: after t8_forest_compute_elements_offset the leaf with local index i is the i-th leaf of all trees in order, and the tree
    returned with it is the one that contains it: the trees before it have at most i leaves, with it more than i.  Holds in debug and
    release builds; in particular the comparison search of debug builds ends and agrees. *)
Theorem C35_leaf_access : forall (E : Type) (debug : bool) (ts : list (tree E)) (i : Z),
  let all := concat (map (@t_leaves E) ts) in
  0 <= i < zlen all ->
  exists ts' e j, compute_elements_offset ts (zlen all) = Ok ts' /\ map (@t_leaves E) ts' = map (@t_leaves E) ts /\
    get_leaf_element debug ts' (zlen all) i = Ok (Some (e, j)) /\ nth_error all (Z.to_nat i) = Some e /\
    0 <= j < zlen ts /\
    zlen (concat (map (@t_leaves E) (firstn (Z.to_nat j) ts))) <= i < zlen (concat (map (@t_leaves E) (firstn (Z.to_nat (j + 1)) ts))).
Proof.
  intros E debug ts i all Hi. destruct (compute_offsets_spec ts) as (ts' & E1 & OK & E2). rewrite flat_map_leaves in E1. fold all in E1.
  assert (Ea : flat_map (@t_leaves E) ts' = all) by (rewrite flat_map_leaves, E2; reflexivity).
  destruct (get_leaf_element_spec debug OK (leid := i)) as (e & j & G & N & Hj & B); [now rewrite Ea|]. rewrite Ea in *.
  assert (Ef : forall n, flat_map (@t_leaves E) (firstn n ts') = concat (map (@t_leaves E) (firstn n ts))) by (intros n; rewrite flat_map_leaves, <- !firstn_map, E2; reflexivity).
  rewrite !Ef in B. exists ts', e, j. assert (El : zlen ts' = zlen ts) by (unfold zlen; rewrite <- (map_length (@t_leaves E) ts'), E2, map_length; reflexivity).
  rewrite El in Hj. exact (conj E1 (conj E2 (conj G (conj N (conj Hj B))))).
Qed.
Print Assumptions C35_leaf_access.
(** C35: an index past the last leaf yields no element *)
Theorem C35_leaf_access_end : forall (E : Type) (debug : bool) (ts : list (tree E)) (num i : Z),
  0 <= i -> num <= i -> get_leaf_element debug ts num i = Ok None.
Proof.
  intros E debug ts num i H1 H2. unfold get_leaf_element. rewrite (proj2 (Z.ltb_ge i 0)) by lia. rewrite (proj2 (Z.leb_le num i)) by lia. exact eq_refl.
Qed.
Print Assumptions C35_leaf_access_end.

(** ** examples *)
Definition exl : list (elt line_scheme) := map ln [[0; 0]; [0; 1]; [1; 1; 0]; [1; 1; 1]].
Example exl_ordered : ordered exl. Proof. apply leaf_paths_ordered. vm_compute. reflexivity. Qed.
Example C30_ex : bin_search_lower exl 2 2 = Ok 1 /\ bin_search_lower exl 3 2 = Ok 3 /\ bin_search_upper exl 2 2 = Ok 2 /\ bin_search_upper exl 9 2 = Ok (-1) /\
  bin_search_first_descendant_ancestor exl (ln [1]) = Ok (2, Some (ln [1; 1; 0])) /\ bin_search_first_descendant_ancestor exl (ln [0; 1; 1]) = Ok (1, Some (ln [0; 1])) /\
  bin_search_first_descendant_ancestor exl (ln [1; 0]) = Ok (-1, None) /\ element_array_find exl (ln [0; 1]) = Ok 1 /\ element_array_find exl (ln [1; 1]) = Ok (-1).
Proof. vm_compute. repeat split. Qed.
(** a forest with an empty tree *)
Example C35_ex : let ts := [Tree 0 [10; 11]; Tree 0 []; Tree 0 [12]; Tree 0 [13; 14; 15]] in
  match compute_elements_offset ts 6 with
  | Ok ts' => map (get_leaf_element true ts' 6) [0; 1; 2; 3; 5; 6] =
              [Ok (Some (10, 0)); Ok (Some (11, 0)); Ok (Some (12, 2)); Ok (Some (13, 3)); Ok (Some (15, 3)); Ok None]
  | _ => False
  end.
Proof. vm_compute. reflexivity. Qed.

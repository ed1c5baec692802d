(** Properties C01-C08 and C15 for pyramids.  Vocabulary: PathSpec.v, PyramidSpec.v; the elements of the tree (pyramids and the tetrahedra
    that arise in their refinement) are [y_walk p], [y_path p]. *)
From Verif Require Import Prelude PathSpec SimplexModel SimplexProofs SimplexPathProofs SimplexOrderProofs SchemeModel SchemeSpec SchemeInstances.
From Verif Require Import PyramidModel PyramidSpec PyramidProofs PyramidAncProofs PyramidIdProofs PyramidOrderProofs PyramidNcaProofs PyramidScheme PyramidMoreProofs.

(** a tetrahedron of level 5 whose ancestor at level 3 is a pyramid *)
Definition ex_pyr : list Z := [9; 2; 7; 5; 3].
Example ex_pyr_path : y_path ex_pyr /\ yty (y_walk ex_pyr) < 6 /\ is_pyra (y_walk [9; 2; 7]) = true.
Proof. split; [apply y_path_iff; cbn [vpath ex_pyr]; repeat split; vm_compute; congruence|]. split; vm_compute; reflexivity. Qed.
(** a pyramid of level 4 *)
Definition ex_pyr2 : list Z := [4; 8; 0; 9].
Example ex_pyr2_path : y_path ex_pyr2 /\ is_pyra (y_walk ex_pyr2) = true.
Proof. split; [apply y_path_iff; cbn [vpath ex_pyr2]; repeat split; vm_compute; congruence|]. vm_compute. reflexivity. Qed.

(** C01 *)
Theorem C01_pyramid_parent_of_child : forall p i, y_path p -> zlen p < YMAX -> 0 <= i < y_num_children (y_walk p) ->
  y_parent (y_child (y_walk p) i) = y_walk p /\ y_child_id (y_child (y_walk p) i) = i /\ ylv (y_child (y_walk p) i) = ylv (y_walk p) + 1 /\
  y_num_siblings (y_child (y_walk p) i) = y_num_children (y_walk p).
Proof.
  intros p i Hp HL Hi. destruct (y_walk_wf Hp) as [W L]. rewrite <- L in HL. destruct (y_child_id_child W HL Hi) as [A B]. destruct (ywf_child W HL Hi) as (_ & C & _).
  exact (conj (y_parent_child W HL Hi) (conj A (conj C B))).
Qed.
Print Assumptions C01_pyramid_parent_of_child.
Theorem C01_pyramid_child_of_parent : forall p, y_path p -> 0 < zlen p -> let e := y_walk p in
  ylv (y_parent e) = ylv e - 1 /\ 0 <= y_child_id e < y_num_children (y_parent e) /\ y_child (y_parent e) (y_child_id e) = e /\ y_parent e = y_walk (removelast p).
Proof.
  intros p Hp HL e. destruct p as [|i0 p0]; [discriminate HL|]. destruct (@exists_last _ (i0 :: p0) ltac:(discriminate)) as (q & i & E). subst e. rewrite E in *. rewrite removelast_last. clear E i0 p0.
  apply y_path_snoc in Hp. destruct Hp as (Hq & Lq & Hi). destruct (y_walk_wf Hq) as [W L]. rewrite y_walk_snoc. rewrite <- L in Lq. destruct (y_child_id_child W Lq Hi) as [-> _]. rewrite (y_parent_child W Lq Hi). destruct (ywf_child W Lq Hi) as (_ & -> & _).
  split; [lia|]. split; [exact Hi|]. exact (conj eq_refl eq_refl).
Qed.
Print Assumptions C01_pyramid_child_of_parent.
Theorem C01_pyramid_num_children : forall p, y_path p -> y_num_children (y_walk p) = (if is_pyra (y_walk p) then 10 else 8) /\
  (forall i, zlen p < YMAX -> 0 <= i < y_num_children (y_walk p) -> is_pyra (y_walk p) = false -> is_pyra (y_child (y_walk p) i) = false).
Proof.
  intros p Hp. split; [reflexivity|]. intros i HL Hi P. assert (Hi' := Hi). unfold y_num_children in Hi'. rewrite P in Hi'. destruct (@y_tet_child p i Hp P HL Hi') as (_ & H & _). rewrite y_walk_snoc in H. exact H.
Qed.
Print Assumptions C01_pyramid_num_children.
Example C01_pyramid_ex : y_child (y_walk ex_pyr2) 7 = Pyr (Simp 5 0 655360 1769472 196608) 5 /\ y_num_children (y_walk ex_pyr2) = 10 /\ y_num_children (y_walk ex_pyr) = 8 /\
  y_parent (Pyr (Simp 5 0 655360 1769472 196608) 5) = y_walk ex_pyr2.
Proof. split; [vm_compute; reflexivity|split; [|split]; vm_compute; reflexivity]. Qed.

(** C02: the ids of a level number the elements of the level in depth-first order, from 0 without gaps *)
Theorem C02_pyramid_ids_of_level : forall L, 0 <= L <= YMAX -> map (fun e => y_linear_id e L) (y_descend (Z.to_nat L) y_root) = zseq 0 (Z.to_nat (2 * 8 ^ L - 6 ^ L)).
Proof. intros L. exact (@y_level_ids L). Qed.
Print Assumptions C02_pyramid_ids_of_level.
Theorem C02_pyramid_id_of_element : forall p, y_path p -> 0 <= y_linear_id (y_walk p) (zlen p) < 2 * 8 ^ zlen p - 6 ^ zlen p /\
  y_init_linear_id (zlen p) (y_linear_id (y_walk p) (zlen p)) = Ok (y_walk p).
Proof. intros p Hp. split; [exact (y_id_range Hp)|]. rewrite (y_linear_id_own Hp). exact (y_init_linear_id_walk Hp). Qed.
Print Assumptions C02_pyramid_id_of_element.
Theorem C02_pyramid_element_of_id : forall L id, 0 <= L <= YMAX -> 0 <= id < 2 * 8 ^ L - 6 ^ L ->
  exists p, y_path p /\ zlen p = L /\ y_init_linear_id L id = Ok (y_walk p) /\ y_linear_id (y_walk p) L = id.
Proof. intros L id. exact (@y_element_of_id L id). Qed.
Print Assumptions C02_pyramid_element_of_id.
Theorem C02_pyramid_id_at_other_levels : forall p L, y_path p ->
  (0 <= L <= zlen p -> y_linear_id (y_walk p) L = y_linear_id (y_walk (firstn (Z.to_nat L) p)) L) /\
  (zlen p <= L <= YMAX -> exists f, y_first_descendant (y_walk p) L = Ok f /\ y_linear_id (y_walk p) L = y_linear_id f L).
Proof. intros p L. exact (@y_id_other_levels p L). Qed.
Print Assumptions C02_pyramid_id_at_other_levels.
Example C02_pyramid_ex : y_linear_id (y_walk ex_pyr) 5 = 52765 /\ y_init_linear_id 5 52765 = Ok (y_walk ex_pyr) /\ y_linear_id (y_walk ex_pyr2) 4 = 3273 /\ y_linear_id (y_walk ex_pyr) 2 = 84.
Proof. split; [|split; [|split]]; vm_compute; reflexivity. Qed.

(** C03 *)
Theorem C03_pyramid_successor : forall p, y_path p -> y_linear_id (y_walk p) (zlen p) + 1 < 2 * 8 ^ zlen p - 6 ^ zlen p ->
  exists q, y_path q /\ zlen q = zlen p /\ y_successor (y_walk p) (zlen p) = Ok (y_walk q) /\ y_linear_id (y_walk q) (zlen p) = y_linear_id (y_walk p) (zlen p) + 1.
Proof. intros p. exact (@y_successor_spec p). Qed.
Print Assumptions C03_pyramid_successor.
Theorem C03_pyramid_last_has_no_successor : forall p, y_path p -> y_linear_id (y_walk p) (zlen p) + 1 = 2 * 8 ^ zlen p - 6 ^ zlen p -> y_successor (y_walk p) (zlen p) = AssertFail.
Proof. intros p. exact (@y_successor_none p). Qed.
Print Assumptions C03_pyramid_last_has_no_successor.
Example C03_pyramid_ex : y_linear_id (y_walk ex_pyr2) 4 + 1 < 2 * 8 ^ 4 - 6 ^ 4 /\ y_successor (y_walk ex_pyr2) 4 = Ok (y_walk [4; 8; 1; 0]) /\ y_successor (y_walk [3; 7; 7]) 3 = Ok (y_walk [4; 0; 0]) /\
  y_linear_id (y_walk [9; 9; 9]) 3 + 1 = 2 * 8 ^ 3 - 6 ^ 3.
Proof. split; [|split; [|split]]; vm_compute; reflexivity. Qed.

(** C04 *)
Theorem C04_pyramid_compare : forall p q, y_path p -> y_path q -> (y_compare (y_walk p) (y_walk q) ?= 0) = path_cmp p q.
Proof. intros p q. exact (@y_compare_walk p q). Qed.
Print Assumptions C04_pyramid_compare.
Theorem C04_pyramid_equal : forall p q, y_path p -> y_path q -> (y_equal (y_walk p) (y_walk q) = true <-> p = q).
Proof. intros p q. exact (@y_equal_walk p q). Qed.
Print Assumptions C04_pyramid_equal.
Example C04_pyramid_ex : y_compare (y_walk ex_pyr) (y_walk [9; 2; 8]) = -1 /\ y_compare (y_walk ex_pyr) (y_walk [9; 2; 7]) = 1.
Proof. split; vm_compute; reflexivity. Qed.

(** C05 *)
Theorem C05_pyramid_first_last : forall p L, y_path p -> zlen p <= L <= YMAX ->
  y_first_descendant (y_walk p) L = Ok (y_walk (p ++ repeat 0 (Z.to_nat (L - zlen p)))) /\
  y_last_descendant (y_walk p) L = Ok (y_walk (p ++ repeat (y_num_children (y_walk p) - 1) (Z.to_nat (L - zlen p)))).
Proof.
  intros p L Hp HL. split; [exact (y_first_descendant_walk Hp HL)|]. rewrite nch_num, y_walk_tend by exact Hp. exact (y_last_descendant_walk Hp HL).
Qed.
Print Assumptions C05_pyramid_first_last.
Theorem C05_pyramid_descendant_range : forall p q, y_path p -> y_path q -> zlen p <= zlen q ->
  exists f l, y_first_descendant (y_walk p) (zlen q) = Ok f /\ y_last_descendant (y_walk p) (zlen q) = Ok l /\
  (y_linear_id f (zlen q) <= y_linear_id (y_walk q) (zlen q) <= y_linear_id l (zlen q) <-> prefix p q).
Proof. intros p q. exact (@y_descendant_ids p q). Qed.
Print Assumptions C05_pyramid_descendant_range.
(** the descendant of a tetrahedron at one of its corners, at a finer level, is a descendant that has this corner *)
Theorem C05_pyramid_corner_descendant : forall p c L, y_path p -> is_pyra (y_walk p) = false -> zlen p < L <= YMAX -> 0 <= c < 4 ->
  exists r d, y_path (p ++ r) /\ zlen (p ++ r) = L /\ d = y_walk (p ++ r) /\ y_corner_descendant (y_walk p) c L = Ok (Some d) /\
  is_pyra d = false /\ y_integer_coords d c = y_integer_coords (y_walk p) c.
Proof.
  intros p c L Hp P HL Hc. set (i := parenttype_beyid_to_Iloc true (yty (y_walk p)) c). set (n := Z.to_nat (L - zlen p)). exists (repeat i n), (y_walk (p ++ repeat i n)).
  assert (Hn : zlen p + Z.of_nat n <= 21) by (change YMAX with 21 in HL; unfold n; lia). destruct (@y_corner_path p c n Hp P Hn Hc) as (A & B & _ & D).
  assert (ZL : zlen (p ++ repeat i n) = L) by (rewrite zlen_app, zlen_repeat; unfold n; lia).
  exact (conj A (conj ZL (conj eq_refl (conj (@y_corner_descendant_walk p c L Hp P HL Hc) (conj B D))))).
Qed.
Print Assumptions C05_pyramid_corner_descendant.
(** At the level of the tetrahedron itself the output is not written: the element returned is whatever the caller's memory holds.  The
    functions for the first and last descendant at a face use it for two of the four faces each. *)
Theorem C05_pyramid_corner_descendant_refuted : exists p, y_path p /\ is_pyra (y_walk p) = false /\
  y_corner_descendant (y_walk p) 1 (zlen p) = Ok None /\ y_corner_descendant (y_walk p) 2 (zlen p) = Ok None /\
  y_first_descendant_face (y_walk p) 0 (zlen p) = Ok None /\ y_last_descendant_face (y_walk p) 3 (zlen p) = Ok None.
Proof.
  exists ex_pyr. split; [exact (proj1 ex_pyr_path)|]. split; [vm_compute; reflexivity|]. split; [vm_compute; reflexivity|]. split; [vm_compute; reflexivity|]. split; vm_compute; reflexivity.
Qed.
Print Assumptions C05_pyramid_corner_descendant_refuted.
Example C05_pyramid_ex : y_first_descendant (y_walk ex_pyr2) 6 = Ok (y_walk (ex_pyr2 ++ [0; 0])) /\ y_last_descendant (y_walk ex_pyr2) 6 = Ok (y_walk (ex_pyr2 ++ [9; 9])) /\
  y_last_descendant (y_walk ex_pyr) 7 = Ok (y_walk (ex_pyr ++ [7; 7])) /\ zlen ex_pyr < 7 <= YMAX.
Proof. split; [vm_compute; reflexivity|]. split; [vm_compute; reflexivity|]. split; [vm_compute; reflexivity|]. split; vm_compute; congruence. Qed.

(** C06 *)
Theorem C06_pyramid_nca : forall p q, y_path p -> y_path q ->
  exists c, y_path c /\ y_nca (y_walk p) (y_walk q) = Ok (y_walk c) /\ prefix c p /\ prefix c q /\ forall r, prefix r p -> prefix r q -> prefix r c.
Proof.
  intros p q Hp Hq. exists (lcp p q).
  assert (TP : y_path (lcp p q)) by (destruct (lcp_prefix_l p q) as (r & E); rewrite E in Hp; exact (y_path_app Hp)).
  exact (conj TP (conj (y_nca_walk Hp Hq) (conj (lcp_prefix_l p q) (conj (lcp_prefix_r p q) (fun r H1 H2 => lcp_greatest H1 H2))))).
Qed.
Print Assumptions C06_pyramid_nca.
Example C06_pyramid_ex : y_nca (y_walk ex_pyr) (y_walk [9; 2; 7; 4; 1; 6]) = Ok (y_walk [9; 2; 7]) /\ y_nca (y_walk ex_pyr) (y_walk [9; 2; 0; 9]) = Ok (y_walk [9; 2]).
Proof. split; vm_compute; reflexivity. Qed.

(** C07 *)
Theorem C07_pyramid_is_ancestor : forall p q, y_path p -> y_path q -> (y_is_ancestor (y_walk p) (y_walk q) = true <-> prefix p q).
Proof. intros p q. exact (@y_is_ancestor_walk p q). Qed.
Print Assumptions C07_pyramid_is_ancestor.
Theorem C07_pyramid_ancestor_id : forall p L, y_path p -> 1 <= L <= zlen p -> y_ancestor_id (y_walk p) L = nth (Z.to_nat (L - 1)) p 0.
Proof.
  intros p L Hp HL. assert (E := @y_ancestor_id_walk p (Z.to_nat (L - 1)) Hp). rewrite Nat2Z.inj_succ, Z2Nat.id in E by lia. replace (Z.succ (L - 1)) with L in E by lia. apply E. unfold zlen in HL. lia.
Qed.
Print Assumptions C07_pyramid_ancestor_id.
Example C07_pyramid_ex : y_is_ancestor (y_walk [9; 2]) (y_walk ex_pyr) = true /\ y_is_ancestor (y_walk [9; 1]) (y_walk ex_pyr) = false /\ y_ancestor_id (y_walk ex_pyr) 3 = 7.
Proof. split; [|split]; vm_compute; reflexivity. Qed.

(** C08: a complete family is recognised; a list of as many leaves of a forest, one after the other, as its first element has siblings is
    recognised only if it is the family of its first element.  [contiguous]: elements of the tree that cover an interval of its finest
    elements, in order *)
Theorem C08_pyramid_family_recognised : forall p, y_path p -> zlen p < YMAX -> y_is_family (y_children_of (y_walk p)) = true.
Proof. intros p Hp HL. destruct (y_walk_wf Hp) as [W L]. apply y_family; [exact W|rewrite L; exact HL]. Qed.
Print Assumptions C08_pyramid_family_recognised.
Theorem C08_pyramid_contiguous_only : forall (l : list pyr) e, contiguous (S := pyramid_scheme) l -> hd_error l = Some e -> zlen l = y_num_siblings e -> y_is_family l = true ->
  0 < ylv e /\ l = y_children_of (y_parent e).
Proof. intros l e HC HE HL HF. apply y_family_only; auto. rewrite <- HL. unfold zlen. now rewrite Nat2Z.id. Qed.
Print Assumptions C08_pyramid_contiguous_only.
(** For arbitrary lists the test is wrong: nothing requires that the first element is the first child of its parent *)
Theorem C08_pyramid_arbitrary_list_refuted : exists ps, Forall y_path ps /\ zlen ps = y_num_siblings (y_walk (hd [] ps)) /\ y_is_family (map y_walk ps) = true /\
  forall p, y_path p -> zlen p < YMAX -> map y_walk ps <> y_children_of (y_walk p).
Proof.
  exists [[0; 7]; [1; 1]; [2; 4]; [3; 1]; [4; 2]; [5; 0]; [6; 0]; [7; 0]; [8; 0]; [8; 3]].
  split; [repeat constructor; apply y_path_iff; cbn [vpath]; repeat split; vm_compute; congruence|]. split; [vm_compute; reflexivity|]. split; [vm_compute; reflexivity|].
  intros p Hp HL E. assert (NE : y_num_children (y_walk p) <> 0) by (unfold y_num_children; destruct (is_pyra (y_walk p)); discriminate).
  assert (E0 : nth 0 (y_children_of (y_walk p)) dpyr = y_child (y_walk p) 0) by (unfold y_children_of, y_num_children; destruct (is_pyra (y_walk p)); reflexivity).
  rewrite <- E in E0. cbn [nth map] in E0. rewrite <- y_walk_snoc in E0. apply y_walk_inj in E0.
  - assert (E1 := f_equal (fun q => last q 0) E0). cbn [last] in E1. rewrite last_last in E1. discriminate E1.
  - apply y_path_iff. cbn [vpath]. repeat split; vm_compute; congruence.
  - apply y_path_snoc. split; [exact Hp|]. split; [exact HL|]. unfold y_num_children. destruct (is_pyra (y_walk p)); split; try reflexivity; discriminate.
Qed.
Print Assumptions C08_pyramid_arbitrary_list_refuted.
Example C08_pyramid_ex : y_is_family (y_children_of (y_walk ex_pyr2)) = true /\ y_is_family (y_children_of (y_walk ex_pyr)) = true /\
  y_is_family (map (fun id => match y_init_linear_id 4 id with Ok e => e | _ => y_root end) (zseq 3265 10)) = false.
Proof. split; [|split]; vm_compute; reflexivity. Qed.

(** C15: the count is exact unless the root is refined 21 times: then it is 2^64 - 6^21 and does not fit *)
Theorem C15_pyramid_count_leaves_partial : forall p L, y_path p -> zlen p <= L <= YMAX -> L - zlen p < YMAX ->
  y_count_leaves (y_walk p) L = zlen (y_descend (Z.to_nat (L - zlen p)) (y_walk p)).
Proof. intros p L. exact (@y_count_leaves_num p L). Qed.
Print Assumptions C15_pyramid_count_leaves_partial.
Theorem C15_pyramid_count_root_partial : forall L, 0 <= L < YMAX -> y_count_root L = zlen (y_descend (Z.to_nat L) y_root).
Proof.
  intros L HL. assert (H := @y_count_leaves_num [] L yp_nil). change (zlen (@nil Z)) with 0 in H. change (y_walk []) with y_root in H. rewrite Z.sub_0_r in H. unfold zlen. rewrite <- H by (change YMAX with 21 in HL; lia).
  unfold y_count_leaves, y_count_root. change (is_pyra y_root) with true. change (ylv y_root) with 0. rewrite Z.sub_0_r. cbv iota zeta. destruct (Z.ltb_spec L 0); [lia|reflexivity].
Qed.
Print Assumptions C15_pyramid_count_root_partial.
Theorem C15_pyramid_count_leaves_refuted : y_count_leaves y_root YMAX = - 6 ^ 21 /\ y_count_root YMAX = - 6 ^ 21 /\
  forall e, In e (y_descend 21 y_root) <-> exists p, y_path p /\ zlen p = YMAX /\ e = y_walk p.
Proof.
  split; [vm_compute; reflexivity|]. split; [vm_compute; reflexivity|]. intros e. assert (H := @y_descend_in [] 21 e yp_nil). change (y_walk []) with y_root in H. rewrite H by (vm_compute; congruence).
  split; intros (r & H1 & H2 & H3); exists r; cbn [app] in *; (split; [exact H1|split; [|exact H3]]); unfold zlen in *; change YMAX with 21 in *; lia.
Qed.
Print Assumptions C15_pyramid_count_leaves_refuted.
Example C15_pyramid_ex : y_count_leaves (y_walk ex_pyr2) 7 = 808 /\ y_count_leaves (y_walk ex_pyr) 7 = 64 /\ y_count_root 2 = 92.
Proof. split; [|split]; vm_compute; reflexivity. Qed.

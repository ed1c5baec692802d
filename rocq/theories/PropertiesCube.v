(** Properties C01-C08 and C15 for the quadrilaterals (oct = false) and hexahedra (oct = true) of the default scheme.  Vocabulary: PathSpec.v,
    CubeSpec.v; the elements of the tree are [c_walk oct p], [c_path oct p].  The functions [h_.. (cclass oct)] are those of p4est that the
    scheme only calls: what is proved here is that they fit the children, the ancestor test and the counts that the scheme computes itself. *)
From Verif Require Import Prelude PathSpec BitLemmas SimplexModel SimplexPathProofs SimplexProofs SimplexOrderProofs SchemeModel SchemeSpec SchemeProofs SchemeInstances LineProofs.
From Verif Require Import HyperModel HyperSpec HyperProofs HyperOrderProofs HyperScheme CubeModel CubeSpec TransferProofs CubeScheme CubeProofs.

Example ex_cube_path : c_path true [3; 5; 0; 6] /\ c_path false [3; 0; 2; 1].
Proof. split; (split; [repeat constructor; vm_compute; congruence|vm_compute; congruence]). Qed.

(** C01 *)
Theorem C01_cube_parent_of_child : forall oct p i, c_path oct p -> zlen p < c_maxlevel oct -> 0 <= i < c_num_children oct ->
  h_parent (cclass oct) (c_child oct (c_walk oct p) i) = c_walk oct p /\ p4_child_id oct (c_child oct (c_walk oct p) i) = i /\ hl (c_child oct (c_walk oct p) i) = hl (c_walk oct p) + 1.
Proof.
  intros oct p i Hp HL Hi. assert (H := proj2 (c_path_snoc oct p i) (conj Hp (conj Hi HL))). rewrite <- c_walk_snoc. rewrite !c_walk_level by assumption. unfold p4_child_id. rewrite c_walk_level by assumption. rewrite zlen_snoc.
  assert (N := zlen_nonneg p). destruct (Z.eqb_spec (zlen p + 1) 0) as [C|_]; [lia|]. rewrite (c_walk_eq H), (c_walk_eq Hp). apply c_path_eq in H. exact (conj (h_parent_child H) (conj (h_child_id_walk H) eq_refl)).
Qed.
Print Assumptions C01_cube_parent_of_child.
Theorem C01_cube_child_of_parent : forall oct p, c_path oct p -> 0 < zlen p ->
  let e := c_walk oct p in hl e = zlen p /\ hl (h_parent (cclass oct) e) = hl e - 1 /\ 0 <= p4_child_id oct e < c_num_children oct /\
  c_child oct (h_parent (cclass oct) e) (p4_child_id oct e) = e /\ h_parent (cclass oct) e = c_walk oct (removelast p).
Proof.
  intros oct p Hp HL. destruct (exists_last (l:=p)) as (q & i & ->); [intros ->; discriminate|]. cbv zeta. assert (H := proj1 (c_path_snoc oct q i) Hp). destruct H as (H1 & H2 & H3).
  destruct (@C01_cube_parent_of_child oct q i H1 H3 H2) as (A & B & _). rewrite <- c_walk_snoc in A, B. rewrite A, B, removelast_last. rewrite !c_walk_level by assumption. rewrite zlen_snoc.
  assert (E : zlen q = zlen q + 1 - 1) by lia. exact (conj eq_refl (conj E (conj H2 (conj (eq_sym (c_walk_snoc oct q i)) eq_refl)))).
Qed.
Print Assumptions C01_cube_child_of_parent.
(** the children that p4est constructs together are those that the scheme constructs one by one *)
Theorem C01_cube_children_array : forall oct p, c_path oct p -> zlen p < c_maxlevel oct -> h_children (cclass oct) (c_walk oct p) = c_children_of oct (c_walk oct p).
Proof. intros oct p Hp HL. rewrite (c_children_eq Hp HL), (c_walk_eq Hp). exact eq_refl. Qed.
Print Assumptions C01_cube_children_array.
Example C01_cube_ex : c_child true (c_walk true [3; 5; 0; 6]) 5 = Cube 5 [838860800; 603979776; 369098752] /\
  h_parent PHex (Cube 5 [838860800; 603979776; 369098752]) = c_walk true [3; 5; 0; 6] /\ c_child false (c_walk false [3; 0; 2; 1]) 2 = Cube 5 [603979776; 704643072].
Proof. split; [|split]; vm_compute; reflexivity. Qed.

(** C02 *)
Theorem C02_cube_id_of_element : forall oct p, c_path oct p -> let N := c_num_children oct in
  h_linear_id (cclass oct) (c_walk oct p) (zlen p) = num N p /\ 0 <= num N p < N ^ zlen p /\ h_set_linear_id (cclass oct) (zlen p) (num N p) = Ok (c_walk oct p).
Proof.
  intros oct p Hp N. unfold N. rewrite c_num_children_eq, (c_walk_eq Hp). apply c_path_eq in Hp. assert (E := h_linear_id_fine Hp (conj (Z.le_refl _) (proj2 Hp))). rewrite Z.sub_diag, Z.mul_1_r in E.
  exact (conj E (conj (num_range (N:=hchildren (cclass oct)) (hN_pos (cclass oct)) (proj1 Hp)) (h_set_linear_id_num Hp))).
Qed.
Print Assumptions C02_cube_id_of_element.
Theorem C02_cube_element_of_id : forall oct L id, 0 <= L <= c_maxlevel oct -> 0 <= id < c_num_children oct ^ L ->
  exists p, c_path oct p /\ zlen p = L /\ h_set_linear_id (cclass oct) L id = Ok (c_walk oct p) /\ h_linear_id (cclass oct) (c_walk oct p) L = id.
Proof.
  intros oct L id HL Hid. rewrite c_num_children_eq, c_maxlevel_eq in *. set (N := hchildren (cclass oct)) in *. exists (digits N (Z.to_nat L) id). assert (Hp := @h_path_digits (cclass oct) L id HL). fold N in Hp.
  assert (Z : zlen (digits N (Z.to_nat L) id) = L) by (unfold zlen; rewrite digits_length; exact (Z2Nat.id L (proj1 HL))).
  assert (E : num N (digits N (Z.to_nat L) id) = id) by (apply num_digits; rewrite ?Z2Nat.id by lia; try exact Hid; exact (hN_pos (cclass oct))).
  apply c_path_eq in Hp. destruct (@C02_cube_id_of_element oct _ Hp) as (A & _ & B). rewrite c_num_children_eq in A, B. fold N in A, B. rewrite Z, E in A, B. exact (conj Hp (conj Z (conj B A))).
Qed.
Print Assumptions C02_cube_element_of_id.
Example C02_cube_ex : h_linear_id PHex (c_walk true [3; 5; 0; 6]) 4 = 1862 /\ h_set_linear_id PHex 4 1862 = Ok (c_walk true [3; 5; 0; 6]).
Proof. split; vm_compute; reflexivity. Qed.

(** C03 *)
Theorem C03_cube_successor : forall oct p, c_path oct p -> num (c_num_children oct) p + 1 < c_num_children oct ^ zlen p ->
  exists q, c_path oct q /\ zlen q = zlen p /\ h_successor (cclass oct) (c_walk oct p) = Ok (c_walk oct q) /\ num (c_num_children oct) q = num (c_num_children oct) p + 1.
Proof.
  intros oct p Hp HN. rewrite c_num_children_eq in *. set (N := hchildren (cclass oct)) in *. exists (next_path N p). assert (Hq := proj1 (c_path_eq oct p) Hp). assert (R := num_range (N:=N) (hN_pos (cclass oct)) (proj1 Hq)).
  assert (E : num N (next_path N p) = num N p + 1) by (apply num_digits; [exact (hN_pos (cclass oct))|unfold zlen in *; lia]). assert (Hn := proj2 (c_path_eq oct _) (h_path_next Hq)). fold N in Hn.
  rewrite (c_walk_eq Hp), (c_walk_eq Hn). exact (conj Hn (conj (f_equal Z.of_nat (next_path_length _ p)) (conj (h_successor_walk Hq HN) E))).
Qed.
Print Assumptions C03_cube_successor.
Example C03_cube_ex : num 8 [3; 5; 0; 6] + 1 < 8 ^ 4 /\ h_successor PHex (c_walk true [3; 5; 7; 7]) = Ok (c_walk true [3; 6; 0; 0]).
Proof. split; vm_compute; reflexivity. Qed.

(** C04 *)
Theorem C04_cube_compare : forall oct p q, c_path oct p -> c_path oct q -> (h_compare (cclass oct) (c_walk oct p) (c_walk oct q) ?= 0) = path_cmp p q.
Proof. intros oct p q Hp Hq. rewrite (c_walk_eq Hp), (c_walk_eq Hq). apply c_path_eq in Hp, Hq. exact (h_compare_walk Hp Hq). Qed.
Print Assumptions C04_cube_compare.
Theorem C04_cube_equal : forall oct p q, c_path oct p -> c_path oct q -> (h_equal (c_walk oct p) (c_walk oct q) = true <-> p = q).
Proof. intros oct p q Hp Hq. rewrite (c_walk_eq Hp), (c_walk_eq Hq). apply c_path_eq in Hp, Hq. exact (h_equal_walk Hp Hq). Qed.
Print Assumptions C04_cube_equal.
Example C04_cube_ex : (h_compare PHex (c_walk true [3; 5; 0; 6]) (c_walk true [3; 5; 1]) ?= 0) = Lt /\ (h_compare PHex (c_walk true [3; 5; 0; 6]) (c_walk true [3; 5; 0]) ?= 0) = Gt.
Proof. split; vm_compute; reflexivity. Qed.

(** C05 *)
Theorem C05_cube_first_last : forall oct p L, c_path oct p -> zlen p <= L <= c_maxlevel oct ->
  h_first_descendant (cclass oct) (c_walk oct p) L = c_walk oct (p ++ repeat 0 (Z.to_nat (L - zlen p))) /\
  h_last_descendant (cclass oct) (c_walk oct p) L = c_walk oct (p ++ repeat (c_num_children oct - 1) (Z.to_nat (L - zlen p))).
Proof.
  intros oct p L Hp HL. assert (Hq := proj1 (c_path_eq oct p) Hp). assert (HL' := HL). rewrite c_maxlevel_eq in HL'. rewrite c_num_children_eq.
  assert (PA : forall i, 0 <= i < hchildren (cclass oct) -> c_path oct (p ++ repeat i (Z.to_nat (L - zlen p)))).
  { intros i Hi. apply c_path_eq. apply h_path_app. split; [exact Hq|]. split; [apply Forall_forall; intros x Hx; apply repeat_spec in Hx; lia|]. unfold zlen at 2. rewrite repeat_length. unfold zlen in *. lia. }
  assert (R := hN_pos (cclass oct)). rewrite !c_walk_eq by (auto; apply PA; lia). exact (conj (h_first_descendant_walk Hq HL') (h_last_descendant_walk Hq HL')).
Qed.
Print Assumptions C05_cube_first_last.
Theorem C05_cube_descendant_range : forall oct p L id, c_path oct p -> zlen p <= L <= c_maxlevel oct -> 0 <= id < c_num_children oct ^ L -> let c := cclass oct in
  (h_linear_id c (h_first_descendant c (c_walk oct p) L) L <= id <= h_linear_id c (h_last_descendant c (c_walk oct p) L) L <-> prefix p (digits (c_num_children oct) (Z.to_nat L) id)).
Proof. intros oct p L id Hp HL Hid c. rewrite (c_walk_eq Hp). rewrite c_num_children_eq, c_maxlevel_eq in *. apply c_path_eq in Hp. exact (@h_descendant_ids (cclass oct) p L id Hp HL Hid). Qed.
Print Assumptions C05_cube_descendant_range.
Example C05_cube_ex : h_linear_id PHex (h_first_descendant PHex (c_walk true [3; 5; 0; 6]) 6) 6 = 1862 * 64 /\ h_linear_id PHex (h_last_descendant PHex (c_walk true [3; 5; 0; 6]) 6) 6 = 1862 * 64 + 63.
Proof. split; vm_compute; reflexivity. Qed.

(** C06 *)
Theorem C06_cube_nca : forall oct p q, c_path oct p -> c_path oct q ->
  exists r, c_path oct r /\ h_nca (cclass oct) (c_walk oct p) (c_walk oct q) = c_walk oct r /\ prefix r p /\ prefix r q /\ forall s, prefix s p -> prefix s q -> prefix s r.
Proof.
  intros oct p q Hp Hq. exists (lcp p q). assert (Hp' := proj1 (c_path_eq oct p) Hp). assert (Hq' := proj1 (c_path_eq oct q) Hq).
  assert (TP : h_path (cclass oct) (lcp p q)) by (destruct (lcp_prefix_l p q) as (r & E); rewrite E in Hp'; exact (proj1 (proj1 (h_path_app (cclass oct) _ r) Hp'))).
  apply c_path_eq in TP. rewrite !c_walk_eq by assumption. exact (conj TP (conj (h_nca_walk Hp' Hq') (conj (lcp_prefix_l p q) (conj (lcp_prefix_r p q) (fun r H1 H2 => lcp_greatest H1 H2))))).
Qed.
Print Assumptions C06_cube_nca.
Example C06_cube_ex : h_nca PHex (c_walk true [3; 5; 0; 6]) (c_walk true [3; 5; 4; 6; 1]) = c_walk true [3; 5].
Proof. vm_compute. reflexivity. Qed.

(** C07: the test of the scheme compares linear ids *)
Theorem C07_cube_is_ancestor : forall oct p q, c_path oct p -> c_path oct q -> (c_is_ancestor oct (c_walk oct p) (c_walk oct q) = true <-> prefix p q).
Proof. intros oct p q Hp Hq. rewrite (c_walk_eq Hp), (c_walk_eq Hq). apply c_path_eq in Hp, Hq. exact (c_is_ancestor_walk Hp Hq). Qed.
Print Assumptions C07_cube_is_ancestor.
Theorem C07_cube_ancestor_id : forall oct p L, c_path oct p -> 1 <= L <= zlen p -> p4_ancestor_id oct (c_walk oct p) L = nth (Z.to_nat (L - 1)) p 0.
Proof.
  intros oct p L Hp HL. unfold p4_ancestor_id. destruct (Z.eqb_spec L 0) as [C|_]; [lia|]. rewrite (c_walk_eq Hp). apply c_path_eq in Hp. exact (h_ancestor_id_walk Hp HL).
Qed.
Print Assumptions C07_cube_ancestor_id.
Example C07_cube_ex : c_is_ancestor true (c_walk true [3; 5]) (c_walk true [3; 5; 0; 6]) = true /\ c_is_ancestor true (c_walk true [3; 1]) (c_walk true [3; 5; 0; 6]) = false.
Proof. split; vm_compute; reflexivity. Qed.

(** C08 *)
Theorem C08_cube_family : forall oct ps, Forall (c_path oct) ps -> zlen ps = c_num_children oct ->
  (p4_is_family oct (map (c_walk oct) ps) = true <-> exists p, c_path oct p /\ zlen p < c_maxlevel oct /\ map (c_walk oct) ps = c_children_of oct (c_walk oct p)).
Proof.
  intros oct ps H HL. rewrite c_num_children_eq in HL. assert (E : map (c_walk oct) ps = map (h_walk (cclass oct)) ps) by (apply map_ext_in; intros p Hp; rewrite Forall_forall in H; exact (c_walk_eq (H p Hp))). rewrite E.
  assert (F : h_is_family (cclass oct) (map (h_walk (cclass oct)) ps) = Ok true <-> exists p, h_path (cclass oct) p /\ zlen p < hmax (cclass oct) /\ map (h_walk (cclass oct)) ps = h_children_of (cclass oct) (h_walk (cclass oct) p)).
  { apply h_is_family_iff; [|unfold zlen in *; rewrite map_length; exact HL]. apply Forall_map. revert H. apply Forall_impl. intros p Hp. exists p. split; [now apply c_path_eq|reflexivity]. }
  unfold p4_is_family. transitivity (h_is_family (cclass oct) (map (h_walk (cclass oct)) ps) = Ok true).
  { destruct (h_is_family (cclass oct) (map (h_walk (cclass oct)) ps)); split; try discriminate; [intros ->; reflexivity|intros G; injection G as ->; reflexivity]. }
  rewrite F. split; intros (p & H1 & H2 & H3); exists p; [apply c_path_eq in H1; rewrite c_maxlevel_eq|assert (H1' := H1); apply c_path_eq in H1'; rewrite c_maxlevel_eq in H2]; (split; [assumption|]); (split; [assumption|]).
  - rewrite H3. symmetry. apply c_children_eq; [exact H1|rewrite c_maxlevel_eq; exact H2].
  - rewrite H3. apply c_children_eq; [exact H1|rewrite c_maxlevel_eq; exact H2].
Qed.
Print Assumptions C08_cube_family.
Example C08_cube_ex : p4_is_family false (map (c_walk false) [[2; 0]; [2; 1]; [2; 2]; [2; 3]]) = true /\ p4_is_family false (map (c_walk false) [[2; 0]; [2; 1]; [2; 2]; [1; 3]]) = false.
Proof. split; vm_compute; reflexivity. Qed.

(** C15: the counts are exact at all levels *)
Theorem C15_cube_count_leaves : forall oct p L, c_path oct p -> zlen p <= L <= c_maxlevel oct -> let c := cclass oct in
  c_count_leaves oct (c_walk oct p) L = c_num_children oct ^ (L - zlen p) /\
  c_count_leaves oct (c_walk oct p) L = h_linear_id c (h_last_descendant c (c_walk oct p) L) L - h_linear_id c (h_first_descendant c (c_walk oct p) L) L + 1.
Proof.
  intros oct p L Hp HL c. rewrite (c_count_leaves_exact Hp HL). split; [exact eq_refl|]. rewrite (c_walk_eq Hp). apply c_path_eq in Hp. rewrite c_maxlevel_eq in HL. rewrite c_num_children_eq.
  destruct (@h_count_leaves_exact c p L Hp HL (fun E => match cclass_hex E with end)) as [A B]. exact (eq_trans (eq_sym A) B).
Qed.
Print Assumptions C15_cube_count_leaves.
Theorem C15_cube_coarser_level : forall oct p L, c_path oct p -> L < zlen p -> c_count_leaves oct (c_walk oct p) L = 0.
Proof. intros oct p L Hp HL. unfold c_count_leaves. rewrite (c_walk_level Hp), (proj2 (Z.ltb_lt _ _) HL). exact eq_refl. Qed.
Print Assumptions C15_cube_coarser_level.
Theorem C15_cube_count_from_root : forall oct L, 0 <= L <= c_maxlevel oct -> c_count_root oct L = c_count_leaves oct (c_root oct) L /\ c_count_root oct L = c_num_children oct ^ L.
Proof.
  intros oct L HL. assert (E : c_count_root oct L = c_count_leaves oct (c_root oct) L) by (unfold c_count_root, c_count_leaves; change (hl (c_root oct)) with 0; destruct (Z.ltb_spec L 0) as [C|_]; [lia|]; rewrite Z.sub_0_r; reflexivity).
  split; [exact E|]. rewrite E. assert (P : c_path oct []) by (split; [constructor|destruct oct; vm_compute; congruence]). assert (X := @c_count_leaves_exact oct [] L P HL). change (zlen []) with 0 in X. rewrite Z.sub_0_r in X. exact X.
Qed.
Print Assumptions C15_cube_count_from_root.
Example C15_cube_ex : c_count_leaves true (c_walk true [3; 5; 0; 6]) 7 = 512 /\ c_count_root true 18 = 2 ^ 54 /\ c_count_root false 29 = 2 ^ 58.
Proof. split; [|split]; vm_compute; reflexivity. Qed.

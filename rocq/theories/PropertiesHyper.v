(** Properties C01-C08 and C15 for the hypercubes of the standalone scheme: vertices, lines, quadrilaterals and hexahedra.
    Vocabulary: PathSpec.v, HyperSpec.v; the elements of the tree of class c are [h_walk c p], [h_path c p]. *)
From Verif Require Import Prelude PathSpec BitLemmas SimplexModel SimplexPathProofs SimplexProofs SimplexOrderProofs SchemeModel SchemeSpec SchemeProofs SchemeInstances LineProofs.
From Verif Require Import HyperModel HyperSpec HyperProofs HyperOrderProofs HyperScheme.

Definition ex_quad : list Z := [3; 0; 2; 1].
Definition ex_hex : list Z := [3; 5; 0; 6].
Example ex_quad_path : h_path HQuad ex_quad.
Proof. split; [repeat constructor; vm_compute; congruence|vm_compute; congruence]. Qed.
Example ex_hex_path : h_path HHex ex_hex.
Proof. split; [repeat constructor; vm_compute; congruence|vm_compute; congruence]. Qed.

(** C01 *)
Theorem C01_hypercube_parent_of_child : forall c p i, h_path c p -> zlen p < hmax c -> 0 <= i < hchildren c ->
  h_parent c (h_child c (h_walk c p) i) = h_walk c p /\ h_child_id c (h_child c (h_walk c p) i) = i /\ hl (h_child c (h_walk c p) i) = hl (h_walk c p) + 1.
Proof.
  intros c p i Hp HL Hi. assert (H := proj2 (h_path_snoc c p i) (conj Hp (conj Hi HL))). rewrite <- h_walk_snoc.
  refine (conj (h_parent_child H) (conj (h_child_id_walk H) _)). rewrite h_walk_snoc. exact eq_refl.
Qed.
Print Assumptions C01_hypercube_parent_of_child.
Theorem C01_hypercube_child_of_parent : forall c p, h_path c p -> 0 < zlen p ->
  let e := h_walk c p in hl e = zlen p /\ hl (h_parent c e) = hl e - 1 /\ 0 <= h_child_id c e < hchildren c /\ h_child c (h_parent c e) (h_child_id c e) = e /\ h_parent c e = h_walk c (removelast p).
Proof.
  intros c p Hp HL. destruct (exists_last (l:=p)) as (q & i & ->); [intros ->; discriminate|]. cbv zeta. rewrite (h_parent_child Hp), (h_child_id_walk Hp), removelast_last.
  assert (H := proj1 (h_path_snoc c q i) Hp). rewrite !h_walk_level by (first [exact (proj2 Hp)|exact (proj2 (proj1 H))]). rewrite zlen_snoc.
  assert (A : zlen q = zlen q + 1 - 1) by lia. exact (conj eq_refl (conj A (conj (proj1 (proj2 H)) (conj (eq_sym (h_walk_snoc c q i)) eq_refl)))).
Qed.
Print Assumptions C01_hypercube_child_of_parent.
Theorem C01_hypercube_children_array : forall c p, h_path c p -> zlen p < hmax c -> h_children c (h_walk c p) = h_children_of c (h_walk c p).
Proof. intros c p _ _. exact eq_refl. Qed.
Print Assumptions C01_hypercube_children_array.
(** the shift counts of parent and child are in range, *)
Theorem C01_hypercube_shifts : forall c p i, c <> HVertex -> h_path c p ->
  h_child_o c (h_walk c p) i = Ok (h_child c (h_walk c p) i) /\ (0 < zlen p -> h_parent_o c (h_walk c p) = Ok (h_parent c (h_walk c p))).
Proof.
  intros c p i Hc Hp. assert (N := zlen_nonneg p). assert (M : hbits c < 31) by (destruct c; [congruence|reflexivity..]).
  assert (E : forall l, 0 <= l -> h_len_o c l = Ok (h_len c l)) by (intros l Hl; unfold h_len_o; destruct (Z.ltb_spec (hbits c - l) 31); [reflexivity|lia]).
  unfold h_child_o, h_parent_o. rewrite (h_walk_level (proj2 Hp)). rewrite !E by lia. cbn [obind]. unfold h_child, h_parent. rewrite (h_walk_level (proj2 Hp)). exact (conj eq_refl (fun _ => eq_refl)).
Qed.
Print Assumptions C01_hypercube_shifts.
(** but not for vertices: those of level less than 223 have neither a parent nor a child *)
Theorem C01_standalone_vertex_shift_refuted : forall p i, h_path HVertex p -> zlen p < 223 ->
  h_child_o HVertex (h_walk HVertex p) i = Oob /\ h_parent_o HVertex (h_walk HVertex p) = Oob.
Proof.
  intros p i Hp HL. unfold h_child_o, h_parent_o, h_len_o. rewrite (h_walk_level (proj2 Hp)). cbn [hbits hmax].
  destruct (Z.ltb_spec (254 - (zlen p + 1)) 31) as [C|_]; [lia|]. destruct (Z.ltb_spec (254 - zlen p) 31) as [C|_]; [lia|]. exact (conj eq_refl eq_refl).
Qed.
Print Assumptions C01_standalone_vertex_shift_refuted.
Example C01_hypercube_ex : h_child HHex (h_walk HHex ex_hex) 5 = Cube 5 [1638400; 1179648; 720896] /\
  h_parent HHex (Cube 5 [1638400; 1179648; 720896]) = h_walk HHex ex_hex /\ zlen ex_hex < hmax HHex /\ h_path HVertex [0; 0].
Proof. split; [vm_compute; reflexivity|split; [vm_compute; reflexivity|split; [vm_compute; reflexivity|]]]. split; [repeat constructor; vm_compute; congruence|vm_compute; congruence]. Qed.

(** C02; the loops of both functions end, and no assertion fails in them *)
Theorem C02_hypercube_id_of_element : forall c p, h_path c p -> let N := hchildren c in
  h_linear_id_o c (h_walk c p) (zlen p) = Ok (num N p) /\ 0 <= num N p < N ^ zlen p /\ h_set_linear_id c (zlen p) (num N p) = Ok (h_walk c p).
Proof.
  intros c p Hp N. assert (E := h_linear_id_fine_o Hp (conj (Z.le_refl _) (proj2 Hp))). rewrite Z.sub_diag, Z.mul_1_r in E.
  exact (conj E (conj (num_range (N:=N) (hN_pos c) (proj1 Hp)) (h_set_linear_id_num Hp))).
Qed.
Print Assumptions C02_hypercube_id_of_element.
Theorem C02_hypercube_element_of_id : forall c L id, 0 <= L <= hmax c -> 0 <= id < hchildren c ^ L ->
  exists p, h_path c p /\ zlen p = L /\ h_set_linear_id c L id = Ok (h_walk c p) /\ h_linear_id_o c (h_walk c p) L = Ok id.
Proof.
  intros c L id HL Hid. exists (digits (hchildren c) (Z.to_nat L) id). assert (Hp := @h_path_digits c L id HL).
  assert (Z : zlen (digits (hchildren c) (Z.to_nat L) id) = L) by (unfold zlen; rewrite digits_length; exact (Z2Nat.id L (proj1 HL))).
  assert (N : num (hchildren c) (digits (hchildren c) (Z.to_nat L) id) = id) by (apply num_digits; rewrite ?Z2Nat.id by lia; try exact Hid; exact (hN_pos c)).
  destruct (@C02_hypercube_id_of_element c _ Hp) as (A & _ & B). rewrite Z, N in A, B. exact (conj Hp (conj Z (conj B A))).
Qed.
Print Assumptions C02_hypercube_element_of_id.
Theorem C02_hypercube_id_at_other_levels : forall c p L, h_path c p -> let N := hchildren c in
  (0 <= L <= zlen p -> h_linear_id_o c (h_walk c p) L = Ok (num N (firstn (Z.to_nat L) p))) /\
  (zlen p <= L <= hmax c -> h_linear_id_o c (h_walk c p) L = Ok (num N p * N ^ (L - zlen p))).
Proof. intros c p L Hp. exact (conj (h_linear_id_coarse_o Hp) (h_linear_id_fine_o Hp)). Qed.
Print Assumptions C02_hypercube_id_at_other_levels.
Example C02_hypercube_ex : h_linear_id HHex (h_walk HHex ex_hex) 4 = 1862 /\ h_set_linear_id HHex 4 1862 = Ok (h_walk HHex ex_hex).
Proof. split; vm_compute; reflexivity. Qed.

(** C03 *)
Theorem C03_hypercube_successor : forall c p, h_path c p -> num (hchildren c) p + 1 < hchildren c ^ zlen p ->
  exists q, h_path c q /\ zlen q = zlen p /\ h_successor c (h_walk c p) = Ok (h_walk c q) /\ num (hchildren c) q = num (hchildren c) p + 1.
Proof.
  intros c p Hp HN. exists (next_path (hchildren c) p). assert (R := num_range (N:=hchildren c) (hN_pos c) (proj1 Hp)).
  assert (E : num (hchildren c) (next_path (hchildren c) p) = num (hchildren c) p + 1) by (apply num_digits; [exact (hN_pos c)|unfold zlen in *; lia]).
  exact (conj (h_path_next Hp) (conj (f_equal Z.of_nat (next_path_length _ p)) (conj (h_successor_walk Hp HN) E))).
Qed.
Print Assumptions C03_hypercube_successor.
Theorem C03_hypercube_last_has_no_successor : forall c p, h_path c p -> num (hchildren c) p + 1 = hchildren c ^ zlen p -> h_successor c (h_walk c p) = AssertFail.
Proof. intros c p. exact (@h_successor_last c p). Qed.
Print Assumptions C03_hypercube_last_has_no_successor.
Example C03_hypercube_ex : num 8 ex_hex + 1 < 8 ^ zlen ex_hex /\ h_successor HHex (h_walk HHex [3;5;7;7]) = Ok (h_walk HHex [3;6;0;0]) /\
  h_successor HQuad (h_walk HQuad [1;3;3]) = Ok (h_walk HQuad [2;0;0]).
Proof. split; [|split]; vm_compute; reflexivity. Qed.

(** C04 *)
Theorem C04_hypercube_compare : forall c p q, h_path c p -> h_path c q -> (h_compare c (h_walk c p) (h_walk c q) ?= 0) = path_cmp p q.
Proof. intros c p q. exact (@h_compare_walk c p q). Qed.
Print Assumptions C04_hypercube_compare.
Theorem C04_hypercube_equal : forall c p q, h_path c p -> h_path c q -> (h_equal (h_walk c p) (h_walk c q) = true <-> p = q).
Proof. intros c p q. exact (@h_equal_walk c p q). Qed.
Print Assumptions C04_hypercube_equal.
Example C04_hypercube_ex : h_compare HHex (h_walk HHex ex_hex) (h_walk HHex [3;5;1]) = -1 /\ h_compare HHex (h_walk HHex ex_hex) (h_walk HHex [3;5;0]) = 1.
Proof. split; vm_compute; reflexivity. Qed.

(** C05 *)
Theorem C05_hypercube_first_last : forall c p L, h_path c p -> zlen p <= L <= hmax c ->
  h_first_descendant c (h_walk c p) L = h_walk c (p ++ repeat 0 (Z.to_nat (L - zlen p))) /\
  h_last_descendant c (h_walk c p) L = h_walk c (p ++ repeat (hchildren c - 1) (Z.to_nat (L - zlen p))).
Proof. intros c p L Hp HL. exact (conj (h_first_descendant_walk Hp HL) (h_last_descendant_walk Hp HL)). Qed.
Print Assumptions C05_hypercube_first_last.
Theorem C05_hypercube_descendant_range : forall c p L id, h_path c p -> zlen p <= L <= hmax c -> 0 <= id < hchildren c ^ L ->
  (h_linear_id c (h_first_descendant c (h_walk c p) L) L <= id <= h_linear_id c (h_last_descendant c (h_walk c p) L) L <-> prefix p (digits (hchildren c) (Z.to_nat L) id)).
Proof. intros c p L id. exact (@h_descendant_ids c p L id). Qed.
Print Assumptions C05_hypercube_descendant_range.
Example C05_hypercube_ex : h_linear_id HHex (h_first_descendant HHex (h_walk HHex ex_hex) 6) 6 = 1862 * 64 /\ h_linear_id HHex (h_last_descendant HHex (h_walk HHex ex_hex) 6) 6 = 1862 * 64 + 63.
Proof. split; vm_compute; reflexivity. Qed.

(** C06 *)
Theorem C06_hypercube_nca : forall c p q, h_path c p -> h_path c q ->
  exists r, h_path c r /\ h_nca c (h_walk c p) (h_walk c q) = h_walk c r /\ prefix r p /\ prefix r q /\ forall s, prefix s p -> prefix s q -> prefix s r.
Proof.
  intros c p q Hp Hq. exists (lcp p q).
  assert (TP : h_path c (lcp p q)) by (destruct (lcp_prefix_l p q) as (r & E); rewrite E in Hp; exact (proj1 (proj1 (h_path_app c _ r) Hp))).
  exact (conj TP (conj (h_nca_walk Hp Hq) (conj (lcp_prefix_l p q) (conj (lcp_prefix_r p q) (fun r H1 H2 => lcp_greatest H1 H2))))).
Qed.
Print Assumptions C06_hypercube_nca.
Example C06_hypercube_ex : h_nca HHex (h_walk HHex ex_hex) (h_walk HHex [3;5;4;6;1]) = h_walk HHex [3;5].
Proof. vm_compute. reflexivity. Qed.

(** C07 *)
Theorem C07_hypercube_is_ancestor : forall c p q, h_path c p -> h_path c q -> (h_is_ancestor c (h_walk c p) (h_walk c q) = true <-> prefix p q).
Proof. intros c p q. exact (@h_is_ancestor_walk c p q). Qed.
Print Assumptions C07_hypercube_is_ancestor.
Theorem C07_hypercube_ancestor_id : forall c p L, h_path c p -> 1 <= L <= zlen p -> h_ancestor_id c (h_walk c p) L = nth (Z.to_nat (L - 1)) p 0.
Proof. intros c p L. exact (@h_ancestor_id_walk c p L). Qed.
Print Assumptions C07_hypercube_ancestor_id.
Example C07_hypercube_ex : h_is_ancestor HHex (h_walk HHex [3;5]) (h_walk HHex ex_hex) = true /\ h_is_ancestor HHex (h_walk HHex [3;1]) (h_walk HHex ex_hex) = false /\
  h_ancestor_id HHex (h_walk HHex ex_hex) 2 = 5.
Proof. split; [|split]; vm_compute; reflexivity. Qed.

(** C08: of any elements the test recognises exactly the complete families *)
Theorem C08_hypercube_family : forall c ps, Forall (h_path c) ps -> zlen ps = hchildren c ->
  (h_is_family c (map (h_walk c) ps) = Ok true <-> exists p, h_path c p /\ zlen p < hmax c /\ map (h_walk c) ps = h_children_of c (h_walk c p)).
Proof.
  intros c ps H HL. apply h_is_family_iff; [|unfold zlen in *; rewrite map_length; exact HL].
  apply Forall_map. revert H. apply Forall_impl. intros p Hp. exact (ex_intro _ p (conj Hp eq_refl)).
Qed.
Print Assumptions C08_hypercube_family.
(** and the answer is no for other lists of refined elements *)
Theorem C08_hypercube_no_family : forall c ps, Forall (fun p => h_path c p /\ 0 < zlen p) ps -> zlen ps = hchildren c ->
  h_is_family c (map (h_walk c) ps) = Ok true \/ h_is_family c (map (h_walk c) ps) = Ok false.
Proof.
  intros c ps H HL. apply h_is_family_total; [|unfold zlen in *; rewrite map_length; exact HL].
  apply Forall_map. revert H. apply Forall_impl. intros p [Hp H0]. rewrite (h_walk_level (proj2 Hp)). exact H0.
Qed.
Print Assumptions C08_hypercube_no_family.
Example C08_hypercube_ex : h_is_family HQuad (map (h_walk HQuad) [[2; 0]; [2; 1]; [2; 2]; [2; 3]]) = Ok true /\
  h_is_family HQuad (map (h_walk HQuad) [[2; 0]; [2; 1]; [2; 2]; [1; 3]]) = Ok false /\ h_is_family HQuad (map (h_walk HQuad) [[2; 0]; [2; 2]; [2; 1]; [2; 3]]) = Ok false.
Proof. split; [|split]; vm_compute; reflexivity. Qed.

(** C15: the count is exact unless it is 8^21 = 2^63: then it is negative *)
Theorem C15_hypercube_count_leaves_partial : forall c p L, h_path c p -> zlen p <= L <= hmax c -> (c = HHex -> L - zlen p < hmax c) ->
  h_count_leaves c (h_walk c p) L = hchildren c ^ (L - zlen p) /\
  h_count_leaves c (h_walk c p) L = h_linear_id c (h_last_descendant c (h_walk c p) L) L - h_linear_id c (h_first_descendant c (h_walk c p) L) L + 1.
Proof. intros c p L. exact (@h_count_leaves_exact c p L). Qed.
Print Assumptions C15_hypercube_count_leaves_partial.
Theorem C15_hypercube_coarser_level : forall c p L, h_path c p -> L < zlen p -> h_count_leaves c (h_walk c p) L = 0.
Proof. intros c p L Hp HL. unfold h_count_leaves. rewrite (h_walk_level (proj2 Hp)), (proj2 (Z.ltb_lt _ _) HL). exact eq_refl. Qed.
Print Assumptions C15_hypercube_coarser_level.
Theorem C15_hypercube_count_from_root_partial : forall c L, 0 <= L <= hmax c -> (c = HHex -> L < hmax c) -> h_count_root c L = h_count_leaves c (h_root c) L.
Proof. intros c L. exact (@h_count_root_exact c L). Qed.
Print Assumptions C15_hypercube_count_from_root_partial.
Theorem C15_hexahedron_count_leaves_refuted : h_count_leaves HHex (h_root HHex) (hmax HHex) = - 2 ^ 63 /\ h_count_root HHex (hmax HHex) = - 2 ^ 63 /\
  h_linear_id HHex (h_last_descendant HHex (h_root HHex) (hmax HHex)) (hmax HHex) - h_linear_id HHex (h_first_descendant HHex (h_root HHex) (hmax HHex)) (hmax HHex) + 1 = 2 ^ 63.
Proof. split; [|split]; vm_compute; reflexivity. Qed.
Print Assumptions C15_hexahedron_count_leaves_refuted.
Example C15_hypercube_ex : h_count_leaves HHex (h_walk HHex ex_hex) 7 = 512 /\ h_count_leaves HQuad (h_walk HQuad ex_quad) 30 = 4 ^ 26.
Proof. split; vm_compute; reflexivity. Qed.

(** Properties C01-C08 and C15 for prisms.  Vocabulary: PathSpec.v, PrismSpec.v; the elements of the tree are [p_walk p], [p_path p]. *)
From Verif Require Import Prelude PathSpec BitLemmas SimplexModel SimplexSpec LineModel LineSpec SimplexPathProofs SimplexProofs SimplexOrderProofs SimplexAncProofs LineProofs.
From Verif Require Import PrismModel PrismSpec PrismProofs SchemeModel SchemeSpec SchemeInstances PrismScheme PrismMoreProofs.

Definition ex_prism : list Z := [3; 5; 0; 6].
Example ex_prism_path : p_path ex_prism.
Proof. split; [repeat constructor; vm_compute; congruence|vm_compute; congruence]. Qed.

(** C01 *)
Theorem C01_prism_parent_of_child : forall p i, p_path p -> zlen p < PMAX -> 0 <= i < 8 ->
  p_parent (p_child (p_walk p) i) = p_walk p /\ p_child_id (p_child (p_walk p) i) = i /\ p_level (p_child (p_walk p) i) = p_level (p_walk p) + 1.
Proof.
  intros p i Hp HL Hi. assert (H := proj2 (p_path_snoc p i) (conj Hp (conj Hi HL))). assert (F := p_child_facts H). assert (L := p_walk_level H).
  rewrite p_walk_snoc in F, L. rewrite zlen_app in L. rewrite <- (p_walk_level Hp) in L. exact (conj (proj1 F) (conj (proj2 F) L)).
Qed.
Print Assumptions C01_prism_parent_of_child.
Theorem C01_prism_child_of_parent : forall p, p_path p -> 0 < zlen p ->
  let e := p_walk p in p_level (p_parent e) = p_level e - 1 /\ 0 <= p_child_id e < 8 /\ p_child (p_parent e) (p_child_id e) = e /\ p_parent e = p_walk (removelast p).
Proof. intros p. exact (@p_child_of_parent p). Qed.
Print Assumptions C01_prism_child_of_parent.
Theorem C01_prism_children_array : forall p, p_path p -> zlen p < PMAX -> p_childrenpv (p_walk p) = p_children_of (p_walk p).
Proof. intros p _ _. exact eq_refl. Qed.
Print Assumptions C01_prism_children_array.
Example C01_prism_ex : p_child (p_walk ex_prism) 5 = Prism (Line 5 369098752) (Simp 5 0 436207616 285212672 0) /\
  p_parent (Prism (Line 5 369098752) (Simp 5 0 436207616 285212672 0)) = p_walk ex_prism /\ zlen ex_prism < PMAX.
Proof. split; [vm_compute; reflexivity|split; vm_compute; reflexivity]. Qed.

(** C02 *)
Theorem C02_prism_id_of_element : forall p, p_path p ->
  p_linear_id (p_walk p) (zlen p) = num 8 p /\ 0 <= num 8 p < 8 ^ zlen p /\
  p_init_linear_id (zlen p) (p_linear_id (p_walk p) (zlen p)) = p_walk p.
Proof.
  intros p Hp. assert (E := p_linear_id_fine Hp (conj (Z.le_refl _) (proj2 Hp))). rewrite Z.sub_diag, Z.mul_1_r in E. rewrite E.
  exact (conj eq_refl (conj (num_range (N:=8) eq_refl (proj1 Hp)) (p_init_linear_id_num Hp))).
Qed.
Print Assumptions C02_prism_id_of_element.
Theorem C02_prism_element_of_id : forall L id, 0 <= L <= PMAX -> 0 <= id < 8 ^ L ->
  exists p, p_path p /\ zlen p = L /\ p_init_linear_id L id = p_walk p /\ p_linear_id (p_walk p) L = id.
Proof.
  intros L id HL Hid. exists (digits 8 (Z.to_nat L) id). assert (Hp := p_path_digits id HL).
  assert (Z : zlen (digits 8 (Z.to_nat L) id) = L) by (unfold zlen; rewrite digits_length; exact (Z2Nat.id L (proj1 HL))).
  assert (N : num 8 (digits 8 (Z.to_nat L) id) = id) by (apply num_digits; rewrite ?Z2Nat.id by lia; try exact Hid; exact eq_refl).
  assert (H := p_linear_id_fine Hp (conj (Z.le_refl _) (proj2 Hp))). rewrite Z.sub_diag, Z.mul_1_r, Z, N in H.
  assert (I := p_init_linear_id_num Hp). rewrite Z, N in I. exact (conj Hp (conj Z (conj I H))).
Qed.
Print Assumptions C02_prism_element_of_id.
Theorem C02_prism_id_at_other_levels : forall p L, p_path p ->
  (0 <= L <= zlen p -> p_linear_id (p_walk p) L = num 8 (firstn (Z.to_nat L) p)) /\
  (zlen p <= L <= PMAX -> p_linear_id (p_walk p) L = num 8 p * 8 ^ (L - zlen p)).
Proof. intros p L Hp. exact (conj (p_linear_id_coarse Hp) (p_linear_id_fine Hp)). Qed.
Print Assumptions C02_prism_id_at_other_levels.
Example C02_prism_ex : p_linear_id (p_walk ex_prism) 4 = 1862 /\ p_init_linear_id 4 1862 = p_walk ex_prism.
Proof. split; vm_compute; reflexivity. Qed.

(** C03 *)
Theorem C03_prism_successor : forall p, p_path p -> num 8 p + 1 < 8 ^ zlen p ->
  exists q, p_path q /\ zlen q = zlen p /\ p_successor (p_walk p) (zlen p) = Ok (p_walk q) /\ num 8 q = num 8 p + 1.
Proof.
  intros p Hp HN. exists (next_path 8 p). assert (R := num_range (N:=8) eq_refl (proj1 Hp)).
  assert (E : num 8 (next_path 8 p) = num 8 p + 1) by (apply num_digits; [exact eq_refl|unfold zlen in *; lia]).
  assert (P : p_path (next_path 8 p)) by (split; [apply digits_valid; lia|unfold zlen; rewrite next_path_length; apply Hp]).
  exact (conj P (conj (f_equal Z.of_nat (next_path_length _ p)) (conj (p_successor_walk Hp HN) E))).
Qed.
Print Assumptions C03_prism_successor.
Theorem C03_prism_last_has_no_successor : forall p, p_path p -> num 8 p + 1 = 8 ^ zlen p -> p_successor (p_walk p) (zlen p) = AssertFail.
Proof. intros p. exact (@p_successor_last p). Qed.
Print Assumptions C03_prism_last_has_no_successor.
Example C03_prism_ex : num 8 ex_prism + 1 < 8 ^ zlen ex_prism /\ p_successor (p_walk [3;5;7;7]) 4 = Ok (p_walk [3;6;0;0]).
Proof. split; vm_compute; reflexivity. Qed.

(** C04 *)
Theorem C04_prism_compare : forall p q, p_path p -> p_path q -> (p_compare (p_walk p) (p_walk q) ?= 0) = path_cmp p q.
Proof. intros p q. exact (@p_compare_walk p q). Qed.
Print Assumptions C04_prism_compare.
Theorem C04_prism_equal : forall p q, p_path p -> p_path q -> (p_equal (p_walk p) (p_walk q) = true <-> p = q).
Proof. intros p q. exact (@p_equal_walk p q). Qed.
Print Assumptions C04_prism_equal.
Example C04_prism_ex : p_compare (p_walk ex_prism) (p_walk [3;5;1]) = -1 /\ p_compare (p_walk ex_prism) (p_walk [3;5;0]) = 1.
Proof. split; vm_compute; reflexivity. Qed.

(** C05 *)
Theorem C05_prism_first_last : forall p L, p_path p -> zlen p <= L <= PMAX ->
  p_first_descendant (p_walk p) L = p_walk (p ++ repeat 0 (Z.to_nat (L - zlen p))) /\
  p_last_descendant (p_walk p) L = p_walk (p ++ repeat 7 (Z.to_nat (L - zlen p))).
Proof. intros p L Hp HL. exact (conj (p_first_descendant_walk Hp HL) (p_last_descendant_walk Hp HL)). Qed.
Print Assumptions C05_prism_first_last.
Theorem C05_prism_descendant_range : forall p L id, p_path p -> zlen p <= L <= PMAX -> 0 <= id < 8 ^ L ->
  (p_linear_id (p_first_descendant (p_walk p) L) L <= id <= p_linear_id (p_last_descendant (p_walk p) L) L <-> prefix p (digits 8 (Z.to_nat L) id)).
Proof. intros p L id. exact (@p_descendant_ids p L id). Qed.
Print Assumptions C05_prism_descendant_range.
Theorem C05_prism_corner_descendant : forall p c L, p_path p -> zlen p <= L <= PMAX -> 0 <= c < 6 ->
  exists r, p_path (p ++ r) /\ zlen (p ++ r) = L /\ p_corner_descendant (p_walk p) c L = p_walk (p ++ r) /\
  p_vertex (p_corner_descendant (p_walk p) c L) c = p_vertex (p_walk p) c.
Proof. intros p c L. exact (@p_corner_descendant_corner p c L). Qed.
Print Assumptions C05_prism_corner_descendant.
Example C05_prism_ex : p_linear_id (p_first_descendant (p_walk ex_prism) 6) 6 = 1862 * 64 /\ p_linear_id (p_last_descendant (p_walk ex_prism) 6) 6 = 1862 * 64 + 63 /\
  p_linear_id (p_corner_descendant (p_walk ex_prism) 4 6) 6 = p_linear_id (p_walk (ex_prism ++ [6; 6])) 6.
Proof. repeat split; vm_compute; reflexivity. Qed.

(** C06 *)
Theorem C06_prism_nca : forall p q, p_path p -> p_path q ->
  exists c, p_path c /\ p_nca (p_walk p) (p_walk q) = Ok (p_walk c) /\ prefix c p /\ prefix c q /\ forall r, prefix r p -> prefix r q -> prefix r c.
Proof.
  intros p q Hp Hq. exists (lcp p q).
  assert (TP : p_path (lcp p q)).
  { destruct (lcp_prefix_l p q) as (r & E). destruct Hp as [V L]. rewrite E in V, L. apply valid_app in V. rewrite zlen_app in L. split; [apply V|unfold zlen in *; lia]. }
  exact (conj TP (conj (p_nca_walk Hp Hq) (conj (lcp_prefix_l p q) (conj (lcp_prefix_r p q) (fun r H1 H2 => lcp_greatest H1 H2))))).
Qed.
Print Assumptions C06_prism_nca.
Example C06_prism_ex : p_nca (p_walk ex_prism) (p_walk [3;5;4;6;1]) = Ok (p_walk [3;5]).
Proof. vm_compute. reflexivity. Qed.

(** C07 *)
Theorem C07_prism_is_ancestor : forall p q, p_path p -> p_path q -> (p_is_ancestor (p_walk p) (p_walk q) = true <-> prefix p q).
Proof. intros p q. exact (@p_is_ancestor_walk p q). Qed.
Print Assumptions C07_prism_is_ancestor.
Theorem C07_prism_ancestor_id : forall p L, p_path p -> 1 <= L <= zlen p -> p_ancestor_id (p_walk p) L = nth (Z.to_nat (L - 1)) p 0.
Proof. intros p L. exact (@p_ancestor_id_walk p L). Qed.
Print Assumptions C07_prism_ancestor_id.
Example C07_prism_ex : p_is_ancestor (p_walk [3;5]) (p_walk ex_prism) = true /\ p_is_ancestor (p_walk [3;1]) (p_walk ex_prism) = false /\ p_ancestor_id (p_walk ex_prism) 2 = 5.
Proof. repeat split; vm_compute; reflexivity. Qed.

(** C08: a complete family is recognised; among eight consecutive elements of a level only families are. *)
Theorem C08_prism_family_recognised : forall p, p_path p -> zlen p < PMAX -> p_is_family (p_children_of (p_walk p)) = true.
Proof. intros p. exact (@p_family p). Qed.
Print Assumptions C08_prism_family_recognised.
Theorem C08_prism_consecutive_elements : forall L id, 1 <= L <= PMAX -> 0 <= id -> id + 8 <= 8 ^ L ->
  (p_is_family (map (fun k => p_walk (digits 8 (Z.to_nat L) (id + k))) (zseq 0 8)) = true <->
   exists p, p_path p /\ zlen p + 1 = L /\ map (fun k => p_walk (digits 8 (Z.to_nat L) (id + k))) (zseq 0 8) = p_children_of (p_walk p)).
Proof.
  intros L id HL Hid Hb. split; [exact (@p_family_consecutive L id HL Hid Hb)|]. intros (p & Hp & E & ->). apply p_family; [exact Hp|lia].
Qed.
Print Assumptions C08_prism_consecutive_elements.
(** For arbitrary lists of prisms the test is wrong: the lines of the four pairs are never compared with each other *)
Theorem C08_prism_arbitrary_list_refuted : exists ps, Forall p_path ps /\ zlen ps = 8 /\ p_is_family (map p_walk ps) = true /\
  forall p, p_path p -> zlen p < PMAX -> map p_walk ps <> p_children_of (p_walk p).
Proof.
  exists [[0;0]; [0;1]; [4;2]; [4;3]; [0;4]; [0;5]; [4;6]; [4;7]].
  split; [repeat constructor; vm_compute; congruence|]. split; [reflexivity|]. split; [vm_compute; reflexivity|].
  intros p Hp HL E. assert (H := @p_not_children_of _ p Hp HL E 0 2 ltac:(lia) ltac:(lia)). vm_compute in H. discriminate H.
Qed.
Print Assumptions C08_prism_arbitrary_list_refuted.
Example C08_prism_ex : p_is_family (map (fun k => p_walk (digits 8 4 (1856 + k))) (zseq 0 8)) = true /\
  p_is_family (map (fun k => p_walk (digits 8 4 (1857 + k))) (zseq 0 8)) = false.
Proof. split; vm_compute; reflexivity. Qed.

(** C15: the count is exact unless it is 8^21 = 2^63: then it is negative *)
Theorem C15_prism_count_leaves_partial : forall p L, p_path p -> zlen p <= L <= PMAX -> L - zlen p < PMAX ->
  p_count_leaves (p_walk p) L = 8 ^ (L - zlen p) /\
  p_count_leaves (p_walk p) L = p_linear_id (p_last_descendant (p_walk p) L) L - p_linear_id (p_first_descendant (p_walk p) L) L + 1.
Proof. intros p L. exact (@p_count_leaves_num p L). Qed.
Print Assumptions C15_prism_count_leaves_partial.
Theorem C15_prism_count_leaves_refuted : p_count_leaves p_root PMAX = - 2 ^ 63 /\ p_count_root PMAX = - 2 ^ 63 /\
  p_linear_id (p_last_descendant p_root PMAX) PMAX - p_linear_id (p_first_descendant p_root PMAX) PMAX + 1 = 2 ^ 63.
Proof. repeat split; vm_compute; reflexivity. Qed.
Print Assumptions C15_prism_count_leaves_refuted.
Example C15_prism_ex : p_count_leaves (p_walk ex_prism) 7 = 512.
Proof. vm_compute. reflexivity. Qed.

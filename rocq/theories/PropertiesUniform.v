(** Properties C17, C40 and the uniform part of C20: uniform forests.  Vocabulary: UniformSpec.v, SchemeSpec.v, PartitionSpec.v, OwnerSpec.v. *)
From Verif Require Import Prelude PathSpec LineModel SimplexModel SchemeModel SchemeSpec SchemeProofs SchemeInstances LeafProofs OffsetModel OffsetSpec.
From Verif Require Import PartitionModel PartitionSpec PartitionRangeProofs PropertiesPartition OwnerModel OwnerSpec UniformModel UniformSpec UniformProofs UniformForestProofs UniformTableProofs.

(** ** C40 *)
(** the first element of process p among N elements on P processes is number floor (p * N / P): no step of the 64 bit computation
    wraps around *)
Theorem C40_first_element : forall p P N, 0 < P < 2 ^ 32 -> 0 <= p <= P -> 0 <= N < 2 ^ 63 -> first_element_of_process p P N = Ok (p * N / P).
Proof. intros p P N H1 H2 H3. exact (proj1 (first_element_ok p P N H1 H2 H3)). Qed.
Print Assumptions C40_first_element.
(** the ranges computed by the processes follow each other without gaps, from element 0 to element N - 1, and any two of them differ by
    at most one in length *)
Theorem C40_ranges : forall P N, 0 < P < 2 ^ 32 -> 0 <= N < 2 ^ 63 -> exists start : Z -> Z,
  (forall p, 0 <= p <= P -> first_element_of_process p P N = Ok (start p)) /\ start 0 = 0 /\ start P = N /\
  (forall p, 0 <= p < P -> start p <= start (p + 1)) /\
  forall p q, 0 <= p < P -> 0 <= q < P -> (start (p + 1) - start p) - (start (q + 1) - start q) <= 1.
Proof.
  intros P N HP HN. exists (cut N P). split; [intros p Hp; exact (proj1 (first_element_ok p P N HP Hp HN))|]. split; [apply cut_0; lia|]. split; [apply cut_P; lia|].
  split; [intros p Hp; apply cut_mono; lia|]. intros p q Hp Hq. unfold cut.
  assert (A := Z.mul_div_le ((p + 1) * N) P ltac:(lia)). assert (B := Z.mul_succ_div_gt (p * N) P ltac:(lia)).
  assert (C := Z.mul_succ_div_gt ((q + 1) * N) P ltac:(lia)). assert (D := Z.mul_div_le (q * N) P ltac:(lia)). rewrite Z.mul_succ_r in *.
  set (a := (p + 1) * N / P) in *. set (b := p * N / P) in *. set (c := (q + 1) * N / P) in *. set (d := q * N / P) in *. 
  assert (P * ((a - b) - (c - d)) < P * 2) by lia. assert ((a - b) - (c - d) < 2); [|lia]. eapply Z.mul_lt_mono_pos_l; [|eassumption]. lia.
Qed.
Print Assumptions C40_ranges.

(** the output of the bounds computation for the elements number a to b - 1: first tree and number of the first element in it, last tree
    and one more than the number of the last element in it, and whether the first tree is also the tree of element a - 1 *)
Definition bounds_of (counts : list Z) (a b : Z) (x : bounds) : Prop := exists f s l e,
  x = Bounds (Some f) (Some s) l (Some e) (Some (0 <? s)) /\ f <= l /\ position counts a f s /\ position counts (b - 1) l (e - 1).

(** trees with equally many elements *)
Theorem C40_bounds_equal : forall P counts c p, 0 < P < 2 ^ 32 -> 0 < zlen counts -> 0 < c -> Forall (fun x => x = c) counts -> total counts < 2 ^ 63 -> 0 <= p < P ->
  let a := cut (total counts) P p in let b := cut (total counts) P (p + 1) in
  exists x, bounds_equal p P counts = Ok x /\ (a < b -> bounds_of counts a b x) /\
    (b <= a -> exists f, b_first x = Some f /\ b_last x = f - 1 /\ (f - 1) * c < a <= f * c).
Proof.
  intros P counts c p HP HK Hc Fc HT Hp a b. assert (F : Forall (fun x => 0 < x) counts) by (eapply Forall_impl; [|exact Fc]; intros x Hx; cbn beta in *; lia).
  destruct (bounds_equal_ok P counts HP F HT HK p c Hp Fc) as (x & E & [X1 X2] & X3). exists x. split; [exact E|]. split; [exact X1|]. intros L. destruct (X2 L) as (f & F1 & F2). destruct (X3 L) as (g & G1 & G2).
  exists f. split; [exact F1|]. split; [exact F2|]. assert (f = g) by congruence. subst g. exact G2.
Qed.
Print Assumptions C40_bounds_equal.
(** trees with any positive numbers of elements, on a replicated coarse mesh *)
Theorem C40_bounds_irregular_partial : forall P counts p, 0 < P < 2 ^ 32 -> 0 < zlen counts -> Forall (fun x => 0 < x) counts -> total counts < 2 ^ 63 -> 0 <= p < P ->
  let a := cut (total counts) P p in let b := cut (total counts) P (p + 1) in
  exists x, bounds_irregular p P counts = Ok x /\ (a < b -> bounds_of counts a b x) /\
    (b <= a -> exists f, b_first x = Some f /\ b_last x = f - 1 /\ 0 <= f < zlen counts).
Proof.
  intros P counts p HP HK F HT Hp a b. unfold bounds_irregular. destruct (Z.eqb_spec (zlen counts) 0); [lia|].
  destruct (bounds_unpartitioned_ok P counts HP F HT HK p Hp) as (x & E & [X1 X2] & X3). exists x. split; [exact E|]. split; [exact X1|]. intros L. destruct (X3 L) as (q & t & j & _ & PO & F1 & F2 & _).
  exists t. split; [exact F1|]. split; [exact F2|]. exact (proj1 PO).
Qed.
Print Assumptions C40_bounds_irregular_partial.
(** on a process without elements the first tree is meant to be the one of the next element; it can be a later one, because the
    search for the next process with elements is off by one at the last but one process *)
Theorem C40_empty_process_refuted : exists P counts p x f t j, 0 <= p < P /\ cut (total counts) P p = cut (total counts) P (p + 1) /\
  bounds_irregular p P counts = Ok x /\ b_first x = Some f /\ position counts (cut (total counts) P p) t j /\ t < f.
Proof.
  exists 3, [1; 1], 0, (Bounds (Some 1) (Some 0) 0 None (Some false)), 1, 0, 0. split; [lia|]. split; [reflexivity|]. split; [vm_compute; reflexivity|]. split; [reflexivity|].
  split; [|reflexivity]. split; [split; [lia|reflexivity]|]. split; [split; [lia|reflexivity]|reflexivity].
Qed.
Print Assumptions C40_empty_process_refuted.
(** nevertheless the tree table of a uniform partition of the coarse mesh is valid and a process has exactly the trees of its elements *)
Theorem C40_tree_table : forall P counts, 0 < P < 2 ^ 32 -> 0 < zlen counts -> Forall (fun x => 0 < x) counts -> total counts < 2 ^ 63 ->
  exists to, cmesh_uniform_table P counts = Ok to /\ valid_table P (zlen counts) to /\
    forall p t, 0 <= p < P -> (owns to p t <-> exists g j, cut (total counts) P p <= g < cut (total counts) P (p + 1) /\ position counts g t j).
Proof. intros P counts HP HK F HT. exact (uniform_table_main P counts HP F HT HK). Qed.
Print Assumptions C40_tree_table.

(** ** C17 *)
Section forest.
Variable cls : Z -> scheme.
(** all elements of level L of tree t in depth-first order, which is the order of their linear ids (law_linear_id) *)
Definition level_elements (L t : Z) : list (elt (cls t)) := descend (Z.to_nat L) (s_root (cls t)).
(** trees 0, ..., K-1 have elements of level L, and fewer than 2^63 of them *)
Definition admissible (K L maxlevel : Z) : Prop := 1 <= K /\ 0 <= L <= maxlevel /\
  (forall t, 0 <= t < K -> laws (cls t) /\ maxlevel <= s_maxlevel (cls t)) /\
  total (map (fun t => zlen (level_elements L t)) (zseq 0 (Z.to_nat K))) < 2 ^ 63.
Definition number_of_elements (K L : Z) : Z := total (map (fun t => zlen (level_elements L t)) (zseq 0 (Z.to_nat K))).
(** the sequence of all elements with tree and class *)
Definition uniform_sequence (class : Z -> Z) (K L : Z) : list (Z * Z * leaf cls) :=
  flat_map (fun t => map (fun e => (t, class t, existT (fun t => elt (cls t)) t e)) (level_elements L t)) (zseq 0 (Z.to_nat K)).
(** a set of classes that needs the general computation, or equally many elements in all trees *)
Definition regular_ok (irregular : bool) (K L : Z) : Prop :=
  irregular = false -> exists c, forall t, 0 <= t < K -> zlen (level_elements L t) = c.

Lemma uniform_local irregular class maxlevel K L P p : 1 <= P < 2 ^ 31 -> 0 <= p < P -> admissible K L maxlevel -> regular_ok irregular K L ->
  let N := number_of_elements K L in
  exists f, uniform_forest cls irregular class maxlevel K L P p = Ok f /\ local_forest f /\ pf_num f = cut N P (p + 1) - cut N P p /\
    tagged f = part (uniform_sequence class K L) (cut N P p) (cut N P (p + 1)).
Proof.
  intros HP Hp (HK & HL & LW & HT) RE N.
  assert (LW' : forall t, 0 <= t < K -> laws (cls t) /\ 0 <= L <= s_maxlevel (cls t)). { intros t Ht. destruct (LW t Ht) as [A B]. split; [exact A|lia]. }
  assert (HTn : total (nums cls K L) < 2 ^ 63) by exact HT. assert (FP := nums_pos HK LW'). assert (NL := @nums_len cls K L HK LW').
  assert (B : exists x, (if irregular then bounds_irregular p P (tree_counts cls K L) else bounds_equal p P (tree_counts cls K L)) = Ok x /\ bounds_for (nums cls K L) (cut N P p) (cut N P (p + 1)) x).
  { rewrite (tree_counts_ok HK LW' HTn). destruct irregular.
    - unfold bounds_irregular. destruct (Z.eqb_spec (zlen (nums cls K L)) 0); [lia|]. destruct (bounds_unpartitioned_ok P (nums cls K L) ltac:(lia) FP HTn ltac:(lia) p Hp) as (x & E & X & _). exists x. exact (conj E X).
    - destruct (RE eq_refl) as (c & Hc). destruct (bounds_equal_ok P (nums cls K L) ltac:(lia) FP HTn ltac:(lia) p c Hp) as (x & E & X & _).
      + apply Forall_forall. intros z Hz. unfold nums in Hz. apply in_map_iff in Hz. destruct Hz as (t & <- & Ht). apply in_zseq in Ht. apply Hc. lia.
      + exists x. exact (conj E X). }
  destruct B as (x & E & X). unfold uniform_forest. rewrite E. cbn [obind]. assert (NR := N_range (nums cls K L) FP HTn).
  destruct (first_element_ok p P N ltac:(lia) ltac:(lia) NR) as [_ R1]. destruct (first_element_ok (p + 1) P N ltac:(lia) ltac:(lia) NR) as [_ R2].
  destruct (@populate_ok cls K L HK LW' HTn class maxlevel (cut N P p) (cut N P (p + 1)) x) as (f & F1 & F2 & F3 & F4); [lia|lia|apply cut_mono; lia|exact (proj2 R2)|exact X|].
  exists f. auto.
Qed.

(** Every process creates its part without error; the parts have floor ((p+1)N/P) - floor (pN/P) elements, and together they are all
    elements of level L of all trees, tree by tree, each exactly once in the order of the linear ids. *)
Theorem C17_uniform : forall irregular class maxlevel K L P, 1 <= P < 2 ^ 31 -> admissible K L maxlevel -> regular_ok irregular K L ->
  exists f, (forall p, 0 <= p < P -> uniform_forest cls irregular class maxlevel K L P p = Ok (f p) /\ local_forest (f p) /\
      pf_num (f p) = cut (number_of_elements K L) P (p + 1) - cut (number_of_elements K L) P p) /\
    gather P (fun p => tagged (f p)) = uniform_sequence class K L.
Proof.
  intros irregular class maxlevel K L P HP AD RE. set (N := number_of_elements K L).
  exists (fun p => match uniform_forest cls irregular class maxlevel K L P p with Ok f => f | _ => PForest 0 0 0 [] end).
  assert (G : forall p, 0 <= p < P -> let f := match uniform_forest cls irregular class maxlevel K L P p with Ok f => f | _ => PForest 0 0 0 [] end in
    uniform_forest cls irregular class maxlevel K L P p = Ok f /\ local_forest f /\ pf_num f = cut N P (p + 1) - cut N P p /\ tagged f = part (uniform_sequence class K L) (cut N P p) (cut N P (p + 1))).
  { intros p Hp. destruct (@uniform_local irregular class maxlevel K L P p HP Hp AD RE) as (f & E & F). rewrite E. cbn zeta. exact (conj eq_refl F). }
  split; [intros p Hp; destruct (G p Hp) as (G1 & G2 & G3 & _); exact (conj G1 (conj G2 G3))|].
  destruct AD as (HK & HL & LW & HT). assert (LW' : forall t, 0 <= t < K -> laws (cls t) /\ 0 <= L <= s_maxlevel (cls t)). { intros t Ht. destruct (LW t Ht) as [A B]. split; [exact A|lia]. }
  apply (@gather_parts _ P N (cuts P (nums cls K L))).
  - assert (FP := nums_pos HK LW'). exact (cuts_table P (nums cls K L) ltac:(lia) FP HT).
  - exact (@whole_len cls K L HK LW' class).
  - intros q Hq. destruct (G q Hq) as (_ & _ & _ & G4). rewrite G4. assert (FP := nums_pos HK LW'). rewrite !at_cuts by lia. reflexivity.
Qed.

(** C17: a uniform forest is a forest in the sense of the theorems on owners, tree tables (C29, C41): each tree is covered exactly once *)
Theorem C17_uniform_covers : forall irregular class maxlevel K L P, 1 <= P < 2 ^ 31 -> admissible K L maxlevel -> regular_ok irregular K L ->
  exists f, (forall p, 0 <= p < P -> uniform_forest cls irregular class maxlevel K L P p = Ok (f p)) /\
    distributed P K maxlevel (level_elements L) (fun p => map snd (tagged (f p))).
Proof.
  intros irregular class maxlevel K L P HP AD RE. destruct (@C17_uniform irregular class maxlevel K L P HP AD RE) as (f & H1 & H2). exists f. split; [intros p Hp; exact (proj1 (H1 p Hp))|].
  destruct AD as (HK & HL & LW & HT). split; [lia|]. split; [lia|]. split.
  - intros t Ht. destruct (LW t Ht) as [A B]. assert (LR : s_level (s_root (cls t)) = 0) by exact (law_level A (gp_nil _)).
    assert (DV := descend_valid A (n := Z.to_nat L) (valid_root (cls t))). rewrite LR in DV. specialize (DV ltac:(lia)).
    split; [exact A|]. split; [lia|]. split; [split|].
    + eapply Forall_impl; [|exact DV]. intros e He. exact (proj1 He).
    + unfold level_elements. apply (region_descend A); [exact (valid_root (cls t))|lia].
    + eapply Forall_impl; [|exact DV]. intros e He. cbn beta in *. lia.
  - assert (Q := f_equal (map snd) H2). unfold gather, uniform_sequence, all_leaves in *. rewrite !flat_map_concat_map, !concat_map, !map_map in Q. rewrite !flat_map_concat_map. etransitivity; [exact Q|]. f_equal.
    apply map_ext. intros t. rewrite map_map. reflexivity.
Qed.
(** C20: all elements of a uniform forest have its level, which is at most the maximum level *)
Theorem C20_uniform_levels : forall irregular class maxlevel K L P p f t c e, 1 <= P < 2 ^ 31 -> admissible K L maxlevel -> regular_ok irregular K L -> 0 <= p < P ->
  uniform_forest cls irregular class maxlevel K L P p = Ok f -> In (t, c, e) (tagged f) -> 0 <= t < K /\ s_level (projT2 e) = L /\ L <= maxlevel.
Proof.
  intros irregular class maxlevel K L P p f t c e HP AD RE Hp E I. destruct (@uniform_local irregular class maxlevel K L P p HP Hp AD RE) as (f' & E' & _ & _ & T). assert (f' = f) by congruence. subst f'.
  rewrite T in I. assert (I2 : In (t, c, e) (uniform_sequence class K L)).
  { unfold part in I. assert (Q : forall (A : Type) n (l : list A) y, In y (firstn n l) -> In y l) by (intros A n l y H; rewrite <- (firstn_skipn n l); apply in_or_app; now left).
    assert (Q' : forall (A : Type) n (l : list A) y, In y (skipn n l) -> In y l) by (intros A n l y H; rewrite <- (firstn_skipn n l); apply in_or_app; now right). eapply Q', Q, I. }
  destruct AD as (HK & HL & LW & HT). unfold uniform_sequence in I2. apply in_flat_map in I2. destruct I2 as (u & Hu & I2). apply in_zseq in Hu. apply in_map_iff in I2. destruct I2 as (d & Ed & Id). injection Ed as <- <- <-.
  split; [lia|]. cbn [projT2]. destruct (LW u ltac:(lia)) as [A B]. assert (LR : s_level (s_root (cls u)) = 0) by exact (law_level A (gp_nil _)).
  assert (DV := descend_valid A (n := Z.to_nat L) (valid_root (cls u))). rewrite LR in DV. specialize (DV ltac:(lia)). rewrite Forall_forall in DV. destruct (DV d Id) as [_ DL]. split; [etransitivity; [exact DL|lia]|lia].
Qed.
End forest.
Print Assumptions C17_uniform.
Print Assumptions C17_uniform_covers.
Print Assumptions C20_uniform_levels.

(** ** examples *)
(** three trees (4, 2, 5 elements) on four processes *)
Example ex_bounds : bounds_irregular 1 4 [4; 2; 5] = Ok (Bounds (Some 0) (Some 2) 1 (Some 1) (Some true)) /\ cut 11 4 1 = 2 /\ cut 11 4 2 = 5.
Proof. vm_compute. auto. Qed.
(** more processes than elements *)
Example ex_table : cmesh_uniform_table 7 [1; 2] = Ok [0; 0; 0; 1; 1; 2; -2; 2].
Proof. vm_compute. reflexivity. Qed.
(** two trees of lines at level 2 on three processes: the second process has two elements of the first tree and one of the second *)
Example ex_uniform_forest : uniform_forest (fun _ => line_scheme) false (fun _ => 1) 30 2 2 3 1 =
  Ok (PForest 0 1 3 [PTree 1 0 (map (fun p => existT (fun _ => elt line_scheme) 0 (gwalk line_scheme p)) [[1; 0]; [1; 1]]);
                     PTree 1 2 [existT (fun _ => elt line_scheme) 1 (gwalk line_scheme [0; 0])]]).
Proof. vm_compute. reflexivity. Qed.
Example ex_admissible : admissible (fun _ => line_scheme) 2 2 30 /\ regular_ok (fun _ => line_scheme) false 2 2.
Proof.
  split; [split; [lia|]; split; [lia|]; split; [|vm_compute; reflexivity]|].
  - intros t Ht. split; [exact line_laws|vm_compute; discriminate].
  - intros _. exists 4. intros t Ht. reflexivity.
Qed.
(** lines and a triangle: different numbers of elements *)
Definition ex_cls (t : Z) : scheme := if t =? 1 then simplex_scheme false else line_scheme.
Example ex_hybrid : admissible ex_cls 3 1 21 /\ regular_ok ex_cls true 3 1 /\ ~ (zlen (level_elements ex_cls 1 0) = zlen (level_elements ex_cls 1 1)).
Proof.
  split; [split; [lia|]; split; [lia|]; split; [|vm_compute; reflexivity]|split; [intros H; discriminate|vm_compute; discriminate]].
  intros t Ht. unfold ex_cls. destruct (t =? 1); [split; [exact (simplex_laws false)|vm_compute; discriminate]|split; [exact line_laws|vm_compute; discriminate]].
Qed.

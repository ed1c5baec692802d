(** Access to the leaves by local index. *)
From Verif Require Import Prelude PathSpec SchemeProofs LeafModel.

Section index.
Variable E : Type.
Implicit Types trees ts : list (tree E).
Notation leaves := (@t_leaves E).

(** the offsets are the running sums of the numbers of leaves, starting with c *)
Fixpoint offsets_ok (c : Z) (ts : list (tree E)) : Prop :=
  match ts with [] => True | t :: r => t_offset t = c /\ offsets_ok (c + zlen (leaves t)) r end.
Lemma offset_loop_spec ts c : offsets_ok c (fst (offset_loop ts c)) /\ map leaves (fst (offset_loop ts c)) = map leaves ts /\
  snd (offset_loop ts c) = c + zlen (flat_map leaves ts).
Proof.
  revert c. induction ts as [|t r IH]; intros c; cbn [offset_loop].
  - cbn. unfold zlen. cbn. split; [auto|]. split; [auto|lia].
  - specialize (IH (c + zlen (leaves t))). destruct (offset_loop r (c + zlen (leaves t))) as [r' c'] eqn:Q. cbn [fst snd] in *. destruct IH as (A & B & C).
    cbn [offsets_ok t_offset t_leaves map flat_map]. split; [auto|]. split; [now rewrite B|]. rewrite zlen_app. lia.
Qed.
Lemma offsets_nth c ts i t : offsets_ok c ts -> nth_error ts i = Some t -> t_offset t = c + zlen (flat_map leaves (firstn i ts)).
Proof.
  revert c i. induction ts as [|u r IH]; intros c i H Hi; [destruct i; discriminate|]. destruct H as [H1 H2]. destruct i as [|i].
  - cbn in Hi. injection Hi as <-. cbn [firstn flat_map]. unfold zlen. cbn. lia.
  - cbn [nth_error] in Hi. rewrite (IH _ _ H2 Hi). cbn [firstn flat_map]. rewrite zlen_app. lia.
Qed.
(** the tree of a leaf *)
Definition tree_of ts (leid j : Z) : Prop := 0 <= j /\ exists t, nth_error ts (Z.to_nat j) = Some t /\ t_offset t <= leid < t_offset t + zlen (leaves t).
Lemma offsets_mono c ts i j t u : offsets_ok c ts -> nth_error ts i = Some t -> nth_error ts j = Some u -> (i < j)%nat -> t_offset t + zlen (leaves t) <= t_offset u.
Proof.
  revert c i j. induction ts as [|v r IH]; intros c i j H Hi Hj Hij; [destruct i; discriminate|]. destruct H as [H1 H2]. destruct j as [|j]; [lia|]. cbn [nth_error] in Hj.
  destruct i as [|i].
  - cbn in Hi. injection Hi as <-. rewrite (offsets_nth H2 Hj), H1. pose proof (zlen_ge0 (flat_map leaves (firstn j r))). lia.
  - cbn [nth_error] in Hi. apply (IH _ i j H2 Hi Hj). lia.
Qed.
Lemma tree_of_exists c ts leid : offsets_ok c ts -> c <= leid < c + zlen (flat_map leaves ts) ->
  exists j t, nth_error ts j = Some t /\ t_offset t <= leid < t_offset t + zlen (leaves t) /\
    nth_error (leaves t) (Z.to_nat (leid - t_offset t)) = nth_error (flat_map leaves ts) (Z.to_nat (leid - c)).
Proof.
  revert c. induction ts as [|v r IH]; intros c H HL; [cbn in HL; unfold zlen in HL; cbn in HL; lia|]. destruct H as [H1 H2]. cbn [flat_map] in *. rewrite zlen_app in HL.
  destruct (Z.ltb_spec leid (c + zlen (leaves v))) as [C|C].
  - exists 0%nat, v. split; [reflexivity|]. split; [lia|]. rewrite H1. symmetry. apply nth_error_app1. unfold zlen in C. lia.
  - destruct (IH _ H2) as (j & t & Hj & Ht & En); [lia|]. exists (Datatypes.S j), t. split; [exact Hj|]. split; [exact Ht|]. rewrite En.
    rewrite nth_error_app2 by (unfold zlen in C; lia). f_equal. unfold zlen in *. lia.
Qed.
Lemma compare_spec c ts leid j t i u : offsets_ok c ts -> nth_error ts j = Some t -> t_offset t <= leid < t_offset t + zlen (leaves t) -> nth_error ts i = Some u ->
  compare_elem_tree leid u = (if (j <? i)%nat then -1 else if (i =? j)%nat then 0 else 1) /\
  (leid <? t_offset u) = (j <? i)%nat /\ ((i <= j)%nat -> (leid <? t_offset u + zlen (leaves u)) = (i =? j)%nat).
Proof.
  intros H Hj Ht Hi. unfold compare_elem_tree. pose proof (zlen_ge0 (leaves u)).
  destruct (Nat.lt_trichotomy i j) as [Q|[Q|Q]].
  - assert (W := offsets_mono H Hi Hj Q). rewrite (proj2 (Z.ltb_ge _ _)) by lia. rewrite (proj2 (Z.ltb_ge _ _)) by lia. rewrite (proj2 (Nat.ltb_ge _ _)) by lia.
    rewrite (proj2 (Nat.eqb_neq _ _)) by lia. auto.
  - subst i. replace u with t by congruence. rewrite (proj2 (Z.ltb_ge _ _)) by lia. rewrite (proj2 (Z.ltb_lt _ _)) by lia. rewrite (proj2 (Nat.ltb_ge _ _)) by lia.
    rewrite Nat.eqb_refl. auto.
  - assert (W := offsets_mono H Hj Hi Q). rewrite (proj2 (Z.ltb_lt _ _)) by lia. rewrite (proj2 (Nat.ltb_lt _ _)) by lia. split; [reflexivity|]. split; [reflexivity|lia].
Qed.
Section found.
Variables (c leid : Z) (ts : list (tree E)) (j : nat) (t : tree E).
Hypothesis OK : offsets_ok c ts.
Hypothesis Hj : nth_error ts j = Some t.
Hypothesis Ht : t_offset t <= leid < t_offset t + zlen (leaves t).
Lemma bsearch_found fuel l u : 0 <= l <= Z.of_nat j -> Z.of_nat j < u <= zlen ts -> (Z.to_nat (u - l) < fuel)%nat -> bsearch_loop fuel leid ts l u = Ok (Z.of_nat j).
Proof.
  revert l u. induction fuel as [|f IH]; intros l u Hl Hu HF; [lia|]. cbn [bsearch_loop]. rewrite (proj2 (Z.ltb_lt l u)) by lia.
  rewrite Z.quot_div_nonneg by lia. set (m := (l + u) / 2). assert (Hm : l <= m < u) by (unfold m; lia).
  destruct (nth_error ts (Z.to_nat m)) as [v|] eqn:Ev.
  2: { apply nth_error_None in Ev. unfold zlen in Hu. lia. }
  destruct (compare_spec OK Hj Ht Ev) as (-> & _ & _). destruct (Nat.ltb_spec j (Z.to_nat m)); [cbn [Z.ltb Z.compare]; apply IH; lia|].
  destruct (Nat.eqb_spec (Z.to_nat m) j); [cbn [Z.ltb Z.compare]; f_equal; lia|]. cbn [Z.ltb Z.compare]. apply IH; lia.
Qed.
Lemma debug_found fuel a b cur : 0 <= a <= Z.of_nat j -> Z.of_nat j < b <= zlen ts -> (Z.to_nat (b - a) < fuel)%nat -> debug_loop fuel leid ts a b cur = Ok (Z.of_nat j).
Proof.
  revert a b cur. induction fuel as [|f IH]; intros a b cur Hl Hu HF; [lia|]. cbn [debug_loop]. rewrite (proj2 (Z.ltb_lt a b)) by lia.
  rewrite Z.quot_div_nonneg by lia. set (m := (a + b) / 2). assert (Hm : a <= m < b) by (unfold m; lia).
  destruct (nth_error ts (Z.to_nat m)) as [v|] eqn:Ev.
  2: { apply nth_error_None in Ev. unfold zlen in Hu. lia. }
  destruct (compare_spec OK Hj Ht Ev) as (_ & -> & Q). destruct (Nat.ltb_spec j (Z.to_nat m)) as [C|C]; [apply IH; lia|]. rewrite (Q C).
  destruct (Nat.eqb_spec (Z.to_nat m) j) as [D|D].
  - destruct f as [|f']; [lia|]. cbn [debug_loop]. rewrite (proj2 (Z.ltb_ge b b)) by lia. f_equal. lia.
  - apply IH; [lia|lia|]. assert (a < m); [|lia]. unfold m in *. lia.
Qed.
End found.

Lemma get_leaf_element_spec debug ts leid : offsets_ok 0 ts -> 0 <= leid < zlen (flat_map leaves ts) ->
  exists e j, get_leaf_element debug ts (zlen (flat_map leaves ts)) leid = Ok (Some (e, j)) /\ nth_error (flat_map leaves ts) (Z.to_nat leid) = Some e /\
    0 <= j < zlen ts /\ zlen (flat_map leaves (firstn (Z.to_nat j) ts)) <= leid < zlen (flat_map leaves (firstn (Z.to_nat (j + 1)) ts)).
Proof.
  intros OK HL. destruct (@tree_of_exists 0 ts leid OK ltac:(lia)) as (j & t & Hj & Ht & En). rewrite Z.sub_0_r in En.
  assert (Hn : (j < length ts)%nat) by (apply nth_error_Some; congruence).
  unfold get_leaf_element. destruct (Z.ltb_spec leid 0); [lia|]. destruct (Z.leb_spec (zlen (flat_map leaves ts)) leid); [lia|].
  assert (Dd : (if debug then debug_loop (Datatypes.S (length ts)) leid ts 0 (zlen ts) (Z.quot (zlen ts) 2) else Ok 0) = Ok (if debug then Z.of_nat j else 0)).
  { destruct debug; [|reflexivity]. apply (debug_found OK Hj Ht); unfold zlen; lia. }
  rewrite Dd. cbn [obind]. rewrite (bsearch_found OK Hj Ht) by (unfold zlen; lia). cbn [obind].
  assert (D0 : debug && negb ((if debug then Z.of_nat j else 0) =? Z.of_nat j) = false) by (destruct debug; [cbn; lia|reflexivity]). rewrite D0.
  destruct (Z.ltb_spec (Z.of_nat j) 0); [lia|]. rewrite Nat2Z.id, Hj. rewrite (proj2 (Z.leb_le _ _)) by lia. rewrite (proj2 (Z.ltb_lt _ _)) by lia. cbn [andb].
  destruct (nth_error (leaves t) (Z.to_nat (leid - t_offset t))) as [e|] eqn:Ee.
  2: { apply nth_error_None in Ee. unfold zlen in Ht. lia. }
  exists e, (Z.of_nat j). split; [reflexivity|]. split; [congruence|]. split; [unfold zlen; lia|].
  rewrite Nat2Z.id. replace (Z.to_nat (Z.of_nat j + 1)) with (Datatypes.S j) by lia.
  assert (F : firstn (Datatypes.S j) ts = firstn j ts ++ [t]).
  { destruct (nth_error_split _ _ Hj) as (u & v & -> & <-). replace (Datatypes.S (length u)) with (length (u ++ [t])) by (rewrite app_length; cbn; lia).
    replace (u ++ t :: v) with ((u ++ [t]) ++ v) by (now rewrite <- app_assoc). rewrite firstn_app, Nat.sub_diag, firstn_all. cbn [firstn]. rewrite app_nil_r.
    rewrite <- app_assoc, firstn_app, Nat.sub_diag, firstn_all. cbn [firstn]. now rewrite app_nil_r. }
  rewrite F, flat_map_app, zlen_app. cbn [flat_map]. rewrite app_nil_r. rewrite (offsets_nth OK Hj) in Ht. lia.
Qed.
Lemma compute_offsets_spec ts : exists ts', compute_elements_offset ts (zlen (flat_map leaves ts)) = Ok ts' /\ offsets_ok 0 ts' /\ map leaves ts' = map leaves ts.
Proof.
  unfold compute_elements_offset. destruct (offset_loop_spec ts 0) as (A & B & C). destruct (offset_loop ts 0) as [r z]. cbn [fst snd] in *.
  exists r. rewrite (proj2 (Z.eqb_eq z _)) by lia. auto.
Qed.
Lemma flat_map_leaves ts : flat_map leaves ts = concat (map leaves ts).
Proof. now rewrite flat_map_concat_map. Qed.
End index.

(** The face connections and the commit. *)
From Coq Require Import Permutation Sorted.
From Verif Require Import Prelude EclassModel CmeshModel CmeshSpec CmeshLib CmeshBlockProofs CmeshFinishProofs CmeshAttrProofs CmeshStashProofs.

(** a tree whose faces are connected as the sides P say *)
Definition tree_at (F : Z) (B : Z -> ctree) (gid vl self : Z -> Z) (P : list side_t) (i : Z) : ctree :=
  let t := B i in let nf := eclass_num_faces (t_class t) in
  mkCtree (t_id t) (t_class t) (t_neigh t) (t_att t) (t_natt t)
    (tab (fun f => match nbr P (gid i) f with Some (t2, f2, o) => vl t2 | None => self i end) nf)
    (tab (fun f => match nbr P (gid i) f with Some (t2, f2, o) => F * o + f2 | None => f end) nf).
Lemma all_boundary_tab F B gid vl N (self : Z -> ctree -> Z) : all_boundary (tab B N) self = tab (tree_at F B gid vl (fun i => self i (B i)) []) N.
Proof.
  unfold all_boundary. rewrite combine_tab, map_tab. apply tab_ext. intros i Hi. unfold tree_at. cbn [fst snd nbr find]. f_equal.
  - rewrite repeat_tab. unfold tab. now rewrite Nat2Z.id.
  - unfold tab. now rewrite map_id.
Qed.
Lemma set_face_tab F B gid vl self P N i f t2 f2 o v e : 0 <= i < N -> 0 <= f < eclass_num_faces (t_class (B i)) -> nbr P (gid i) f = None -> (forall j, 0 <= j < N -> gid j = gid i -> j = i) ->
  v = vl t2 -> e = F * o + f2 -> set_face (tab (tree_at F B gid vl self P) N) i f v e = Ok (tab (tree_at F B gid vl self (P ++ [((gid i, f), (t2, f2, o))])) N).
Proof.
  intros Hi Hf HN U -> ->. unfold set_face. rewrite lget_tab by assumption. cbn [obind tree_at t_faces t_ttf t_id t_class t_neigh t_att t_natt]. rewrite !lset_tab by assumption. cbn [obind]. rewrite lset_tab by assumption. f_equal. apply tab_ext. intros j Hj.
  unfold upd at 1. unfold tree_at. destruct (Z.eqb_spec j i) as [->|D].
  - f_equal; apply tab_ext; intros k Hk; unfold upd; rewrite nbr_snoc; cbn [fst snd]; rewrite Z.eqb_refl; cbn [andb]; destruct (Z.eqb_spec k f) as [->|D]; try (rewrite HN, Z.eqb_refl; reflexivity); destruct (Z.eqb_spec f k); try congruence; now destruct (nbr P (gid i) k) as [[[? ?] ?]|].
  - f_equal; apply tab_ext; intros k Hk; rewrite nbr_snoc; cbn [fst snd]; (destruct (Z.eqb_spec (gid i) (gid j)) as [E|D2]; [exfalso; apply D; apply U; [assumption|congruence]|]); cbn [andb]; now destruct (nbr P (gid j) k) as [[[? ?] ?]|].
Qed.
Lemma tree_at_other F B gid vl self P N t x f : (forall j, 0 <= j < N -> gid j <> t) -> tab (tree_at F B gid vl self (P ++ [((t, f), x)])) N = tab (tree_at F B gid vl self P) N.
Proof.
  intros H. apply tab_ext. intros j Hj. unfold tree_at. f_equal; apply tab_ext; intros k Hk; rewrite nbr_snoc; cbn [fst snd]; (destruct (Z.eqb_spec t (gid j)) as [E|D2]; [exfalso; apply (H j Hj); congruence|]); cbn [andb]; now destruct (nbr P (gid j) k) as [[[? ?] ?]|].
Qed.

(** sums of counts *)
Lemma sumf_cons {A} (f : A -> Z) x l : sumf f (x :: l) = f x + sumf f l.
Proof. reflexivity. Qed.
Lemma sumf_zero {A} (l : list A) : sumf (fun _ => 0) l = 0.
Proof. induction l as [|x l IH]; [reflexivity|]. rewrite sumf_cons. lia. Qed.
Lemma sumf_plus {A} (f h : A -> Z) l : sumf (fun x => f x + h x) l = sumf f l + sumf h l.
Proof. induction l as [|x l IH]; [reflexivity|]. rewrite !sumf_cons, IH. lia. Qed.
Lemma sumf_swap {A C} (f : A -> C -> Z) l1 l2 : sumf (fun x => sumf (fun y => f x y) l2) l1 = sumf (fun y => sumf (fun x => f x y) l1) l2.
Proof.
  induction l1 as [|x l1 IH]; [cbn [sumf fold_right]; now rewrite sumf_zero|]. rewrite sumf_cons, IH, <- sumf_plus. apply sumf_ext. intros y _. now rewrite sumf_cons.
Qed.
Lemma sumf_if_in w id L : NoDup L -> sumf (fun x => if id =? x then w else 0) L = if existsb (Z.eqb id) L then w else 0.
Proof.
  intros N. induction L as [|x L IH]; [reflexivity|]. inversion N; subst. specialize (IH H2). rewrite sumf_cons, IH. cbn [existsb]. destruct (Z.eqb_spec id x) as [->|D]; cbn; [|lia].
  destruct (existsb (Z.eqb x) L) eqn:E; [|lia]. apply existsb_exists in E as (y & Hy & E). assert (x = y) by lia. subst. tauto.
Qed.
Lemma sumf_filter {A} (w : A -> Z) p l : sumf w (filter p l) = sumf (fun a => if p a then w a else 0) l.
Proof. induction l as [|x l IH]; [reflexivity|]. cbn. destruct (p x); cbn; unfold sumf in *; lia. Qed.
(** counting over distinct owners *)
Lemma sum_owners w (S : list sattr) L : NoDup L -> sumf (fun id => sumf w (filter (same id) S)) L = sumf w (filter (fun a => existsb (Z.eqb (a_id a)) L) S).
Proof.
  intros N. rewrite (@sumf_ext _ _ (fun id => sumf (fun a => if a_id a =? id then w a else 0) S)) by (intros id _; apply sumf_filter). rewrite sumf_swap, sumf_filter. apply sumf_ext. intros a _. now apply sumf_if_in.
Qed.
Lemma num_sumf {A} (p : A -> bool) l : num p l = sumf (fun _ => 1) (filter p l).
Proof. now rewrite sumf_filter. Qed.
Lemma zlen_sumf {A} (l : list A) : zlen l = sumf (fun _ => 1) l.
Proof. induction l as [|x l IH]; [reflexivity|]. rewrite zlen_cons, sumf_cons, IH. lia. Qed.
Lemma NoDup_zseq k : forall a, NoDup (zseq a k).
Proof. induction k as [|k IH]; intros a; cbn; constructor; [rewrite in_zseq; lia|apply IH]. Qed.
Lemma existsb_zseq x a k : existsb (Z.eqb x) (zseq a k) = (a <=? x) && (x <? a + Z.of_nat k).
Proof.
  apply eq_true_iff_eq. rewrite existsb_exists, andb_true_iff. split.
  - intros (y & Hy & E). apply in_zseq in Hy. lia.
  - intros H. exists x. split; [apply in_zseq; lia|apply Z.eqb_refl].
Qed.
Lemma tab_shift w (first : Z) i : sumf w (tab (fun j => first + j) i) = sumf w (zseq first (Z.to_nat i)).
Proof. unfold tab. rewrite <- zseq_shift. now rewrite Z.add_0_r. Qed.

Lemma attr_lt_trans a b c : attr_lt a b = true -> attr_lt b c = true -> attr_lt a c = true.
Proof.
  unfold attr_lt. destruct (Z.eqb_spec (a_id a) (a_id b)), (Z.eqb_spec (a_id b) (a_id c)), (Z.eqb_spec (a_id a) (a_id c)); try lia.
  destruct (Z.eqb_spec (a_pkg a) (a_pkg b)), (Z.eqb_spec (a_pkg b) (a_pkg c)), (Z.eqb_spec (a_pkg a) (a_pkg c)); lia.
Qed.
Lemma attr_lt_total a b : (a_id a, a_pkg a, a_key a) <> (a_id b, a_pkg b, a_key b) -> attr_lt a b = true \/ attr_lt b a = true.
Proof.
  intros H. unfold attr_lt. destruct (Z.eqb_spec (a_id a) (a_id b)), (Z.eqb_spec (a_id b) (a_id a)); try lia. destruct (Z.eqb_spec (a_pkg a) (a_pkg b)), (Z.eqb_spec (a_pkg b) (a_pkg a)); try lia.
  destruct (Z.eq_dec (a_key a) (a_key b)); [|lia]. exfalso. apply H. congruence.
Qed.
Lemma max_faces c : 0 <= c < 8 -> 0 <= eclass_num_faces c <= eclass_max_num_faces (eclass_to_dimension c) /\ eclass_max_num_faces (eclass_to_dimension c) <= 6.
Proof. intros H. assert (c = 0 \/ c = 1 \/ c = 2 \/ c = 3 \/ c = 4 \/ c = 5 \/ c = 6 \/ c = 7) as K by lia. repeat (destruct K as [->|K]); try (subst c); vm_compute; repeat split; congruence. Qed.

Definition prod_eq_dec' {A B} (f : forall x y : A, {x = y} + {x <> y}) (h : forall x y : B, {x = y} + {x <> y}) (x y : A * B) : {x = y} + {x <> y}.
Proof. decide equality. Defined.
(** the bytes that t8_cmesh_trees_get_part_alloc counts *)
Lemma filter3 id : forall B, StronglySorted (fun a b => a_id a <= a_id b) B -> B = filter (below id) B ++ filter (same id) B ++ filter (fun a => id <? a_id a) B.
Proof.
  induction B as [|a B IH]; intros H; [reflexivity|]. inversion H as [|? ? H1 H2]; subst. rewrite Forall_forall in H2. specialize (IH H1). cbn [filter]. unfold below at 1, same at 1.
  destruct (Z.ltb_spec (a_id a) id); [destruct (Z.eqb_spec (a_id a) id); [lia|]; destruct (Z.ltb_spec id (a_id a)); [lia|]; cbn [app]; now rewrite <- IH|].
  assert (E1 : filter (below id) B = []). { destruct (filter (below id) B) as [|x l] eqn:E; [reflexivity|]. assert (K : In x (filter (below id) B)) by (rewrite E; now left). apply filter_In in K as [K1 K2]. specialize (H2 x K1). unfold below in K2. lia. }
  rewrite E1 in *. cbn [app] in *. destruct (Z.eqb_spec (a_id a) id); [destruct (Z.ltb_spec id (a_id a)); [lia|]; cbn [app]; now rewrite <- IH|].
  assert (E2 : filter (same id) B = []). { destruct (filter (same id) B) as [|x l] eqn:E; [reflexivity|]. assert (K : In x (filter (same id) B)) by (rewrite E; now left). apply filter_In in K as [K1 K2]. specialize (H2 x K1). unfold same in K2. lia. }
  rewrite E2 in *. cbn [app] in *. destruct (Z.ltb_spec id (a_id a)); [|lia]. now rewrite <- IH.
Qed.
Lemma attribute_bytes_ok I0 B m : 24 * zlen B + sumf asize B < 2 ^ 64 -> in_block I0 B m -> Inv I0 B m B [] -> forall Q P R, B = P ++ Q ++ R -> attribute_bytes m (I0 + 24 * zlen P) (length Q) = Ok (sumf asize Q).
Proof.
  intros fits [B1 B2] [IV _] Q. induction Q as [|a Q IH]; intros P R E; [reflexivity|]. cbn [length attribute_bytes]. cbn [app] in E. destruct (IV P a (Q ++ R) E) as (_ & _ & _ & I4 & _). unfold D0 in *.
  assert (Z1 : zlen B = zlen P + 1 + zlen (Q ++ R)) by (rewrite E, zlen_app, zlen_cons; lia). assert (K1 := @zlen_pos _ P). assert (K2 := @zlen_pos _ (Q ++ R)). assert (K3 := asize_nonneg B).
  assert (Z2 : asize a <= sumf asize B) by (rewrite E, sumf_app, sumf_cons; assert (K4 := asize_nonneg P); assert (K5 := asize_nonneg (Q ++ R)); lia). assert (Z3 : 0 <= asize a) by apply zlen_pos.
  rewrite (@ld64_bytes m (I0 + 24 * zlen P + 16) (asize a)); [|split; lia|exact I4|lia]. cbn [obind]. unfold INFO_BYTES.
  replace (I0 + 24 * zlen P + 24) with (I0 + 24 * zlen (P ++ [a])) by (rewrite zlen_snoc; lia). rewrite (IH (P ++ [a]) R); [cbn [obind]; now rewrite sumf_cons|]. rewrite <- app_assoc. exact E.
Qed.
Lemma alloc_bytes_ok m block entry : forall l addr W, (forall i, 0 <= i < zlen l -> attribute_bytes m (addr + block * i + t_att (znth zero_tree l i)) (Z.to_nat (t_natt (znth zero_tree l i))) = Ok (W i)) ->
  alloc_bytes m block entry addr l = Ok (block * zlen l + sumf (neighbor_bytes entry) l + sumf W (zseq 0 (length l)) + 24 * sumf t_natt l).
Proof.
  induction l as [|t l IH]; intros addr W H; [cbn [alloc_bytes]; f_equal; unfold zlen, sumf; cbn [length zseq map fold_right]; lia|]. cbn [alloc_bytes]. assert (K := H 0). unfold znth in K. cbn [Z.to_nat nth] in K. assert (K1 := @zlen_pos _ l). rewrite zlen_cons in K. replace (addr + block * 0 + t_att t) with (addr + t_att t) in K by lia. rewrite K by lia. cbn [obind].
  rewrite (IH (addr + block) (fun i => W (i + 1))).
  - cbn [obind]. f_equal. rewrite zlen_cons, !sumf_cons. cbn [length zseq]. rewrite sumf_cons. unfold INFO_BYTES. replace (sumf W (zseq (0 + 1) (length l))) with (sumf (fun i => W (i + 1)) (zseq 0 (length l))); [lia|].
    rewrite (Z.add_comm 0 1), zseq_shift, sumf_map. apply sumf_ext. intros x _. f_equal. lia.
  - intros i Hi. rewrite <- H by (rewrite zlen_cons; lia). rewrite znth_cons. destruct (Z.leb_spec (i + 1) 0); [lia|]. replace (i + 1 - 1) with i by lia. f_equal. lia.
Qed.

Section mesh.
Variables dim first n : Z.
Variable calls : list call.
Hypothesis PC : part_calls dim first n calls.
Hypothesis dense : attrs_dense first n calls.
Let ids := ghosts_of first n calls.
Let g := zlen ids.
Let S := stash_attribute_sort (attrs_of calls).
Let F := eclass_max_num_faces dim.
Let classes := classes_of calls.

Lemma n_range : 0 <= first /\ 0 <= n. Proof. apply PC. Qed.
Lemma g_pos : 0 <= g. Proof. unfold g, zlen. lia. Qed.
Lemma ids_nodup : NoDup ids. Proof. apply ghosts_nodup. Qed.
Lemma ids_other id : In id ids -> ~ local_tree first n id.
Proof. intros H. apply ghosts_in in H. apply H. Qed.
Lemma ids_in i : 0 <= i < g -> In (znth 0 ids i) ids.
Proof. intros H. unfold g, znth, zlen in *. apply nth_In. lia. Qed.
Lemma ids_ghost i : 0 <= i < g -> ghost_tree first n calls (znth 0 ids i).
Proof. intros H. apply ghosts_in. now apply ids_in. Qed.
Lemma ids_inj' i j : 0 <= i < g -> 0 <= j < g -> znth 0 ids i = znth 0 ids j -> i = j.
Proof. intros Hi Hj E. unfold g, znth, zlen in *. apply (proj1 (NoDup_nth ids 0) ids_nodup) in E; lia. Qed.
Lemma n_zero : n = 0 -> g = 0.
Proof.
  intros E. destruct (Z.eq_dec g 0) as [|D]; [assumption|exfalso]. assert (0 <= 0 < g) as K by (assert (Z0 := g_pos); lia). apply ids_ghost in K as (_ & l & _ & _ & _ & L & _). unfold local_tree in L. lia.
Qed.
Lemma classes_nodup : NoDup (map k_id classes).
Proof. unfold classes. rewrite classes_ids. apply PC. Qed.
Lemma class_known t : known_tree first n calls t -> exists c, In (SetClass t c) calls /\ cls classes t = Some c /\ 0 <= c < 8 /\ eclass_to_dimension c = dim.
Proof.
  intros K. apply (part_trees PC) in K. unfold class_ids in K. apply in_flat_map in K as (c & Hc & E). destruct c as [t' c| |]; cbn in E; try contradiction. destruct E as [->|[]]. exists c. split; [assumption|]. split.
  - apply cls_some; [apply classes_nodup|]. now apply in_classes_of.
  - destruct (ok_class (part_ok_calls PC) Hc). tauto.
Qed.
Lemma class_unique t c c' : In (SetClass t c) calls -> In (SetClass t c') calls -> c = c'.
Proof. intros H1 H2. apply in_classes_of in H1, H2. fold classes in H1, H2. apply (cls_some classes_nodup) in H1, H2. congruence. Qed.
Lemma S_perm : Permutation (attrs_of calls) S. Proof. apply isort_perm. Qed.
Lemma S_sorted : StronglySorted (fun a b => attr_lt a b = true) S.
Proof. apply isort_sorted; [exact attr_lt_trans|]. apply ordpairs_nodup with (f := fun a => (a_id a, a_pkg a, a_key a)); [apply attr_lt_total|]. rewrite attrs_keys. apply PC. Qed.
Lemma S_in a : In a S <-> In (SetAttribute (a_id a) (a_pkg a) (a_key a) (a_data a)) calls.
Proof. rewrite <- in_attrs_of. destruct a; cbn. split; apply Permutation_in; [symmetry|]; apply S_perm. Qed.
Lemma S_unique a b : In a S -> In b S -> a_id a = a_id b -> a_pkg a = a_pkg b -> a_key a = a_key b -> a = b.
Proof.
  intros Ha Hb E1 E2 E3. apply (Permutation_in _ (Permutation_sym S_perm)) in Ha, Hb. assert (N := ok_attr_once (part_ok_calls PC)). rewrite <- attrs_keys in N. revert Ha Hb N. generalize (attrs_of calls) as l. clear -E1 E2 E3. intros l. induction l as [|x l IH]; intros Ha Hb N; [destruct Ha|]. cbn in N. inversion N; subst.
  destruct Ha as [->|Ha], Hb as [->|Hb]; auto; exfalso; apply H1; apply in_map_iff; [exists b|exists a]; split; auto; congruence.
Qed.
Lemma S_facts a : In a S -> 0 <= a_id a /\ - 2 ^ 31 <= a_pkg a < 2 ^ 31 /\ - 2 ^ 31 <= a_key a < 2 ^ 31.
Proof. intros H. apply S_in in H. exact (ok_attr (part_ok_calls PC) H). Qed.
Lemma sumf_filter_le {A} (w : A -> Z) p l : (forall x, 0 <= w x) -> sumf w (filter p l) <= sumf w l.
Proof. intros H. induction l as [|x l IH]; [reflexivity|]. cbn. specialize (H x). destruct (p x); cbn; unfold sumf in *; lia. Qed.
Lemma S_bytes p : 24 * zlen (filter p S) + sumf asize (filter p S) < 2 ^ 64.
Proof.
  assert (K := ok_attr_bytes (part_ok_calls PC)). rewrite attrs_bytes in K. assert (E1 : zlen (attrs_of calls) = zlen S) by (unfold zlen; now rewrite (Permutation_length S_perm)). rewrite E1, (sumf_perm asize S_perm) in K.
  assert (L1 : sumf asize (filter p S) <= sumf asize S) by (apply sumf_filter_le; intros; unfold asize, zlen; lia). assert (L2 : zlen (filter p S) <= zlen S) by (rewrite !zlen_sumf; apply sumf_filter_le; intros; lia). lia.
Qed.

(** trees and ghosts before their attributes are placed *)
Let TN (P : list sattr) := counted (TC first classes) (fun i => first + i) P.
Let GN (P : list sattr) := counted (GC ids classes) (znth 0 ids) P.
Lemma TN_facts P i : 0 <= i < n -> t_id (TN P i) = i /\ t_natt (TN P i) = num (same (first + i)) P /\ t_att (TN P i) = sumf asize (filter (same (first + i)) P) /\ exists c, In (SetClass (first + i) c) calls /\ t_class (TN P i) = c.
Proof.
  intros Hi. unfold TN, counted, TC. destruct (class_known (t := first + i)) as (c & H1 & H2 & _); [left; unfold local_tree; lia|]. rewrite H2. cbn [mk_known t_id t_natt t_att t_class]. repeat split; eauto.
Qed.
Lemma GN_facts P i : 0 <= i < g -> t_id (GN P i) = znth 0 ids i /\ t_natt (GN P i) = num (same (znth 0 ids i)) P /\ t_att (GN P i) = sumf asize (filter (same (znth 0 ids i)) P) /\ exists c, In (SetClass (znth 0 ids i) c) calls /\ t_class (GN P i) = c.
Proof.
  intros Hi. unfold GN, counted, GC. destruct (class_known (t := znth 0 ids i)) as (c & H1 & H2 & _); [right; now apply ids_ghost|]. rewrite H2. cbn [mk_known t_id t_natt t_att t_class]. repeat split; eauto.
Qed.
Lemma total_T (sel : ctree -> Z) (w : sattr -> Z) P i : 0 <= i <= n -> (forall j, 0 <= j < n -> sel (TN P j) = sumf w (filter (same (first + j)) P)) ->
  total sel (TN P) i = sumf w (filter (fun a => (first <=? a_id a) && (a_id a <? first + i)) P).
Proof.
  intros Hi E. unfold total, tab. rewrite sumf_map. rewrite (@sumf_ext _ _ (fun j => sumf w (filter (same (first + j)) P))) by (intros j Hj; apply in_zseq in Hj; apply E; lia).
  rewrite <- (sumf_map (fun id => sumf w (filter (same id) P)) (fun j => first + j)). change (map (fun j => first + j) (zseq 0 (Z.to_nat i))) with (tab (fun j => first + j) i). rewrite tab_shift, sum_owners by apply NoDup_zseq.
  f_equal. apply filter_ext. intros a. rewrite existsb_zseq. f_equal. f_equal. lia.
Qed.
Lemma total_G (sel : ctree -> Z) (w : sattr -> Z) P (q : Z -> bool) : (forall j, 0 <= j < g -> sel (GN P j) = sumf w (filter (same (znth 0 ids j)) P)) ->
  sumf (fun j => if q (znth 0 ids j) then sel (GN P j) else 0) (zseq 0 (Z.to_nat g)) = sumf w (filter (fun a => q (a_id a)) (filter (isG first n ids) P)).
Proof.
  intros E. transitivity (sumf (fun id => sumf w (filter (same id) P)) (filter q ids)).
  - rewrite sumf_filter. transitivity (sumf (fun a => if q a then sumf w (filter (same a) P) else 0) (tab (znth 0 ids) g)); [|unfold g; now rewrite <- list_tab]. unfold tab. rewrite sumf_map. apply sumf_ext. intros j Hj. apply in_zseq in Hj. rewrite E by (assert (Z0 := g_pos); lia). reflexivity.
  - rewrite sum_owners by (apply NoDup_filter, ids_nodup). f_equal. clear E. induction P as [|a P IH]; [reflexivity|]. cbn [filter]. rewrite IH.
    assert (EQ : existsb (Z.eqb (a_id a)) (filter q ids) = isG first n ids a && q (a_id a)); [|rewrite EQ; destruct (isG first n ids a); cbn; [destruct (q (a_id a)); reflexivity|reflexivity]].
    apply eq_true_iff_eq. rewrite existsb_exists, andb_true_iff. unfold isG. split.
    + intros (x & Hx & Ex). apply filter_In in Hx as [H1 H2]. assert (x = a_id a) as -> by lia. split; [|assumption]. assert (NL := ids_other H1). unfold isT. destruct (index_of (a_id a) ids) eqn:J; [|apply index_of_none in J; tauto].
      unfold local_tree in NL. destruct (Z.leb_spec first (a_id a)), (Z.ltb_spec (a_id a) (first + n)); cbn; auto; lia.
    + intros [H1 H2]. exists (a_id a). split; [|apply Z.eqb_refl]. apply filter_In. split; [|assumption]. destruct (index_of (a_id a) ids) as [j|] eqn:J; [|now rewrite andb_false_r in H1]. apply index_of_some in J as [J1 <-]. now apply ids_in.
Qed.

Lemma TN_perm P : Permutation P S -> tab (TN P) n = tab (TN S) n.
Proof. intros H. apply tab_ext. intros i Hi. unfold TN, counted. rewrite !sumf_filter, (num_perm _ H), (sumf_perm _ H). reflexivity. Qed.
Lemma GN_perm P : Permutation P S -> tab (GN P) g = tab (GN S) g.
Proof. intros H. apply tab_ext. intros i Hi. unfold GN, counted. rewrite !sumf_filter, (num_perm _ H), (sumf_perm _ H). reflexivity. Qed.
Lemma filter_filter {A} (p q : A -> bool) l : filter p (filter q l) = filter (fun x => q x && p x) l.
Proof. induction l as [|x l IH]; [reflexivity|]. cbn. destruct (q x); cbn; [destruct (p x); cbn; now rewrite IH|exact IH]. Qed.
Lemma below_BT i : 0 <= i <= n -> num (below (first + i)) (BT first n S) = sumf (fun _ => 1) (filter (fun a => (first <=? a_id a) && (a_id a <? first + i)) S).
Proof. intros Hi. rewrite num_sumf. unfold BT. rewrite filter_filter. f_equal. apply filter_ext. intros a. unfold isT, below. destruct (Z.leb_spec first (a_id a)), (Z.ltb_spec (a_id a) (first + n)), (Z.ltb_spec (a_id a) (first + i)); cbn; auto; lia. Qed.
Lemma total_facts : total t_natt (TN S) n = zlen (BT first n S) /\ total t_att (TN S) n = sumf asize (BT first n S) /\ total t_natt (GN S) g = zlen (BG first n ids S) /\ total t_att (GN S) g = sumf asize (BG first n ids S).
Proof.
  destruct n_range as [N0 N1]. assert (G0 := g_pos).
  assert (TS := @total_T t_natt (fun _ => 1) S). assert (TW := @total_T t_att asize S).
  assert (ET : forall j, 0 <= j < n -> t_natt (TN S j) = sumf (fun _ => 1) (filter (same (first + j)) S)) by (intros j Hj; destruct (TN_facts S Hj) as (_ & -> & _); apply num_sumf).
  assert (EW : forall j, 0 <= j < n -> t_att (TN S j) = sumf asize (filter (same (first + j)) S)) by (intros j Hj; apply (TN_facts S Hj)).
  assert (GS := @total_G t_natt (fun _ => 1) S). assert (GW := @total_G t_att asize S).
  assert (FT : forall j, 0 <= j < g -> t_natt (GN S j) = sumf (fun _ => 1) (filter (same (znth 0 ids j)) S)) by (intros j Hj; destruct (GN_facts S Hj) as (_ & -> & _); apply num_sumf).
  assert (FW : forall j, 0 <= j < g -> t_att (GN S j) = sumf asize (filter (same (znth 0 ids j)) S)) by (intros j Hj; apply (GN_facts S Hj)).
  assert (FT' : forall (l : list sattr), filter (fun _ => true) l = l) by (intros l; induction l as [|x l IH]; [reflexivity|]; cbn; now rewrite IH).
  split; [|split; [|split]].
  - rewrite TS by (auto; lia). rewrite zlen_sumf. reflexivity.
  - rewrite TW by (auto; lia). reflexivity.
  - unfold total, tab. rewrite sumf_map, zlen_sumf. specialize (GS (fun _ => true) FT). cbv beta in GS. rewrite FT' in GS. exact GS.
  - unfold total, tab. rewrite sumf_map. specialize (GW (fun _ => true) FW). cbv beta in GW. rewrite FT' in GW. exact GW.
Qed.
Lemma finish_ok : exists T' G' m IT, finish_part (tab (TN S) n) (tab (GN S) g) = Ok (tab T' n, tab G' g, m) /\
  IT = n * 32 + g * 40 + total (neighbor_bytes 9) (GN S) g + total (neighbor_bytes 5) (TN S) n /\
  (forall i, 0 <= i < n -> t_class (T' i) = t_class (TN S i) /\ t_natt (T' i) = num (same (first + i)) S /\ i * 32 + t_att (T' i) = IT + 24 * num (below (first + i)) (BT first n S)) /\
  (forall i, 0 <= i < g -> t_id (G' i) = znth 0 ids i /\ t_class (G' i) = t_class (GN S i) /\ t_natt (G' i) = num (same (znth 0 ids i)) S /\
     n * 32 + i * 40 + t_att (G' i) = IG first n S IT + 24 * num (below (znth 0 ids i)) (BG first n ids S)) /\
  forall Tx Gx gids, (forall i, 0 <= i < n -> t_natt (Tx i) = t_natt (T' i) /\ t_att (Tx i) = t_att (T' i)) -> (forall i, 0 <= i < g -> t_natt (Gx i) = t_natt (G' i) /\ t_att (Gx i) = t_att (G' i)) ->
    (gids = Some ids \/ forall a, In a S -> isT first n a = true) ->
    exists m', add_attributes first (tab Tx n) (tab Gx g) gids m S = Ok m' /\ in_block IT (BT first n S) m' /\ in_block (IG first n S IT) (BG first n ids S) m' /\
      Inv IT (BT first n S) m' (BT first n S) [] /\ Inv (IG first n S IT) (BG first n ids S) m' (BG first n ids S) [].
Proof.
  destruct n_range as [N0 N1]. assert (G0 := g_pos).
  assert (TS := @total_T t_natt (fun _ => 1) S). assert (TW := @total_T t_att asize S).
  assert (ET : forall j, 0 <= j < n -> t_natt (TN S j) = sumf (fun _ => 1) (filter (same (first + j)) S)) by (intros j Hj; destruct (TN_facts S Hj) as (_ & -> & _); apply num_sumf).
  assert (EW : forall j, 0 <= j < n -> t_att (TN S j) = sumf asize (filter (same (first + j)) S)) by (intros j Hj; apply (TN_facts S Hj)).
  assert (GS := @total_G t_natt (fun _ => 1) S). assert (GW := @total_G t_att asize S).
  assert (FT : forall j, 0 <= j < g -> t_natt (GN S j) = sumf (fun _ => 1) (filter (same (znth 0 ids j)) S)) by (intros j Hj; destruct (GN_facts S Hj) as (_ & -> & _); apply num_sumf).
  assert (FW : forall j, 0 <= j < g -> t_att (GN S j) = sumf asize (filter (same (znth 0 ids j)) S)) by (intros j Hj; apply (GN_facts S Hj)).
  destruct (@finish_part_tab (TN S) (GN S) n g) as (T' & G' & m & IT & EQ & HT & HG & L & U & B1 & B2 & HI).
  { assumption. } { assumption. } { exact n_zero. }
  { intros i Hi. rewrite ET, EW by assumption. split; [apply sumf_nonneg; intros; lia|apply asize_nonneg]. }
  { intros i Hi. rewrite FT, FW by assumption. split; [apply sumf_nonneg; intros; lia|apply asize_nonneg]. }
  { rewrite (map_ext_in _ (znth 0 ids)). 2:{ intros i Hi. apply in_zseq in Hi. apply GN_facts. lia. } change (map (znth 0 ids) (zseq 0 (Z.to_nat g))) with (tab (znth 0 ids) g). unfold g. rewrite <- list_tab. apply ids_nodup. }
  destruct total_facts as (A1 & A2 & A3 & A4).
  rewrite A1, A2 in *. rewrite A3, A4 in *.
  exists T', G', m, IT. split; [assumption|]. split; [assumption|].
  assert (PT : forall i, 0 <= i < n -> t_class (T' i) = t_class (TN S i) /\ t_natt (T' i) = num (same (first + i)) S /\ i * 32 + t_att (T' i) = IT + 24 * num (below (first + i)) (BT first n S)).
  { intros i Hi. destruct (HT i Hi) as (Q1 & Q2 & Q3 & Q4). split; [assumption|]. split; [rewrite Q3; apply (TN_facts S Hi)|]. rewrite Q4, TS by (auto; lia). now rewrite below_BT by lia. }
  assert (PG : forall i, 0 <= i < g -> t_id (G' i) = znth 0 ids i /\ t_class (G' i) = t_class (GN S i) /\ t_natt (G' i) = num (same (znth 0 ids i)) S /\
     n * 32 + i * 40 + t_att (G' i) = IG first n S IT + 24 * num (below (znth 0 ids i)) (BG first n ids S)).
  { intros i Hi. destruct (HG i Hi) as (Q1 & Q2 & Q3 & Q4). destruct (GN_facts S Hi) as (W1 & W2 & _). split; [congruence|]. split; [assumption|]. split; [congruence|]. rewrite Q4. unfold IG. rewrite W1.
    rewrite (@sumf_ext _ _ (fun j => if znth 0 ids j <? znth 0 ids i then t_natt (GN S j) else 0)). 2:{ intros j Hj. apply in_zseq in Hj. destruct (GN_facts S (i := j)) as (-> & _); [lia|reflexivity]. }
    rewrite (GS (fun id => id <? znth 0 ids i) FT), num_sumf. unfold BG, below. lia. }
  split; [assumption|]. split; [assumption|]. intros Tx Gx gids HTx HGx Hg.
  destruct dense as [D1 D2].
  apply (@add_attributes_ok first n g Tx Gx ids S gids IT); try assumption; try reflexivity.
  - apply ids_nodup.
  - intros id H K. now apply (ids_other H).
  - apply S_sorted.
  - intros a Ha. now apply S_facts.
  - intros i Hi. destruct (HTx i Hi) as [-> _]. now apply PT.
  - intros i Hi. destruct (HTx i Hi) as [_ ->]. now apply PT.
  - intros i Hi. destruct (HGx i Hi) as [-> _]. now apply PG.
  - intros i Hi. destruct (HGx i Hi) as [_ ->]. now apply PG.
  - apply S_bytes.
  - apply S_bytes.
  - destruct D1 as [D|(pkg & key & d & H)].
    + left. destruct (BT first n S) as [|a l] eqn:E; [reflexivity|exfalso]. assert (In a (BT first n S)) as Ha by (rewrite E; now left). apply filter_In in Ha as [H1 H2]. apply S_in in H1. apply (D (a_id a)); [unfold isT, local_tree in *; lia|]. now exists (a_pkg a), (a_key a), (a_data a).
    + right. exists (mkSattr (first + n - 1) pkg key d). split; [now apply S_in|reflexivity].
  - destruct D2 as [D|D].
    + left. destruct (BG first n ids S) as [|a l] eqn:E; [reflexivity|exfalso]. assert (In a (BG first n ids S)) as Ha by (rewrite E; now left). apply filter_In in Ha as [H1 H2]. apply S_in in H1. unfold isG in H2. destruct (index_of (a_id a) ids) as [j|] eqn:J; [|now rewrite andb_false_r in H2].
      apply index_of_some in J as [J1 J2]. apply (D (a_id a)); [rewrite <- J2; now apply ids_ghost|]. now exists (a_pkg a), (a_key a), (a_data a).
    + right. intros id Hid. apply ghosts_in in Hid. destruct (D id Hid) as (pkg & key & d & H). exists (mkSattr id pkg key d). split; [now apply S_in|reflexivity].
  - lia.
  - unfold IG. lia.
Qed.

(** the face connections *)
Lemma side_facts t f t2 f2 o : joined calls t f t2 f2 o -> 0 <= o < 4 /\ 0 <= f < F /\ 0 <= f2 < F /\ (known_tree first n calls t -> has_face calls t f).
Proof.
  intros [H|H]; assert (O := ok_join (part_ok_calls PC) H); destruct (part_joins PC H) as (Q1 & Q2 & Q3 & Q4); tauto.
Qed.
Lemma F_range t : known_tree first n calls t -> 0 <= F <= 6.
Proof. intros H. destruct (class_known H) as (c & _ & _ & C & D). destruct (max_faces C). rewrite D in *. unfold F. lia. Qed.
Lemma sides_nodup : NoDup (map fst (sides calls)).
Proof. eapply Permutation_NoDup; [symmetry; apply sides_perm|]. apply PC. Qed.
Definition place (t : Z) : Z := match side first n ids t with Some o => o | None => 0 end.
Definition TF (T' : Z -> ctree) (P : list side_t) := tree_at F T' (fun i => first + i) place (fun i => i) P.
Definition GF (G' : Z -> ctree) (P : list side_t) := tree_at F G' (znth 0 ids) (fun t => t) (fun i => t_id (G' i)) P.
Section join.
Variables T' G' : Z -> ctree.
Hypothesis HT : forall i, 0 <= i < n -> t_class (T' i) = t_class (TN S i).
Hypothesis HG : forall i, 0 <= i < g -> t_class (G' i) = t_class (GN S i).
Lemma face_T i f : 0 <= i < n -> has_face calls (first + i) f -> 0 <= f < eclass_num_faces (t_class (T' i)).
Proof. intros Hi (c & H & K). rewrite HT by assumption. destruct (TN_facts S Hi) as (_ & _ & _ & c' & H' & ->). now rewrite (class_unique H' H). Qed.
Lemma face_G i f : 0 <= i < g -> has_face calls (znth 0 ids i) f -> 0 <= f < eclass_num_faces (t_class (G' i)).
Proof. intros Hi (c & H & K). rewrite HG by assumption. destruct (GN_facts S Hi) as (_ & _ & _ & c' & H' & ->). now rewrite (class_unique H' H). Qed.
Lemma known_side t : known_tree first n calls t -> side first n ids t = Some (place t).
Proof.
  intros H. unfold place, side. assert (LS := local_spec first n t). destruct (local first n t); [reflexivity|]. destruct (index_of t ids) eqn:J; [reflexivity|]. apply index_of_none in J. destruct H as [H|H]; [apply LS in H; discriminate|]. exfalso. apply J. now apply ghosts_in.
Qed.
Lemma joined_sym t f t2 f2 o : joined calls t f t2 f2 o -> joined calls t2 f2 t f o.
Proof. unfold joined. tauto. Qed.
Lemma local_other t f t2 f2 o : local_tree first n t -> joined calls t f t2 f2 o -> known_tree first n calls t2.
Proof.
  intros L H. destruct (local first n t2) eqn:E; [left; now apply local_spec|right]. split; [intros K; apply local_spec in K; congruence|]. exists t, f, f2, o. auto.
Qed.
Lemma i8_small v : 0 <= v <= 23 -> i8 v = v.
Proof. intros H. unfold i8. rewrite Z.mod_small; lia. Qed.
Lemma ttf_small t f t2 f2 o : known_tree first n calls t -> joined calls t f t2 f2 o -> 0 <= F * o + f2 <= 23.
Proof. intros K H. destruct (side_facts H) as (Q1 & Q2 & Q3 & _). assert (R := F_range K). nia. Qed.
Lemma pjoin_side_ok P t f t2 f2 o : joined calls t f t2 f2 o -> ~ In (t, f) (map fst P) ->
  pjoin_side dim first n ids (tab (TF T' P) n, tab (GF G' P) g) t f t2 f2 o = Ok (tab (TF T' (P ++ [((t, f), (t2, f2, o))])) n, tab (GF G' (P ++ [((t, f), (t2, f2, o))])) g).
Proof.
  intros H N. destruct (side_facts H) as (Q1 & Q2 & Q3 & Q4). unfold pjoin_side. fold F. apply nbr_none in N. assert (LS := local_spec first n t). destruct (local first n t) eqn:L.
  - assert (LT : local_tree first n t) by now apply LS. assert (K : known_tree first n calls t) by now left. rewrite (known_side (local_other LT H)).
    rewrite i8_small by exact (ttf_small K H). unfold local_tree in LT. assert (HF : 0 <= f < eclass_num_faces (t_class (T' (t - first)))). { apply face_T; [lia|]. replace (first + (t - first)) with t by lia. now apply Q4. }
    unfold TF. rewrite (@set_face_tab F T' (fun i => first + i) place (fun i => i) P n (t - first) f t2 f2 o); [|lia|assumption| |intros; lia|reflexivity|reflexivity]; cycle 1. { replace (first + (t - first)) with t by lia. assumption. }
    cbn [obind]. replace (first + (t - first)) with t by lia. f_equal. f_equal. unfold GF. symmetry. apply tree_at_other. intros j Hj E. apply (ids_other (ids_in Hj)). rewrite E. unfold local_tree. lia.
  - assert (NL : ~ local_tree first n t) by (intros K; apply LS in K; discriminate).
    assert (TE : tab (TF T' (P ++ [((t, f), (t2, f2, o))])) n = tab (TF T' P) n) by (apply tree_at_other; intros j Hj E; apply NL; unfold local_tree; lia). rewrite TE.
    destruct (index_of t ids) as [j|] eqn:J.
    + apply index_of_some in J as [J1 J2]. fold g in J1. assert (K : known_tree first n calls t) by (right; rewrite <- J2; now apply ids_ghost). rewrite i8_small by exact (ttf_small K H).
      assert (HF : 0 <= f < eclass_num_faces (t_class (G' j))). { apply face_G; [lia|]. rewrite J2. now apply Q4. }
      unfold GF. rewrite (@set_face_tab F G' (znth 0 ids) (fun t => t) (fun i => t_id (G' i)) P g j f t2 f2 o); [|lia|assumption|now rewrite J2|intros i Hi E; now apply ids_inj'|reflexivity|reflexivity].
      cbn [obind]. now rewrite J2.
    + apply index_of_none in J. f_equal. f_equal. unfold GF. symmetry. apply tree_at_other. intros j Hj E. apply J. rewrite <- E. now apply ids_in.
Qed.
Lemma pjoin_loop_ok : forall Q P, NoDup (map fst (P ++ flat_map sides_of_join Q)) -> (forall t f t2 f2 o, In ((t, f), (t2, f2, o)) (flat_map sides_of_join Q) -> joined calls t f t2 f2 o) ->
  pjoin_loop dim first n ids (tab (TF T' P) n, tab (GF G' P) g) Q = Ok (tab (TF T' (P ++ flat_map sides_of_join Q)) n, tab (GF G' (P ++ flat_map sides_of_join Q)) g).
Proof.
  intros Q. induction Q as [|j Q IH]; intros P N HJ; [cbn; now rewrite app_nil_r|]. cbn [pjoin_loop flat_map] in *. unfold pjoin_step. cbn [sides_of_join app] in *.
  rewrite map_app in N. cbn [map fst] in N.
  rewrite pjoin_side_ok; [|apply HJ; now left|intros K; apply NoDup_remove_2 in N; apply N; apply in_or_app; now left]. cbn [obind].
  rewrite pjoin_side_ok; [|apply HJ; right; now left|].
  2:{ rewrite map_app. cbn. intros K. apply in_app_iff in K as [K|[K|[]]].
      - apply NoDup_remove_1, NoDup_remove_2 in N. apply N. apply in_or_app. now left.
      - apply NoDup_remove_2 in N. apply N. apply in_or_app. right. left. congruence. }
  cbn [obind]. rewrite IH.
  - rewrite <- !app_assoc. reflexivity.
  - rewrite <- !app_assoc. cbn [app]. rewrite map_app. exact N.
  - intros. apply HJ. right. now right.
Qed.
End join.

(** the answers of the committed mesh *)
Section query.
Variable p : bool.
Variables T' G' : Z -> ctree.
Variable m : memory.
Variable IT : Z.
Hypothesis Hp : p = true \/ (first = 0 /\ ids = []).
Hypothesis HT : forall i, 0 <= i < n -> t_class (T' i) = t_class (TN S i) /\ t_natt (T' i) = num (same (first + i)) S /\ i * 32 + t_att (T' i) = IT + 24 * num (below (first + i)) (BT first n S).
Hypothesis HG : forall i, 0 <= i < g -> t_id (G' i) = znth 0 ids i /\ t_class (G' i) = t_class (GN S i) /\ t_natt (G' i) = num (same (znth 0 ids i)) S /\
  n * 32 + i * 40 + t_att (G' i) = IG first n S IT + 24 * num (below (znth 0 ids i)) (BG first n ids S).
Hypothesis HbT : in_block IT (BT first n S) m.
Hypothesis HbG : in_block (IG first n S IT) (BG first n ids S) m.
Hypothesis HvT : Inv IT (BT first n S) m (BT first n S) [].
Hypothesis HvG : Inv (IG first n S IT) (BG first n ids S) m (BG first n ids S) [].
Let c := mkCmesh dim p first (tab (TF T' (sides calls)) n) (tab (GF G' (sides calls)) g) (tbl first n ids classes) m.

Lemma len_trees : zlen (c_trees c) = n. Proof. apply zlen_tab. apply n_range. Qed.
Lemma len_ghosts : zlen (c_ghosts c) = g. Proof. apply zlen_tab. apply g_pos. Qed.
Lemma index_known t : ghost_tree first n calls t -> exists j, index_of t ids = Some j /\ 0 <= j < g /\ znth 0 ids j = t /\ place t = j + n /\ local first n t = false.
Proof.
  intros H. assert (I := proj2 (ghosts_in _ _ _ _) H). fold ids in I. destruct (index_of t ids) as [j|] eqn:J; [|apply index_of_none in J; tauto]. exists j. split; [reflexivity|]. assert (K := J). apply index_of_some in K as [K1 K2]. fold g in K1. split; [assumption|]. split; [assumption|].
  assert (L : local first n t = false) by (destruct (local first n t) eqn:L; [apply local_spec in L; destruct H; tauto|reflexivity]). split; [|assumption]. unfold place, side. now rewrite L, J.
Qed.
Lemma place_local t : local_tree first n t -> place t = t - first /\ local first n t = true.
Proof. intros H. assert (L : local first n t = true) by now apply local_spec. unfold place, side. now rewrite L. Qed.
Lemma id_place t : known_tree first n calls t -> get_local_id c t = place t.
Proof.
  intros [H|H]; unfold get_local_id; cbn [c_partitioned c_first c_table c].
  - destruct (place_local H) as [-> _]. unfold is_local_tree. rewrite len_trees. unfold local_tree in H. replace ((0 <=? t - first) && (t - first <? n)) with true by lia. destruct Hp as [PT|[F0 _]]; [now rewrite PT|]. destruct (negb p); [lia|reflexivity].
  - destruct (index_known H) as (j & J & J1 & J2 & -> & L). destruct Hp as [PT|[_ E]]; [|rewrite E in J; discriminate]. rewrite PT. cbn [negb]. unfold is_local_tree. rewrite len_trees.
    replace ((0 <=? t - first) && (t - first <? n)) with false by (unfold local in L; lia). rewrite (@tbl_find first n g ids) with (i := j); auto.
    + intros id Hid. now apply ids_other.
    + apply classes_nodup.
    + unfold classes. rewrite classes_ids. apply PC. now right.
Qed.
Lemma known_facts t : known_tree first n calls t -> exists tr I0 BB, get_tree c (place t) = Ok tr /\ is_local_tree c (place t) = local first n t /\ get_global_id c (place t) = Ok t /\
  (forall k, In (SetClass t k) calls -> t_class tr = k) /\
  (forall f, has_face calls t f -> lget (t_faces tr) f = Ok (match nbr (sides calls) t f with Some (t2, f2, o) => if local first n t then place t2 else t2 | None => if local first n t then place t else t end) /\
     lget (t_ttf tr) f = Ok (match nbr (sides calls) t f with Some (t2, f2, o) => F * o + f2 | None => f end)) /\
  (forall pkg key, get_attribute c pkg key (place t) = lookup m (I0 + 24 * num (below t) BB) (num (same t) BB) pkg key) /\
  in_block I0 BB m /\ Inv I0 BB m BB [] /\ (exists q, BB = filter q S /\ forall a, a_id a = t -> q a = true).
Proof.
  intros H. assert (K := H). destruct n_range as [N0 N1]. destruct H as [H|H].
  - destruct (place_local H) as [PL L]. unfold local_tree in H. assert (R : 0 <= t - first < n) by lia. exists (TF T' (sides calls) (t - first)), IT, (BT first n S). rewrite PL, L.
    assert (IL : is_local_tree c (t - first) = true) by (unfold is_local_tree; rewrite len_trees; lia).
    assert (GT : get_tree c (t - first) = Ok (TF T' (sides calls) (t - first))) by (unfold get_tree; rewrite IL; cbn [c_trees c]; now rewrite lget_tab by lia).
    assert (E : first + (t - first) = t) by lia. destruct (TN_facts S R) as (_ & _ & _ & c' & H' & EC). destruct (HT R) as (W1 & W2 & W3). rewrite E in *.
    split; [assumption|]. split; [assumption|]. split; [unfold get_global_id; rewrite IL; cbn [c_first c]; f_equal; lia|]. split; [|split; [|split]].
    + intros k Hk. cbn [TF tree_at t_class]. rewrite W1, EC. exact (class_unique H' Hk).
    + intros f (k & Hk & Hf). cbn [TF tree_at t_faces t_ttf t_class]. rewrite W1, EC, (class_unique H' Hk). rewrite !lget_tab by assumption. rewrite E. split; destruct (nbr (sides calls) t f) as [[[? ?] ?]|]; reflexivity.
    + intros pkg key. unfold get_attribute. rewrite GT. cbn [obind]. rewrite IL. cbn [TF tree_at t_att t_natt c_mem c]. unfold TREE_BYTES. rewrite W3, W2.
      replace (num (same t) (BT first n S)) with (num (same t) S); [reflexivity|]. symmetry. apply num_filter_imp. intros x _ Hx. apply Z.eqb_eq in Hx. unfold isT. lia.
    + split; [assumption|]. split; [assumption|]. exists (isT first n). split; [reflexivity|]. intros a Ea. unfold isT. lia.
  - destruct (index_known H) as (j & J & J1 & J2 & PL & L). exists (GF G' (sides calls) j), (IG first n S IT), (BG first n ids S). rewrite PL, L.
    assert (IL : is_local_tree c (j + n) = false) by (unfold is_local_tree; rewrite len_trees; lia).
    assert (GT : get_tree c (j + n) = Ok (GF G' (sides calls) j)). { unfold get_tree. rewrite IL, len_trees. replace (j + n - n) with j by lia. cbn [c_ghosts c]. now rewrite lget_tab by lia. }
    destruct (GN_facts S J1) as (_ & _ & _ & c' & H' & EC). destruct (HG J1) as (W0 & W1 & W2 & W3). rewrite J2 in *.
    split; [assumption|]. split; [assumption|]. split; [unfold get_global_id; rewrite IL, GT; cbn [obind GF tree_at t_id]; now rewrite W0|]. split; [|split; [|split]].
    + intros k Hk. cbn [GF tree_at t_class]. rewrite W1, EC. exact (class_unique H' Hk).
    + intros f (k & Hk & Hf). cbn [GF tree_at t_faces t_ttf t_class]. rewrite W1, EC, (class_unique H' Hk). rewrite !lget_tab by assumption. rewrite J2, W0. split; destruct (nbr (sides calls) t f) as [[[? ?] ?]|]; reflexivity.
    + intros pkg key. unfold get_attribute. rewrite GT. cbn [obind]. rewrite IL, len_trees. cbn [GF tree_at t_att t_natt c_mem c]. unfold TREE_BYTES, GHOST_BYTES. replace (j + n - n) with j by lia. rewrite W3, W2.
      replace (num (same t) (BG first n ids S)) with (num (same t) S); [reflexivity|]. symmetry. apply num_filter_imp. intros x _ Hx. apply Z.eqb_eq in Hx. unfold isG. rewrite Hx, J. unfold isT. rewrite Hx. unfold local in L. lia.
    + split; [assumption|]. split; [assumption|]. exists (isG first n ids). split; [reflexivity|]. intros a Ea. unfold isG, isT. rewrite Ea, J. unfold local in L. lia.
Qed.
Lemma unknown_id t : p = true -> ~ known_tree first n calls t -> get_local_id c t = -1.
Proof.
  intros PT N. unfold get_local_id. cbn [c_partitioned c_first c_table c]. rewrite PT. cbn [negb]. unfold is_local_tree. rewrite len_trees. destruct ((0 <=? t - first) && (t - first <? n)) eqn:L; [exfalso; apply N; left; unfold local_tree; lia|].
  rewrite (@tbl_find_none first n g ids); auto; [intros id Hid; now apply ids_other|]. intros H. apply N. right. now apply ghosts_in.
Qed.
Lemma place_inj t t2 : known_tree first n calls t -> known_tree first n calls t2 -> place t = place t2 -> t = t2.
Proof.
  intros H1 H2 E. destruct (known_facts H1) as (_ & _ & _ & _ & _ & G1 & _). destruct (known_facts H2) as (_ & _ & _ & _ & _ & G2 & _). congruence.
Qed.
Lemma face_answer t f t2 f2 o : known_tree first n calls t -> joined calls t f t2 f2 o ->
  face_is_boundary c (place t) f = Ok false /\ get_face_neighbor c (place t) f = Ok (let nb := if local first n t then place t2 else get_local_id c t2 in if negb (local first n t) && (nb <? 0) then None else Some (nb, f2, o)).
Proof.
  intros K H. destruct (known_facts K) as (tr & I0 & BB & GT & IL & GI & _ & FA & _). destruct (side_facts H) as (Q1 & Q2 & Q3 & Q4). destruct (FA f (Q4 K)) as [A1 A2].
  assert (NB : nbr (sides calls) t f = Some (t2, f2, o)) by (apply nbr_some; [apply sides_nodup|now apply sides_joined]). rewrite NB in A1, A2.
  assert (R := F_range K).
  assert (B : face_is_boundary c (place t) f = Ok false).
  { unfold face_is_boundary. rewrite GT. cbn [obind]. rewrite A1, A2. cbn [obind]. rewrite IL.
    assert (Z0 : F * o + f2 = f -> o = 0 /\ f2 = f) by (intros E; assert (o = 0 \/ 1 <= o) as [->|] by lia; [lia|nia]).
    destruct (local first n t) eqn:L.
    - cbn [obind]. f_equal. apply andb_false_iff. destruct (Z.eqb_spec (place t2) (place t)) as [E|]; [right|now left]. apply Z.eqb_neq. intros E2. destruct (Z0 E2) as [-> ->]. apply local_spec in L.
      assert (t2 = t) as -> by (apply place_inj; auto; exact (local_other L H)). exact (no_self (ok_join_once (part_ok_calls PC)) H).
    - rewrite GI. cbn [obind]. f_equal. apply andb_false_iff. destruct (Z.eqb_spec t2 t) as [->|]; [right|now left]. apply Z.eqb_neq. intros E2. destruct (Z0 E2) as [-> ->]. exact (no_self (ok_join_once (part_ok_calls PC)) H). }
  split; [assumption|]. unfold get_face_neighbor. rewrite B. cbn [obind]. rewrite GT. cbn [obind]. rewrite A1, A2. cbn [obind]. rewrite IL. cbn zeta. cbn [c_dim c].
  assert (DE : ttf_decode dim (F * o + f2) = (f2, o)).
  { unfold ttf_decode. fold F. f_equal.
    - rewrite Z.rem_mod_nonneg by nia. rewrite Z.add_comm, Z.mul_comm, Z.mod_add by lia. apply Z.mod_small. lia.
    - rewrite Z.quot_div_nonneg by nia. rewrite Z.add_comm, Z.mul_comm, Z.div_add by lia. rewrite Z.div_small by lia. lia. }
  rewrite DE. cbn [fst snd]. destruct (local first n t); cbn [negb andb]; [reflexivity|]. destruct (get_local_id c t2 <? 0); reflexivity.
Qed.
Theorem answers_right : numbers_right first n calls c /\ classes_right first n calls c /\ faces_right first n calls c /\ attributes_right first n calls c /\ (p = true -> unknown_right first n calls c).
Proof.
  destruct n_range as [N0 N1]. assert (G0 := g_pos). repeat apply conj.
  - apply len_trees.
  - intros t H. rewrite id_place by now left. now apply place_local.
  - intros t H. rewrite id_place by now right. destruct (index_known H) as (j & _ & J1 & _ & -> & _). unfold is_ghost. rewrite len_trees, len_ghosts. lia.
  - intros t H. rewrite id_place by assumption. now destruct (known_facts H) as (_ & _ & _ & _ & _ & GI & _).
  - intros lt H. unfold is_ghost in H. rewrite len_trees, len_ghosts in H. assert (J : 0 <= lt - n < g) by lia. exists (znth 0 ids (lt - n)). split; [now apply ids_ghost|]. rewrite id_place by (right; now apply ids_ghost).
    destruct (index_known (ids_ghost J)) as (j & J0 & J1 & J2 & -> & _). assert (j = lt - n) by (apply ids_inj'; auto). lia.
  - intros t k H Hk. rewrite id_place by assumption. destruct (known_facts H) as (tr & I0 & BB & GT & _ & _ & CL & _). unfold get_class. rewrite GT. cbn [obind]. f_equal. now apply CL.
  - intros t1 f1 t2 f2 o H J. rewrite id_place by assumption. now destruct (face_answer H J).
  - intros t1 f1 t2 f2 o H H2 J. rewrite !id_place by assumption. destruct (face_answer H J) as [_ ->]. cbn zeta. rewrite id_place by assumption.
    assert (0 <= place t2). { destruct H2 as [L|L]; [destruct (place_local L) as [-> _]; unfold local_tree in L; lia|]. destruct (index_known L) as (j & _ & J1 & _ & -> & _). lia. }
    assert (EF : (place t2 <? 0) = false) by lia. destruct (local first n t1); [reflexivity|]. now rewrite EF.
  - intros t1 f1 t2 f2 o H H2 J. rewrite id_place by assumption. destruct (face_answer H J) as [_ ->]. cbn zeta.
    destruct (local first n t1) eqn:L; [exfalso; apply H2; apply local_spec in L; exact (local_other L J)|]. rewrite unknown_id; [reflexivity| |assumption].
    destruct Hp as [|[_ E]]; [assumption|]. exfalso. destruct H as [H|H]; [apply local_spec in H; congruence|]. apply ghosts_in in H. fold ids in H. rewrite E in H. destruct H.
  - intros t f H HF NJ. rewrite id_place by assumption. destruct (known_facts H) as (tr & I0 & BB & GT & IL & GI & _ & FA & _). destruct (FA f HF) as [A1 A2].
    assert (NB : nbr (sides calls) t f = None). { destruct (nbr (sides calls) t f) as [[[t2 f2] o]|] eqn:E; [|reflexivity]. apply nbr_some in E; [|apply sides_nodup]. apply sides_joined in E. now apply NJ in E. } rewrite NB in A1, A2.
    assert (B : face_is_boundary c (place t) f = Ok true). { unfold face_is_boundary. rewrite GT. cbn [obind]. rewrite A1, A2. cbn [obind]. rewrite IL. destruct (local first n t); [|rewrite GI]; cbn [obind]; rewrite !Z.eqb_refl; reflexivity. }
    split; [assumption|]. unfold get_face_neighbor. rewrite B. reflexivity.
  - intros t pkg key d H HA. rewrite id_place by assumption. destruct (known_facts H) as (tr & I0 & BB & _ & _ & _ & _ & _ & GA & IB & IV & q & EB & Hq). rewrite GA.
    assert (HS : In (mkSattr t pkg key d) S) by now apply S_in. assert (HB : In (mkSattr t pkg key d) BB) by (rewrite EB; apply filter_In; split; [assumption|now apply Hq]).
    destruct (@lookup_ok I0 BB) with (m := m) (id := t) (pkg := pkg) (key := key) as (r & -> & R).
    + rewrite EB. apply attr_lt_le, sorted_filter, S_sorted.
    + rewrite EB. apply S_bytes.
    + assumption.
    + assumption.
    + rewrite EB. apply sorted_filter, S_sorted.
    + intros a Ha. rewrite EB in Ha. apply filter_In in Ha as [Ha _]. apply S_facts in Ha. tauto.
    + destruct r as [d'|]; [|exfalso; apply (R _ HB); cbn; auto]. destruct R as (a & Ha & E1 & E2 & E3 & <-). rewrite EB in Ha. apply filter_In in Ha as [Ha _]. do 2 f_equal. assert (a = mkSattr t pkg key d) as -> by (apply S_unique; cbn; auto). reflexivity.
  - intros t pkg key H HA. rewrite id_place by assumption. destruct (known_facts H) as (tr & I0 & BB & _ & _ & _ & _ & _ & GA & IB & IV & q & EB & Hq). rewrite GA.
    destruct (@lookup_ok I0 BB) with (m := m) (id := t) (pkg := pkg) (key := key) as (r & -> & R).
    + rewrite EB. apply attr_lt_le, sorted_filter, S_sorted.
    + rewrite EB. apply S_bytes.
    + assumption.
    + assumption.
    + rewrite EB. apply sorted_filter, S_sorted.
    + intros a Ha. rewrite EB in Ha. apply filter_In in Ha as [Ha _]. apply S_facts in Ha. tauto.
    + destruct r as [d'|]; [|reflexivity]. destruct R as (a & Ha & E1 & E2 & E3 & <-). rewrite EB in Ha. apply filter_In in Ha as [Ha _]. apply S_in in Ha. rewrite E1, E2, E3 in Ha. now apply HA in Ha.
  - intros P t. now apply unknown_id.
Qed.

(** the copy *)
Hypothesis HI : IT = n * 32 + g * 40 + total (neighbor_bytes 9) (GN S) g + total (neighbor_bytes 5) (TN S) n.
Let hi := IG first n S IT + 24 * zlen (BG first n ids S) + sumf asize (BG first n ids S).
Lemma same_filter q id : (forall a, a_id a = id -> q a = true) -> filter (same id) (filter q S) = filter (same id) S.
Proof. intros H. rewrite filter_filter. apply filter_ext. intros a. unfold same. destruct (Z.eqb_spec (a_id a) id); [rewrite H by assumption; reflexivity|apply andb_false_r]. Qed.
Lemma tree_attribute_bytes I0 q id : in_block I0 (filter q S) m -> Inv I0 (filter q S) m (filter q S) [] -> (forall a, a_id a = id -> q a = true) ->
  attribute_bytes m (I0 + 24 * num (below id) (filter q S)) (Z.to_nat (num (same id) S)) = Ok (sumf asize (filter (same id) S)).
Proof.
  intros H1 H2 Hq. rewrite num_sumf, <- zlen_sumf. replace (num (same id) S) with (zlen (filter (same id) S)) by (now rewrite num_sumf, <- zlen_sumf). unfold zlen at 2. rewrite Nat2Z.id, <- (same_filter Hq).
  eapply attribute_bytes_ok; [apply S_bytes|exact H1|exact H2|]. apply filter3. apply attr_lt_le, sorted_filter, S_sorted.
Qed.
Lemma copy_mem : in_block IT (BT first n S) (mkMem (m_lo m) hi (m_at m)) /\ in_block (IG first n S IT) (BG first n ids S) (mkMem (m_lo m) hi (m_at m)).
Proof.
  destruct HbT as [B1 B2], HbG as [B3 B4]. assert (K := asize_nonneg (BG first n ids S)). assert (K2 := @zlen_pos _ (BG first n ids S)). unfold in_block, hi, D0, IG in *. cbn [m_lo m_hi]. split; (split; [assumption|lia]).
Qed.
Lemma copy_ok : copy c = Ok (mkCmesh dim p first (tab (TF T' (sides calls)) n) (tab (GF G' (sides calls)) g) [] (mkMem (m_lo m) hi (m_at m))) /\
  in_block IT (BT first n S) (mkMem (m_lo m) hi (m_at m)) /\ in_block (IG first n S IT) (BG first n ids S) (mkMem (m_lo m) hi (m_at m)).
Proof.
  split; [|apply copy_mem]. destruct n_range as [N0 N1]. assert (G0 := g_pos). unfold copy. destruct total_facts as (A1 & A2 & A3 & A4). cbn [c_mem c_trees c_ghosts c].
  rewrite (@alloc_bytes_ok m TREE_BYTES 5 (tab (TF T' (sides calls)) n) 0 (fun i => t_att (TN S i))).
  2:{ intros i Hi. rewrite zlen_tab in Hi by assumption. rewrite tab_nth by assumption. cbn [TF tree_at t_att t_natt]. destruct (HT Hi) as (_ & W2 & W3). rewrite W2. unfold TREE_BYTES. replace (0 + 32 * i + t_att (T' i)) with (i * 32 + t_att (T' i)) by lia. rewrite W3.
      destruct (TN_facts S Hi) as (_ & _ & -> & _). apply tree_attribute_bytes; [assumption|assumption|]. intros a Ea. unfold isT. lia. }
  cbn [obind]. rewrite (@alloc_bytes_ok m GHOST_BYTES 9 (tab (GF G' (sides calls)) g) (zlen (tab (TF T' (sides calls)) n) * TREE_BYTES) (fun i => t_att (GN S i))).
  2:{ intros i Hi. rewrite zlen_tab in Hi by assumption. rewrite tab_nth by assumption. cbn [GF tree_at t_att t_natt]. destruct (HG Hi) as (_ & _ & W2 & W3). rewrite W2, zlen_tab by assumption. unfold TREE_BYTES, GHOST_BYTES. replace (n * 32 + 40 * i + t_att (G' i)) with (n * 32 + i * 40 + t_att (G' i)) by lia. rewrite W3.
      destruct (GN_facts S Hi) as (_ & _ & -> & _). apply tree_attribute_bytes; [assumption|assumption|]. intros a Ea. destruct (index_known (ids_ghost Hi)) as (j & J & _ & _ & _ & L). unfold isG, isT. rewrite Ea, J. unfold local in L. lia. }
  cbn [obind]. do 2 f_equal. rewrite !zlen_tab by assumption.
  assert (LT : length (tab (TF T' (sides calls)) n) = Z.to_nat n) by (unfold tab; now rewrite map_length, zseq_length). assert (LG : length (tab (GF G' (sides calls)) g) = Z.to_nat g) by (unfold tab; now rewrite map_length, zseq_length). rewrite LT, LG.
  assert (E1 : sumf (fun i => t_att (TN S i)) (zseq 0 (Z.to_nat n)) = sumf asize (BT first n S)) by (rewrite <- A2; unfold total, tab; now rewrite sumf_map).
  assert (E2 : sumf (fun i => t_att (GN S i)) (zseq 0 (Z.to_nat g)) = sumf asize (BG first n ids S)) by (rewrite <- A4; unfold total, tab; now rewrite sumf_map).
  assert (E3 : sumf t_natt (tab (TF T' (sides calls)) n) = zlen (BT first n S)). { rewrite <- A1. unfold total, tab. rewrite !sumf_map. apply sumf_ext. intros i Hi. apply in_zseq in Hi. assert (Hi' : 0 <= i < n) by lia. cbn [TF tree_at t_natt]. destruct (HT Hi') as (_ & -> & _). destruct (TN_facts S Hi') as (_ & -> & _). reflexivity. }
  assert (E4 : sumf t_natt (tab (GF G' (sides calls)) g) = zlen (BG first n ids S)). { rewrite <- A3. unfold total, tab. rewrite !sumf_map. apply sumf_ext. intros i Hi. apply in_zseq in Hi. assert (Hi' : 0 <= i < g) by lia. cbn [GF tree_at t_natt]. destruct (HG Hi') as (_ & _ & -> & _). destruct (GN_facts S Hi') as (_ & -> & _). reflexivity. }
  assert (E5 : sumf (neighbor_bytes 5) (tab (TF T' (sides calls)) n) = total (neighbor_bytes 5) (TN S) n). { unfold total, tab. rewrite !sumf_map. apply sumf_ext. intros i Hi. apply in_zseq in Hi. assert (Hi' : 0 <= i < n) by lia. unfold neighbor_bytes. cbn [TF tree_at t_class]. destruct (HT Hi') as (-> & _). reflexivity. }
  assert (E6 : sumf (neighbor_bytes 9) (tab (GF G' (sides calls)) g) = total (neighbor_bytes 9) (GN S) g). { unfold total, tab. rewrite !sumf_map. apply sumf_ext. intros i Hi. apply in_zseq in Hi. assert (Hi' : 0 <= i < g) by lia. unfold neighbor_bytes. cbn [GF tree_at t_class]. destruct (HG Hi') as (_ & -> & _). reflexivity. }
  rewrite E1, E2, E3, E4, E5, E6. unfold hi, IG, TREE_BYTES, GHOST_BYTES. f_equal. lia.
Qed.
End query.
Lemma attribute_answer c c' : attributes_right first n calls c -> attributes_right first n calls c' -> (forall t, known_tree first n calls t -> get_local_id c t = get_local_id c' t) ->
  forall t pkg key, known_tree first n calls t -> get_attribute c' pkg key (get_local_id c t) = get_attribute c pkg key (get_local_id c t).
Proof.
  intros [A1 A2] [B1 B2] E t pkg key K. destruct (in_dec (prod_eq_dec' (prod_eq_dec' Z.eq_dec Z.eq_dec) Z.eq_dec) (t, pkg, key) (map (fun a => (a_id a, a_pkg a, a_key a)) S)) as [H|H].
  - apply in_map_iff in H as (a & Ea & H). injection Ea as E1 E2 E3. apply S_in in H. rewrite E1, E2, E3 in H. rewrite (A1 _ _ _ _ K H), (E t K). now apply B1.
  - assert (N : forall d, ~ In (SetAttribute t pkg key d) calls). { intros d HA. apply H. apply in_map_iff. exists (mkSattr t pkg key d). split; [reflexivity|]. now apply S_in. }
    rewrite (A2 _ _ _ K N), (E t K). now apply B2.
Qed.

Lemma built : exists b, run_calls empty_building calls = Ok b /\ b_classes b = classes /\ b_joins b = joins_of calls /\ b_attrs b = attrs_of calls /\ (0 < n -> b_dim b = dim).
Proof.
  destruct (@run_calls_ok dim calls) with (b := empty_building) as (b & E & E1 & E2 & E3 & _ & E5).
  - intros t k H. destruct (ok_class (part_ok_calls PC) H) as (H1 & H2 & H3). auto.
  - intros t1 t2 f1 f2 o H. apply (ok_join (part_ok_calls PC) H).
  - left. reflexivity.
  - exists b. split; [assumption|]. split; [exact E1|]. split; [exact E2|]. split; [exact E3|]. intros N. apply E5. intros E6. destruct (class_known (t := first)) as (k & H & _); [left; unfold local_tree; lia|]. apply in_classes_of in H. rewrite E6 in H. destruct H.
Qed.
Lemma empty_answers p mm d : n = 0 -> let c := mkCmesh d p first [] [] [] mm in numbers_right first n calls c /\ classes_right first n calls c /\ faces_right first n calls c /\ attributes_right first n calls c /\ (p = true -> unknown_right first n calls c).
Proof.
  intros E c. assert (NK : forall t, known_tree first n calls t -> False). { intros t [H|(_ & l & _ & _ & _ & H & _)]; unfold local_tree in H; lia. }
  repeat apply conj.
  - cbn. symmetry. exact E.
  - intros t H. exfalso. apply (NK t). now left.
  - intros t H. exfalso. apply (NK t). now right.
  - intros t H. exfalso. now apply (NK t).
  - intros lt H. unfold is_ghost in H. cbn in H. lia.
  - intros t k H. exfalso. now apply (NK t).
  - intros t1 f1 t2 f2 o H. exfalso. now apply (NK t1).
  - intros t1 f1 t2 f2 o H. exfalso. now apply (NK t1).
  - intros t1 f1 t2 f2 o H. exfalso. now apply (NK t1).
  - intros t f H. exfalso. now apply (NK t).
  - intros t pkg key d' H. exfalso. now apply (NK t).
  - intros t pkg key H. exfalso. now apply (NK t).
  - intros -> t _. unfold get_local_id, is_local_tree. cbn. destruct ((0 <=? t - first) && (t - first <? 0)) eqn:L; [lia|reflexivity].
Qed.
Theorem commit_partitioned_ok : exists b c c', run_calls empty_building calls = Ok b /\ commit_partitioned first n b = Ok c /\ copy c = Ok c' /\
  (numbers_right first n calls c /\ classes_right first n calls c /\ faces_right first n calls c /\ attributes_right first n calls c /\ unknown_right first n calls c) /\ copy_right first n calls c c'.
Proof.
  destruct built as (b & E & E1 & E2 & E3 & E4). exists b. destruct n_range as [N0 N1]. assert (G0 := g_pos). unfold commit_partitioned. rewrite E2. fold (ghosts_of first n calls). fold ids g.
  destruct (Z.eqb_spec n 0) as [NZ|NZ].
  { rewrite n_zero by assumption. cbn [andb Z.eqb]. do 2 eexists. split; [assumption|]. split; [reflexivity|]. split; [reflexivity|]. destruct (@empty_answers true (mkMem 0 0 (fun _ => 0)) (b_dim b) NZ) as (A1 & A2 & A3 & A4 & A5). split; [auto 10|].
    repeat split; try (intros; reflexivity). intros t H. unfold local_tree in H. lia. }
  cbn [andb]. rewrite E1, E3, E4 by lia. fold S.
  assert (R1 : repeat zero_tree (Z.to_nat n) = tab (TC first []) n) by (rewrite repeat_tab; unfold tab; rewrite Nat2Z.id; reflexivity).
  assert (R2 : repeat zero_tree (length ids) = tab (GC ids []) g) by (rewrite repeat_tab; reflexivity).
  rewrite R1, R2. change (@nil (Z * Z)) with (tbl first n ids []).
  rewrite (@class_loop_ok first n g ids) by (auto using ids_nodup; try (intros id; apply ids_other); apply classes_nodup). cbn [app obind].
  assert (C1 : tab (TC first classes) n = tab (TN []) n) by (apply tab_ext; intros i _; unfold TN, counted; cbn; now destruct (cls classes (first + i)) as [z|] eqn:EE; unfold TC; rewrite EE).
  assert (C2 : tab (GC ids classes) g = tab (GN []) g) by (apply tab_ext; intros i _; unfold GN, counted; cbn; now destruct (cls classes (znth 0 ids i)) as [z|] eqn:EE; unfold GC; rewrite EE).
  rewrite C1, C2. unfold TN at 1, GN at 1. rewrite (@count_loop_ok first n g ids) by (auto using ids_nodup; intros id; apply ids_other). cbn [app obind fst snd]. fold (TN S) (GN S).
  destruct finish_ok as (T' & G' & m & IT & -> & HI & HT & HG & AD). cbn [obind].
  rewrite (@all_boundary_tab F T' (fun i => first + i) place n (fun i _ => i)). rewrite (@all_boundary_tab F G' (znth 0 ids) (fun t => t) g (fun _ gh => t_id gh)).
  fold (TF T' []) (GF G' []).
  rewrite (@pjoin_loop_ok T' G'); [|intros i Hi; now apply HT|intros i Hi; now apply HG|apply sides_nodup|intros; now apply sides_joined]. cbn [app obind fst snd]. fold (sides calls).
  destruct (AD (TF T' (sides calls)) (GF G' (sides calls)) (Some ids)) as (m' & -> & B1 & B2 & B3 & B4); [intros; split; reflexivity|intros; split; reflexivity|now left|]. cbn [obind].
  destruct (@copy_ok true T' G' m' IT (or_introl eq_refl) HT HG B1 B2 B3 B4 HI) as (CO & M1 & M2).
  match type of CO with copy _ = Ok (mkCmesh _ _ _ _ _ _ ?x) => set (mm := x) in * end.
  eexists. eexists. split; [assumption|]. split; [reflexivity|]. split; [exact CO|].
  destruct (@answers_right true T' G' m' IT) as (A1 & A2 & A3 & A4 & A5); auto. destruct (@answers_right true T' G' mm IT) as (_ & _ & _ & A4' & _); auto.
  split; [auto 10|]. split; [intros lt; split; reflexivity|]. split; [|split; [intros lt; split; reflexivity|split; [intros lt f; reflexivity|split]]].
  - intros t H. unfold get_local_id. cbn [c_partitioned negb c_first c_table find]. unfold is_local_tree. cbn [c_trees]. rewrite zlen_tab by assumption. unfold local_tree in H. replace ((0 <=? t - first) && (t - first <? n)) with true by lia. reflexivity.
  - intros lt f H. unfold get_face_neighbor. unfold is_local_tree in *. cbn [c_trees] in *. rewrite H. reflexivity.
  - intros t pkg key K. exact (@attribute_answer _ _ A4 A4' (fun _ _ => eq_refl) t pkg key K).
Qed.

(** the replicated mesh is the case of one process *)
Hypothesis replicated : first = 0 /\ (forall t, In t (class_ids calls) -> 0 <= t < n) /\ (forall t1 t2 f1 f2 o, In (SetJoin t1 t2 f1 f2 o) calls -> 0 <= t1 < n /\ 0 <= t2 < n) /\ (forall t pkg key d, In (SetAttribute t pkg key d) calls -> 0 <= t < n).
Lemma no_ghosts : ids = [].
Proof.
  destruct replicated as (F0 & _ & RJ & _). destruct ids as [|id l] eqn:E; [reflexivity|exfalso]. assert (In id ids) as H by (rewrite E; now left). apply ghosts_in in H as (NL & l' & fl & f & o & _ & J). apply NL. unfold local_tree. rewrite F0. destruct J as [J|J]; apply RJ in J; lia.
Qed.
Lemma add_classes_loop : forall Q T, (forall k, In k Q -> 0 <= k_id k < n) -> forall T' G' tb, class_loop 0 n [] (T, [], []) Q = Ok (T', G', tb) -> add_classes T Q = Ok T'.
Proof.
  intros Q. induction Q as [|k Q IH]; intros T H T' G' tb E; cbn [class_loop add_classes] in *; [now injection E as -> _ _|]. unfold class_step in E. assert (K := H k (or_introl eq_refl)). replace (local 0 n (k_id k)) with true in E by (unfold local; lia). rewrite Z.sub_0_r in E.
  destruct (add_tree T (k_id k) (k_id k) (k_class k)) as [T1| | |]; cbn [obind] in *; try discriminate. eapply IH; [|exact E]. intros; apply H; now right.
Qed.
Lemma count_attrs_loop : forall Q T, (forall a, In a Q -> 0 <= a_id a < n) -> forall T' G', count_loop 0 n [] (T, []) Q = Ok (T', G') -> count_attrs T Q = Ok T'.
Proof.
  intros Q. induction Q as [|k Q IH]; intros T H T' G' E; cbn [count_loop count_attrs] in *; [now injection E as -> _|]. unfold count_step in E. assert (K := H k (or_introl eq_refl)). replace ((0 <=? a_id k) && (a_id k <? 0 + n)) with true in E by lia. rewrite Z.sub_0_r in E.
  destruct (count_attr T (a_id k) k) as [T1| | |]; cbn [obind] in *; try discriminate. eapply IH; [|exact E]. intros; apply H; now right.
Qed.
Lemma join_faces_ok T' : (forall i, 0 <= i < n -> t_class (T' i) = t_class (TN S i)) -> forall Q P, NoDup (map fst (P ++ flat_map sides_of_join Q)) -> (forall t f t2 f2 o, In ((t, f), (t2, f2, o)) (flat_map sides_of_join Q) -> joined calls t f t2 f2 o) ->
  join_faces dim (tab (TF T' P) n) Q = Ok (tab (TF T' (P ++ flat_map sides_of_join Q)) n).
Proof.
  intros HT Q. destruct replicated as (F0 & _ & RJ & _). destruct n_range as [N0 N1]. induction Q as [|j Q IH]; intros P N HJ; [cbn; now rewrite app_nil_r|]. cbn [join_faces flat_map] in *. unfold join_step. cbn [sides_of_join app] in *.
  rewrite map_app in N. cbn [map fst] in N.
  assert (J1 : joined calls (j_id1 j) (j_face1 j) (j_id2 j) (j_face2 j) (j_orient j)) by (apply HJ; now left). assert (J2 : joined calls (j_id2 j) (j_face2 j) (j_id1 j) (j_face1 j) (j_orient j)) by (apply HJ; right; now left).
  assert (R : 0 <= j_id1 j < n /\ 0 <= j_id2 j < n) by (destruct J1 as [J|J]; apply RJ in J; tauto). destruct R as [R1 R2].
  assert (K1 : known_tree first n calls (j_id1 j)) by (left; unfold local_tree; lia). assert (K2 : known_tree first n calls (j_id2 j)) by (left; unfold local_tree; lia).
  rewrite !lget_tab by assumption. cbn [obind].
  assert (EN : forall t f t2 f2 o, known_tree first n calls t -> joined calls t f t2 f2 o -> ttf_encode dim f2 o = Ok (F * o + f2)).
  { intros t f t2 f2 o K J. destruct (side_facts J) as (Q1 & Q2 & Q3 & _). assert (R := F_range K). assert (V : 0 <= F * o + f2 <= 23) by nia. unfold ttf_encode. fold F. replace (o * F + f2) with (F * o + f2) by lia. replace (i8 (F * o + f2)) with (F * o + f2) by (unfold i8; rewrite Z.mod_small; lia). replace ((0 <=? f2) && (f2 <? F) && (F * o + f2 =? F * o + f2)) with true by lia. reflexivity. }
  rewrite (EN _ _ _ _ _ K1 J1), (EN _ _ _ _ _ K2 J2). cbn [obind].
  assert (PLC : forall t, 0 <= t < n -> place t = t) by (intros t Ht; destruct (@place_local t) as [-> _]; [unfold local_tree; lia|lia]).
  assert (ST : forall P t f t2 f2 o, 0 <= t < n -> 0 <= t2 < n -> joined calls t f t2 f2 o -> ~ In (t, f) (map fst P) -> set_face (tab (TF T' P) n) t f t2 (F * o + f2) = Ok (tab (TF T' (P ++ [((t, f), (t2, f2, o))])) n)).
  { intros P' t f t2 f2 o Ht Ht2 J NI. destruct (side_facts J) as (Q1 & Q2 & Q3 & Q4). apply nbr_none in NI. unfold TF.
    rewrite (@set_face_tab F T' (fun i => first + i) place (fun i => i) P' n t f t2 f2 o); [now rewrite F0|assumption| |now rewrite F0|intros; lia|now rewrite PLC|reflexivity].
    rewrite HT by assumption. destruct (TN_facts S Ht) as (_ & _ & _ & c' & H' & ->). rewrite F0 in H'. destruct Q4 as (c & H & HF); [left; unfold local_tree; lia|]. now rewrite (class_unique H' H). }
  rewrite ST; [|assumption|assumption|assumption|intros K; apply NoDup_remove_2 in N; apply N; apply in_or_app; now left]. cbn [obind].
  rewrite ST; [|assumption|assumption|assumption|].
  2:{ rewrite map_app. cbn. intros K. apply in_app_iff in K as [K|[K|[]]].
      - apply NoDup_remove_1, NoDup_remove_2 in N. apply N. apply in_or_app. now left.
      - apply NoDup_remove_2 in N. apply N. apply in_or_app. right. left. congruence. }
  cbn [obind]. rewrite IH.
  - rewrite <- !app_assoc. reflexivity.
  - rewrite <- !app_assoc. cbn [app]. rewrite map_app. exact N.
  - intros. apply HJ. right. now right.
Qed.
Lemma classes_length : Z.of_nat (length classes) = n.
Proof.
  destruct replicated as (F0 & RC & _). destruct n_range as [_ N1]. unfold classes. rewrite <- (map_length k_id), classes_ids.
  assert (P : Permutation (class_ids calls) (zseq 0 (Z.to_nat n))). { apply NoDup_Permutation; [apply PC|apply NoDup_zseq|]. intros t. rewrite in_zseq. split; [intros H; apply RC in H; lia|]. intros H. apply PC. left. unfold local_tree. lia. }
  rewrite (Permutation_length P), zseq_length. lia.
Qed.
Theorem commit_replicated_ok : exists b c c', run_calls empty_building calls = Ok b /\ commit_replicated b = Ok c /\ copy c = Ok c' /\
  (numbers_right first n calls c /\ classes_right first n calls c /\ faces_right first n calls c /\ attributes_right first n calls c) /\
  (numbers_right first n calls c' /\ classes_right first n calls c' /\ faces_right first n calls c' /\ attributes_right first n calls c').
Proof.
  destruct built as (b & E & E1 & E2 & E3 & E4). exists b. destruct n_range as [N0 N1]. assert (G0 := g_pos). assert (NG := no_ghosts). assert (CL := classes_length). assert (REP := replicated). destruct REP as (F0 & RC & RJ & RA).
  assert (GZ : g = 0) by (unfold g; rewrite NG; reflexivity). unfold commit_replicated. rewrite E1, E2, E3. replace (zlen classes) with n by (unfold zlen; lia).
  destruct (Z.leb_spec n 0) as [NZ|NZ].
  { do 2 eexists. split; [assumption|]. split; [reflexivity|]. split; [reflexivity|]. assert (NZ' : n = 0) by lia. destruct (@empty_answers false (mkMem 0 0 (fun _ => 0)) (b_dim b) NZ') as (A1 & A2 & A3 & A4 & _). rewrite F0 in *. split; [auto|]. cbn in *. auto. }
  rewrite E4 by lia. rewrite repeat_tab, CL.
  assert (R1 : tab (fun _ => zero_tree) n = tab (TC 0 []) n) by reflexivity. rewrite R1.
  assert (CO := @class_loop_ok 0 n 0 [] eq_refl (NoDup_nil _) (fun id H => match H with end) classes [] classes_nodup). change (tab (GC [] []) 0) with (@nil ctree) in CO. cbn [app] in CO.
  assert (RC' : forall k, In k classes -> 0 <= k_id k < n) by (intros k Hk; apply RC; rewrite <- classes_ids; apply in_map; exact Hk).
  assert (AC := add_classes_loop RC' CO). rewrite AC. cbn [obind].
  assert (C1 : tab (TC 0 classes) n = tab (TN []) n) by (apply tab_ext; intros i _; unfold TN, counted; rewrite F0; cbn; now destruct (cls classes i) as [z|] eqn:EE; unfold TC; cbn [Z.add]; rewrite EE). rewrite C1.
  assert (CC := @count_loop_ok 0 n 0 [] eq_refl (NoDup_nil _) (fun id H => match H with end) (TC first classes) (GC ids classes) (attrs_of calls) []). cbn [app] in CC. change (tab (counted (GC ids classes) (znth 0 []) []) 0) with (@nil ctree) in CC.
  assert (TNE : tab (TN []) n = tab (counted (TC first classes) (fun i => 0 + i) []) n) by (unfold TN; now rewrite F0). rewrite TNE.
  assert (RA' : forall a, In a (attrs_of calls) -> 0 <= a_id a < n) by (intros [t pk k d] Ha; apply in_attrs_of in Ha; apply RA in Ha; exact Ha).
  rewrite (count_attrs_loop RA' CC). cbn [obind].
  assert (TNS : tab (counted (TC first classes) (fun i => 0 + i) (attrs_of calls)) n = tab (TN S) n) by (rewrite <- (TN_perm S_perm); unfold TN; now rewrite F0). rewrite TNS.
  destruct finish_ok as (T' & G' & m & IT & FE & HI & HT & HG & AD). rewrite GZ in FE. change (tab (GN S) 0) with (@nil ctree) in FE. change (tab G' 0) with (@nil ctree) in FE. rewrite FE. cbn [obind]. fold S.
  destruct (AD T' G' None) as (m' & AE & B1 & B2 & B3 & B4); [intros; split; reflexivity|intros; split; reflexivity|right; intros a Ha; apply S_in in Ha; apply RA in Ha; unfold isT; lia|].
  rewrite GZ in AE. change (tab G' 0) with (@nil ctree) in AE. rewrite F0 in AE. rewrite AE. cbn [obind].
  rewrite (@all_boundary_tab F T' (fun i => first + i) place n (fun i _ => i)). fold (TF T' []).
  rewrite (@join_faces_ok T'); [|intros i Hi; now apply HT|apply sides_nodup|intros; now apply sides_joined]. cbn [app obind]. fold (sides calls).
  assert (HP : false = true \/ (first = 0 /\ ids = [])) by auto.
  destruct (@copy_ok false T' G' m' IT HP HT HG B1 B2 B3 B4 HI) as (CP & M1 & M2).
  match type of CP with copy _ = Ok (mkCmesh _ _ _ _ _ _ ?x) => set (mm := x) in * end.
  destruct (@answers_right false T' G' m' IT) as (A1 & A2 & A3 & A4 & _); auto. destruct (@answers_right false T' G' mm IT) as (Q1 & Q2 & Q3 & Q4 & _); auto.
  assert (TBL : tbl first n ids classes = []). { unfold tbl. rewrite NG. clear. induction classes as [|k l IH]; [reflexivity|]. cbn. now destruct (local first n (k_id k)). }
  rewrite TBL, GZ in CP, A1, A2, A3, A4, Q1, Q2, Q3, Q4. change (tab (GF G' (sides calls)) 0) with (@nil ctree) in CP, A1, A2, A3, A4, Q1, Q2, Q3, Q4.
  exists (mkCmesh dim false 0 (tab (TF T' (sides calls)) n) [] [] m'), (mkCmesh dim false 0 (tab (TF T' (sides calls)) n) [] [] mm).
  rewrite F0 in CP, A1, A2, A3, A4, Q1, Q2, Q3, Q4 |- *. split; [assumption|]. split; [reflexivity|]. split; [exact CP|]. auto 10.
Qed.
End mesh.

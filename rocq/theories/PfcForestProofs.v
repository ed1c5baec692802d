(** Partition for coarsening: the global sequence of leaves, and what one process sees of it. *)
From Verif Require Import Prelude PathSpec SchemeModel SchemeSpec SchemeProofs SchemeOrderProofs OffsetModel LeafModel LeafProofs LeafIndexProofs.
From Verif Require Import SearchMainProofs ReplaceProofs NetModel NetProofs PartitionModel PartitionSpec PartitionRangeProofs PartitionProofs PartitionMainProofs.
From Verif Require Import PfcModel PfcSpec PfcProofs.
#[local] Arguments PfcSpec.family_at {sch} K {cl} lv {t} x s.

Definition at_index {A} (l : list A) (i : Z) : option A := if i <? 0 then None else nth_error l (Z.to_nat i).
Lemma at_index_nth {A} (l : list A) i : 0 <= i -> at_index l i = nth_error l (Z.to_nat i).
Proof. intros H. unfold at_index. destruct (Z.ltb_spec i 0); [lia|reflexivity]. Qed.
Lemma at_index_app1 {A} (a b : list A) i : i < zlen a -> at_index (a ++ b) i = at_index a i.
Proof. intros H. unfold at_index. destruct (Z.ltb_spec i 0); [reflexivity|]. apply nth_error_app1. unfold zlen in H. lia. Qed.
Lemma at_index_app2 {A} (a b : list A) i : zlen a <= i -> at_index (a ++ b) i = at_index b (i - zlen a).
Proof.
  intros H. pose proof (zlen_ge0 a). rewrite !at_index_nth by lia. rewrite nth_error_app2 by (unfold zlen in *; lia). f_equal. unfold zlen. lia.
Qed.
Lemma at_index_some {A} (l : list A) i x : at_index l i = Some x -> 0 <= i < zlen l /\ In x l.
Proof.
  unfold at_index. destruct (Z.ltb_spec i 0); [discriminate|]. intros E. split; [|now apply nth_error_In in E]. assert (Q : nth_error l (Z.to_nat i) <> None) by congruence. apply nth_error_Some in Q. unfold zlen. lia.
Qed.
Lemma at_index_ok {A} (l : list A) i : 0 <= i < zlen l -> exists x, at_index l i = Some x.
Proof.
  intros H. rewrite at_index_nth by lia. destruct (nth_error l (Z.to_nat i)) as [x|] eqn:E; [eauto|]. apply nth_error_None in E. unfold zlen in H. lia.
Qed.
Lemma at_index_part {A} (l : list A) a b i : 0 <= a -> 0 <= i < b - a -> at_index (part l a b) i = at_index l (a + i).
Proof.
  intros H1 H2. rewrite !at_index_nth by lia. unfold part. revert a b i H1 H2. 
  assert (G : forall (l : list A) (k n i : nat), (i < n)%nat -> nth_error (firstn n (skipn k l)) i = nth_error l (k + i)).
  { clear l. intros l k n i Hi. revert l n i Hi. induction k as [|k IH]; intros l n i Hi.
    - cbn [skipn Nat.add]. revert l i Hi. induction n as [|n IHn]; intros l i Hi; [lia|]. destruct l as [|x l]; [now destruct i|]. destruct i as [|i]; [reflexivity|]. cbn [firstn nth_error]. apply IHn. lia.
    - destruct l as [|x l]; [cbn [skipn]; rewrite firstn_nil; now destruct i|]. cbn [skipn Nat.add nth_error]. now apply IH. }
  intros a b i H1 H2. rewrite G by lia. f_equal. lia.
Qed.
Lemma at_index_map {A B} (f : A -> B) (l : list A) i : at_index (map f l) i = option_map f (at_index l i).
Proof. unfold at_index. destruct (i <? 0); [reflexivity|]. apply nth_error_map. Qed.

Lemma in_part {A} (l : list A) a b x : In x (part l a b) -> In x l.
Proof.
  unfold part. intros I. rewrite <- (firstn_skipn (Z.to_nat a) l). apply in_or_app. right. rewrite <- (firstn_skipn (Z.to_nat (b - a)) (skipn (Z.to_nat a) l)). apply in_or_app. now left.
Qed.

(** counting by index *)
Definition index_test {A} (t : A -> bool) (l : list A) (i : Z) : bool := match at_index l i with Some x => t x | None => false end.
Lemma cnt_filter {A} (t : A -> bool) (l : list A) : cnt (index_test t l) 0 (zlen l) = zlen (filter t l).
Proof.
  induction l as [|x l IH] using rev_ind; [reflexivity|]. pose proof (zlen_ge0 l). rewrite zlen_snoc, (cnt_add _ (b := zlen l)) by lia. rewrite filter_app, zlen_app. f_equal.
  - rewrite <- IH. unfold cnt. f_equal. apply filter_ext_in. intros i Hi. apply in_zseq in Hi. unfold index_test. rewrite at_index_app1 by lia. reflexivity.
  - unfold cnt. replace (Z.to_nat (zlen l + 1 - zlen l)) with 1%nat by lia. cbn [zseq filter]. unfold index_test. rewrite at_index_app2 by lia. rewrite Z.sub_diag.
    change (at_index [x] 0) with (Some x). destruct (t x); reflexivity.
Qed.

Section forest.
Variable sch : Z -> scheme.
Variable K : Z.
Variable cl : Z -> Z.
Variable lv : forall t, list (elt (sch (cl t))).
Notation celt := {c : Z & elt (sch c)}.
Notation G := (leaf_sequence K cl lv).
Hypothesis good : leaves_good K lv.
Notation item := (@PfcSpec.item sch cl _).
Notation inj t := (existT (fun c => elt (sch c)) (cl t)).

Lemma as_class_inj (c : Z) (e : elt (sch c)) : as_class sch c (existT _ c e) = Ok e.
Proof.
  unfold as_class. cbn [projT1 projT2]. destruct (Z.eq_dec c c) as [E|N]; [|congruence]. f_equal.
  rewrite (Eqdep_dec.UIP_dec Z.eq_dec E eq_refl). reflexivity.
Qed.
Lemma inj_eq (c : Z) (e e' : elt (sch c)) : existT (fun c => elt (sch c)) c e = existT (fun c => elt (sch c)) c e' -> e = e'.
Proof. intros H. exact (Eqdep_dec.inj_pair2_eq_dec Z Z.eq_dec _ _ _ _ H). Qed.
Lemma item_eq (t : Z) (e e' : elt (sch (cl t))) : item e = item e' -> e = e'.
Proof. intros H. unfold item in H. apply inj_eq. congruence. Qed.
Lemma in_sequence x : In x G <-> exists t (e : elt (sch (cl t))), 0 <= t < K /\ In e (lv t) /\ x = item e.
Proof.
  unfold leaf_sequence. rewrite in_flat_map. split.
  - intros (t & Ht & Hx). apply in_zseq in Ht. apply in_map_iff in Hx. destruct Hx as (e & <- & He). exists t, e. split; [lia|]. auto.
  - intros (t & e & Ht & He & ->). exists t. split; [apply in_zseq; lia|]. now apply in_map.
Qed.
Notation tree_of x := (fst (fst x)).
(** the leaves of one tree in the sequence *)
Lemma sequence_split t : 0 <= t < K -> exists a b, G = a ++ map (@PfcSpec.item sch cl t) (lv t) ++ b /\ Forall (fun x => tree_of x <> t) (a ++ b).
Proof.
  intros Ht. unfold leaf_sequence. rewrite (@zseq_split 0 (Z.to_nat K) (Z.to_nat t)) by lia. replace (Z.to_nat K - Z.to_nat t)%nat with (1 + (Z.to_nat K - Z.to_nat t - 1))%nat by lia.
  rewrite zseq_app. replace (0 + Z.of_nat (Z.to_nat t)) with t by lia. cbn [zseq]. rewrite !flat_map_app. cbn [flat_map]. rewrite app_nil_r. eexists _, _. split; [reflexivity|].
  apply Forall_app. split; apply Forall_forall; intros x Hx; apply in_flat_map in Hx; destruct Hx as (u & Hu & Hx); apply in_zseq in Hu; apply in_map_iff in Hx; destruct Hx as (e & <- & _); cbn [item fst]; lia.
Qed.
Lemma filter_none {A} (t : A -> bool) (l : list A) : Forall (fun x => t x = false) l -> filter t l = [].
Proof. induction 1 as [|x l H F IH]; [reflexivity|]. cbn [filter]. now rewrite H. Qed.
Lemma filter_all {A} (t : A -> bool) (l : list A) : Forall (fun x => t x = true) l -> filter t l = l.
Proof. induction 1 as [|x l H F IH]; [reflexivity|]. cbn [filter]. now rewrite H, IH. Qed.
Lemma filter_map {A B} (f : A -> B) (t : B -> bool) (l : list A) : filter t (map f l) = map f (filter (fun x => t (f x)) l).
Proof. induction l as [|x l IH]; [reflexivity|]. cbn [map filter]. destruct (t (f x)); cbn [map]; now rewrite IH. Qed.

(** the test: a leaf of tree t whose parent is p *)
Definition kid_item (t : Z) (p : elt (sch (cl t))) (x : Z * Z * celt) : bool :=
  (tree_of x =? t) && match as_class sch (cl t) (snd x) with Ok e => kid_of p e | _ => false end.
Definition kid (t : Z) (p : elt (sch (cl t))) : Z -> bool := index_test (kid_item p) G.
Lemma kid_item_item t (p e : elt (sch (cl t))) : kid_item p (item e) = kid_of p e.
Proof. unfold kid_item, item. cbn [fst snd]. now rewrite Z.eqb_refl, as_class_inj. Qed.
Lemma kid_filter t (p : elt (sch (cl t))) : 0 <= t < K -> filter (kid_item p) G = map (@PfcSpec.item sch cl t) (filter (kid_of p) (lv t)).
Proof.
  intros Ht. destruct (sequence_split Ht) as (a & b & -> & F). apply Forall_app in F. destruct F as [Fa Fb]. rewrite !filter_app.
  rewrite (@filter_none _ _ a), (@filter_none _ _ b).
  - cbn [app]. rewrite app_nil_r, filter_map. f_equal. apply filter_ext. intros e. apply kid_item_item.
  - eapply Forall_impl; [|exact Fb]. intros x Hx. unfold kid_item. destruct (Z.eqb_spec (tree_of x) t); [contradiction|reflexivity].
  - eapply Forall_impl; [|exact Fa]. intros x Hx. unfold kid_item. destruct (Z.eqb_spec (tree_of x) t); [contradiction|reflexivity].
Qed.
Lemma kids_total t (p : elt (sch (cl t))) : 0 <= t < K -> valid p -> s_level p < s_maxlevel (sch (cl t)) ->
  cnt (kid p) 0 (zlen G) <= s_num_children p /\ (cnt (kid p) 0 (zlen G) = s_num_children p -> family K lv p).
Proof.
  intros Ht Vp HL. unfold kid. rewrite cnt_filter, (kid_filter p Ht). destruct (good Ht) as (LW & _ & O & _). destruct (kids_count LW O Vp HL) as [A B].
  unfold zlen in *. rewrite map_length. split; [exact A|]. intros E. split; [exact Ht|]. split; [exact Vp|]. split; [exact HL|]. now apply B.
Qed.
Lemma cat3_part {A} (a m b : list A) : part (a ++ m ++ b) (zlen a) (zlen a + zlen m) = m.
Proof.
  rewrite part_app_r by lia. rewrite Z.sub_diag. replace (zlen a + zlen m - zlen a) with (zlen m) by lia. pose proof (zlen_ge0 m). rewrite part_app_l by lia. apply part_all.
Qed.
(** the place of a family *)
Lemma family_place t (p : elt (sch (cl t))) : family K lv p -> exists s, family_at K lv p s /\ s + s_num_children p <= zlen G /\
  forall i, (kid p i = true <-> s <= i < s + s_num_children p).
Proof.
  intros F. assert (F' := F). destruct F' as (Ht & Vp & HL & I). destruct (good Ht) as (LW & _ & O & _). destruct (family_interval LW O Vp HL I) as (a & b & E & N).
  destruct (sequence_split Ht) as (A & B & EG & FG). rewrite E, !map_app in EG.
  set (a1 := A ++ map item a). set (b1 := map item b ++ B). assert (EG' : G = a1 ++ map item (s_children p) ++ b1) by (rewrite EG; unfold a1, b1; rewrite <- !app_assoc; reflexivity).
  assert (Zn : zlen (map (@PfcSpec.item sch cl t) (s_children p)) = s_num_children p).
  { unfold zlen. rewrite map_length. change (zlen (s_children p) = s_num_children p). apply (zlen_children LW Vp). }
  apply Forall_app in N, FG. destruct N as [N1 N2], FG as [F1 F2].
  assert (T1 : Forall (fun x => kid_item p x = false) a1).
  { apply Forall_app. split; [eapply Forall_impl; [|exact F1]; intros x Hx; unfold kid_item; destruct (Z.eqb_spec (tree_of x) t); [contradiction|reflexivity]|].
    apply Forall_map. eapply Forall_impl; [|exact N1]. intros x Hx. now rewrite kid_item_item. }
  assert (T2 : Forall (fun x => kid_item p x = false) b1).
  { apply Forall_app. split; [|eapply Forall_impl; [|exact F2]; intros x Hx; unfold kid_item; destruct (Z.eqb_spec (tree_of x) t); [contradiction|reflexivity]].
    apply Forall_map. eapply Forall_impl; [|exact N2]. intros x Hx. now rewrite kid_item_item. }
  assert (T0 : Forall (fun x => kid_item p x = true) (map (@PfcSpec.item sch cl t) (s_children p))).
  { apply Forall_map, Forall_forall. intros x Hx. rewrite kid_item_item. apply (kid_of_child LW Vp HL); auto. apply (ReplaceProofs.in_children LW Vp HL Hx). }
  pose proof (zlen_ge0 a1) as Z1. pose proof (zlen_ge0 b1) as Z2. exists (zlen a1). split; [|split].
  - split; [exact F|]. split; [lia|]. rewrite EG', <- Zn. apply cat3_part.
  - rewrite EG', !zlen_app, Zn. lia.
  - intros i. unfold kid, index_test. rewrite EG'. rewrite <- Zn. rewrite Forall_forall in T0, T1, T2. destruct (Z.ltb_spec i (zlen a1)) as [C|C].
    + rewrite at_index_app1 by lia. destruct (at_index a1 i) as [x|] eqn:Ex; [apply at_index_some in Ex; rewrite T1 by apply Ex|]; (split; [discriminate|lia]).
    + rewrite at_index_app2 by lia. destruct (Z.ltb_spec (i - zlen a1) (zlen (map (@PfcSpec.item sch cl t) (s_children p)))) as [D|D].
      * rewrite at_index_app1 by lia. destruct (@at_index_ok _ (map (@PfcSpec.item sch cl t) (s_children p)) (i - zlen a1)) as (x & Ex); [lia|]. rewrite Ex. apply at_index_some in Ex. rewrite T0 by apply Ex. split; [lia|reflexivity].
      * rewrite at_index_app2 by lia. destruct (at_index b1 _) as [x|] eqn:Ex; [apply at_index_some in Ex; rewrite T2 by apply Ex|]; (split; [discriminate|lia]).
Qed.
Lemma kid_range t (p : elt (sch (cl t))) i : kid p i = true -> 0 <= i < zlen G.
Proof. unfold kid, index_test. destruct (at_index G i) as [x|] eqn:E; [|discriminate]. intros _. now apply at_index_some in E. Qed.

(** ** a local tree *)
(** elements of one class *)
Lemma typed_list t (l : list celt) : Forall (fun x => exists y, x = inj t y) l -> exists es, l = map (inj t) es.
Proof.
  induction 1 as [|x l (y & ->) F (es & ->)]; [exists []; reflexivity|]. exists (y :: es). reflexivity.
Qed.
Lemma tag_ids (first : Z) (ts : list (ptree celt)) : Forall (fun x => first <= tree_of x < first + zlen ts) (tag_trees first ts).
Proof.
  revert first. induction ts as [|T ts IH]; intros first; cbn [tag_trees]; [constructor|]. rewrite zlen_cons. pose proof (zlen_ge0 ts). apply Forall_app. split.
  - apply Forall_map, Forall_forall. intros e _. cbn [fst]. lia.
  - eapply Forall_impl; [|apply IH]. cbn beta. intros x Hx. lia.
Qed.

Variables (P N : Z) (o : list Z) (f : Z -> pforest celt).
Hypothesis TO : element_table P N o.
Hypothesis FO : forall p, 0 <= p < P -> local_forest (f p) /\ pf_num (f p) = at_ o (p + 1) - at_ o p.
Hypothesis SEQ : gather P (fun p => tagged (f p)) = G.
Hypothesis HK : K <= 2 ^ 31.

Lemma num_tagged p : 0 <= p < P -> zlen (tagged (f p)) = at_ o (p + 1) - at_ o p.
Proof. intros Hp. destruct (FO Hp) as [(_ & A & _) B]. lia. Qed.
Lemma zlen_G : zlen G = N.
Proof. rewrite <- SEQ. apply (gather_len TO). exact num_tagged. Qed.
Lemma tagged_part p : 0 <= p < P -> tagged (f p) = part G (at_ o p) (at_ o (p + 1)).
Proof. intros Hp. rewrite <- SEQ. symmetry. apply (gather_part (f := fun p => tagged (f p)) TO num_tagged Hp). Qed.
Lemma tagged_at p i : 0 <= p < P -> at_ o p <= i < at_ o (p + 1) -> at_index (tagged (f p)) (i - at_ o p) = at_index G i.
Proof. intros Hp Hi. rewrite (tagged_part Hp). assert (R := @tab_range _ _ _ TO p ltac:(lia)). rewrite at_index_part by lia. f_equal. lia. Qed.

(** what a process knows about one of its trees *)
Record local_tree (p t : Z) (T : ptree celt) (off : Z) (es : list (elt (sch (cl t)))) : Prop := {
  lt_range : 0 <= t < K;
  lt_tree : T = PTree (cl t) off (map (inj t) es);
  lt_pos : get_tree (pf_trees (f p)) (t - pf_first (f p)) = Ok T;
  lt_first : 0 <= pf_first (f p) <= t /\ t <= pf_last (f p);
  lt_ordered : ordered es;
  lt_incl : incl es (lv t);
  lt_off : 0 <= off /\ at_ o p + off + zlen es <= at_ o (p + 1);
  lt_at : forall k, 0 <= k < zlen es -> at_index G (at_ o p + off + k) = option_map (@PfcSpec.item sch cl t) (at_index es k);
  lt_out : forall i x, at_ o p <= i < at_ o (p + 1) -> at_index G i = Some x -> tree_of x = t -> 0 <= i - at_ o p - off < zlen es
}.
Lemma flat_map_trees (ts : list (ptree celt)) : flat_map (@t_leaves celt) (map (fun t => Tree (pt_offset t) (pt_elems t)) ts) = flat_map (@pt_elems celt) ts.
Proof. induction ts as [|T ts IH]; [reflexivity|]. cbn [map flat_map t_leaves]. now rewrite IH. Qed.
Lemma trees_offsets off (ts : list (ptree celt)) : trees_ok off ts -> offsets_ok off (map (fun t => Tree (pt_offset t) (pt_elems t)) ts).
Proof. revert off. induction ts as [|T ts IH]; intros off H; [exact H|]. destruct H as (H1 & _ & H2). cbn [map offsets_ok t_offset t_leaves]. split; [exact H1|]. now apply IH. Qed.

Lemma index_spec p g : 0 <= p < P -> at_ o p <= g < at_ o (p + 1) -> exists t T off es x,
  local_tree p T off es /\ 0 <= g - at_ o p - off < zlen es /\ at_index es (g - at_ o p - off) = Some x /\ at_index G g = Some (item x) /\
  index_from_globalid sch (f p) (at_ o p) g = Ok (t, T, g - at_ o p - off, inj t x).
Proof.
  intros Hp Hg. destruct (FO Hp) as [(TR & NU & PL) Hn]. set (F := f p) in *. set (ts := pf_trees F) in *.
  assert (OK := trees_offsets TR). assert (Z0 : zlen (flat_map (@pt_elems celt) ts) = at_ o (p + 1) - at_ o p).
  { rewrite <- Hn, NU. unfold tagged. fold ts. rewrite zlen_tag. reflexivity. }
  destruct (@get_leaf_element_spec celt true _ (g - at_ o p) OK) as (e & j & GL & Ee & Hj & Bj).
  { rewrite flat_map_trees. fold ts. lia. }
  rewrite flat_map_trees in GL. fold ts in GL. rewrite Z0, <- Hn in GL. unfold zlen in Hj at 1. rewrite map_length in Hj. fold ts in Hj.
  assert (Ej : exists T, nth_error ts (Z.to_nat j) = Some T).
  { destruct (nth_error ts (Z.to_nat j)) eqn:E; [eauto|]. apply nth_error_None in E. lia. }
  destruct Ej as (T & ET). destruct (nth_error_split _ _ ET) as (u & v & Ets & Lu). assert (Ju : j = zlen u) by (unfold zlen; lia).
  assert (TO2 := TR). fold ts in TO2. rewrite Ets in TO2. apply trees_ok_app in TO2. destruct TO2 as (_ & (OT & NE & _)). rewrite Z.add_0_l in OT.
  rewrite !firstn_map, !flat_map_trees in Bj. fold ts in Bj. assert (F1 : firstn (Z.to_nat j) ts = u) by (rewrite Ets, Ju; unfold zlen; rewrite Nat2Z.id, firstn_app, Nat.sub_diag, firstn_all; cbn [firstn]; apply app_nil_r).
  assert (F2 : firstn (Z.to_nat (j + 1)) ts = u ++ [T]).
  { rewrite Ets, Ju. replace (Z.to_nat (zlen u + 1)) with (length u + 1)%nat by (unfold zlen; lia). rewrite firstn_app_2. reflexivity. }
  rewrite F1, F2, flat_map_app in Bj. cbn [flat_map] in Bj. rewrite app_nil_r, zlen_app in Bj. change (zlen (flat_map (pt_elems (E:=celt)) u)) with (count u) in Bj. rewrite <- OT in Bj.
  set (t := pf_first F + zlen u). set (off := pt_offset T) in *.
  assert (TG : tagged F = tag_trees (pf_first F) u ++ map (fun e => (t, pt_class T, e)) (pt_elems T) ++ tag_trees (t + 1) v).
  { unfold tagged. fold ts. rewrite Ets, tag_app. cbn [tag_trees]. reflexivity. }
  assert (ZU : zlen (tag_trees (pf_first F) u) = off) by (rewrite zlen_tag; symmetry; exact OT).
  assert (OFF0 : 0 <= off) by (rewrite OT; apply count_ge0).
  assert (LEN : zlen (pt_elems T) + off <= at_ o (p + 1) - at_ o p).
  { rewrite <- Z0, Ets, flat_map_app, zlen_app. cbn [flat_map]. rewrite zlen_app. change (zlen (flat_map (pt_elems (E:=celt)) u)) with (count u). rewrite <- OT. pose proof (zlen_ge0 (flat_map (pt_elems (E:=celt)) v)). lia. }
  assert (IG : forall e, In e (pt_elems T) -> exists y, In y (lv t) /\ (t, pt_class T, e) = item y).
  { intros e0 He. assert (I : In (t, pt_class T, e0) (tagged F)) by (rewrite TG; apply in_or_app; right; apply in_or_app; left; exact (in_map (fun e => (t, pt_class T, e)) _ _ He)).
    unfold F in I. rewrite (tagged_part Hp) in I. apply in_part in I. rename I into I2.
    apply in_sequence in I2. destruct I2 as (t' & y & Ht' & Iy & E). assert (t = t') by (unfold item in E; congruence). destruct H. exists y. split; assumption. }
  assert (TK : 0 <= t < K /\ pt_class T = cl t).
  { destruct (pt_elems T) as [|e0 r] eqn:EE; [contradiction|]. assert (I : In (t, pt_class T, e0) (tagged F)) by (rewrite TG; apply in_or_app; right; apply in_or_app; left; left; reflexivity).
    destruct (IG e0 (or_introl eq_refl)) as (y & Iy & E). split; [|unfold item in E; congruence].
    unfold F in I. rewrite (tagged_part Hp) in I. apply in_part in I. rename I into I2.
    apply in_sequence in I2. destruct I2 as (t' & y' & Ht' & _ & E'). assert (t = t') by (unfold item in E'; congruence). lia. }
  destruct TK as [Ht CT].
  destruct (@typed_list t (pt_elems T)) as (es & EES).
  { apply Forall_forall. intros e0 He. destruct (IG e0 He) as (y & _ & E). exists y. unfold item in E. congruence. }
  assert (EQT : T = PTree (cl t) off (map (inj t) es)) by (transitivity (PTree (pt_class T) (pt_offset T) (pt_elems T)); [destruct T; reflexivity|]; unfold off; f_equal; [exact CT|exact EES]).
  assert (ZES : zlen (pt_elems T) = zlen es) by (rewrite EES; unfold zlen; now rewrite map_length).
  assert (SEG : map (fun e => (t, pt_class T, e)) (pt_elems T) = map (@PfcSpec.item sch cl t) es).
  { rewrite EES, CT, map_map. reflexivity. }
  rewrite SEG in TG.
  assert (RP := @tab_range _ _ _ TO p ltac:(lia)). assert (RP1 := @tab_range _ _ _ TO (p + 1) ltac:(lia)).
  assert (ATG : forall k, 0 <= k < at_ o (p + 1) - at_ o p -> at_index G (at_ o p + k) = at_index (tagged F) k).
  { intros k Hk. unfold F. rewrite <- (@tagged_at p (at_ o p + k)) by lia. f_equal. lia. }
  assert (SUB : exists a b, lv t = a ++ es ++ b).
  { assert (EG : G = (part G 0 (at_ o p) ++ tag_trees (pf_first F) u) ++ map (@PfcSpec.item sch cl t) es ++ (tag_trees (t + 1) v ++ part G (at_ o (p + 1)) N)).
    { rewrite <- !app_assoc. rewrite (app_assoc (tag_trees _ u)), (app_assoc (_ ++ _) (tag_trees _ v)). rewrite <- (app_assoc (tag_trees _ u)), <- TG. unfold F. rewrite (tagged_part Hp).
      rewrite part_cat by lia. rewrite part_cat by lia. rewrite <- zlen_G. symmetry. apply part_all. }
    assert (FE := f_equal (filter (fun x => tree_of x =? t)) EG). rewrite !filter_app in FE. destruct (sequence_split Ht) as (A & B & EA & FA). apply Forall_app in FA. destruct FA as [FA FB].
    rewrite EA in FE at 1. rewrite !filter_app in FE. rewrite (@filter_none _ _ A), (@filter_none _ _ B) in FE.
    2, 3: eapply Forall_impl; [|eassumption]; intros x Hx; destruct (Z.eqb_spec (tree_of x) t); [contradiction|reflexivity].
    rewrite (@filter_all _ _ (map _ (lv t))), (@filter_all _ _ (map _ es)) in FE.
    2, 3: apply Forall_map, Forall_forall; intros x _; apply Z.eqb_refl.
    cbn [app] in FE. rewrite app_nil_r in FE. apply map_eq_app in FE. destruct FE as (a & r & E1 & _ & E2). apply map_eq_app in E2. destruct E2 as (m & b & E2 & E3 & _). exists a, b. rewrite E1, E2. f_equal. f_equal.
    clear -E3. revert es E3. induction m as [|x m IH]; intros [|y es] E3; try discriminate; [reflexivity|]. cbn [map] in E3. injection E3 as E4 E5. f_equal; [apply inj_eq; exact E4|now apply IH]. }
  destruct SUB as (a & b & SUB). destruct (good Ht) as (LW & _ & OL & _). rewrite SUB in OL. apply (ordered_app LW) in OL. destruct OL as (_ & OL & _). apply (ordered_app LW) in OL. destruct OL as (OL & _).
  assert (AT : forall k, 0 <= k < zlen es -> at_index G (at_ o p + off + k) = option_map (@PfcSpec.item sch cl t) (at_index es k)).
  { intros k Hk. rewrite <- Z.add_assoc, ATG by lia. rewrite TG, at_index_app2 by lia. rewrite ZU, at_index_app1 by (unfold zlen in *; rewrite map_length; lia). rewrite at_index_map. f_equal. f_equal. lia. }
  assert (LT : local_tree p T off es).
  { split.
    - exact Ht.
    - exact EQT.
    - fold F. replace (t - pf_first F) with (zlen u) by (unfold t; lia). fold ts. rewrite Ets. apply get_tree_at.
    - fold F. pose proof (zlen_ge0 u). pose proof (zlen_ge0 v). assert (PL' : pf_last F - pf_first F + 1 = zlen u + (zlen v + 1)) by (fold ts in PL; rewrite Ets, zlen_app, zlen_cons in PL; exact PL).
      split; [|unfold t; lia]. split; [|unfold t; lia].
      (* the first tree of the process has a leaf in the sequence *)
      destruct ts as [|T1 r1] eqn:Et1; [destruct u; discriminate|]. destruct TR as (_ & NE1 & _). destruct (pt_elems T1) as [|e1 r2] eqn:E1; [contradiction|].
      assert (I : In (pf_first F, pt_class T1, e1) (tagged F)). { unfold tagged. fold ts. rewrite Et1. cbn [tag_trees]. rewrite E1. now left. }
      unfold F in I. rewrite (tagged_part Hp) in I. apply in_part, in_sequence in I. destruct I as (t' & y & Ht' & _ & E'). unfold item in E'. unfold F. injection E' as Q _ _. lia.
    - exact OL.
    - intros x Hx. rewrite SUB. apply in_or_app. right. apply in_or_app. now left.
    - lia.
    - exact AT.
    - intros i x Hi Ex Tx. replace i with (at_ o p + (i - at_ o p)) in Ex by lia. rewrite ATG in Ex by lia. rewrite TG in Ex.
      destruct (Z.ltb_spec (i - at_ o p) off) as [C|C].
      { rewrite at_index_app1 in Ex by lia. apply at_index_some in Ex. destruct Ex as [_ Ex]. assert (Q := proj1 (Forall_forall _ _) (tag_ids _ _) _ Ex). cbn beta in Q. unfold t in Tx. lia. }
      rewrite at_index_app2 in Ex by lia. rewrite ZU in Ex. assert (ZM : zlen (map (@PfcSpec.item sch cl t) es) = zlen es) by (unfold zlen; now rewrite map_length).
      destruct (Z.ltb_spec (i - at_ o p - off) (zlen es)) as [D|D]; [lia|]. rewrite at_index_app2 in Ex by lia. apply at_index_some in Ex. destruct Ex as [_ Ex].
      assert (Q := proj1 (Forall_forall _ _) (tag_ids _ _) _ Ex). cbn beta in Q. lia. }
  assert (BI : 0 <= g - at_ o p - off < zlen es) by lia.
  destruct (at_index_ok BI) as (x & Ex). exists t, T, off, es, x. split; [exact LT|]. split; [exact BI|]. split; [exact Ex|].
  assert (EGg : at_index G g = Some (item x)). { replace g with (at_ o p + off + (g - at_ o p - off)) at 1 by lia. rewrite (AT _ BI), Ex. reflexivity. }
  split; [exact EGg|].
  assert (EX : e = inj t x).
  { assert (Q : nth_error (pt_elems T) (Z.to_nat (g - at_ o p - off)) = Some e).
    { rewrite flat_map_trees in Ee. fold ts in Ee. rewrite Ets, flat_map_app in Ee. rewrite nth_error_app2 in Ee by (change (length (flat_map (pt_elems (E:=celt)) u)) with (length (flat_map (pt_elems (E:=celt)) u)); unfold count, zlen in OT; lia).
      cbn [flat_map] in Ee. rewrite nth_error_app1 in Ee by (unfold count, zlen in *; lia). rewrite <- Ee. f_equal. unfold count, zlen in *. lia. }
    rewrite at_index_nth in Ex by lia. rewrite EES, nth_error_map, Ex in Q. cbn [option_map] in Q. congruence. }
  unfold index_from_globalid, PfcModel.celt. fold F ts. rewrite GL. cbn [obind]. rewrite Ju. rewrite Ets at 1. rewrite get_tree_at. cbn [obind]. fold off. f_equal. rewrite EX. f_equal. f_equal. f_equal.
  destruct (lt_first LT) as [[L1 L2] _]. fold F in L1, L2. unfold i32. rewrite Z.mod_small by lia. unfold t. lia.
Qed.
End forest.

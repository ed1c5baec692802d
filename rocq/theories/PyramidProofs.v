(** Refinement paths of pyramid trees: parents, children, cube ids, types and switch levels. *)
From Verif Require Import Prelude PathSpec BitLemmas SimplexModel SimplexSpec SimplexProofs SimplexPathProofs SimplexOrderProofs SimplexAncProofs.
From Verif Require Import PyramidModel PyramidSpec.

Notation YT := y_Iloc_to_type.
Notation YC := y_Iloc_to_cid.
(** number of children of an element of type t *)
Definition nch (t : Z) : Z := if t <? 6 then 8 else 10.
Lemma nch_num p : y_num_children p = nch (yty p).
Proof. unfold y_num_children, is_pyra, nch. change FIRST_TYPE with 6. now destruct (yty p <? 6). Qed.
Lemma is_pyra_iff p : is_pyra p = true <-> 6 <= yty p.
Proof. unfold is_pyra. change FIRST_TYPE with 6. destruct (Z.ltb_spec (yty p) 6); cbn; split; intros; auto; try lia; discriminate. Qed.
Lemma is_tet_iff p : is_pyra p = false <-> yty p < 6.
Proof. unfold is_pyra. change FIRST_TYPE with 6. destruct (Z.ltb_spec (yty p) 6); cbn; split; intros; auto; try lia; discriminate. Qed.

(** ** tables: a check of all types and child numbers *)
Definition all_ti (f : Z -> Z -> bool) : bool := forallb (fun t => forallb (f t) (zseq 0 (Z.to_nat (nch t)))) (zseq 0 8).
Lemma all_ti_spec f : all_ti f = true -> forall t i, 0 <= t < 8 -> 0 <= i < nch t -> f t i = true.
Proof.
  intros H t i Ht Hi. unfold all_ti in H. rewrite forallb_forall in H. specialize (H t). rewrite forallb_forall in H. apply H; apply in_zseq; lia.
Qed.
Lemma tabT t i : 0 <= t < 8 -> 0 <= i < nch t -> 0 <= YT t i < 8 /\ (t < 6 -> YT t i < 6) /\ 0 <= YC t i < 8.
Proof.
  intros Ht Hi. assert (A : all_ti (fun t i => (0 <=? YT t i) && (YT t i <? 8) && (if t <? 6 then YT t i <? 6 else true) && (0 <=? YC t i) && (YC t i <? 8)) = true)
    by (vm_compute; reflexivity).
  assert (B := all_ti_spec A Ht Hi). cbv beta in B. destruct (Z.ltb_spec t 6); lia.
Qed.
(** the rows of the tetrahedra are those of the tetrahedron tables *)
Lemma tab_tet t i : 0 <= t < 6 -> 0 <= i < 8 -> YT t i = Tt true t i /\ YC t i = Tc true t i.
Proof.
  intros Ht Hi. assert (A : all2 6 8 (fun t i => (YT t i =? Tt true t i) && (YC t i =? Tc true t i)) = true) by (vm_compute; reflexivity).
  assert (B := all2_spec A Ht Hi). cbv beta in B. lia.
Qed.
Lemma tab_first t : 0 <= t < 8 -> YT t 0 = t /\ YC t 0 = 0 /\ YT t (nch t - 1) = t /\ YC t (nch t - 1) = 7.
Proof.
  intros Ht. assert (A : forallb (fun t => (YT t 0 =? t) && (YC t 0 =? 0) && (YT t (nch t - 1) =? t) && (YC t (nch t - 1) =? 7)) (zseq 0 8) = true)
    by (vm_compute; reflexivity).
  rewrite forallb_forall in A. specialize (A t ltac:(apply in_zseq; lia)). cbv beta in A. lia.
Qed.
(** the type of the parent: from the table for parent and child of the same shape, from the height for a tetrahedron in a pyramid *)
Lemma tab_parent t i : 0 <= t < 8 -> 0 <= i < nch t ->
  (6 <= YT t i -> y_type_cid_to_parenttype (YT t i - 6) (YC t i) = t) /\
  ((6 <= t <-> 6 <= YT t i) -> y_cid_type_to_parenttype (YC t i) (YT t i) = t) /\
  (6 <= t -> YT t i < 6 -> t = (if Z.testbit (YC t i) 2 then 7 else 6) /\ (YT t i = 0 \/ YT t i = 3)) /\
  (6 <= t -> y_type_cid_to_Iloc (YT t i) (YC t i) = i).
Proof.
  intros Ht Hi. assert (A : all_ti (fun t i =>
    (if 6 <=? YT t i then y_type_cid_to_parenttype (YT t i - 6) (YC t i) =? t else true) &&
    (if Bool.eqb (6 <=? t) (6 <=? YT t i) then y_cid_type_to_parenttype (YC t i) (YT t i) =? t else true) &&
    (if (6 <=? t) && (YT t i <? 6) then (t =? if Z.testbit (YC t i) 2 then 7 else 6) && ((YT t i =? 0) || (YT t i =? 3)) else true) &&
    (if 6 <=? t then y_type_cid_to_Iloc (YT t i) (YC t i) =? i else true)) = true) by (vm_compute; reflexivity).
  assert (B := all_ti_spec A Ht Hi). cbv beta in B. repeat (apply andb_prop in B; destruct B as [B ?]). repeat split; intros.
  - destruct (Z.leb_spec 6 (YT t i)); [lia|lia].
  - rewrite (proj2 (Bool.eqb_true_iff _ _)) in *; [lia|]. apply eq_true_iff_eq. rewrite !Z.leb_le. assumption.
  - destruct (Z.leb_spec 6 t); [|lia]. destruct (Z.ltb_spec (YT t i) 6); [|lia]. cbn [andb] in *. lia.
  - destruct (Z.leb_spec 6 t); [|lia]. destruct (Z.ltb_spec (YT t i) 6); [|lia]. cbn [andb] in *. lia.
  - destruct (Z.leb_spec 6 t); [|lia]. lia.
Qed.

(** ** elements *)
(** the cube of an element *)
Definition cb (p : pyr) : simp := Simp (ylv p) 0 (yx p) (yy p) (yz p).
Record ywf (p : pyr) : Prop := Ywf {
  yw_cb : wf true (cb p);
  yw_ty : 0 <= yty p < 8;
  yw_sw : if is_pyra p then ysw p = -1 else 0 < ysw p <= ylv p }.
Lemma ywf_lv p : ywf p -> 0 <= ylv p <= 21.
Proof. intros W. apply (wf_lv (yw_cb W)). Qed.
Lemma ywf_tet p : ywf p -> is_pyra p = false -> wf true (yt p).
Proof.
  intros [C T _] H. apply is_tet_iff in H. destruct C. destruct p as [[l t x y z] s]. unfold cb, yty, ylv, yx, yy, yz in *. cbn in *.
  constructor; cbn; auto; try lia.
Qed.
Lemma ywf_root : ywf y_root.
Proof.
  split.
  - exact (wf_root true).
  - unfold yty, y_root; cbn; unfold ROOT_TYPE; lia.
  - reflexivity.
Qed.
Lemma YLEN_pow l : l <= 21 -> YLEN l = 2 ^ (21 - l).
Proof. intros H. unfold YLEN. apply shiftl1_pow. change YMAX with 21. lia. Qed.
Lemma YLEN_LEN l : YLEN l = LEN true l. Proof. reflexivity. Qed.
Lemma y_cubeid_eq p l : y_cubeid p l = compute_cubeid true (cb p) l.
Proof. reflexivity. Qed.
Lemma y_cubeid_yt p l : y_cubeid p l = compute_cubeid true (yt p) l.
Proof. reflexivity. Qed.
(** the child in terms of [step] *)
Definition child_sw (p : pyr) (t : Z) : Z := if is_pyra p then (if t <? 6 then ylv p + 1 else -1) else ysw p.
Lemma y_child_step p i : 0 <= yty p < 8 -> ylv p < 21 -> 0 <= i < y_num_children p ->
  y_child p i = Pyr (step true (yt p) (YT (yty p) i) (YC (yty p) i)) (child_sw p (YT (yty p) i)).
Proof.
  intros Ht Hl Hi. rewrite nch_num in Hi. unfold y_child, child_sw. destruct (is_pyra p) eqn:P.
  - cbn [ty lv]. change FIRST_TYPE with 6. unfold step. change (MAXLEVEL true) with 21. rewrite YLEN_pow by lia.
    replace (21 - (ylv p + 1)) with (21 - lv (yt p) - 1) by (unfold ylv; lia).
    destruct (cid_mask (YC (yty p) i)) as (E1 & E2 & E3). rewrite E1, E2, E3. unfold yx, yy, yz, ylv.
    destruct (Z.testbit (YC (yty p) i) 0), (Z.testbit (YC (yty p) i) 1), (Z.testbit (YC (yty p) i) 2); cbn [negb Z.b2z];
      rewrite ?Z.mul_1_l, ?Z.mul_0_l; reflexivity.
  - apply is_tet_iff in P. unfold nch in Hi. destruct (Z.ltb_spec (yty p) 6); [|lia]. unfold yty in *.
    rewrite child_step by (try exact Hl; change (CHILDREN true) with 8; change (NUM_TYPES true) with 6; lia). destruct (@tab_tet (ty (yt p)) i) as [-> ->]; [lia|lia|]. reflexivity.
Qed.
Lemma cb_step p t c s : cb (Pyr (step true (yt p) t c) s) = step true (cb p) 0 c.
Proof. reflexivity. Qed.
Lemma ywf_child p i : ywf p -> ylv p < 21 -> 0 <= i < y_num_children p -> ywf (y_child p i) /\ ylv (y_child p i) = ylv p + 1 /\
  yty (y_child p i) = YT (yty p) i.
Proof.
  intros W Hl Hi. rewrite y_child_step by (auto; apply W). assert (Hi' := Hi). rewrite nch_num in Hi'. destruct (tabT (yw_ty W) Hi') as (T1 & T2 & T3).
  split; [|split; reflexivity]. split.
  - rewrite cb_step. apply wf_step; [apply W|exact Hl|cbn; lia].
  - exact T1.
  - unfold child_sw. assert (L := ywf_lv W). assert (SW := yw_sw W). destruct (is_pyra p) eqn:P.
    + unfold is_pyra at 1, yty at 1. cbn [yt ysw ty step]. change FIRST_TYPE with 6. destruct (YT (yty p) i <? 6); cbn [negb]; [|reflexivity].
      unfold ylv in *. cbn [yt lv step]. lia.
    + apply is_tet_iff in P. assert (E : is_pyra (Pyr (step true (yt p) (YT (yty p) i) (YC (yty p) i)) (ysw p)) = false).
      { apply is_tet_iff. exact (T2 P). }
      rewrite E. unfold ylv in *. cbn [yt lv step ysw]. lia.
Qed.
Lemma y_parent_child p i : ywf p -> ylv p < 21 -> 0 <= i < y_num_children p -> y_parent (y_child p i) = p.
Proof.
  intros W Hl Hi. assert (C := ywf_child W Hl Hi). destruct C as (WC & LC & TC). assert (Hi' := Hi). rewrite nch_num in Hi'.
  assert (WP := yw_ty W). destruct (tab_parent WP Hi') as (P1 & P2 & P3 & P4). destruct (tabT WP Hi') as (T1 & T2 & T3).
  assert (CC := @cubeid_step_same true (cb p) 0 (YC (yty p) i) (yw_cb W) Hl T3).
  assert (PC := @parent_step true (cb p) 0 (YC (yty p) i) (yw_cb W) Hl T3).
  assert (SW := yw_sw W). assert (L := ywf_lv W).
  assert (UP : forall t, t = yty p -> is_pyra p = true -> let c := y_child p i in
    Pyr (Simp (ylv c - 1) t (clear (yx c) (YLEN (ylv c))) (clear (yy c) (YLEN (ylv c))) (clear (yz c) (YLEN (ylv c)))) (-1) = p).
  { intros t -> PP c. rewrite PP in SW. subst c. rewrite LC. rewrite y_child_step by (auto; lia).
    unfold yx, yy, yz. cbn [yt sx sy sz step]. change (lv (yt p)) with (ylv p). change (MAXLEVEL true) with 21. rewrite YLEN_pow by lia.
    replace (21 - (ylv p + 1)) with (21 - ylv p - 1) by lia. destruct (yw_cb W) as [_ _ A1 A2 A3 _ _ _ _]. cbn [cb lv sx sy sz] in A1, A2, A3. change (MAXLEVEL true) with 21 in A1, A2, A3.
    replace (21 - ylv p) with (21 - ylv p - 1 + 1) in A1, A2, A3 by lia.
    change (sx (yt p)) with (yx p). change (sy (yt p)) with (yy p). change (sz (yt p)) with (yz p).
    rewrite !clear_add by (auto; lia). replace (ylv p + 1 - 1) with (ylv p) by lia. destruct p as [[l t x y z] s]. cbn [ysw] in SW. now subst s. }
  unfold y_parent. destruct (is_pyra (y_child p i)) eqn:PC1.
  - apply is_pyra_iff in PC1. rewrite TC in PC1. apply UP.
    + rewrite TC, LC, y_cubeid_eq, y_child_step, cb_step by (auto; lia). cbn [cb lv] in CC. rewrite CC. apply P1. exact PC1.
    + apply is_pyra_iff. lia.
  - apply is_tet_iff in PC1. rewrite TC in PC1. destruct (is_pyra p) eqn:PP.
    + assert (ES : ysw (y_child p i) = ylv (y_child p i)).
      { rewrite LC, y_child_step by (auto; lia). cbn [ysw]. unfold child_sw. rewrite PP. destruct (Z.ltb_spec (YT (yty p) i) 6); [reflexivity|lia]. }
      rewrite ES, Z.eqb_refl. apply UP; auto. apply is_pyra_iff in PP. destruct (P3 PP PC1) as [-> _].
      unfold y_tetparent_type. rewrite LC. rewrite y_child_step by (auto; lia). unfold yz. cbn [yt sz step]. change (lv (yt p)) with (ylv p). change (MAXLEVEL true) with 21.
      change YMAX with 21. replace (21 - (ylv p + 1)) with (21 - ylv p - 1) by lia.
      destruct (yw_cb W) as [_ _ _ _ A3 _ _ _ _]. cbn [cb lv sz] in A3. change (MAXLEVEL true) with 21 in A3.
      replace (21 - ylv p) with (21 - ylv p - 1 + 1) in A3 by lia. change (sz (yt p)) with (yz p).
      assert (TB := @tb_add_same (21 - ylv p - 1) (yz p) (Z.testbit (YC (yty p) i) 2) ltac:(lia) A3).
      rewrite testbit_div in TB by lia. rewrite Z.shiftr_div_pow2 by lia. rewrite Zmod_odd, TB. now destruct (Z.testbit (YC (yty p) i) 2).
    + assert (ES : ysw (y_child p i) = ysw p) by (unfold y_child; rewrite PP; reflexivity).
      rewrite ES, LC. destruct (Z.eqb_spec (ysw p) (ylv p + 1)); [lia|].
      assert (WT := ywf_tet W PP). unfold y_child. rewrite PP. cbn [yt ysw]. rewrite parent_child; [now destruct p|exact WT|exact Hl|].
      unfold nch in Hi'. apply is_tet_iff in PP. destruct (Z.ltb_spec (yty p) 6); [cbn; lia|lia].
Qed.
Lemma y_child_id_child p i : ywf p -> ylv p < 21 -> 0 <= i < y_num_children p ->
  y_child_id (y_child p i) = i /\ y_num_siblings (y_child p i) = y_num_children p.
Proof.
  intros W Hl Hi. assert (C := ywf_child W Hl Hi). destruct C as (WC & LC & TC). assert (Hi' := Hi). rewrite nch_num in Hi'.
  assert (WP := yw_ty W). destruct (tab_parent WP Hi') as (P1 & P2 & P3 & P4). destruct (tabT WP Hi') as (T1 & T2 & T3).
  assert (CC := @cubeid_step_same true (cb p) 0 (YC (yty p) i) (yw_cb W) Hl T3).
  assert (SW := yw_sw W). assert (L := ywf_lv W).
  unfold y_child_id, y_num_siblings. destruct (is_pyra p) eqn:PP.
  - assert (E : is_pyra (y_child p i) || (ysw (y_child p i) =? ylv (y_child p i)) = true).
    { rewrite LC. rewrite y_child_step by (auto; lia). unfold child_sw. rewrite PP. cbn [ysw]. unfold is_pyra, yty at 1. cbn [yt ty step]. change FIRST_TYPE with 6.
      destruct (YT (yty p) i <? 6); cbn; [now rewrite Z.eqb_refl|reflexivity]. }
    rewrite E. split; [|unfold y_num_children; now rewrite PP]. rewrite LC. destruct (Z.eqb_spec (ylv p + 1) 0); [lia|].
    rewrite TC, y_cubeid_eq, y_child_step, cb_step by (auto; lia). cbn [cb lv] in CC. rewrite CC. apply P4. now apply is_pyra_iff.
  - assert (PT := PP). apply is_tet_iff in PT.
    assert (E : is_pyra (y_child p i) || (ysw (y_child p i) =? ylv (y_child p i)) = false).
    { apply orb_false_intro; [apply is_tet_iff; rewrite TC; auto|]. rewrite LC. rewrite y_child_step by (auto; lia). unfold child_sw. rewrite PP. cbn [ysw]. lia. }
    rewrite E. split; [|unfold y_num_children; now rewrite PP]. assert (WT := ywf_tet W PP). unfold y_child. rewrite PP. cbn [yt].
    apply child_id_child; [exact WT|exact Hl|]. unfold nch in Hi'. destruct (Z.ltb_spec (yty p) 6); [cbn; lia|lia].
Qed.

(** ** paths *)
Lemma y_walk_snoc p i : y_walk (p ++ [i]) = y_child (y_walk p) i.
Proof. unfold y_walk. now rewrite fold_left_app. Qed.
Lemma y_path_snoc p i : y_path (p ++ [i]) <-> y_path p /\ zlen p < 21 /\ 0 <= i < y_num_children (y_walk p).
Proof.
  split.
  - intros H. inversion H as [E|q j Hq Hl Hi E]; [destruct p; discriminate|]. apply app_inj_tail in E. destruct E as [-> ->]. auto.
  - intros (H & Hl & Hi). now constructor.
Qed.
Lemma y_walk_wf p : y_path p -> ywf (y_walk p) /\ ylv (y_walk p) = zlen p.
Proof.
  induction p as [|i p IH] using rev_ind; intros H; [split; [apply ywf_root|reflexivity]|].
  apply y_path_snoc in H. destruct H as (H & Hl & Hi). destruct (IH H) as [W L].
  rewrite y_walk_snoc. destruct (@ywf_child _ i W) as (WC & LC & _); [lia|exact Hi|]. split; [exact WC|]. rewrite LC, L. unfold zlen. rewrite app_length. cbn [length]. lia.
Qed.
Lemma y_path_app p q : y_path (p ++ q) -> y_path p.
Proof. induction q as [|i q IH] using rev_ind; [now rewrite app_nil_r|]. rewrite app_assoc. intros H. apply y_path_snoc in H. apply IH, H. Qed.
Lemma y_path_firstn p n : y_path p -> y_path (firstn n p).
Proof. intros H. apply (@y_path_app _ (skipn n p)). now rewrite firstn_skipn. Qed.
Lemma y_path_len p : y_path p -> zlen p <= 21.
Proof. intros H. destruct (y_walk_wf H) as [W L]. assert (A := ywf_lv W). lia. Qed.
Lemma y_path_nth p j : y_path p -> (j < length p)%nat -> 0 <= nth j p 0 < nch (yty (y_walk (firstn j p))).
Proof.
  intros H Hj. assert (E := firstn_S 0 Hj). assert (F := y_path_firstn (S j) H). rewrite E in F. apply y_path_snoc in F. destruct F as (_ & _ & F).
  now rewrite nch_num in F.
Qed.
Lemma y_walk_S p j : (j < length p)%nat -> y_walk (firstn (S j) p) = y_child (y_walk (firstn j p)) (nth j p 0).
Proof. intros Hj. rewrite (firstn_S 0 Hj). apply y_walk_snoc. Qed.
Lemma zlen_firstn_le {A} (p : list A) j : (j <= length p)%nat -> zlen (firstn j p) = Z.of_nat j.
Proof. intros H. rewrite zlen_firstn. unfold zlen. lia. Qed.
Lemma y_walk_S_facts p j : y_path p -> (j < length p)%nat -> let e := y_walk (firstn j p) in
  ywf e /\ ylv e = Z.of_nat j /\ ylv e < 21 /\ 0 <= nth j p 0 < y_num_children e /\
  yty (y_walk (firstn (S j) p)) = YT (yty e) (nth j p 0) /\
  yt (y_walk (firstn (S j) p)) = step true (yt e) (YT (yty e) (nth j p 0)) (YC (yty e) (nth j p 0)) /\
  ysw (y_walk (firstn (S j) p)) = child_sw e (YT (yty e) (nth j p 0)).
Proof.
  intros H Hj e. destruct (y_walk_wf (y_path_firstn j H)) as [W L]. fold e in W, L. rewrite zlen_firstn_le in L by lia.
  assert (N := y_path_nth H Hj). fold e in N. assert (LP := y_path_len H). unfold zlen in LP.
  rewrite <- nch_num in N. rewrite y_walk_S by exact Hj. fold e. rewrite y_child_step by (auto; try apply W; lia).
  split; [exact W|]. split; [exact L|]. split; [lia|]. split; [exact N|]. split; [reflexivity|]. split; reflexivity.
Qed.
(** the cube id at level j+1 *)
Lemma y_cubeid_walk p j : y_path p -> (j < length p)%nat ->
  y_cubeid (y_walk p) (Z.of_nat (S j)) = YC (yty (y_walk (firstn j p))) (nth j p 0).
Proof.
  induction p as [|i p IH] using rev_ind; intros H Hj; [cbn in Hj; lia|].
  assert (H' := H). apply y_path_snoc in H'. destruct H' as (Hp & Hl & Hi). destruct (y_walk_wf Hp) as [W L]. assert (Hi' := Hi). rewrite nch_num in Hi'.
  destruct (tabT (yw_ty W) Hi') as (T1 & T2 & T3). rewrite app_length in Hj. cbn in Hj.
  rewrite y_walk_snoc, y_cubeid_eq, y_child_step, cb_step by (try apply W; lia).
  destruct (Nat.eq_dec j (length p)) as [->|Hne].
  - replace (Z.of_nat (S (length p))) with (lv (cb (y_walk p)) + 1) by (cbn [cb lv]; unfold zlen in L; lia).
    rewrite cubeid_step_same; [|apply W|cbn [cb lv]; change (MAXLEVEL true) with 21; lia|exact T3].
    now rewrite firstn_app, firstn_all, Nat.sub_diag, app_nil_r, app_nth2, Nat.sub_diag by lia.
  - rewrite cubeid_step_lo; [|apply W|cbn [cb lv]; change (MAXLEVEL true) with 21; lia|cbn [cb lv]; unfold zlen in L; lia].
    rewrite <- y_cubeid_eq, IH by (auto; lia). rewrite firstn_app. replace (j - length p)%nat with 0%nat by lia. cbn [firstn]. rewrite app_nil_r, app_nth1 by lia. reflexivity.
Qed.
(** coordinates of ancestors *)
Definition ycoord (f : pyr -> Z) : Prop := f = yx \/ f = yy \/ f = yz.
Lemma cutc_val v s : 0 <= s -> cutc v s = v - v mod 2 ^ s.
Proof. intros Hs. unfold cutc. rewrite Z.shiftl_mul_pow2, Z.shiftr_div_pow2 by lia. pose proof (pow2_pos Hs). pose proof (Z.div_mod v (2 ^ s)). lia. Qed.
Lemma cutc_al v s r : 0 <= s -> al s v -> 0 <= r < 2 ^ s -> cutc (v + r) s = v.
Proof.
  intros Hs (q & ->) Hr. rewrite cutc_val by lia. rewrite Z.add_comm, Z.mod_add, Z.mod_small by lia. lia.
Qed.
Lemma cutc_id v s : 0 <= s -> al s v -> cutc v s = v.
Proof. intros Hs Hv. rewrite <- (Z.add_0_r v) at 1. apply cutc_al; auto. pose proof (pow2_pos Hs). lia. Qed.
Lemma ywf_coord f p : ycoord f -> ywf p -> al (21 - ylv p) (f p) /\ 0 <= f p < 2 ^ 21.
Proof. intros [->|[->| ->]] W; destruct (yw_cb W) as [_ _ A B C D E F _]; cbn [cb lv sx sy sz] in *; auto. Qed.
Lemma ycoord_step f p q t c s : ycoord f -> p = Pyr (step true (yt q) t c) s -> exists b, f p = f q + Z.b2z b * 2 ^ (21 - ylv q - 1).
Proof. intros [->|[->| ->]] ->; eexists; reflexivity. Qed.
Lemma y_cut_walk f p j : ycoord f -> y_path p -> (j <= length p)%nat -> exists r, 0 <= r <= 2 ^ (21 - Z.of_nat j) - 2 ^ (21 - zlen p) /\
  f (y_walk p) = f (y_walk (firstn j p)) + r.
Proof.
  intros F. induction p as [|i p IH] using rev_ind; intros H Hj.
  - cbn in Hj. assert (j = 0%nat) as -> by lia. exists 0. split; [change (zlen (@nil Z)) with 0; lia|cbn [firstn]; lia].
  - destruct (Nat.eq_dec j (length (p ++ [i]))) as [->|Hne].
    + rewrite firstn_all. exists 0. unfold zlen. lia.
    + rewrite app_length in Hj, Hne. cbn [length] in Hj, Hne. assert (H' := H). apply y_path_snoc in H'. destruct H' as (Hp & Hl & Hi).
      destruct (y_walk_wf Hp) as [W L]. destruct (IH Hp ltac:(lia)) as (r & Hr & E).
      rewrite firstn_app. replace (j - length p)%nat with 0%nat by lia. cbn [firstn]. rewrite app_nil_r.
      assert (Est := @y_child_step (y_walk p) i (yw_ty W) ltac:(lia) Hi). rewrite <- y_walk_snoc in Est. destruct (ycoord_step F Est) as (b & Eb).
      rewrite L in Eb. exists (r + Z.b2z b * 2 ^ (21 - zlen p - 1)). rewrite Eb, E. split; [|lia].
      rewrite zlen_app. change (zlen [i]) with 1. replace (21 - (zlen p + 1)) with (21 - zlen p - 1) by lia.
      assert (P2 : 2 ^ (21 - zlen p) = 2 * 2 ^ (21 - zlen p - 1)) by (rewrite <- pow2_S by lia; f_equal; lia).
      pose proof (@pow2_pos (21 - zlen p - 1) ltac:(lia)). destruct b; cbn [Z.b2z]; lia.
Qed.
Lemma y_cut_firstn f p j : ycoord f -> y_path p -> (j <= length p)%nat -> cutc (f (y_walk p)) (21 - Z.of_nat j) = f (y_walk (firstn j p)).
Proof.
  intros F H Hj. destruct (y_cut_walk F H Hj) as (r & Hr & ->). assert (LP := y_path_len H). unfold zlen in *.
  destruct (y_walk_wf (y_path_firstn j H)) as [W L]. rewrite zlen_firstn_le in L by lia. destruct (ywf_coord F W) as [A _]. rewrite L in A.
  apply cutc_al; [lia|exact A|]. pose proof (@pow2_pos (21 - Z.of_nat (length p)) ltac:(lia)). lia.
Qed.
(** ** shapes *)
Lemma y_tet_S p j : y_path p -> (j < length p)%nat -> is_pyra (y_walk (firstn j p)) = false -> is_pyra (y_walk (firstn (S j) p)) = false.
Proof.
  intros H Hj P. destruct (y_walk_S_facts H Hj) as (W & L & Hl & Hi & T & _). apply is_tet_iff. rewrite T. apply is_tet_iff in P.
  rewrite nch_num in Hi. apply (tabT (yw_ty W) Hi). exact P.
Qed.
Lemma y_tet_later p i j : y_path p -> (i <= j <= length p)%nat -> is_pyra (y_walk (firstn i p)) = false -> is_pyra (y_walk (firstn j p)) = false.
Proof.
  intros H [Hij Hj] P. induction Hij as [|j Hij IH]; [exact P|]. apply y_tet_S; [exact H|lia|]. apply IH. lia.
Qed.
Lemma y_pyra_earlier p j : y_path p -> is_pyra (y_walk p) = true -> is_pyra (y_walk (firstn j p)) = true.
Proof.
  intros H P. destruct (is_pyra (y_walk (firstn j p))) eqn:E; [reflexivity|]. destruct (Nat.le_gt_cases j (length p)) as [Hj|Hj].
  - assert (A := @y_tet_later p j (length p) H ltac:(lia) E). rewrite firstn_all in A. congruence.
  - rewrite firstn_all2 in E by lia. congruence.
Qed.
(** the switch level separates the pyramids from the tetrahedra *)
Lemma y_sw_spec p : y_path p -> is_pyra (y_walk p) = false -> 0 < ysw (y_walk p) <= zlen p /\
  forall j, (j <= length p)%nat -> is_pyra (y_walk (firstn j p)) = (Z.of_nat j <? ysw (y_walk p)) /\
    (ysw (y_walk p) <= Z.of_nat j -> ysw (y_walk (firstn j p)) = ysw (y_walk p)).
Proof.
  induction p as [|i p IH] using rev_ind; intros H P; [discriminate P|].
  assert (H' := H). apply y_path_snoc in H'. destruct H' as (Hp & Hl & Hi). destruct (y_walk_wf Hp) as [W L].
  destruct (y_walk_wf H) as [W' L']. assert (SW := yw_sw W'). rewrite P in SW. rewrite L' in SW. split; [exact SW|].
  assert (ES : ysw (y_walk (p ++ [i])) = child_sw (y_walk p) (YT (yty (y_walk p)) i)) by (rewrite y_walk_snoc, y_child_step by (try apply W; lia); reflexivity).
  assert (ET : yty (y_walk (p ++ [i])) = YT (yty (y_walk p)) i) by (rewrite y_walk_snoc, y_child_step by (try apply W; lia); reflexivity).
  intros j Hj. rewrite zlen_app in *. change (zlen [i]) with 1 in *. rewrite app_length in Hj. cbn [length] in Hj. unfold zlen in *.
  destruct (Nat.eq_dec j (length p + 1)) as [->|Hne].
  - replace (length p + 1)%nat with (length (p ++ [i])) by (rewrite app_length; cbn; lia). rewrite firstn_all. split; [|reflexivity].
    rewrite P, app_length. cbn [length]. symmetry. apply Z.ltb_ge. lia.
  - assert (F : firstn j (p ++ [i]) = firstn j p) by (rewrite firstn_app; replace (j - length p)%nat with 0%nat by lia; cbn [firstn]; apply app_nil_r).
    rewrite F. rewrite ES in *. unfold child_sw in *. destruct (is_pyra (y_walk p)) eqn:PP.
    + apply is_tet_iff in P. rewrite ET in P. destruct (Z.ltb_spec (YT (yty (y_walk p)) i) 6); [|lia]. rewrite L in *.
      rewrite (y_pyra_earlier j Hp PP). split; [symmetry; apply Z.ltb_lt; lia|lia].
    + destruct (IH Hp eq_refl) as [_ IHj]. apply IHj. lia.
Qed.

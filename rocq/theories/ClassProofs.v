(** The laws of the classes in terms of the element interface. *)
From Verif Require Import Prelude PathSpec SchemeModel SchemeSpec SchemeProofs SchemeOrderProofs SchemeInstances LeafModel LeafSpec LeafProofs ForestBalanceProofs HyperModel HyperScheme CubeScheme PrismScheme PyramidScheme ClassSpec.
From Verif Require Import OwnerModel OwnerSpec OwnerMainProofs FaceModel FaceSpec FaceProofs GhostModel GhostSpec GhostOwnerProofs.

Lemma class_laws S : element_class S -> laws S.
Proof. intros [| |tet|oct| | |c]; [exact vertex_laws|exact line_laws|apply simplex_laws|apply cube_laws|exact prism_laws|exact pyramid_laws|apply hyper_laws]. Qed.

Lemma path_cmp_opp p : forall q, path_cmp q p = CompOpp (path_cmp p q).
Proof. induction p as [|i p IH]; intros [|j q]; cbn [path_cmp]; try reflexivity. rewrite (Z.compare_antisym i j). destruct (i ?= j); cbn [CompOpp]; auto. Qed.
Lemma path_cmp_trans p : forall q r, path_cmp p q <> Gt -> path_cmp q r <> Gt -> path_cmp p r <> Gt.
Proof.
  induction p as [|i p IH]; intros [|j q] [|k r]; cbn [path_cmp]; try congruence.
  destruct (Z.compare_spec i j), (Z.compare_spec j k), (Z.compare_spec i k); try congruence; try lia. intros A B. exact (IH _ _ A B).
Qed.
Lemma path_cmp_prefix p r : path_cmp p (p ++ r) <> Gt.
Proof. induction p as [|i p IH]; cbn [path_cmp app]; [destruct r; discriminate|]. now rewrite Z.compare_refl. Qed.
Lemma path_cmp_diverge c i j p q : path_cmp (c ++ i :: p) (c ++ j :: q) = match i ?= j with Eq => path_cmp p q | x => x end.
Proof. induction c as [|k c IH]; cbn [path_cmp app]; [reflexivity|]. now rewrite Z.compare_refl. Qed.

Section laws.
Variable S : scheme.
Hypothesis LW : laws S.
Notation elt := (elt S).
Notation M := (s_maxlevel S).
Implicit Types e f : elt.
Lemma reach_below e f : valid e -> (reach e f <-> below e f).
Proof.
  intros V. split.
  - intros R. induction R as [|f i R IH HL Hi]; [now apply below_refl|]. apply (below_trans LW IH). destruct (below_valid IH) as [_ Vf]. now apply below_child.
  - intros (p & r & H & -> & ->). clear V. induction r as [|i r IH] using rev_ind; [rewrite app_nil_r; constructor|]. rewrite app_assoc in *. apply gpath_snoc_inv in H. destruct H as (H & HL & Hi). rewrite gwalk_snoc. constructor; [now apply IH|now rewrite (law_level LW H)|exact Hi].
Qed.
Lemma element_valid e : element e <-> valid e.
Proof.
  unfold element. rewrite reach_below by apply valid_root. split.
  - intros B. apply (below_valid B).
  - intros (p & Hp & ->). exists [], p. split; [exact Hp|]. split; reflexivity.
Qed.
Lemma reach_iff e f : element e -> (reach e f <-> below e f).
Proof. intros E. apply reach_below. now apply element_valid. Qed.

Lemma level_ids L : 0 <= L <= M -> let n := Z.of_nat (length (descend (Z.to_nat L) (s_root S))) in
  (forall e, element e -> s_level e = L -> 0 <= s_linear_id e L < n /\ s_set_linear_id S L (s_linear_id e L) = e) /\
  (forall id, 0 <= id < n -> let e := s_set_linear_id S L id in element e /\ s_level e = L /\ s_linear_id e L = id) /\ s_count_root S L = i64 n.
Proof.
  intros HL n. assert (I := law_linear_id LW HL). fold (descend (S := S)) in I. set (l := descend (Z.to_nat L) (s_root S)) in *.
  assert (IN : forall e, valid e -> s_level e = L -> In e l). { intros e (p & Hp & ->) E. rewrite (law_level LW Hp) in E. apply (@descend_in S (Z.to_nat L) [] p); [exact Hp|]. unfold zlen in E. lia. }
  split; [|split].
  - intros e He E. apply element_valid in He. assert (J := in_map (fun e => s_linear_id e L) l e (IN e He E)). cbv beta in J. rewrite I in J. apply in_zseq in J. split; [lia|]. destruct He as (p & Hp & ->). rewrite (law_level LW Hp) in E. subst L. now apply (law_set_linear_id LW).
  - intros id Hid. assert (J : In id (map (fun e => s_linear_id e L) l)) by (rewrite I; apply in_zseq; lia). apply in_map_iff in J. destruct J as (e & E & He). apply (descend_in_inv (p := []) (n := Z.to_nat L)) in He; [|constructor|change (zlen (@nil Z)) with 0; lia].
    destruct He as (r & Hr & Lr & ->). cbn [app] in *. assert (ZL : zlen r = L) by (unfold zlen; lia). subst id. assert (SE := law_set_linear_id LW Hr). rewrite ZL in SE. rewrite SE. split; [apply element_valid; exists r; auto|]. split; [now rewrite (law_level LW Hr)|reflexivity].
  - exact (law_count_root LW HL).
Qed.
Lemma desc_range e L : element e -> s_level e <= L <= M ->
  (reach e (s_first_desc e L) /\ s_level (s_first_desc e L) = L) /\ (reach e (s_last_desc e L) /\ s_level (s_last_desc e L) = L) /\
  forall f, element f -> s_level f = L -> (reach e f <-> s_linear_id (s_first_desc e L) L <= s_linear_id f L <= s_linear_id (s_last_desc e L) L).
Proof.
  intros He HL. assert (V := proj1 (element_valid e) He). assert (L0 := valid_level LW V). assert (HM : 0 <= L <= M) by lia. destruct (first_desc_lo LW V HL) as (V1 & L1 & E1 & B1). destruct (@last_desc_hi S LW L HM e V (proj1 HL)) as (V2 & L2 & E2).
  assert (SAME : forall x y : elt, below x y -> s_level x = s_level y -> x = y) by (intros x y B E; now apply (below_level LW B)).
  assert (BW : forall f, valid f -> s_level f = L -> (below e f <-> lo e <= lo f < hi e)).
  { intros f Vf Lf. assert (F := lo_hi LW Vf). assert (H := lo_hi LW V). split; [intros B; apply (below_nested LW) in B; lia|]. intros R. destruct (laminar LW V Vf) as [B|[B|[B|B]]]; [exact B| |unfold before in B; lia|unfold before in B; lia].
    destruct (below_level LW B) as [Q1 Q2]. rewrite Q2 by lia. now apply (below_refl). }
  assert (F1 := lo_hi LW V1). assert (F2 := lo_hi LW V2). assert (F := lo_hi LW V).
  assert (B2 : below e (s_last_desc e L)).
  { apply BW; auto. split; [|lia]. destruct (laminar LW V V2) as [B|[B|[B|B]]]; [apply (below_nested LW) in B; lia|destruct (below_level LW B) as [Q1 Q2]; rewrite Q2 by lia; lia|unfold before in B; lia|]. unfold before in B. lia. }
  split; [split; [apply reach_iff; auto|exact L1]|]. split; [split; [now apply reach_iff|exact L2]|].
  - intros f Hf Lf. apply element_valid in Hf. rewrite reach_iff by exact He. rewrite (BW f Hf Lf). assert (G := lo_hi LW Hf).
    assert (Q1 := @id_lo S LW L HM _ f V1 Hf ltac:(lia)). assert (Q2 := @id_lo S LW L HM f _ Hf V2 ltac:(lia)). rewrite Q1, Q2, E1.
    split; [intros R; split; [lia|]|intros [R1 R2]; lia].
    destruct (laminar LW Hf V2) as [B|[B|[B|B]]]; [apply SAME in B; [rewrite B|]; lia|apply SAME in B; [rewrite <- B|]; lia|unfold before in B; lia|unfold before in B].
    assert (B' : below e f) by (apply BW; auto). apply (below_nested LW) in B'. lia.
Qed.
Lemma compare_order : (forall e f, element e -> element f -> (s_compare e f = 0 <-> e = f) /\ (s_compare e f < 0 <-> 0 < s_compare f e)) /\
  (forall e f g, element e -> element f -> element g -> s_compare e f <= 0 -> s_compare f g <= 0 -> s_compare e g <= 0) /\
  (forall e f, element e -> reach e f -> s_compare e f <= 0) /\
  (forall e f L, element e -> element f -> ~ reach e f -> ~ reach f e -> s_level e <= L <= M -> s_level f <= L -> (s_compare e f < 0 <-> s_linear_id e L < s_linear_id f L)).
Proof.
  split; [|split; [|split]].
  - intros e f He Hf. apply element_valid in He, Hf. destruct He as (p & Hp & ->), Hf as (q & Hq & ->). assert (C1 := law_compare LW Hp Hq). assert (C2 := law_compare LW Hq Hp). rewrite (path_cmp_opp p q) in C2. assert (E := path_cmp_eq p q). assert (I := @gwalk_inj S LW p q Hp Hq). split.
    + rewrite <- Z.compare_eq_iff, C1, E. split; [congruence|exact I].
    + rewrite <- Z.compare_lt_iff, <- Z.compare_gt_iff in *. rewrite C1. rewrite C2. destruct (path_cmp p q); cbn [CompOpp]; split; congruence.
  - intros e f g He Hf Hg. apply element_valid in He, Hf, Hg. destruct He as (p & Hp & ->), Hf as (q & Hq & ->), Hg as (r & Hr & ->). unfold Z.le. rewrite (law_compare LW Hp Hq), (law_compare LW Hq Hr), (law_compare LW Hp Hr). apply path_cmp_trans.
  - intros e f He R. rewrite (reach_iff f He) in R. destruct R as (p & r & H & -> & ->). unfold Z.le. rewrite (law_compare LW (gpath_app H) H). apply path_cmp_prefix.
  - intros e f L He Hf N1 N2 HL HL'. rewrite reach_iff in N1, N2 by assumption. apply element_valid in He, Hf. assert (L0 := valid_level LW He). assert (HM : 0 <= L <= M) by lia.
    assert (Q1 := @id_lo S LW L HM e f He Hf ltac:(lia)). assert (Q2 := @id_lo S LW L HM f e Hf He ltac:(lia)). destruct He as (p & Hp & ->), Hf as (q & Hq & ->). assert (C := law_compare LW Hp Hq).
    destruct (paths_cases p q) as [(r & ->)|[(r & ->)|(c & i & j & p' & q' & -> & -> & N)]]; [destruct N1; exists p, r; auto|destruct N2; exists q, r; auto|].
    rewrite path_cmp_diverge in C. assert (F1 := lo_hi LW (valid_walk Hp)). assert (F2 := lo_hi LW (valid_walk Hq)). destruct (Z.compare_spec i j) as [E|H|H]; [congruence| |].
    + assert (B := diverge_before LW Hp Hq H). unfold before in B. rewrite <- Z.compare_lt_iff, C. split; [intros _|reflexivity]. lia.
    + assert (B := diverge_before LW Hq Hp H). unfold before in B. rewrite <- Z.compare_lt_iff, C. split; [discriminate|]. lia.
Qed.
End laws.
Section laws2.
Variable S : scheme.
Hypothesis LW : laws S.
Notation elt := (elt S).
Notation M := (s_maxlevel S).
Implicit Types e f : elt.
Lemma child_parent e i : element e -> s_level e < M -> 0 <= i < s_num_children e -> let c := s_child e i in
  element c /\ s_level c = s_level e + 1 /\ s_parent c = e /\ s_child_id c = i /\ s_num_siblings c = s_num_children e /\ 1 <= s_num_children e <= s_max_children S.
Proof.
  intros He HL Hi c. split; [now constructor|]. apply (element_valid LW) in He. destruct He as (p & Hp & ->). rewrite (law_level LW Hp) in HL. assert (H : gpath S (p ++ [i])) by (constructor; auto). unfold c. rewrite <- gwalk_snoc.
  rewrite (law_level LW H), (law_level LW Hp), zlen_app, (law_parent LW H), (law_child_id LW H), (law_num_siblings LW H). change (zlen [i]) with 1. repeat split; auto; apply (law_num_children LW Hp).
Qed.
Lemma parent_child e : element e -> 0 < s_level e -> element (s_parent e) /\ s_level (s_parent e) = s_level e - 1 /\ 0 <= s_child_id e < s_num_children (s_parent e) /\ s_child (s_parent e) (s_child_id e) = e.
Proof.
  intros He HL. inversion He as [E|f i R Hl Hi E]; subst e.
  - change (s_root S) with (gwalk S []) in HL. rewrite (law_level LW (gp_nil S)) in HL. change (zlen (@nil Z)) with 0 in HL. lia.
  - destruct (child_parent R Hl Hi) as (_ & L1 & P & C & _). rewrite P, C, L1. repeat split; auto; lia.
Qed.
Lemma equal_iff e f : element e -> element f -> (s_equal e f = true <-> e = f).
Proof.
  intros He Hf. apply (element_valid LW) in He, Hf. destruct He as (p & Hp & ->), Hf as (q & Hq & ->). rewrite (law_equal LW Hp Hq). split; [congruence|]. exact (@gwalk_inj S LW p q Hp Hq).
Qed.
Lemma ancestor_iff e f : element e -> element f -> (s_is_ancestor e f = true <-> reach e f).
Proof.
  intros He Hf. rewrite (reach_iff LW f He). apply (element_valid LW) in He, Hf. destruct He as (p & Hp & ->), Hf as (q & Hq & ->). rewrite (law_is_ancestor LW Hp Hq). split.
  - intros (r & ->). exists p, r. auto.
  - intros (p' & r & H & E1 & E2). apply (@gwalk_inj S LW) in E1; [|exact Hp|exact (gpath_app H)]. apply (@gwalk_inj S LW) in E2; auto. subst. now exists r.
Qed.
Lemma nca_greatest e f : element e -> element f -> element (s_nca e f) /\ forall a, element a -> (reach a e /\ reach a f <-> reach a (s_nca e f)).
Proof.
  intros He Hf. assert (N : element (s_nca e f) /\ reach (s_nca e f) e /\ reach (s_nca e f) f).
  { assert (He' := He). assert (Hf' := Hf). apply (element_valid LW) in He', Hf'. destruct He' as (p & Hp & Ep), Hf' as (q & Hq & Eq). assert (E := law_nca LW Hp Hq). rewrite <- Ep, <- Eq in E. destruct (lcp_prefix_l p q) as (r & Hr). destruct (lcp_prefix_r p q) as (r' & Hr').
    assert (Hl : gpath S (lcp p q)) by (apply gpath_app with r; now rewrite <- Hr). assert (V : valid (s_nca e f)) by (rewrite E; now apply valid_walk).
    assert (Y := proj2 (element_valid LW _) V). split; [exact Y|]. rewrite !(reach_iff LW _ Y). split; [exists (lcp p q), r|exists (lcp p q), r']; rewrite <- ?Hr, <- ?Hr'; auto. }
  destruct N as (N & N1 & N2). split; [exact N|]. intros a Ha. split.
  - intros [R1 R2]. apply (ancestor_iff Ha He) in R1. apply (ancestor_iff Ha Hf) in R2. apply (ancestor_iff Ha N). apply (element_valid LW) in Ha, He, Hf. destruct Ha as (r & Hr & ->), He as (p & Hp & ->), Hf as (q & Hq & ->).
    apply (law_is_ancestor LW Hr Hp) in R1. apply (law_is_ancestor LW Hr Hq) in R2. rewrite (law_nca LW Hp Hq). destruct (lcp_prefix_l p q) as (s & Hs). assert (Hl : gpath S (lcp p q)) by (apply gpath_app with s; now rewrite <- Hs). apply (law_is_ancestor LW Hr Hl). now apply lcp_greatest.
  - intros R. apply (reach_iff LW _ N) in N1. apply (reach_iff LW _ N) in N2. apply (reach_iff LW _ Ha) in R. rewrite !(reach_iff LW _ Ha). split; eapply (below_trans LW); eauto.
Qed.
Lemma successor_next e f : element e -> element f -> s_level e = s_level f -> s_linear_id f (s_level f) = s_linear_id e (s_level e) + 1 -> s_successor e = f.
Proof.
  intros He Hf. apply (element_valid LW) in He, Hf. destruct He as (p & Hp & ->), Hf as (q & Hq & ->). rewrite (law_level LW Hp), (law_level LW Hq). intros E I. now apply (law_successor LW Hp Hq).
Qed.
Lemma family_iff l e : contiguous l -> hd_error l = Some e -> length l = Z.to_nat (s_num_siblings e) -> (s_is_family l = true <-> exists f, element f /\ s_level f < M /\ l = s_children f).
Proof.
  intros C H HL. split.
  - intros F. destruct (law_family_only LW C H HL F) as [L0 E]. exists (s_parent e). assert (V : valid e). { destruct C as [V _]. destruct l as [|x l]; [discriminate|]. injection H as ->. now inversion V. }
    assert (LE := valid_level LW V). apply (element_valid LW) in V. destruct (parent_child V L0) as (P & L1 & _). split; [exact P|]. split; [lia|exact E].
  - intros (f & Hf & Lf & ->). apply (element_valid LW) in Hf. destruct Hf as (p & Hp & ->). rewrite (law_level LW Hp) in Lf. now apply (law_family LW).
Qed.
End laws2.

(** The search in one array of leaves finds the leaves that touch the neighbour at its face. *)
From Coq Require Import Sorting.Sorted.
From Verif Require Import Prelude PathSpec SchemeModel SchemeSpec SchemeProofs SchemeOrderProofs LeafModel LeafSpec LeafProofs SearchModel SearchProofs SearchMainProofs.
From Verif Require Import SplitProofs OwnerModel FaceModel FaceSpec FaceProofs LfnModel LfnSpec LfnIterateProofs LfnFaceProofs.
Set Implicit Arguments.

Section array.
Variable cls : Z -> scheme.
Variable fc : forall t, faces (cls t).
Variable t : Z.
Notation S := (cls t).
Notation elt := (elt S).
Notation M := (s_maxlevel S).
Notation el e := (existT (fun t => SchemeModel.elt (cls t)) t e).
Notation F := (fc t).
Hypothesis LW : laws S.
Hypothesis FL : flaws F.
Variable ml : Z.
Hypothesis ML : ml <= M.
Variable dbg : bool.
Variable leaves : list elt.
Hypothesis OL : ordered leaves.
Hypothesis NE : leaves <> [].
Hypothesis LL : Forall (fun y => s_level y <= ml) leaves.
Variables (n : elt) (f' : Z).
Hypothesis Vn : valid n.
Hypothesis Ln : s_level n <= ml.
Hypothesis Hf' : is_face F n f'.
Hypothesis UP : forall y, In y leaves -> below y n -> exists g, is_face F y g /\ In (n, f') (face_descend F (Z.to_nat (s_level n - s_level y)) y g).
Variable offset : Z.
Notation found := (found cls).

Definition found_in (r : found) : Prop := StronglySorted Z.lt (map snd r) /\
  forall m g i, In (m, g, i) r <-> exists y k, m = el y /\ nth_error leaves k = Some y /\ i = offset + Z.of_nat k /\ is_face F y g /\ touch F ml n f' y g.

Lemma related_same i j x y : nth_error leaves i = Some x -> nth_error leaves j = Some y -> below x y -> i = j.
Proof.
  intros Ex Ey B. destruct (below_not_before LW B) as [N1 N2]. destruct (Nat.lt_trichotomy i j) as [C|[C|C]]; [exfalso|exact C|exfalso].
  - exact (N1 (sorted_before LW OL Ex Ey C)).
  - exact (N2 (sorted_before LW OL Ey Ex C)).
Qed.
Lemma not_related_empty : Forall (fun y => ~ (below y n \/ below n y)) leaves -> found_in [].
Proof.
  intros H. split; [constructor|]. intros m g i. split; [intros []|]. intros (y & k & _ & E & _ & Hg & T). rewrite Forall_forall in H, LL. assert (I := nth_error_In _ _ E). apply (H y I).
  destruct (touch_related LW FL ML Vn (nth_valid OL E) Ln (LL y I) Hf' Hg T); auto.
Qed.
(** the successor of n, if there is an element behind n *)
Lemma successor_id y : valid y -> before n y -> s_level (s_successor n) = s_level n /\ s_linear_id (s_successor n) (s_level n) = s_linear_id n (s_level n) + 1.
Proof.
  intros Vy B. pose proof (valid_level LW Vn) as HL. destruct (rep LW Vy HL) as (r & Vr & Lr & Er & Hr).
  assert (Q : ~ s_linear_id y (s_level n) <= s_linear_id n (s_level n)) by (rewrite (id_le LW Vy Vn); unfold before in B; lia). rewrite <- Er in Q.
  destruct (nth_level LW Vr Lr) as (i & Ni & Ei). destruct (nth_level LW Vn eq_refl) as (j & Nj & Ej).
  assert (HS : exists s, nth_error (descend (Z.to_nat (s_level n)) (s_root S)) (Datatypes.S j) = Some s).
  { destruct (nth_error (descend (Z.to_nat (s_level n)) (s_root S)) (Datatypes.S j)) as [s|] eqn:E; [eauto|]. apply nth_error_None in E. assert (i < length (descend (Z.to_nat (s_level n)) (s_root S)))%nat by (apply nth_error_Some; congruence). lia. }
  destruct HS as (s & Es). pose proof (root_level LW) as RL. assert (HV := descend_valid LW (n := Z.to_nat (s_level n)) (valid_root S) ltac:(lia)).
  rewrite Forall_forall in HV. destruct (HV s (nth_error_In _ _ Es)) as [Vs Ls]. assert (Ls' : s_level s = s_level n) by lia.
  assert (Eid : s_linear_id s (s_level n) = s_linear_id n (s_level n) + 1).
  { assert (Q1 := law_linear_id LW HL). assert (Q2 : nth_error (map (fun e => s_linear_id e (s_level n)) (descend (Z.to_nat (s_level n)) (s_root S))) (Datatypes.S j) = Some (s_linear_id s (s_level n))) by (rewrite nth_error_map, Es; reflexivity).
    rewrite Q1 in Q2. assert (B2 : (Datatypes.S j < length (descend (Z.to_nat (s_level n)) (s_root S)))%nat) by (apply nth_error_Some; congruence).
    assert (Q3 : nth (Datatypes.S j) (zseq 0 (length (descend (Z.to_nat (s_level n)) (s_root S)))) 0 = s_linear_id s (s_level n)) by (apply nth_error_nth; exact Q2).
    rewrite nth_zseq in Q3 by exact B2. lia. }
  assert (ES : s_successor n = s).
  { destruct Vn as (p & Hp & En). destruct Vs as (q & Hq & Eq). rewrite En, Eq in *. rewrite (law_level LW Hp), (law_level LW Hq) in *. apply (law_successor LW Hp Hq); [lia|]. rewrite Ls'. exact Eid. }
  rewrite ES. split; [exact Ls'|exact Eid].
Qed.
Lemma last_ok first y0 : 0 <= first -> nth_error leaves (Z.to_nat first) = Some y0 -> below n y0 -> (forall j y, nth_error leaves j = Some y -> Z.of_nat j < first -> ~ below n y) ->
  exists last, last_search_index (cls := cls) leaves n = Ok last /\ first <= last < zlen leaves /\ forall j y, nth_error leaves j = Some y -> (below n y <-> first <= Z.of_nat j <= last).
Proof.
  intros H0 E0 B0 HB. assert (L0 : (Z.to_nat first < length leaves)%nat) by (apply nth_error_Some; congruence). unfold last_search_index.
  destruct (nth_error leaves (Z.to_nat (zlen leaves - 1))) as [yl|] eqn:El; [|apply nth_error_None in El; unfold zlen in El; lia]. assert (Vl := nth_valid OL El).
  assert (AFT : forall j y, nth_error leaves j = Some y -> first <= Z.of_nat j -> below n y \/ before n y).
  { intros j y Ej Hj. destruct (Z.eq_dec (Z.of_nat j) first) as [Q|Q]; [left; replace j with (Z.to_nat first) in Ej by lia; congruence|].
    assert (B1 := sorted_before LW OL E0 Ej ltac:(lia)). assert (Vy := nth_valid OL Ej). assert (V0 := nth_valid OL E0). destruct (laminar LW Vn Vy) as [C|[C|[C|C]]]; [now left| |now right|]; exfalso.
    - destruct (below_not_before LW (below_trans LW C B0)) as [_ X]. exact (X B1).
    - destruct (below_not_before LW B0) as [_ X]. apply X. exact (before_trans LW Vy B1 C). }
  assert (EXC : forall y, below n y -> before n y -> False) by (intros y B C; exact (proj1 (below_not_before LW B) C)).
  destruct (s_is_ancestor n yl) eqn:EA.
  - apply (is_ancestor_below LW Vn Vl) in EA. exists (zlen leaves - 1). split; [reflexivity|]. split; [unfold zlen in *; lia|]. intros j y Ej. assert (Lj : (j < length leaves)%nat) by (apply nth_error_Some; congruence). split.
    + intros B. split; [|unfold zlen; lia]. destruct (Z.le_gt_cases first (Z.of_nat j)) as [C|C]; [exact C|exfalso; exact (HB _ _ Ej C B)].
    + intros [C _]. destruct (AFT _ _ Ej C) as [B|B]; [exact B|exfalso]. destruct (Nat.eq_dec j (Z.to_nat (zlen leaves - 1))) as [Q|Q]; [subst j; rewrite El in Ej; injection Ej as ->; exact (EXC _ EA B)|].
      assert (B2 := sorted_before LW OL Ej El ltac:(unfold zlen in *; lia)). apply (EXC _ EA). exact (before_trans LW (nth_valid OL Ej) B B2).
  - assert (NB : before n yl). { destruct (AFT _ _ El ltac:(unfold zlen; lia)) as [B|B]; [|exact B]. apply (is_ancestor_below LW Vn Vl) in B. congruence. }
    destruct (successor_id Vl NB) as [LS IS]. rewrite LS, IS. pose proof (valid_level LW Vn) as HL. destruct (upper_spec LW (s_linear_id n (s_level n) + 1) OL HL) as (r & Er & Hr). rewrite Er. cbn [obind].
    destruct Hr as [[_ Hr]|(Hr0 & x & Ex & Px & Hr)].
    + exfalso. rewrite Forall_forall in Hr. apply (Hr yl (nth_error_In _ _ El)). assert (Q : ~ s_linear_id yl (s_level n) <= s_linear_id n (s_level n)) by (rewrite (id_le LW Vl Vn); unfold before in NB; lia). lia.
    + rewrite (proj2 (Z.ltb_ge r 0)) by lia. exists (r - 1). split; [reflexivity|]. assert (Lr : (Z.to_nat r < length leaves)%nat) by (apply nth_error_Some; congruence).
      assert (ID : forall j y, nth_error leaves j = Some y -> first <= Z.of_nat j -> (below n y <-> ~ s_linear_id n (s_level n) + 1 <= s_linear_id y (s_level n))).
      { intros j y Ej Hj. assert (Vy := nth_valid OL Ej). pose proof (id_le LW Vy Vn) as Q. split.
        - intros B. pose proof (below_nested LW B). pose proof (lo_hi LW Vy). assert (s_linear_id y (s_level n) <= s_linear_id n (s_level n)) by (apply Q; lia). lia.
        - intros C. destruct (AFT _ _ Ej Hj) as [B|B]; [exact B|]. exfalso. apply C. assert (~ s_linear_id y (s_level n) <= s_linear_id n (s_level n)) by (rewrite Q; unfold before in B; lia). lia. }
      assert (FR : first < r). { destruct (Z.lt_ge_cases first r) as [C|C]; [exact C|exfalso]. destruct (Z.eq_dec r first) as [Q|Q]; [subst r; rewrite E0 in Ex; injection Ex as <-; apply (ID _ _ E0) in B0; [contradiction|lia]|].
        assert (Q1 := leaf_mono LW OL HL Ex E0 ltac:(lia)). apply (ID _ _ E0) in B0; lia. }
      split; [unfold zlen; lia|]. intros j y Ej. split.
      * intros B. assert (C1 : first <= Z.of_nat j). { destruct (Z.le_gt_cases first (Z.of_nat j)) as [C|C]; [exact C|exfalso; exact (HB _ _ Ej C B)]. }
        split; [exact C1|]. destruct (Z.le_gt_cases (Z.of_nat j) (r - 1)) as [C|C]; [exact C|exfalso]. apply (ID _ _ Ej C1) in B. apply B.
        destruct (Nat.eq_dec j (Z.to_nat r)) as [Q|Q]; [subst j; congruence|]. pose proof (leaf_mono LW OL HL Ex Ej ltac:(lia)). lia.
      * intros [C1 C2]. apply (ID _ _ Ej C1). apply (Hr _ _ Ej). lia.
Qed.
(** a part of the array *)
Lemma view_ok first cnt : 0 <= first -> 0 <= cnt -> first + cnt <= zlen leaves -> exists pre mid post, view leaves first cnt = Ok mid /\ leaves = pre ++ mid ++ post /\ zlen pre = first /\ zlen mid = cnt /\
  forall k, (k < length mid)%nat -> nth_error leaves (Z.to_nat first + k) = nth_error mid k.
Proof.
  intros H1 H2 H3. unfold view. rewrite (proj2 (Z.leb_le 0 first)), (proj2 (Z.leb_le 0 cnt)), (proj2 (Z.leb_le (first + cnt) (zlen leaves))) by lia. cbn [andb].
  exists (firstn (Z.to_nat first) leaves), (firstn (Z.to_nat cnt) (skipn (Z.to_nat first) leaves)), (skipn (Z.to_nat cnt) (skipn (Z.to_nat first) leaves)). split; [reflexivity|]. split; [now rewrite !firstn_skipn|].
  unfold zlen in *. split; [rewrite firstn_length; lia|]. split; [rewrite firstn_length, skipn_length; lia|]. intros k Hk. rewrite firstn_length in Hk. rewrite nth_error_firstn', nth_error_skipn' by lia. reflexivity.
Qed.

Lemma search_array_ok ud : exists r o, search_array fc dbg n f' leaves offset ud = Ok o /\ found_in r /\
  ((o = None /\ r = [] /\ Forall (fun y => ~ (below y n \/ below n y)) leaves) \/ (o = Some (ud ++ r) /\ exists y, In y leaves /\ (below y n \/ below n y))).
Proof.
  unfold search_array. destruct (first_desc_anc_spec LW OL NE Vn) as (first & o & E & HS & Eo). rewrite E. cbn [obind]. unfold related in HS.
  destruct HS as [[-> HN]|(H0 & y0 & E0 & R0 & HN)].
  { exists [], None. split; [reflexivity|]. split; [exact (not_related_empty HN)|]. left. auto. }
  rewrite (proj2 (Z.leb_le 0 first) H0) in *. rewrite E0 in Eo. rewrite Eo. assert (V0 := nth_valid OL E0). assert (I0 := nth_error_In _ _ E0). assert (L0 : (Z.to_nat first < length leaves)%nat) by (apply nth_error_Some; congruence).
  assert (LL0 : forall y, In y leaves -> s_level y <= ml) by (apply Forall_forall; exact LL).
  destruct (Z.leb_spec (s_level y0) (s_level n)) as [C|C].
  - assert (B0 : below y0 n). { destruct R0 as [B|B]; [exact B|]. destruct (below_level LW B) as [Q1 Q2]. rewrite (Q2 ltac:(lia)). now apply below_refl. }
    destruct (UP I0 B0) as (g0 & Hg0 & J0). unfold ancestor_face. rewrite (proj2 (Z.ltb_ge _ _) C). cbn [obind].
    pose proof (valid_level LW Vn) as HLn. rewrite (ancestor_face_ok LW FL (n := Z.to_nat (s_level n - s_level y0)) V0 (ltac:(lia) : s_level y0 + Z.of_nat (Z.to_nat (s_level n - s_level y0)) <= M) Hg0 J0).
    destruct (view_ok H0 (cnt := 1)) as (pre & mid & post & Ev & EL & Zp & Zm & NM); [lia|unfold zlen; lia|]. rewrite Ev. cbn [obind].
    assert (EM : mid = [y0]). { destruct mid as [|a [|b l]]; unfold zlen in Zm; cbn [length] in Zm; try lia. specialize (NM O (Nat.lt_0_succ _)). cbn [nth_error] in NM. rewrite Nat.add_0_r, E0 in NM. congruence. }
    rewrite EM in *. assert (LP : length pre = Z.to_nat first) by (unfold zlen in Zp; lia).
    destruct (iterate_ok LW FL dbg OL offset (fuel := Datatypes.S (Z.to_nat (M - s_level y0))) ud EL Zp V0 Hg0) as (r & Er & Sr & Qr).
    { constructor; [now apply below_refl|constructor]. }
    { apply Forall_forall. intros x Hx Bx. assert (HI : exists j, nth_error leaves j = Some x /\ j <> Z.to_nat first).
      { apply in_app_or in Hx. destruct Hx as [Hx|Hx]; apply In_nth_error in Hx; destruct Hx as (j & Hj).
        - exists j. assert (j < length pre)%nat by (apply nth_error_Some; congruence). split; [rewrite EL, nth_error_app1 by lia; exact Hj|lia].
        - exists (Datatypes.S (length pre + j)). split; [|lia]. rewrite EL, nth_error_app2 by lia. replace (Datatypes.S (length pre + j) - length pre)%nat with (Datatypes.S j) by lia. exact Hj. }
      destruct HI as (j & Ej & Nj). apply Nj. symmetry. exact (related_same E0 Ej Bx). }
    { pose proof (valid_level LW V0). lia. }
    rewrite Er. cbn [obind]. exists r, (Some (ud ++ r)). split; [reflexivity|]. split; [|right; split; [reflexivity|exists y0; auto]]. split; [exact Sr|]. intros m g i. rewrite Qr. split.
    + intros (x & k & -> & Ek & -> & J). destruct k as [|k]; [|destruct k; discriminate]. cbn [nth_error] in Ek. injection Ek as <-. rewrite Z.sub_diag in J. cbn [Z.to_nat face_descend] in J. destruct J as [J|[]]. injection J as <-.
      exists y0, (Z.to_nat first). split; [reflexivity|]. split; [exact E0|]. split; [lia|]. split; [exact Hg0|]. apply touch_sym. apply (touch_below LW FL ML B0 Ln Hg0 Hf'). exact J0.
    + intros (y & k & -> & Ek & -> & Hg & T). assert (Vy := nth_valid OL Ek). destruct (touch_related LW FL ML Vn Vy Ln (LL0 y (nth_error_In _ _ Ek)) Hf' Hg T) as [B|B].
      * assert (EK : Z.to_nat first = k) by exact (related_same E0 Ek (below_trans LW B0 B)). rewrite <- EK in *. rewrite E0 in Ek. injection Ek as <-. exists y0, O. split; [reflexivity|]. split; [reflexivity|]. split; [lia|].
        rewrite Z.sub_diag. cbn [Z.to_nat face_descend]. left. f_equal. apply touch_sym in T. apply (touch_below LW FL ML B0 Ln Hg Hf') in T.
        exact (face_descend_unique LW FL (n := Z.to_nat (s_level n - s_level y0)) V0 (ltac:(lia) : s_level y0 + Z.of_nat (Z.to_nat (s_level n - s_level y0)) <= M) Hg0 Hg J0 T).
      * assert (EK : Z.to_nat first = k). { destruct (below_linear LW B0 B) as [Q|Q]; [exact (related_same E0 Ek Q)|symmetry; exact (related_same Ek E0 Q)]. }
        rewrite <- EK in *. rewrite E0 in Ek. injection Ek as <-. exists y0, O. split; [reflexivity|]. split; [reflexivity|]. split; [lia|].
        rewrite Z.sub_diag. cbn [Z.to_nat face_descend]. left. f_equal. apply touch_sym in T. apply (touch_below LW FL ML B0 Ln Hg Hf') in T.
        exact (face_descend_unique LW FL (n := Z.to_nat (s_level n - s_level y0)) V0 (ltac:(lia) : s_level y0 + Z.of_nat (Z.to_nat (s_level n - s_level y0)) <= M) Hg0 Hg J0 T).
  - assert (B0 : below n y0). { destruct R0 as [B|B]; [|exact B]. pose proof (proj1 (below_level LW B)). lia. }
    cbn [obind]. destruct (last_ok H0 E0 B0) as (last & EL & RL & QL). { intros j y Ej Hj B. exact (HN _ _ Ej Hj (or_intror B)). }
    rewrite EL. cbn [obind]. rewrite (proj2 (Z.leb_gt (last - first + 1) 0)) by lia.
    destruct (view_ok H0 (cnt := last - first + 1)) as (pre & mid & post & Ev & ES & Zp & Zm & NM); [lia|lia|]. rewrite Ev. cbn [obind]. assert (LP : length pre = Z.to_nat first) by (unfold zlen in Zp; lia).
    destruct (iterate_ok LW FL dbg OL offset (fuel := Datatypes.S (Z.to_nat (M - s_level n))) ud ES Zp Vn Hf') as (r & Er & Sr & Qr).
    { apply Forall_forall. intros x Hx. apply In_nth_error in Hx. destruct Hx as (k & Hk). assert (k < length mid)%nat by (apply nth_error_Some; congruence). rewrite <- (NM k H) in Hk. apply (QL _ _ Hk). unfold zlen in Zm. lia. }
    { apply Forall_forall. intros x Hx Bx. apply in_app_or in Hx. destruct Hx as [Hx|Hx]; apply In_nth_error in Hx; destruct Hx as (j & Hj).
      - assert (j < length pre)%nat by (apply nth_error_Some; congruence). assert (Ej : nth_error leaves j = Some x) by (rewrite ES, nth_error_app1 by lia; exact Hj). apply (QL _ _ Ej) in Bx. lia.
      - assert (Ej : nth_error leaves (length pre + (length mid + j)) = Some x).
        { rewrite ES, nth_error_app2 by lia. replace (length pre + (length mid + j) - length pre)%nat with (length mid + j)%nat by lia. rewrite nth_error_app2 by lia. replace (length mid + j - length mid)%nat with j by lia. exact Hj. }
        apply (QL _ _ Ej) in Bx. unfold zlen in *. lia. }
    { pose proof (valid_level LW Vn). lia. }
    rewrite Er. cbn [obind]. exists r, (Some (ud ++ r)). split; [reflexivity|]. split; [|right; split; [reflexivity|exists y0; auto]]. split; [exact Sr|]. intros m g i. rewrite Qr. split.
    + intros (x & k & -> & Ek & -> & J). assert (Lk : (k < length mid)%nat) by (apply nth_error_Some; congruence). assert (Ex : nth_error leaves (Z.to_nat first + k) = Some x) by (rewrite (NM k Lk); exact Ek).
      assert (Bx : below n x) by (apply (QL _ _ Ex); unfold zlen in Zm; lia). assert (Vx := nth_valid OL Ex). pose proof (proj1 (below_level LW Bx)). pose proof (valid_level LW Vx).
      destruct (face_descend_in LW FL Vn (ltac:(lia) : s_level n + Z.of_nat (Z.to_nat (s_level x - s_level n)) <= M) Hf' J) as (_ & _ & _ & Hg).
      exists x, (Z.to_nat first + k)%nat. split; [reflexivity|]. split; [exact Ex|]. split; [lia|]. split; [exact Hg|]. apply (touch_below LW FL ML Bx (LL0 x (nth_error_In _ _ Ex)) Hf' Hg). exact J.
    + intros (y & k & -> & Ek & -> & Hg & T). assert (Vy := nth_valid OL Ek). assert (Ly := LL0 y (nth_error_In _ _ Ek)).
      assert (B : below n y). { destruct (touch_related LW FL ML Vn Vy Ln Ly Hf' Hg T) as [B|B]; [exact B|exfalso]. assert (EK : k = Z.to_nat first) by exact (related_same Ek E0 (below_trans LW B B0)). rewrite EK, E0 in Ek. injection Ek as <-. pose proof (proj1 (below_level LW B)). lia. }
      assert (HK := proj1 (QL _ _ Ek) B). exists y, (k - Z.to_nat first)%nat. split; [reflexivity|]. split.
      { rewrite <- (NM (k - Z.to_nat first)%nat) by (unfold zlen in Zm; lia). replace (Z.to_nat first + (k - Z.to_nat first))%nat with k by lia. exact Ek. }
      split; [lia|]. apply (touch_below LW FL ML B Ly Hf' Hg). exact T.
Qed.
End array.

(** Linear ids and positions on the curve; correctness of the searches in leaf arrays. *)
From Verif Require Import Prelude PathSpec SchemeModel SchemeSpec SchemeProofs SchemeOrderProofs LeafModel LeafSpec.
From Coq Require Import Sorted.

(** ** the search loop *)
Section loop.
Variables (A : Type) (p : A -> bool) (l : list A).
Hypothesis mono : forall i j x y, nth_error l i = Some x -> nth_error l j = Some y -> (i < j)%nat -> p y = true -> p x = true.
Lemma partition_loop_spec fuel first count : 0 <= first -> 0 <= count -> first + count <= zlen l -> (Z.to_nat count < fuel)%nat ->
  (forall i x, nth_error l i = Some x -> Z.of_nat i < first -> p x = true) ->
  (forall i x, nth_error l i = Some x -> first + count <= Z.of_nat i -> p x = false) ->
  exists r, partition_loop fuel p l first count = Ok r /\ first <= r <= first + count /\
    (forall i x, nth_error l i = Some x -> (Z.of_nat i < r <-> p x = true)).
Proof.
  revert first count. induction fuel as [|f IH]; intros first count H1 H2 H3 HF HL HR; [lia|]. cbn [partition_loop].
  destruct (Z.ltb_spec 0 count) as [C|C].
  - rewrite Z.quot_div_nonneg by lia. set (step := count / 2). assert (Hs : 0 <= step < count) by (unfold step; lia).
    destruct (nth_error l (Z.to_nat (first + step))) as [x|] eqn:Ex.
    2: { apply nth_error_None in Ex. unfold zlen in H3. lia. }
    destruct (p x) eqn:Px.
    + edestruct (IH (first + step + 1) (count - (step + 1))) as (r & -> & Hr & Hs'); try lia.
      * intros i y Hy Hi. destruct (Z.eq_dec (Z.of_nat i) (first + step)) as [Q|Q].
        { replace (Z.to_nat (first + step)) with i in Ex by lia. congruence. }
        apply (mono Hy Ex); [lia|exact Px].
      * intros i y Hy Hi. apply (HR _ _ Hy). lia.
      * exists r. split; [reflexivity|]. split; [lia|exact Hs'].
    + edestruct (IH first step) as (r & -> & Hr & Hs'); try lia; auto.
      * intros i y Hy Hi. destruct (p y) eqn:Py; [|reflexivity]. exfalso.
        destruct (Z.eq_dec (Z.of_nat i) (first + step)) as [Q|Q].
        { replace (Z.to_nat (first + step)) with i in Ex by lia. congruence. }
        assert (p x = true); [|congruence]. apply (mono Ex Hy); [lia|exact Py].
      * exists r. split; [reflexivity|]. split; [lia|exact Hs'].
  - exists first. split; [reflexivity|]. split; [lia|]. intros i x Hx. split; intros H.
    + now apply (HL _ _ Hx).
    + destruct (Z.ltb_spec (Z.of_nat i) first) as [Q|Q]; [exact Q|]. rewrite (HR _ _ Hx) in H; [discriminate|lia].
Qed.
Lemma partition_full : exists r, partition_loop (S (length l)) p l 0 (zlen l) = Ok r /\ 0 <= r <= zlen l /\
  forall i x, nth_error l i = Some x -> (Z.of_nat i < r <-> p x = true).
Proof.
  apply partition_loop_spec; unfold zlen; try lia.
  intros i x Hx Hi. assert (nth_error l i <> None) as Q by congruence. apply nth_error_Some in Q. lia.
Qed.
End loop.

Section leaf.
Variable S : scheme.
Hypothesis LW : laws S.
Notation elt := (elt S).
Notation M := (s_maxlevel S).
Notation walk := (gwalk S).
Notation path := (gpath S).
Implicit Types e f g x y r s : elt.
Implicit Types l a b : list elt.
Notation lo := (@lo S).
Notation hi := (@hi S).
Notation before := (@before S).

(** ** ids at a level and positions *)
Lemma region_descend n e : valid e -> s_level e + Z.of_nat n <= M -> region (descend n e) = cells e.
Proof.
  intros V HL. unfold cells. replace (Z.to_nat (M - s_level e)) with (n + Z.to_nat (M - s_level e - Z.of_nat n))%nat by lia.
  rewrite descend_add. unfold region. apply flat_map_ext_in. intros c Hc.
  assert (D := descend_valid LW V HL). apply (proj1 (Forall_forall _ _) D) in Hc. destruct Hc as [_ Hc]. unfold cells. f_equal. lia.
Qed.
Lemma descend_ordered n e : valid e -> s_level e + Z.of_nat n <= M -> ordered (descend n e).
Proof.
  intros V HL. apply contiguous_ordered. split.
  - eapply Forall_impl; [|apply (descend_valid LW V HL)]. now intros c [H _].
  - exists (cell_id e). rewrite region_descend by auto. now apply cells_ids.
Qed.
Lemma root_level : s_level (s_root S) = 0.
Proof. assert (H := law_level LW (gp_nil S)). exact H. Qed.
Lemma nth_level r L : valid r -> s_level r = L ->
  exists i, nth_error (descend (Z.to_nat L) (s_root S)) i = Some r /\ s_linear_id r L = Z.of_nat i.
Proof.
  intros (p & Hp & ->) HL. rewrite (law_level LW Hp) in HL.
  assert (I : In (walk p) (descend (length p) (s_root S))) by (apply (@descend_in S (length p) [] p); auto).
  pose proof (zlen_ge0 p). pose proof (gpath_len LW Hp).
  replace (length p) with (Z.to_nat L) in I by (unfold zlen in HL; lia). apply In_nth_error in I. destruct I as (i & Hi). exists i. split; auto.
  assert (E := law_linear_id LW (L := L) ltac:(lia)). apply (f_equal (fun z => nth_error z i)) in E. rewrite nth_error_map, Hi in E. cbn [option_map] in E.
  assert (Hn : (i < length (descend (Z.to_nat L) (s_root S)))%nat) by (apply nth_error_Some; congruence).
  rewrite nth_error_nth' with (d := 0) in E by (now rewrite zseq_length). rewrite nth_zseq in E by auto. injection E as E. lia.
Qed.
Lemma sorted_before a i j x y : ordered a -> nth_error a i = Some x -> nth_error a j = Some y -> (i < j)%nat -> before x y.
Proof.
  intros H Hx Hy Hij. destruct (nth_error_split _ _ Hx) as (u & v & -> & Hu). apply ordered_app in H; auto. destruct H as (_ & H & _).
  apply ordered_cons in H; auto. destruct H as (_ & _ & H). rewrite nth_error_app2 in Hy by lia. destruct (j - length u)%nat eqn:Q; [lia|]. cbn in Hy.
  apply nth_error_In in Hy. now apply (proj1 (Forall_forall _ _) H).
Qed.
Lemma same_level r s L : valid r -> valid s -> s_level r = L -> s_level s = L -> (s_linear_id r L < s_linear_id s L <-> before r s).
Proof.
  intros Vr Vs Hr Hs. destruct (nth_level Vr Hr) as (i & Ni & Ei). destruct (nth_level Vs Hs) as (j & Nj & Ej). rewrite Ei, Ej.
  pose proof (valid_level LW Vr). pose proof root_level as RL.
  assert (O := @descend_ordered (Z.to_nat L) _ (valid_root S) ltac:(lia)). pose proof (lo_hi LW Vr). pose proof (lo_hi LW Vs).
  split; intros H'.
  - apply (sorted_before O Ni Nj). lia.
  - destruct (Nat.lt_trichotomy i j) as [Q|[Q|Q]]; [lia| |].
    + subst j. assert (r = s) by congruence. subst s. unfold SchemeOrderProofs.before in H'. lia.
    + assert (B := sorted_before O Nj Ni Q). unfold SchemeOrderProofs.before in *. lia.
Qed.
Lemma same_id r s L : valid r -> valid s -> s_level r = L -> s_level s = L -> s_linear_id r L = s_linear_id s L -> r = s.
Proof.
  intros Vr Vs Hr Hs E. destruct (nth_level Vr Hr) as (i & Ni & Ei). destruct (nth_level Vs Hs) as (j & Nj & Ej).
  assert (i = j) by lia. subst j. congruence.
Qed.
Lemma first_desc_lo e L : valid e -> s_level e <= L <= M -> valid (s_first_desc e L) /\ s_level (s_first_desc e L) = L /\ lo (s_first_desc e L) = lo e /\ below e (s_first_desc e L).
Proof.
  intros (p & Hp & ->) HL. rewrite (law_level LW Hp) in HL. rewrite (law_first_desc LW Hp HL). set (n := Z.to_nat (L - zlen p)).
  assert (Hp' : path (p ++ repeat 0 n)) by (apply path_pad0; auto; unfold n; lia).
  assert (El : zlen (p ++ repeat 0 n) = L) by (rewrite zlen_app; unfold zlen at 2; rewrite repeat_length; unfold n; lia).
  split; [|split; [|split]].
  - now apply valid_walk.
  - rewrite (law_level LW Hp'). exact El.
  - unfold SchemeOrderProofs.lo, cell_id. rewrite (law_linear_id_fine LW Hp' (L := M)) by lia. rewrite (law_linear_id_fine LW Hp (L := M)) by lia.
    rewrite (law_first_desc LW Hp') by lia. rewrite (law_first_desc LW Hp) by lia. rewrite El. f_equal. f_equal. rewrite <- app_assoc, <- repeat_app. do 2 f_equal. unfold n. lia.
  - exists p, (repeat 0 n). auto.
Qed.
(** the element of level L that counts for the id at level L *)
Lemma rep x L : valid x -> 0 <= L <= M -> exists r, valid r /\ s_level r = L /\ s_linear_id r L = s_linear_id x L /\ lo r <= lo x < hi r.
Proof.
  intros V HL. destruct (Z.leb_spec L (s_level x)) as [C|C].
  - destruct V as (p & Hp & ->). rewrite (law_level LW Hp) in C. exists (walk (firstn (Z.to_nat L) p)).
    assert (Hf := gpath_firstn (Z.to_nat L) Hp). assert (El : zlen (firstn (Z.to_nat L) p) = L) by (unfold zlen in *; rewrite firstn_length; lia).
    split; [now apply valid_walk|]. split; [rewrite (law_level LW Hf); exact El|]. split; [symmetry; apply (law_linear_id_coarse LW Hp); lia|].
    assert (B : below (walk (firstn (Z.to_nat L) p)) (walk p)).
    { exists (firstn (Z.to_nat L) p), (skipn (Z.to_nat L) p). rewrite firstn_skipn. auto. }
    pose proof (below_nested LW B). pose proof (lo_hi LW (valid_walk Hp)). lia.
  - destruct (@first_desc_lo x L V ltac:(lia)) as (Vd & Ld & Lo & _). exists (s_first_desc x L). split; [exact Vd|]. split; [exact Ld|]. split.
    + destruct V as (p & Hp & ->). rewrite (law_level LW Hp) in C. symmetry. apply (law_linear_id_fine LW Hp). lia.
    + pose proof (lo_hi LW Vd). lia.
Qed.
Lemma id_mono x y L : valid x -> valid y -> 0 <= L <= M -> lo x <= lo y -> s_linear_id x L <= s_linear_id y L.
Proof.
  intros Vx Vy HL H. destruct (rep Vx HL) as (r & Vr & Lr & Er & Hr). destruct (rep Vy HL) as (s & Vs & Ls & Es & Hs). rewrite <- Er, <- Es.
  destruct (Z.le_gt_cases (s_linear_id r L) (s_linear_id s L)) as [Q|Q]; [exact Q|]. apply (same_level Vs Vr Ls Lr) in Q. unfold SchemeOrderProofs.before in Q. lia.
Qed.
Lemma id_le x e : valid x -> valid e -> (s_linear_id x (s_level e) <= s_linear_id e (s_level e) <-> lo x < hi e).
Proof.
  intros Vx Ve. pose proof (valid_level LW Ve) as HL. destruct (rep Vx HL) as (r & Vr & Lr & Er & Hr). rewrite <- Er. split; intros H.
  - destruct (Z.eq_dec (s_linear_id r (s_level e)) (s_linear_id e (s_level e))) as [Q|Q].
    + apply (same_id Vr Ve Lr eq_refl) in Q. subst r. lia.
    + assert (B : before r e) by (apply (same_level Vr Ve Lr eq_refl); lia). unfold SchemeOrderProofs.before in B. pose proof (lo_hi LW Ve). lia.
  - destruct (Z.le_gt_cases (s_linear_id r (s_level e)) (s_linear_id e (s_level e))) as [Q|Q]; [exact Q|].
    apply (same_level Ve Vr eq_refl Lr) in Q. unfold SchemeOrderProofs.before in Q. lia.
Qed.
Lemma id_ge x e : valid x -> valid e -> (s_linear_id e (s_level e) <= s_linear_id x (s_level e) <-> lo e <= lo x).
Proof.
  intros Vx Ve. pose proof (valid_level LW Ve) as HL. destruct (rep Vx HL) as (r & Vr & Lr & Er & Hr). rewrite <- Er. split; intros H.
  - destruct (Z.eq_dec (s_linear_id r (s_level e)) (s_linear_id e (s_level e))) as [Q|Q].
    + apply (same_id Vr Ve Lr eq_refl) in Q. subst r. lia.
    + assert (B : before e r) by (apply (same_level Ve Vr eq_refl Lr); lia). unfold SchemeOrderProofs.before in B. pose proof (lo_hi LW Ve). lia.
  - destruct (Z.le_gt_cases (s_linear_id e (s_level e)) (s_linear_id r (s_level e))) as [Q|Q]; [exact Q|].
    apply (same_level Vr Ve Lr eq_refl) in Q. unfold SchemeOrderProofs.before in Q. lia.
Qed.

(** ** the searches *)
Lemma leaf_mono l L i j x y : ordered l -> 0 <= L <= M -> nth_error l i = Some x -> nth_error l j = Some y -> (i < j)%nat ->
  s_linear_id x L <= s_linear_id y L.
Proof.
  intros O HL Hx Hy Hij. assert (B := sorted_before O Hx Hy Hij). assert (V := ordered_valid O).
  assert (Vx : valid x) by (apply (proj1 (Forall_forall _ _) V); eapply nth_error_In; eauto).
  assert (Vy : valid y) by (apply (proj1 (Forall_forall _ _) V); eapply nth_error_In; eauto).
  apply id_mono; auto. pose proof (lo_hi LW Vx). unfold SchemeOrderProofs.before in B. lia.
Qed.
Lemma lower_spec l id L : ordered l -> l <> [] -> 0 <= L <= M ->
  exists r : Z, bin_search_lower l id L = Ok r /\ largest_index (fun x => s_linear_id x L <= id) l r.
Proof.
  intros O NE HL. assert (MO := fun i j x y => @leaf_mono l L i j x y O HL).
  unfold bin_search_lower. destruct l as [|q l']; [congruence|]. destruct (Z.ltb_spec id (s_linear_id q L)) as [C|C].
  - exists (-1). split; [reflexivity|]. left. split; [reflexivity|]. apply Forall_forall. intros x Hx. apply In_nth_error in Hx. destruct Hx as (i & Hi).
    destruct i as [|i]; [cbn in Hi; injection Hi as <-; lia|]. assert (H := MO 0%nat (Datatypes.S i) q x eq_refl Hi ltac:(lia)). lia.
  - edestruct (@partition_full _ (fun e => negb (id <? s_linear_id e L)) (q :: l')) as (r & E & Hr & Hs).
    { intros i j x y Hx Hy Hij H. assert (Q := MO i j x y Hx Hy Hij). lia. }
    unfold std_upper_bound. rewrite E. cbn [obind]. exists (r - 1). split; [reflexivity|]. right.
    assert (Hq : 0 < r) by (apply (Hs 0%nat q eq_refl); lia). split; [lia|].
    destruct (nth_error (q :: l') (Z.to_nat (r - 1))) as [x|] eqn:Ex.
    2: { apply nth_error_None in Ex. unfold zlen in Hr. lia. }
    exists x. split; [reflexivity|]. split.
    + assert (Q := Hs _ _ Ex). lia.
    + intros j y Hy Hj Hp. assert (Q := Hs _ _ Hy). lia.
Qed.
Lemma upper_spec l id L : ordered l -> 0 <= L <= M ->
  exists r : Z, bin_search_upper l id L = Ok r /\ smallest_index (fun x => id <= s_linear_id x L) l r.
Proof.
  intros O HL. assert (MO := fun i j x y => @leaf_mono l L i j x y O HL).
  unfold bin_search_upper. destruct (Z.eqb_spec (zlen l) 0) as [Z0|Z0].
  { exists (-1). split; [reflexivity|]. left. split; [reflexivity|]. destruct l; [constructor|]. rewrite zlen_cons in Z0. pose proof (zlen_ge0 l). lia. }
  destruct (nth_error l (Z.to_nat (zlen l - 1))) as [q|] eqn:Eq.
  2: { apply nth_error_None in Eq. unfold zlen in *. lia. }
  destruct (Z.ltb_spec (s_linear_id q L) id) as [C|C].
  - exists (-1). split; [reflexivity|]. left. split; [reflexivity|]. apply Forall_forall. intros x Hx. apply In_nth_error in Hx. destruct Hx as (i & Hi).
    assert (Hn : (i < length l)%nat) by (apply nth_error_Some; congruence).
    destruct (Nat.eq_dec i (Z.to_nat (zlen l - 1))) as [->|Q]; [replace x with q by congruence; lia|].
    assert (H := MO i _ x q Hi Eq ltac:(unfold zlen in *; lia)). lia.
  - edestruct (@partition_full _ (fun e => s_linear_id e L <? id) l) as (r & E & Hr & Hs).
    { intros i j x y Hx Hy Hij H. assert (Q := MO i j x y Hx Hy Hij). lia. }
    unfold std_lower_bound. rewrite E. cbn [obind].
    assert (Hq : ~ Z.of_nat (Z.to_nat (zlen l - 1)) < r) by (rewrite (Hs _ _ Eq); lia).
    destruct (Z.eqb_spec r (zlen l)) as [Q|Q]; [lia|]. exists r. split; [reflexivity|]. right. split; [lia|].
    destruct (nth_error l (Z.to_nat r)) as [x|] eqn:Ex.
    2: { apply nth_error_None in Ex. unfold zlen in *. lia. }
    exists x. split; [reflexivity|]. split.
    + assert (W := Hs _ _ Ex). lia.
    + intros j y Hy Hj Hp. assert (W := Hs _ _ Hy). lia.
Qed.

Lemma nth_valid l i x : ordered l -> nth_error l i = Some x -> valid x.
Proof. intros O Hx. assert (V := ordered_valid O). apply (proj1 (Forall_forall _ _) V). eapply nth_error_In; eauto. Qed.

Definition related e x := below x e \/ below e x.
Lemma first_desc_anc_spec l e : ordered l -> l <> [] -> valid e ->
  exists (r : Z) (o : option elt), bin_search_first_descendant_ancestor l e = Ok (r, o) /\ smallest_index (related e) l r /\
    o = (if 0 <=? r then nth_error l (Z.to_nat r) else None).
Proof.
  intros O NE Ve. pose proof (valid_level LW Ve) as HL. pose proof (lo_hi LW Ve) as He. unfold bin_search_first_descendant_ancestor.
  destruct (lower_spec (s_linear_id e (s_level e)) O NE HL) as (lw & -> & Hlw). cbn [obind].
  destruct (upper_spec (s_linear_id e (s_level e)) O HL) as (up & -> & Hup). cbn [obind].
  (* an ancestor of e in the list is the result of the lower search *)
  assert (ANC : forall k x, nth_error l k = Some x -> below x e -> lw = Z.of_nat k).
  { intros k x Hx B. pose proof (below_nested LW B) as N. assert (Vx := nth_valid O Hx).
    assert (P : s_linear_id x (s_level e) <= s_linear_id e (s_level e)) by (apply id_le; auto; lia).
    destruct Hlw as [[_ F]|(H0 & y & Hy & Py & Ly)].
    { exfalso. apply (proj1 (Forall_forall _ _) F x); auto. eapply nth_error_In; eauto. }
    destruct (Z.lt_trichotomy lw (Z.of_nat k)) as [Q|[Q|Q]]; [exfalso; now apply (Ly _ _ Hx Q)|exact Q|]. exfalso.
    assert (Vy := nth_valid O Hy). apply (id_le Vy Ve) in Py. assert (B' := @sorted_before l k (Z.to_nat lw) x y O Hx Hy ltac:(lia)). unfold SchemeOrderProofs.before in B'. lia. }
  assert (UP : (exists f, 0 <= up /\ nth_error l (Z.to_nat up) = Some f /\ s_is_ancestor e f = true /\
                 ((forall k x, nth_error l k = Some x -> ~ below x e) -> smallest_index (related e) l up)) \/
               ((up = -1 \/ exists f, 0 <= up /\ nth_error l (Z.to_nat up) = Some f /\ s_is_ancestor e f = false) /\
                ((forall k x, nth_error l k = Some x -> ~ below x e) -> smallest_index (related e) l (-1)))).
  { destruct Hup as [[-> F]|(H0 & y & Hy & Py & Ly)].
    - right. split; [now left|]. intros NA. left. split; [reflexivity|]. apply Forall_forall. intros x Hx [B|B].
      + apply In_nth_error in Hx. destruct Hx as (k & Hk). now apply (NA k x).
      + assert (Vx : valid x) by apply (below_valid B). apply (proj1 (Forall_forall _ _) F x Hx). apply id_ge; auto. pose proof (below_nested LW B). lia.
    - assert (Vy := nth_valid O Hy). destruct (s_is_ancestor e y) eqn:IA.
      + left. exists y. split; [lia|]. split; [exact Hy|]. split; [exact IA|]. intros NA. right. split; [lia|]. exists y. split; [exact Hy|].
        split; [right; now apply (is_ancestor_below LW Ve Vy)|]. intros j z Hz Hj [B|B]; [now apply (NA j z)|].
        apply (Ly _ _ Hz Hj). assert (Vz := nth_valid O Hz). apply id_ge; auto. pose proof (below_nested LW B). lia.
      + right. split; [right; exists y; auto|]. intros NA. left. split; [reflexivity|]. apply Forall_forall. intros x Hx. apply In_nth_error in Hx. destruct Hx as (k & Hk).
        intros [B|B]; [now apply (NA k x)|]. assert (Vx := nth_valid O Hk). pose proof (below_nested LW B) as N.
        assert (NB : ~ below e y). { intros Q. apply (is_ancestor_below LW Ve Vy) in Q. congruence. }
        apply (id_ge Vy Ve) in Py. pose proof (lo_hi LW Vx).
        assert (Hk' : (Z.to_nat up < k)%nat).
        { destruct (Nat.lt_trichotomy (Z.to_nat up) k) as [Q|[Q|Q]]; [exact Q|subst k; replace x with y in B by congruence; contradiction|]. exfalso.
          apply (Ly _ _ Hk); [lia|]. apply id_ge; auto. lia. }
        assert (B' := sorted_before O Hy Hk Hk'). unfold SchemeOrderProofs.before in B'. pose proof (lo_hi LW Vy).
        destruct (laminar LW Ve Vy) as [Q|[Q|[Q|Q]]]; [contradiction| | |].
        * now apply (NA _ _ Hy).
        * unfold SchemeOrderProofs.before in Q. lia.
        * unfold SchemeOrderProofs.before in Q. lia. }
  assert (FIN : (forall k x, nth_error l k = Some x -> ~ below x e) ->
    exists (r : Z) (o : option elt), (if 0 <=? up then match nth_error l (Z.to_nat up) with None => Oob | Some f => if s_is_ancestor e f then Ok (up, Some f) else Ok (-1, None) end else Ok (-1, None)) = Ok (r, o) /\
      smallest_index (related e) l r /\ o = (if 0 <=? r then nth_error l (Z.to_nat r) else None)).
  { intros NA. destruct UP as [(f & H0 & Hf & IA & R)|[Q R]].
    - rewrite (proj2 (Z.leb_le 0 up)) by lia. rewrite Hf, IA. exists up, (Some f). split; [reflexivity|]. split; [auto|]. rewrite (proj2 (Z.leb_le 0 up)) by lia. congruence.
    - exists (-1), None. split; [|split; [auto|reflexivity]]. destruct Q as [->|(f & H0 & Hf & IA)]; [reflexivity|]. rewrite (proj2 (Z.leb_le 0 up)) by lia. now rewrite Hf, IA. }
  destruct (Z.leb_spec 0 lw) as [C|C].
  - assert (L0 := Hlw). destruct L0 as [[Q _]|(H0 & y & Hy & Py & Ly)]; [lia|]. rewrite Hy. assert (Vy := nth_valid O Hy).
    destruct (s_is_ancestor y e) eqn:IA.
    + apply (is_ancestor_below LW Vy Ve) in IA. exists lw, (Some y). split; [reflexivity|]. split; [|rewrite (proj2 (Z.leb_le 0 lw)) by lia; congruence].
      right. split; [lia|]. exists y. split; [exact Hy|]. split; [now left|]. intros j z Hz Hj [B|B].
      * assert (lw = Z.of_nat j) by (now apply (ANC j z)). lia.
      * assert (B' := @sorted_before l j (Z.to_nat lw) z y O Hz Hy ltac:(lia)). assert (N := below_trans LW IA B). apply below_not_before in N; auto. tauto.
    + apply FIN. intros k x Hx B. assert (Q := ANC k x Hx B). subst lw. rewrite Nat2Z.id in Hy. replace y with x in IA by congruence.
      apply (is_ancestor_below LW) in B; [congruence| |]; auto. apply (below_valid B).
  - apply FIN. intros k x Hx B. assert (Q := ANC k x Hx B). lia.
Qed.

Lemma find_spec l e : ordered l -> l <> [] -> valid e ->
  exists r : Z, element_array_find l e = Ok r /\ ((r = -1 /\ ~ In e l) \/ (0 <= r /\ nth_error l (Z.to_nat r) = Some e)).
Proof.
  intros O NE Ve. pose proof (valid_level LW Ve) as HL. pose proof (lo_hi LW Ve) as He. unfold element_array_find.
  destruct (lower_spec (s_linear_id e (s_level e)) O NE HL) as (lw & -> & Hlw). cbn [obind].
  destruct Hlw as [[-> F]|(H0 & y & Hy & Py & Ly)].
  - exists (-1). split; [reflexivity|]. left. split; [reflexivity|]. intros I. apply (proj1 (Forall_forall _ _) F e I). lia.
  - destruct (Z.ltb_spec lw 0); [lia|]. rewrite Hy. assert (Vy := nth_valid O Hy). destruct (s_equal e y) eqn:Q.
    + apply (valid_equal LW Ve Vy) in Q. subst y. exists lw. split; [reflexivity|]. right. split; [lia|exact Hy].
    + exists (-1). split; [reflexivity|]. left. split; [reflexivity|]. intros I. apply In_nth_error in I. destruct I as (k & Hk).
      apply (id_le Vy Ve) in Py. destruct (Nat.lt_trichotomy k (Z.to_nat lw)) as [W|[W|W]].
      * assert (B := sorted_before O Hk Hy W). unfold SchemeOrderProofs.before in B. lia.
      * subst k. assert (y = e) by congruence. subst y. assert (s_equal e e = true) by (now apply (valid_equal LW Ve Ve)). congruence.
      * apply (Ly _ _ Hk); lia.
Qed.
End leaf.

(** t8_forest_iterate_replace reports the changes. *)
From Verif Require Import Prelude PathSpec SchemeModel SchemeSpec SchemeProofs SchemeOrderProofs AdaptModel AdaptSpec AdaptFamilyProofs AdaptProofs AdaptMainProofs ReplaceModel ReplaceSpec.

Section tree.
Variable S : scheme.
Hypothesis LW : laws S.
Notation elt := (elt S).
Notation M := (s_maxlevel S).
Implicit Types e f x p : elt.
Implicit Types old new l fam : list elt.
Implicit Types c : change elt.

Lemma old_at_spec l i x : nth_error l (Z.to_nat i) = Some x -> 0 <= i -> old_at l i = Ok x.
Proof. intros H Hi. unfold old_at. rewrite H. destruct (Z.ltb_spec i 0); [lia|reflexivity]. Qed.
Lemma new_at_spec l i x : nth_error l (Z.to_nat i) = Some x -> 0 <= i -> new_at l i = Ok x.
Proof. intros H Hi. unfold new_at. rewrite H. destruct (Z.ltb_spec i 0); [lia|reflexivity]. Qed.
Lemma nth_mid {A} (a b : list A) (x : A) : nth_error (a ++ x :: b) (Z.to_nat (zlen a)) = Some x.
Proof. rewrite nth_error_app2 by (unfold zlen; lia). unfold zlen. rewrite Nat2Z.id, Nat.sub_diag. reflexivity. Qed.
Lemma not_root_level e : valid e -> e <> s_root S -> 0 < s_level e.
Proof.
  intros (p & Hp & ->) N. rewrite (law_level LW Hp). destruct p as [|i p]; [contradiction|]. unfold zlen. cbn [length]. lia.
Qed.
Lemma below_root e : valid e -> below (s_root S) e.
Proof. intros (p & Hp & ->). exists [], p. auto. Qed.
Lemma before_irrefl e : valid e -> ~ before e e.
Proof. intros V. pose proof (lo_hi LW V). unfold before. lia. Qed.
(** two leaves: none of them is the root *)
Lemma two_levels e f : valid e -> valid f -> before e f -> 0 < s_level e /\ 0 < s_level f.
Proof.
  intros Ve Vf B. split; apply not_root_level; auto; intros ->.
  - apply below_root in Vf. now apply (below_not_before LW) in Vf.
  - apply below_root in Ve. now apply (below_not_before LW) in Ve.
Qed.
Lemma checked_parent_ok e : 0 < s_level e -> checked_parent e = Ok (s_parent e).
Proof. intros H. unfold checked_parent. now rewrite (proj2 (Z.ltb_lt _ _) H). Qed.
Lemma in_children p f : valid p -> s_level p < M -> In f (s_children p) -> valid f /\ s_level f = s_level p + 1 /\ s_parent f = p /\ below p f.
Proof.
  intros V HL H. unfold s_children in H. apply in_map_iff in H. destruct H as (i & <- & Hi). apply in_zseq in Hi. pose proof (valid_nchild LW V).
  destruct (valid_child LW V HL (i := i) ltac:(lia)) as (V1 & L1 & P1 & _). split; [exact V1|]. split; [exact L1|]. split; [exact P1|]. apply (below_child LW V HL). lia.
Qed.
Lemma children_cons p : valid p -> exists r, s_children p = s_child p 0 :: r.
Proof.
  intros V. pose proof (valid_nchild LW V). unfold s_children. destruct (Z.to_nat (s_num_children p)) as [|n] eqn:E; [lia|]. cbn [zseq map]. eauto.
Qed.
Lemma zlen_children p : valid p -> zlen (s_children p) = s_num_children p.
Proof. intros V. pose proof (valid_nchild LW V). unfold s_children, zlen. rewrite map_length, zseq_length. lia. Qed.
Lemma ordered_nodup l : ordered l -> NoDup l.
Proof.
  induction l as [|x l IH]; intros O; [constructor|]. apply (ordered_cons LW) in O. destruct O as (V & O & F). constructor; [|auto].
  intros I. rewrite Forall_forall in F. apply F in I. now apply before_irrefl in I.
Qed.

Section run.
Variables (old new : list elt) (itree : Z) (inc inc_old : bool).
Hypothesis O : ordered old.
Hypothesis HI : inc = false -> inc_old = false.

Lemma old_valid x : In x old -> valid x.
Proof. intros H. pose proof (ordered_valid O) as V. rewrite Forall_forall in V. auto. Qed.

(** the size of the family *)
Lemma count_spec pre fam rest p : old = pre ++ fam ++ rest -> valid p -> s_level p < M -> Forall (fun f => In f (s_children p)) fam ->
  (forall x, In x old -> below p x -> In x fam) ->
  forall n k e a, 1 <= k -> (1 <= length fam)%nat -> exists e',
    count_family old p (zlen pre) (zseq k n) e a = Ok (a + Z.max 0 (Z.min (k + Z.of_nat n) (zlen fam) - k), e').
Proof.
  intros E V HL F ALL. 
  assert (ORD := O). rewrite E in ORD. apply (ordered_app LW) in ORD. destruct ORD as (_ & ORD & _). apply (ordered_app LW) in ORD. destruct ORD as (O1 & O2 & O3).
  assert (NB : forall x, In x rest -> ~ below p x).
  { intros x Hx B. assert (Hf : In x fam) by (apply ALL; auto; rewrite E, !in_app_iff; auto). rewrite Forall_forall in O3. apply O3 in Hf. rewrite Forall_forall in Hf.
    apply Hf in Hx as Hx'. apply (before_irrefl (e := x)); auto. apply old_valid. rewrite E, !in_app_iff. auto. }
  induction n as [|n IH]; intros k e a Hk HF.
  - cbn [zseq count_family]. exists e. do 2 f_equal. lia.
  - cbn [zseq count_family]. assert (LO : zlen old = zlen pre + zlen fam + zlen rest) by (rewrite E, !zlen_app; lia).
    pose proof (zlen_ge0 pre). pose proof (zlen_ge0 fam). pose proof (zlen_ge0 rest).
    destruct (Z.ltb_spec (k + zlen pre) (zlen old)) as [C|C].
    + destruct (nth_error (fam ++ rest) (Z.to_nat k)) as [x|] eqn:Ex; [|apply nth_error_None in Ex; rewrite app_length in Ex; unfold zlen in *; lia].
      assert (EO : nth_error old (Z.to_nat (zlen pre + k)) = Some x).
      { rewrite E, nth_error_app2 by (unfold zlen; lia). rewrite <- Ex. f_equal. unfold zlen. lia. }
      rewrite (old_at_spec EO) by lia. cbn [obind].
      destruct fam as [|f0 fam']; [cbn in HF; lia|].
      assert (Ex0 : nth_error (pre ++ (f0 :: fam') ++ rest) (Z.to_nat (zlen pre)) = Some f0) by (cbn [app]; apply nth_mid).
      rewrite <- E in Ex0.
      assert (Bx : before f0 x).
      { assert (SL := proj1 (ordered_iff LW old) O). destruct SL as [_ SL]. clear -SL Ex0 EO Hk H. 
        assert (HK : (Z.to_nat (zlen pre) < Z.to_nat (zlen pre + k))%nat) by lia. revert Ex0 EO HK. generalize (Z.to_nat (zlen pre)) as i, (Z.to_nat (zlen pre + k)) as j.
        induction SL as [|y l SL IH F]; intros i j H1 H2 H3; [destruct i; discriminate|]. destruct j as [|j]; [lia|]. destruct i as [|i]; cbn in H1, H2.
        - injection H1 as <-. rewrite Forall_forall in F. apply F. eapply nth_error_In; eauto.
        - eapply IH; eauto. lia. }
      assert (Vx : valid x) by (apply old_valid; eapply nth_error_In; eauto). assert (V0 : valid f0) by (apply old_valid; eapply nth_error_In; eauto).
      destruct (two_levels V0 Vx Bx) as [_ Lx]. rewrite (checked_parent_ok Lx). cbn [obind].
      destruct (Z.lt_ge_cases k (zlen (f0 :: fam'))) as [D|D].
      * rewrite nth_error_app1 in Ex by (unfold zlen in D; lia). apply nth_error_In in Ex. rewrite Forall_forall in F. destruct (in_children V HL (F x Ex)) as (_ & _ & -> & _).
        rewrite (proj2 (valid_equal LW V V) eq_refl). destruct (IH (k + 1) x (a + 1) ltac:(lia) HF) as (e' & ->). exists e'. do 2 f_equal. lia.
      * rewrite nth_error_app2 in Ex by (unfold zlen in D; lia). apply nth_error_In in Ex.
        destruct (s_equal p (s_parent x)) eqn:Q.
        { exfalso. apply (NB x Ex). assert (BP := below_parent LW Vx Lx). apply (valid_equal LW V (proj1 (below_valid BP))) in Q. now rewrite Q. }
        destruct (IH (k + 1) x a ltac:(lia) HF) as (e' & ->). exists e'. do 2 f_equal. lia.
    + exists e. do 2 f_equal. lia.
Qed.
Lemma check_first_spec pre f fam rest p : old = pre ++ f :: fam ++ rest -> valid p -> s_level p < M ->
  (forall x, In x old -> below p x -> In x (f :: fam)) ->
  forall n k, 1 <= k -> check_first old p (zlen pre) (zseq k n) = Ok tt.
Proof.
  intros E V HL ALL.
  assert (ORD := O). rewrite E in ORD. apply (ordered_app LW) in ORD. destruct ORD as (_ & _ & O3).
  assert (NB : forall x, In x pre -> ~ below p x /\ valid x /\ 0 < s_level x).
  { intros x Hx. assert (Vx : valid x) by (apply old_valid; rewrite E, in_app_iff; auto). assert (Vf : valid f) by (apply old_valid; rewrite E, in_app_iff; right; now left).
    rewrite Forall_forall in O3. specialize (O3 x Hx). split; [|split; [exact Vx|]].
    - intros B. assert (Hf : In x (f :: fam)) by (apply ALL; auto; rewrite E, !in_app_iff; auto). rewrite Forall_forall in O3.
      apply (before_irrefl (e := x)); auto. apply O3. destruct Hf as [->|Hf]; [now left|right; apply in_app_iff; auto].
    - inversion O3 as [|? ? B1 _]; subst. apply (two_levels Vx Vf B1). }
  induction n as [|n IH]; intros k Hk; [reflexivity|]. cbn [zseq check_first]. destruct (Z.leb_spec 0 (zlen pre - k)) as [C|C]; [|reflexivity].
  destruct (nth_error pre (Z.to_nat (zlen pre - k))) as [x|] eqn:Ex; [|apply nth_error_None in Ex; unfold zlen in *; lia].
  assert (EO : nth_error old (Z.to_nat (zlen pre - k)) = Some x) by (rewrite E, nth_error_app1; [exact Ex|apply nth_error_Some; congruence]).
  rewrite (old_at_spec EO C). cbn [obind]. apply nth_error_In in Ex. destruct (NB x Ex) as (N1 & N2 & N3). rewrite (checked_parent_ok N3). cbn [obind].
  destruct (s_equal p (s_parent x)) eqn:Q; [|apply IH; lia]. exfalso. apply N1. assert (BP := below_parent LW N2 N3). apply (valid_equal LW V (proj1 (below_valid BP))) in Q. now rewrite Q.
Qed.
(** a new element that comes from a later change is not related to a removed one *)
Lemma later_change e rest cs x : ordered (e :: rest) -> rest = flat_map olds cs -> Forall (possible old) cs -> In e old -> incl rest old ->
  In x (flat_map news cs) -> valid x /\ x <> e /\ (0 < s_level x -> s_parent x <> e) /\ (0 < s_level e -> s_parent e <> x).
Proof.
  intros OE -> P IE IR Hx. apply (ordered_cons LW) in OE. destruct OE as (Ve & OR & F). apply in_flat_map in Hx. destruct Hx as (c & Hc & Hx).
  rewrite Forall_forall in P, F. specialize (P c Hc). assert (Fc : forall y, In y (olds c) -> before e y /\ valid y /\ In y old).
  { intros y Hy. assert (I : In y (flat_map olds cs)) by (apply in_flat_map; eauto). split; [auto|]. split; [apply old_valid|]; auto. }
  assert (K : forall y, In y (olds c) -> below y e -> False) by (intros y Hy B; destruct (Fc y Hy) as (B1 & _); now apply (below_not_before LW) in B).
  assert (K2 : forall y, In y (olds c) -> below e y -> False) by (intros y Hy B; destruct (Fc y Hy) as (B1 & _); now apply (below_not_before LW) in B).
  destruct c as [y|y|p fam|y]; cbn [olds news possible] in *.
  - destruct Hx as [->|[]]. destruct (Fc x (or_introl eq_refl)) as (B1 & V1 & _). split; [exact V1|]. split; [|split].
    + intros ->. now apply before_irrefl in B1.
    + intros L Q. apply (K2 x (or_introl eq_refl)). rewrite <- Q. now apply (below_parent LW).
    + intros L Q. apply (K x (or_introl eq_refl)). rewrite <- Q. now apply (below_parent LW).
  - destruct (Fc y (or_introl eq_refl)) as (B1 & V1 & _). destruct (in_children V1 P Hx) as (Vx & _ & PX & BX). split; [exact Vx|]. split; [|split].
    + intros ->. now apply (K y (or_introl eq_refl)).
    + intros L Q. rewrite PX in Q. rewrite Q in B1. now apply before_irrefl in B1.
    + intros L Q. apply (K y (or_introl eq_refl)). apply (below_trans LW BX). rewrite <- Q. now apply (below_parent LW).
  - destruct Hx as [->|[]]. destruct P as (Vx & HL & NE & CH & ALL). destruct fam as [|f fam]; [congruence|]. destruct (Fc f (or_introl eq_refl)) as (B1 & V1 & _).
    apply Forall_cons_iff in CH as [CH _]. destruct (in_children Vx HL CH) as (_ & _ & _ & BF). split; [exact Vx|]. split; [|split].
    + intros ->. now apply (K2 f (or_introl eq_refl)).
    + intros L Q. apply (K2 f (or_introl eq_refl)). assert (B := below_parent LW Vx L). rewrite Q in B. exact (below_trans LW B BF).
    + intros L Q. assert (B := below_parent LW Ve L). rewrite Q in B. apply ALL in B; auto. destruct (Fc e B) as (B2 & _). now apply before_irrefl in B2.
  - contradiction.
Qed.
Lemma news_none cs : flat_map news cs = [] -> Forall (possible old) cs -> incl (flat_map olds cs) old ->
  cs = map Removed (flat_map olds cs) .
Proof.
  induction cs as [|c cs IH]; intros H P I; [reflexivity|]. cbn [flat_map] in *. apply app_eq_nil in H as [H1 H2]. apply Forall_cons_iff in P as [P1 P2].
  destruct c as [e|e|p fam|e]; try discriminate.
  - cbn [news] in H1. assert (V : valid e) by (apply old_valid, I; now left). destruct (children_cons V) as (r & Q). rewrite Q in H1. discriminate.
  - cbn [olds app map]. f_equal. apply IH; auto. intros x Hx. apply I. now right.
Qed.
Lemma reports_removed l i j : reports itree i j (map Removed l) = map (fun i => Report itree (-2) 1 i 0 (-1)) (zseq i (length l)).
Proof.
  revert i j. induction l as [|x l IH]; intros i j; [reflexivity|]. cbn [map reports length zseq report_of olds news]. f_equal. rewrite IH. reflexivity.
Qed.

Theorem loop_spec cs : forall fuel pre npre, old = pre ++ flat_map olds cs -> new = npre ++ flat_map news cs -> Forall (possible old) cs ->
  (inc = false -> Forall complete cs) -> (length (flat_map olds cs) < fuel)%nat ->
  exists cs1 cs2, cs = cs1 ++ cs2 /\ flat_map news cs2 = [] /\
    replace_loop old new itree fuel inc inc_old (zlen pre) (zlen npre) =
    Ok (reports itree (zlen pre) (zlen npre) cs1, zlen pre + zlen (flat_map olds cs1), zlen new).
Proof.
  induction cs as [|c cs IH]; intros fuel pre npre Eo En P CO Hf.
  - exists [], []. split; [reflexivity|]. split; [reflexivity|]. cbn [flat_map] in En. rewrite app_nil_r in En. subst npre.
    destruct fuel; cbn [replace_loop]; rewrite Z.ltb_irrefl; cbn [reports flat_map]; change (zlen (@nil elt)) with 0; now rewrite Z.add_0_r.
  - destruct (flat_map news (c :: cs)) as [|x nr] eqn:EN.
    + exists [], (c :: cs). split; [reflexivity|]. split; [exact EN|]. rewrite app_nil_r in En. subst npre.
      destruct fuel; cbn [replace_loop]; rewrite Z.ltb_irrefl; cbn [reports flat_map]; change (zlen (@nil elt)) with 0; now rewrite Z.add_0_r.
    + assert (INC : incl (flat_map olds (c :: cs)) old) by (intros y Hy; rewrite Eo, in_app_iff; auto).
      assert (OR : ordered (flat_map olds (c :: cs))) by (assert (Q := O); rewrite Eo in Q; apply (ordered_app LW) in Q; apply Q).
      apply Forall_cons_iff in P as [P1 P2].
      assert (CO' : inc = false -> Forall complete cs) by (intros I; specialize (CO I); now inversion CO).
      assert (CO1 : inc = false -> complete c) by (intros I; specialize (CO I); now inversion CO).
      (* the first old element *)
      assert (exists e er, olds c = e :: er) as (e & er & EC).
      { destruct c as [e|e|p fam|e]; cbn [olds]; eauto. destruct P1 as (_ & _ & NE & _). destruct fam; [congruence|eauto]. }
      cbn [flat_map] in Eo, Hf, INC, OR. rewrite EC in Eo, Hf, INC, OR.
      destruct fuel as [|fuel]; [lia|].
      assert (Ve : valid e) by (apply old_valid, INC; now left).
      assert (Xn : nth_error new (Z.to_nat (zlen npre)) = Some x) by (rewrite En; apply nth_mid).
      assert (Xo : nth_error old (Z.to_nat (zlen pre)) = Some e) by (rewrite Eo; cbn [app]; apply nth_mid).
      assert (Ln : zlen npre < zlen new) by (rewrite En, zlen_app, zlen_cons; pose proof (zlen_ge0 nr); lia).
      assert (Lo : zlen pre < zlen old) by (rewrite Eo, zlen_app; cbn [app]; rewrite zlen_cons; pose proof (zlen_ge0 (er ++ flat_map olds cs)); lia).
      pose proof (zlen_ge0 pre). pose proof (zlen_ge0 npre).
      cbn [replace_loop]. rewrite (proj2 (Z.ltb_lt _ _) Ln), (proj2 (Z.ltb_lt _ _) Lo). cbn [negb]. rewrite (new_at_spec Xn), (old_at_spec Xo) by lia. cbn [obind].
      (* the continuation *)
      assert (REC : exists cs1 cs2, cs = cs1 ++ cs2 /\ flat_map news cs2 = [] /\
        replace_loop old new itree fuel inc inc_old (zlen pre + zlen (olds c)) (zlen npre + zlen (news c)) =
        Ok (reports itree (zlen pre + zlen (olds c)) (zlen npre + zlen (news c)) cs1, zlen pre + zlen (olds c) + zlen (flat_map olds cs1), zlen new)).
      { rewrite <- !zlen_app. apply IH; auto.
        - rewrite EC, <- app_assoc. exact Eo.
        - rewrite <- app_assoc. cbn [flat_map] in EN. rewrite En, <- EN. reflexivity.
        - cbn [app length] in Hf. rewrite app_length in Hf. lia. }
      destruct REC as (cs1 & cs2 & E12 & N2 & REC). exists (c :: cs1), cs2. split; [now rewrite E12|]. split; [exact N2|].
      cbn [reports flat_map]. rewrite zlen_app.
      destruct c as [y|y|p fam|y]; cbn [olds news] in EC, EN, REC |- *.
      * (* kept *)
        injection EC as -> <-. injection EN as -> _. change (zlen [x]) with 1 in *. rewrite Z.ltb_irrefl, (proj2 (valid_equal LW Ve Ve) eq_refl), REC. cbn [obind report_of].
        rewrite Z.add_assoc. destruct inc; [reflexivity|now rewrite (HI eq_refl)].
      * (* refined *)
        injection EC as -> <-. change (zlen [e]) with 1 in *. cbn [possible] in P1. destruct (children_cons Ve) as (r & Q). cbn [flat_map news] in EN. rewrite Q in EN. cbn [app] in EN. injection EN as <- _.
        destruct (in_children (f := s_child e 0) Ve P1) as (Vx & Lx & Px & _); [rewrite Q; now left|]. rewrite (zlen_children Ve) in *. rewrite Lx.
        destruct (Z.ltb_spec (s_level e) (s_level e + 1)); [|lia]. pose proof (valid_level LW Ve).
        rewrite (checked_parent_ok (e := s_child e 0)) by lia. cbn [obind]. rewrite Px, (proj2 (valid_equal LW Ve Ve) eq_refl), Z.eqb_refl, REC. cbn [obind report_of negb].
        rewrite Z.add_assoc. destruct inc; [reflexivity|now rewrite (HI eq_refl)].
      * (* coarsened *)
        injection EN as -> _. cbn [possible] in P1. destruct P1 as (Vp & HL & NE & CH & ALL). rewrite EC in *. change (zlen [x]) with 1 in *.
        assert (Fe : In e (s_children x)) by (now inversion CH). destruct (in_children Vp HL Fe) as (_ & Le & Pe & _). rewrite Le.
        destruct (Z.ltb_spec (s_level x + 1) (s_level x)); [lia|]. destruct (Z.ltb_spec (s_level x) (s_level x + 1)); [|lia].
        pose proof (valid_level LW Vp). rewrite (checked_parent_ok (e := e)) by lia. cbn [obind]. rewrite Pe, (proj2 (valid_equal LW Vp Vp) eq_refl).
        replace (s_level x =? s_level x + 1 - 1) with true by (symmetry; apply Z.eqb_eq; lia). cbn [negb].
        assert (LF : zlen (e :: er) <= s_num_children x).
        { rewrite <- (zlen_children Vp). unfold zlen. apply inj_le. apply NoDup_incl_length; [|intros z Hz; rewrite Forall_forall in CH; exact (CH z Hz)].
          apply (ordered_app LW) in OR. apply ordered_nodup, OR. }
        pose proof (zlen_ge0 er) as LE0. assert (LE1 := zlen_cons e er).
        destruct (@count_spec pre (e :: er) (flat_map olds cs) x Eo Vp HL CH ALL (Z.to_nat (s_num_children x - 1)) 1 e 1 ltac:(lia)) as (e' & EQ); [cbn [length]; lia|].
        rewrite EQ. cbn [obind]. replace (1 + Z.max 0 (Z.min (1 + Z.of_nat (Z.to_nat (s_num_children x - 1))) (zlen (e :: er)) - 1)) with (zlen (e :: er)) by lia.
        destruct (Z.ltb_spec (s_num_children x) (zlen (e :: er))); [lia|]. rewrite (@check_first_spec pre e er (flat_map olds cs) x Eo Vp HL ALL) by lia. cbn [obind].
        destruct inc eqn:EI.
        -- rewrite REC. cbn [obind report_of]. now rewrite Z.add_assoc.
        -- specialize (CO1 eq_refl). cbn [complete] in CO1. rewrite (HI eq_refl) in *. rewrite CO1, (zlen_children Vp) in *. rewrite REC. cbn [obind report_of]. rewrite (zlen_children Vp). now rewrite Z.add_assoc.
      * (* removed *)
        injection EC as -> <-. cbn [app] in *. change (zlen [e]) with 1 in *. change (zlen (@nil elt)) with 0 in *. rewrite Z.add_0_r in *.
        assert (INCT : inc = true) by (destruct inc; [reflexivity|destruct (CO1 eq_refl)]). rewrite INCT in *.
        assert (Hx : In x (flat_map news cs)) by (cbn [flat_map news app] in EN; rewrite EN; now left).
        destruct (@later_change e (flat_map olds cs) cs x OR eq_refl P2) as (Vx & N1 & N3 & N4); auto; [apply INC; now left|intros y Hy; apply INC; now right|].
        pose proof (valid_level LW Ve). pose proof (valid_level LW Vx). rewrite REC. cbn [obind report_of].
        destruct (Z.ltb_spec (s_level e) (s_level x)) as [C|C]; [|destruct (Z.ltb_spec (s_level x) (s_level e)) as [D|D]].
        -- rewrite (checked_parent_ok (e := x)) by lia. cbn [obind]. destruct (s_equal e (s_parent x)) eqn:Q.
           { apply (valid_equal LW Ve) in Q; [|apply (below_valid (below_parent LW Vx ltac:(lia)))]. exfalso. apply N3; [lia|now symmetry]. }
           now rewrite Z.add_assoc.
        -- rewrite (checked_parent_ok (e := e)) by lia. cbn [obind]. destruct (s_equal x (s_parent e)) eqn:Q.
           { apply (valid_equal LW Vx) in Q; [|apply (below_valid (below_parent LW Ve ltac:(lia)))]. exfalso. apply N4; [lia|now symmetry]. }
           now rewrite Z.add_assoc.
        -- destruct (s_equal x e) eqn:Q; [apply (valid_equal LW Vx Ve) in Q; contradiction|]. now rewrite Z.add_assoc.
Qed.
Theorem tree_spec cs : changes old new cs -> (inc = false -> Forall complete cs) -> replace_tree old new itree inc inc_old = Ok (reports itree 0 0 cs).
Proof.
  intros (Eo & En & P) CO. unfold replace_tree.
  destruct (@loop_spec cs (Datatypes.S (length old)) [] [] Eo En P CO) as (cs1 & cs2 & E12 & N2 & H); [rewrite Eo; lia|].
  change (zlen (@nil elt)) with 0 in H. rewrite Z.add_0_l in H. rewrite H. cbn [obind]. rewrite Z.eqb_refl. cbn [negb].
  assert (P2 : Forall (possible old) cs2) by (rewrite E12 in P; apply Forall_app in P; apply P).
  assert (I2 : incl (flat_map olds cs2) old) by (intros x Hx; rewrite Eo, E12, flat_map_app, in_app_iff; auto).
  assert (R2 := news_none N2 P2 I2).
  assert (RA : forall (c1 c2 : list (change elt)) i j, reports itree i j (c1 ++ c2) = reports itree i j c1 ++ reports itree (i + zlen (flat_map olds c1)) (j + zlen (flat_map news c1)) c2).
  { clear. induction c1 as [|c c1 IH]; intros c2 i j; cbn [app reports flat_map]; [change (zlen (@nil elt)) with 0; now rewrite !Z.add_0_r|].
    rewrite IH, !zlen_app, !Z.add_assoc. reflexivity. }
  assert (LO : zlen old = zlen (flat_map olds cs1) + zlen (flat_map olds cs2)) by (rewrite Eo, E12, flat_map_app, zlen_app; reflexivity).
  destruct inc eqn:EI.
  - f_equal. rewrite E12, RA, Z.add_0_l. f_equal. rewrite R2, reports_removed. f_equal. f_equal. unfold zlen in *. lia.
  - assert (C2 : cs2 = []).
    { assert (K := CO eq_refl). rewrite E12 in K. apply Forall_app in K. destruct K as [_ K]. rewrite R2 in K. destruct (flat_map olds cs2); [exact R2|]. now inversion K. }
    rewrite C2 in *. change (zlen (flat_map olds [])) with 0 in LO. rewrite (proj2 (Z.eqb_eq _ _)) by lia. rewrite E12, app_nil_r. reflexivity.
Qed.
(** each element is in one report *)
Lemma reports_old cs : forall i j, (forall c, In c cs -> olds c <> []) ->
  flat_map (fun r => zseq (rp_first_old r) (Z.to_nat (rp_num_old r))) (reports itree i j cs) = zseq i (length (flat_map olds cs)).
Proof.
  induction cs as [|c cs IH]; intros i j H; [reflexivity|]. cbn [reports flat_map]. rewrite IH by (intros c' Hc'; apply H; now right). rewrite app_length, zseq_app.
  f_equal. destruct c; cbn [report_of rp_first_old rp_num_old olds]; try reflexivity. unfold zlen. now rewrite Nat2Z.id.
Qed.
Lemma reports_new cs : forall i j, (forall c e, In c cs -> c = Refined e -> valid e) ->
  flat_map (fun r => zseq (rp_first_new r) (Z.to_nat (rp_num_new r))) (reports itree i j cs) = zseq j (length (flat_map news cs)).
Proof.
  induction cs as [|c cs IH]; intros i j H; [reflexivity|]. cbn [reports flat_map]. rewrite IH by (intros c' e' Hc'; apply H; now right). rewrite app_length, zseq_app.
  f_equal. destruct c as [e|e|p fam|e]; cbn [report_of rp_first_new rp_num_new news]; try reflexivity. rewrite <- zlen_children by (eapply H; [now left|reflexivity]). unfold zlen. now rewrite Nat2Z.id.
Qed.
End run.

(** one step of adaptation is a list of changes *)
Lemma ordered_alone old x y : ordered old -> In x old -> In y old -> below x y -> x = y.
Proof.
  intros O Hx Hy B. apply (ordered_iff LW) in O. destruct O as [_ O]. apply In_nth_error in Hx, Hy. destruct Hx as (i & Hi), Hy as (j & Hj).
  assert (K : forall i j u v, (i < j)%nat -> nth_error old i = Some u -> nth_error old j = Some v -> before u v).
  { clear -O. induction O as [|a l O IH F]; intros i j u v H Hi Hj; [destruct i; discriminate|]. destruct j as [|j]; [lia|]. destruct i as [|i]; cbn in Hi, Hj.
    - injection Hi as <-. rewrite Forall_forall in F. apply F. eapply nth_error_In; eauto.
    - apply (IH i j); auto. lia. }
  destruct (below_not_before LW B) as [N1 N2]. destruct (Nat.lt_trichotomy i j) as [C|[C|C]].
  - exfalso. apply N1. eapply K; eauto.
  - subst j. congruence.
  - exfalso. apply N2. eapply K; eauto.
Qed.
Variable St : Type.
Variable cb : St -> Z -> Z -> bool -> list elt -> St * Z.
Variable A : aenv.
Variable ltree : Z.
Hypothesis HM : a_maxlevel A <= M.
Lemma adapts_changes pre rest st st' new rem : adapts cb A ltree pre rest st st' new rem -> ordered (pre ++ rest) ->
  exists cs, rest = flat_map olds cs /\ new = flat_map news cs /\ Forall (possible (pre ++ rest)) cs /\
    (a_incomplete A = false -> rem = false -> Forall complete cs).
Proof.
  intros H. induction H as [pre st|pre e r st st1 st2 b fam new rem SH C L H IH|pre e r st st1 st2 b fam a new rem SH C L H IH|pre p fam r st st1 st2 new rem FA C H IH|pre e r st st1 st2 b fam new rem SH C H IH]; intros O.
  - exists []. repeat split; constructor.
  - replace (pre ++ e :: r) with ((pre ++ [e]) ++ r) in * by (now rewrite <- app_assoc). destruct (IH O) as (cs & -> & -> & P & CO).
    exists (Refined e :: cs). split; [reflexivity|]. split; [reflexivity|]. split; [constructor; [cbn; lia|exact P]|]. intros I R. constructor; [exact Logic.I|auto].
  - replace (pre ++ e :: r) with ((pre ++ [e]) ++ r) in * by (now rewrite <- app_assoc). destruct (IH O) as (cs & -> & -> & P & CO).
    exists (Kept e :: cs). split; [reflexivity|]. split; [reflexivity|]. split; [constructor; [exact Logic.I|exact P]|]. intros I R. constructor; [exact Logic.I|auto].
  - rewrite app_assoc in *. destruct (IH O) as (cs & -> & -> & P & CO). destruct FA as (Vp & HL & r' & Er & FA). apply app_inv_head in Er. subst r'.
    assert (NC : fam <> [] /\ Forall (fun f => In f (s_children p)) fam /\ forall x, In x ((pre ++ fam) ++ flat_map olds cs) -> below p x -> In x fam).
    { destruct (a_incomplete A).
      - destruct FA as (NE & CH & NB & _). split; [exact NE|]. split; [exact CH|]. intros x Hx B. rewrite Forall_forall in NB. rewrite !in_app_iff in Hx.
        destruct Hx as [[Hx|Hx]|Hx]; [|exact Hx|]; exfalso; apply (NB x); auto; apply in_app_iff; auto.
      - subst fam. destruct (children_cons Vp) as (cr & Q). split; [rewrite Q; discriminate|]. split; [now apply Forall_forall|]. intros x Hx B.
        assert (exists f, In f (s_children p) /\ (below f x \/ x = p)) as (f & Hf & K).
        { destruct B as (q & w & H1 & H2 & H3). destruct w as [|i w].
          - exists (s_child p 0). split; [rewrite Q; now left|]. right. rewrite app_nil_r in H3. congruence.
          - replace (q ++ i :: w) with ((q ++ [i]) ++ w) in * by (now rewrite <- app_assoc). assert (Hq := gpath_app H1). apply gpath_snoc_inv in Hq. destruct Hq as (Hq & Hz & Hi).
            exists (s_child p i). rewrite H2. split; [unfold s_children; apply in_map_iff; exists i; split; [reflexivity|apply in_zseq; lia]|].
            left. rewrite <- gwalk_snoc. exists (q ++ [i]), w. auto. }
        assert (If : In f ((pre ++ s_children p) ++ flat_map olds cs)) by (rewrite !in_app_iff; auto). destruct (in_children Vp HL Hf) as (_ & Lf & _ & Bf).
        destruct K as [K| ->].
        + rewrite <- (ordered_alone O If Hx K). exact Hf.
        + assert (p = f) by (apply (ordered_alone O Hx If Bf)). subst f. lia. }
    destruct NC as (N1 & N2 & N3). exists (Coarsened p fam :: cs). split; [reflexivity|]. split; [reflexivity|]. split; [constructor; [cbn [possible]; auto|exact P]|].
    intros I R. constructor; [|auto]. cbn [complete]. rewrite I in FA. exact FA.
  - replace (pre ++ e :: r) with ((pre ++ [e]) ++ r) in * by (now rewrite <- app_assoc). destruct (IH O) as (cs & -> & -> & P & CO).
    exists (Removed e :: cs). split; [reflexivity|]. split; [reflexivity|]. split; [constructor; [exact Logic.I|exact P]|]. discriminate.
Qed.
End tree.

(** all trees *)
Theorem replace_spec inc inc_old ts : forall itree, (inc = false -> inc_old = false) ->
  Forall (fun t => laws (tp_class t) /\ ordered (tp_old t) /\ exists cs, changes (tp_old t) (tp_new t) cs /\ (inc = false -> Forall complete cs)) ts ->
  exists l, replace_trees inc inc_old itree ts = Ok l /\ reported (fun S c => inc = false -> complete c) itree ts l.
Proof.
  induction ts as [|t ts IH]; intros itree HI H; cbn [replace_trees]; [exists []; split; [reflexivity|constructor]|].
  apply Forall_cons_iff in H as [(LW & O & cs & CH & CO) H]. rewrite (tree_spec LW itree O HI CH CO). cbn [obind]. destruct (IH (itree + 1) HI H) as (l & -> & R).
  cbn [obind]. exists (reports itree 0 0 cs ++ l). split; [reflexivity|]. constructor; auto. apply Forall_forall. intros c Hc I. specialize (CO I). rewrite Forall_forall in CO. auto.
Qed.
Definition old_tree (t : tree_pair) : tree := Tree (tp_old t).
Definition new_tree (t : tree_pair) : tree := Tree (tp_new t).
Theorem adapt_changes (St : Type) (cb : callback St) (A : aenv) (ts : list tree) : forall fuel st st' ltree off out n rem0 rem,
  a_recursive A = false -> (forall S, cb_ok (cb S)) ->
  (forall t, In t ts -> laws (t_scheme t) /\ a_maxlevel A <= s_maxlevel (t_scheme t) /\ leaves_ok A (t_elems t) /\ zlen (t_elems t) <= Z.of_nat fuel) ->
  adapt_trees cb A fuel st ltree off ts rem0 = Ok (st', out, n, rem) ->
  exists ps, map old_tree ps = ts /\ map new_tree ps = map fst out /\
    Forall (fun t => laws (tp_class t) /\ ordered (tp_old t) /\ exists cs, changes (tp_old t) (tp_new t) cs /\
      (a_incomplete A = false -> rem = false -> Forall complete cs)) ps /\ (rem = false -> rem0 = false).
Proof.
  induction ts as [|t ts IH]; intros fuel st st' ltree off out n rem0 rem RE CB HT H; cbn [adapt_trees] in H.
  - injection H as <- <- <- <-. exists []. repeat split; auto.
  - destruct (HT t (or_introl eq_refl)) as (LW & HM & LO & HF).
    destruct (adapt_tree_exact LW (cb := cb (t_scheme t)) ltree HM (fuel := fuel) st (from := t_elems t) rem0) as (st1 & new & r & AD & EQ); auto.
    destruct (adapt_tree (cb (t_scheme t)) A fuel st ltree (t_elems t) rem0) as [[[st2 new2] rem2]| | |] eqn:EA; try discriminate.
    destruct (adapt_trees cb A fuel st2 (ltree + 1) (off + zlen new2) ts rem2) as [[[[st3 ts3] n3] rem3]| | |] eqn:EB; try discriminate.
    injection H as <- <- <- <-.
    assert (EN : Ok (st2, new2, rem2) = Ok (st1, new, rem0 || r)) by (destruct (t_elems t), new; auto; discriminate). injection EN as -> -> ->.
    destruct (IH fuel st1 st3 (ltree + 1) (off + zlen new) ts3 n3 (rem0 || r) rem3 RE CB) as (ps & P1 & P2 & P3 & P4); auto; [intros t' Ht'; apply HT; now right|].
    assert (O : ordered (t_elems t)) by (unfold leaves_ok in LO; destruct (a_incomplete A); [exact LO|now apply (contiguous_ordered)]).
    destruct (adapts_changes LW HM AD O) as (cs & C1 & C2 & C3 & C4).
    exists (@TreePair (t_scheme t) (t_elems t) new :: ps). cbn [map fst old_tree new_tree tp_old tp_new]. split; [rewrite P1; destruct t; reflexivity|]. split; [now rewrite P2|].
    assert (R3 : rem3 = false -> rem0 = false /\ r = false) by (intros Q; apply P4 in Q; now apply orb_false_elim).
    split; [|intros Q; now apply R3]. constructor; [|exact P3]. cbn [tp_class tp_old tp_new]. split; [exact LW|]. split; [exact O|]. exists cs. split; [split; [exact C1|split; [exact C2|exact C3]]|].
    intros I R. apply C4; auto. now apply R3.
Qed.

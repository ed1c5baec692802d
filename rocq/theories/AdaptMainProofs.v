(** The adaptation step obeys the callback, ends, and keeps the domain covered: trees and forests. *)
From Verif Require Import Prelude PathSpec SchemeModel SchemeSpec SchemeProofs SchemeOrderProofs AdaptModel AdaptSpec AdaptFamilyProofs AdaptProofs.

Section adapt.
Variable S : scheme.
Hypothesis LW : laws S.
Notation elt := (elt S).
Notation M := (s_maxlevel S).
Variable St : Type.
Variable cb : St -> Z -> Z -> bool -> list elt -> St * Z.
Variable A : aenv.
Variable ltree : Z.
Hypothesis HMax : a_maxlevel A <= M.
Implicit Types e f p x y : elt.
Implicit Types l pre rest fam tel lst new from : list elt.
Notation el l i := (znth (s_root S) l i).

Lemma single_shown pre e rest els b num : 0 < num -> znth (s_root S) els 0 = e -> num = zlen (firstn (Z.to_nat num) els) ->
  (b = true /\ family_at A ltree pre (e :: rest) (s_parent e) (firstn (Z.to_nat num) els)) \/
   (b = false /\ num = 1 /\ firstn (Z.to_nat num) els = [e] /\ forall p fam, ~ family_at A ltree pre (e :: rest) p fam) ->
  shown A ltree pre (e :: rest) b (firstn (Z.to_nat num) els).
Proof.
  intros _ _ _ [[-> H]|(-> & _ & -> & H)]; [econstructor; exact H|]. now apply (@shown_single S A ltree pre (e :: rest) e rest).
Qed.

(** ** without recursion: the loop ends and does what [adapts] says *)
Theorem adapt_loop_exact fuel : a_recursive A = false -> cb_ok cb -> forall st pre rest tel elc nc rem, leaves_ok A (pre ++ rest) -> zlen rest <= Z.of_nat fuel ->
  exists st' new rem', adapt_loop cb A fuel st ltree (pre ++ rest) (zlen pre) tel elc nc rem = Ok (st', tel ++ new, rem || rem') /\
    adapts cb A ltree pre rest st st' new rem'.
Proof.
  intros HR CB. induction fuel as [|fuel IH]; intros st pre rest tel elc nc rem HO Hf; cbn [adapt_loop]; rewrite zlen_app; pose proof (zlen_ge0 rest) as Zr.
  - destruct (Z.ltb_spec (zlen pre) (zlen pre + zlen rest)) as [G|G]; [lia|].
    assert (rest = []) by (destruct rest; [auto|rewrite zlen_cons in *; pose proof (zlen_ge0 rest); lia]). subst rest.
    exists st, [], false. rewrite !app_nil_r, orb_false_r. split; [auto|constructor].
  - destruct (Z.ltb_spec (zlen pre) (zlen pre + zlen rest)) as [G|G].
    2:{ assert (rest = []) by (destruct rest; [auto|rewrite zlen_cons in *; pose proof (zlen_ge0 rest); lia]). subst rest.
        exists st, [], false. rewrite !app_nil_r, orb_false_r. split; [auto|constructor]. }
    destruct rest as [|e rest]; [rewrite zlen_nil in G; lia|]. rewrite zlen_cons in Hf.
    destruct (@family_of_spec S LW A ltree pre e rest HO) as (els & b & num & EF & Eh & Enum & Pnum & HF). rewrite EF, Eh, znth_pre.
    assert (Sh := single_shown Pnum Eh Enum HF). set (fam := firstn (Z.to_nat num) els) in *.
    destruct (cb st ltree (zlen pre) b fam) as [st1 r0] eqn:C. assert (CBr := CB st ltree (zlen pre) b fam). rewrite C in CBr. cbn [snd] in CBr. destruct CBr as [Rr CBf].
    destruct (negb b && (r0 =? -1)) eqn:T1; [destruct b; [discriminate|]; cbn in T1; assert (false = true) by (apply CBf; lia); discriminate|].
    unfold s_refinable. set (r := if (0 <? r0) && _ then 0 else r0).
    assert (Eapp : pre ++ e :: rest = (pre ++ [e]) ++ rest) by (now rewrite <- app_assoc).
    assert (Ezl : zlen pre + 1 = zlen (pre ++ [e])) by (now rewrite zlen_snoc).
    assert (HO2 : leaves_ok A ((pre ++ [e]) ++ rest)) by (now rewrite <- Eapp).
    destruct (Z.eqb_spec r 1) as [E1|E1].
    + assert (HLe : s_level e < a_maxlevel A /\ r0 = 1) by (unfold r in E1; destruct ((0 <? r0) && _) eqn:T in E1; lia). destruct HLe as [HLe ->].
      rewrite HR. rewrite Eapp, Ezl. destruct (IH st1 (pre ++ [e]) rest (tel ++ s_children e) elc (s_num_children e) rem HO2 ltac:(lia)) as (st' & new & rem' & -> & HA).
      exists st', (s_children e ++ new), rem'. rewrite <- app_assoc. split; [reflexivity|]. econstructor; eauto.
    + destruct (Z.eqb_spec r (-1)) as [E2|E2].
      * assert (Er0 : r0 = -1) by (unfold r in E2; destruct ((0 <? r0) && _) in E2; lia). subst r0.
        destruct HF as [[-> HFam]|(-> & _)]; [|discriminate].
        assert (Hx := HFam). destruct Hx as (_ & _ & rr & Er & _).
        assert (Eapp2 : pre ++ e :: rest = (pre ++ fam) ++ rr) by (rewrite Er; apply app_assoc).
        assert (Ezl2 : zlen pre + num = zlen (pre ++ fam)) by (rewrite zlen_app; lia).
        unfold maybe_coarsen. rewrite HR. rewrite Eapp2, Ezl2.
        assert (Zrr : zlen rr <= Z.of_nat fuel). { assert (Z1 := f_equal zlen Er). rewrite zlen_cons, zlen_app in Z1. lia. }
        destruct (IH st1 (pre ++ fam) rr (tel ++ [s_parent e]) elc (s_num_siblings e) rem ltac:(now rewrite <- Eapp2) Zrr) as (st' & new & rem' & -> & HA).
        exists st', (s_parent e :: new), rem'. rewrite <- app_assoc. split; [reflexivity|]. rewrite Er in *. econstructor; eauto.
      * destruct (r =? 0) eqn:E3.
        -- unfold maybe_coarsen. rewrite HR. rewrite Eapp, Ezl. destruct (IH st1 (pre ++ [e]) rest (tel ++ [e]) elc nc rem HO2 ltac:(lia)) as (st' & new & rem' & -> & HA).
           exists st', (e :: new), rem'. rewrite <- app_assoc. split; [reflexivity|]. econstructor; eauto. unfold r in E3. destruct ((0 <? r0) && _) eqn:T in E3; lia.
        -- assert (Er0 : r0 = -2) by (unfold r in *; destruct ((0 <? r0) && _) eqn:T in *; lia). destruct (r =? -2) eqn:E4; [|unfold r in E4; destruct ((0 <? r0) && _) eqn:T in E4; lia]. subst r0.
           rewrite Eapp, Ezl. destruct (IH st1 (pre ++ [e]) rest tel elc nc true HO2 ltac:(lia)) as (st' & new & rem' & -> & HA).
           exists st', new, true. rewrite orb_true_r. split; [reflexivity|]. econstructor; eauto.
Qed.

(** ** with recursion *)
(** number of elements of the subtree below e, n levels deep *)
Fixpoint size (n : nat) (e : elt) : nat :=
  match n with O => 1 | Datatypes.S n' => Datatypes.S (list_sum (map (size n') (s_children e))) end.
Definition weight (e : elt) : nat := size (Z.to_nat (M - s_level e)) e.
Definition weights lst : nat := list_sum (map weight lst).
Lemma weights_app l1 l2 : weights (l1 ++ l2) = (weights l1 + weights l2)%nat.
Proof. unfold weights. now rewrite map_app, list_sum_app. Qed.
Lemma weight_children e : valid e -> s_level e < M -> weight e = Datatypes.S (weights (s_children e)).
Proof.
  intros V HL. unfold weight at 1. pose proof (valid_level LW V). replace (Z.to_nat (M - s_level e)) with (Datatypes.S (Z.to_nat (M - s_level e - 1))) by lia. cbn [size]. f_equal.
  unfold weights. f_equal. apply map_ext_in. intros c Hc. apply in_children in Hc. destruct Hc as (i & Hi & ->). unfold weight. f_equal.
  destruct (valid_child LW V HL Hi) as (_ & -> & _). lia.
Qed.
Lemma weight_pos e : (1 <= weight e)%nat.
Proof. unfold weight. destruct (Z.to_nat (M - s_level e)); cbn [size]; lia. Qed.
Lemma weight_root e : valid e -> (weight e <= weight (s_root S))%nat.
Proof.
  intros (p & Hp & ->). induction p as [|i p IH] using rev_ind; [cbn; auto|]. assert (Hp' := Hp). apply gpath_snoc_inv in Hp'. destruct Hp' as (Hp' & HL & Hi).
  specialize (IH Hp'). assert (V := valid_walk Hp'). rewrite (weight_children V) in IH by (rewrite (law_level LW Hp'); auto).
  assert (weight (gwalk S (p ++ [i])) <= weights (s_children (gwalk S p)))%nat; [|lia].
  rewrite gwalk_snoc. assert (In (s_child (gwalk S p) i) (s_children (gwalk S p))) as I by (apply in_children; eauto).
  unfold weights. revert I. generalize (s_children (gwalk S p)). induction l as [|c l IHl]; intros I; [destruct I|]. cbn [map list_sum fold_right]. destruct I as [->|I].
  - lia.
  - specialize (IHl I). unfold list_sum in IHl. lia.
Qed.

Lemma refine_recursive_exact fuel : forall st lelement lst tel rem, cb_ok cb -> Forall valid lst -> (weights lst <= fuel)%nat ->
  (exists r, refine_recursive cb A fuel st ltree lelement lst tel rem = Ok r) /\
  (cb_respects_maxlevel cb A -> exists st' new rem', refine_recursive cb A fuel st ltree lelement lst tel rem = Ok (st', tel ++ new, rem || rem') /\
    refines cb A ltree lelement lst st st' new rem').
Proof.
  induction fuel as [|fuel IH]; intros st lelement lst tel rem CB V W; (destruct lst as [|e lst]; cbn [refine_recursive]; [|unfold weights in W; cbn [map list_sum fold_right] in W; pose proof (weight_pos e) as We]).
  - split; [eauto|]. intros _. exists st, [], false. rewrite app_nil_r, orb_false_r. split; [auto|constructor].
  - lia.
  - split; [eauto|]. intros _. exists st, [], false. rewrite app_nil_r, orb_false_r. split; [auto|constructor].
  - change (fold_right Init.Nat.add 0%nat (map weight lst)) with (weights lst) in W.
    destruct (cb st ltree lelement false [e]) as [st1 r] eqn:C. assert (CBr := CB st ltree lelement false [e]). rewrite C in CBr. cbn [snd] in CBr. destruct CBr as [Rr CBf].
    assert (Ve := Forall_inv V). assert (Vl := Forall_inv_tail V).
    destruct (Z.eqb_spec r (-1)) as [E0|E0]; [specialize (CBf E0); discriminate|].
    unfold s_refinable. destruct (Z.eqb_spec r 1) as [E1|E1].
    + destruct (_ && _) eqn:G.
      * destruct (IH st1 lelement (s_children e ++ lst) tel rem CB) as [IH1 IH2].
        { apply Forall_app. split; auto. apply (children_valid LW Ve). lia. }
        { rewrite weights_app. rewrite (weight_children Ve) in W by lia. lia. }
        split; auto. intros HC. destruct (IH2 HC) as (st' & new & rem' & E & HA). exists st', new, rem'. split; auto. subst r. econstructor 3; eauto. lia.
      * destruct (IH st1 lelement lst tel rem CB Vl ltac:(lia)) as [IH1 IH2]. split; auto. intros HC. exfalso. specialize (HC st ltree lelement e). rewrite C in HC. cbn [snd] in HC. specialize (HC E1). lia.
    + destruct (Z.eqb_spec r (-2)) as [E2|E2].
      * destruct (IH st1 lelement lst tel true CB Vl ltac:(lia)) as [IH1 IH2]. split; auto. intros HC. destruct (IH2 HC) as (st' & new & rem' & E & HA). exists st', new, true. rewrite orb_true_r. split; [exact E|].
        subst r. econstructor 4; eauto.
      * destruct (Z.eqb_spec r 0) as [E3|E3]; [|lia]. destruct (IH st1 lelement lst (tel ++ [e]) rem CB Vl ltac:(lia)) as [IH1 IH2]. split; auto.
        intros HC. destruct (IH2 HC) as (st' & new & rem' & E & HA). exists st', (e :: new), rem'. rewrite <- app_assoc in E. split; [exact E|]. subst r. econstructor 2; eauto.
Qed.

Theorem adapt_loop_total fuel : cb_ok cb -> forall st pre rest tel elc nc rem,
  leaves_ok A (pre ++ rest) -> inv cb A (pre ++ rest) pre rest tel rem -> 0 <= elc -> zlen rest + Z.of_nat (weight (s_root S)) + M <= Z.of_nat fuel ->
  exists st' tel' rem', adapt_loop cb A fuel st ltree (pre ++ rest) (zlen pre) tel elc nc rem = Ok (st', tel', rem') /\
    (a_recursive A = true -> cb_no_coarsen cb -> cb_respects_maxlevel cb A ->
     exists new r, tel' = tel ++ new /\ rem' = rem || r /\ adapts_rec cb A ltree pre rest st st' new r).
Proof.
  intros CB. pose proof (law_max LW) as HM. induction fuel as [|fuel IH]; intros st pre rest tel elc nc rem HO I Hc Hf; cbn [adapt_loop]; rewrite zlen_app; pose proof (zlen_ge0 rest) as Zr.
  - pose proof (weight_pos (s_root S)). lia.
  - destruct (Z.ltb_spec (zlen pre) (zlen pre + zlen rest)) as [G|G].
    2:{ assert (rest = []) by (destruct rest; [auto|rewrite zlen_cons in *; pose proof (zlen_ge0 rest); lia]). subst rest.
        exists st, tel, rem. split; auto. intros. exists [], false. rewrite !app_nil_r, orb_false_r. split; [auto|split; [auto|constructor]]. }
    destruct rest as [|e rest]; [rewrite zlen_nil in G; lia|]. rewrite zlen_cons in Hf. pose proof (zlen_ge0 rest) as Zr2.
    destruct (@family_of_spec S LW A ltree pre e rest HO) as (els & b & num & EF & Eh & Enum & Pnum & HF). rewrite EF, Eh, znth_pre.
    assert (HO1 := leaves_ordered HO).
    assert (Ve : valid e) by (apply ordered_valid, Forall_app in HO1; destruct HO1 as [_ HO1]; now inversion HO1). pose proof (valid_level LW Ve) as LE.
    assert (Sh := single_shown Pnum Eh Enum HF). set (fam := firstn (Z.to_nat num) els) in *.
    destruct (cb st ltree (zlen pre) b fam) as [st1 r0] eqn:C. assert (CBr := CB st ltree (zlen pre) b fam). rewrite C in CBr. cbn [snd] in CBr. destruct CBr as [Rr CBf].
    destruct (negb b && (r0 =? -1)) eqn:T1; [destruct b; [discriminate|]; cbn in T1; assert (false = true) by (apply CBf; lia); discriminate|].
    unfold s_refinable. set (r := if (0 <? r0) && _ then 0 else r0).
    assert (Eapp : pre ++ e :: rest = (pre ++ [e]) ++ rest) by (now rewrite <- app_assoc).
    assert (Ezl : zlen pre + 1 = zlen (pre ++ [e])) by (now rewrite zlen_snoc).
    assert (HO2 : leaves_ok A ((pre ++ [e]) ++ rest)) by (now rewrite <- Eapp).
    assert (Cpe : comp (pre ++ [e]) e) by (apply Exists_app; right; constructor; left; now apply below_refl).
    assert (Ik : inv cb A (pre ++ e :: rest) (pre ++ [e]) rest (tel ++ [e]) rem) by (apply inv_keep; auto; now apply inv_mono).
    destruct (Z.eqb_spec r 1) as [E1|E1].
    + assert (HLe : s_level e < a_maxlevel A /\ r0 = 1) by (unfold r in E1; destruct ((0 <? r0) && _) eqn:T in E1; lia). destruct HLe as [HLe ->].
      assert (Ir : inv cb A (pre ++ e :: rest) (pre ++ [e]) (s_children e ++ rest) tel rem) by (apply inv_refine; auto; now apply inv_mono).
      assert (Uc : Forall (under (pre ++ [e])) (s_children e)).
      { eapply Forall_impl; [|apply (children_below LW Ve)]; [|lia]. intros c B. apply Exists_app. right. now constructor. }
      destruct (a_recursive A) eqn:HR.
      * assert (Wc : (weights (s_children e) <= Datatypes.S fuel)%nat).
        { pose proof (weight_root Ve). rewrite (weight_children Ve) in H by lia. lia. }
        destruct (@refine_recursive_exact (Datatypes.S fuel) st1 (zlen pre) (s_children e) tel rem CB (children_valid LW Ve ltac:(lia)) Wc) as [([[st2 tel2] rem2] & RR) RX].
        rewrite RR. assert (I2 : inv cb A (pre ++ e :: rest) (pre ++ [e]) rest tel2 rem2) by (eapply refine_recursive_inv; eauto).
        rewrite Eapp in I2. rewrite Eapp, Ezl. destruct (IH st2 (pre ++ [e]) rest tel2 (zlen tel2) (s_num_children e) rem2 HO2 I2 (zlen_ge0 tel2) ltac:(lia)) as (st' & tel' & rem' & -> & HX).
        exists st', tel', rem'. split; auto. intros _ H1 H2. destruct (RX H2) as (st3 & new3 & rem3 & RR' & HR3). rewrite RR in RR'. injection RR' as -> -> ->.
        destruct (HX eq_refl H1 H2) as (new & rr & -> & -> & HA). exists (new3 ++ new), (rem3 || rr). rewrite app_assoc, orb_assoc. split; [auto|split; [auto|]]. econstructor; eauto.
      * assert (I2 : inv cb A (pre ++ e :: rest) (pre ++ [e]) rest (tel ++ s_children e) rem).
        { revert Ir. assert (Uc' := Uc). clear -Uc' LW HMax. revert tel. induction (s_children e) as [|c cs IHc]; intros tel Ir; [now rewrite app_nil_r|].
          change (tel ++ c :: cs) with (tel ++ [c] ++ cs). rewrite app_assoc. apply IHc; [now apply Forall_inv_tail in Uc'|]. apply inv_keep; auto. apply under_comp. now apply Forall_inv in Uc'. }
        rewrite Eapp in I2. rewrite Eapp, Ezl. destruct (IH st1 (pre ++ [e]) rest (tel ++ s_children e) elc (s_num_children e) rem HO2 I2 Hc ltac:(lia)) as (st' & tel' & rem' & -> & HX).
        exists st', tel', rem'. split; auto. discriminate.
    + destruct (Z.eqb_spec r (-1)) as [E2|E2].
      * assert (Er0 : r0 = -1) by (unfold r in E2; destruct ((0 <? r0) && _) in E2; lia). subst r0.
        destruct HF as [[-> HFam]|(-> & _)]; [|discriminate].
        assert (Hx := HFam). destruct Hx as (Vp & _ & rr & Er & _).
        assert (Ic : inv cb A (pre ++ e :: rest) (pre ++ fam) rr (tel ++ [s_parent e]) rem) by (eapply inv_coarsen; eauto).
        assert (Eapp2 : pre ++ e :: rest = (pre ++ fam) ++ rr) by (rewrite Er; apply app_assoc).
        assert (Ezl2 : zlen pre + num = zlen (pre ++ fam)) by (rewrite zlen_app; lia).
        assert (Oc : ordered (tel ++ [s_parent e])) by (destruct Ic as [Ic _ _ _ _]; apply ordered_app in Ic; auto; apply Ic).
        assert (MC := @maybe_coarsen_full S LW St cb A ltree (Datatypes.S fuel) st1 (zlen pre) tel (s_parent e) elc (s_num_siblings e) Oc Hc).
        pose proof (valid_level LW Vp) as LP.
        destruct (maybe_coarsen _ _ _ _ _ _ _ _ _) as [[st2 tel2]| | |]; try tauto; [|lia]. destruct MC as [MC1 MC2].
        assert (I2 : inv cb A (pre ++ e :: rest) (pre ++ fam) rr tel2 rem) by (eapply inv_csteps; eauto).
        rewrite Eapp2 in I2. rewrite Eapp2, Ezl2.
        assert (Zrr : zlen rr <= zlen rest). { assert (Z1 := f_equal zlen Er). rewrite zlen_cons, zlen_app in Z1. lia. }
        destruct (IH st2 (pre ++ fam) rr tel2 elc (s_num_siblings e) rem ltac:(now rewrite <- Eapp2) I2 Hc ltac:(lia)) as (st' & tel' & rem' & -> & HX).
        exists st', tel', rem'. split; auto. intros _ NC. specialize (NC st ltree (zlen pre) true fam). rewrite C in NC. cbn [snd] in NC. congruence.
      * destruct (r =? 0) eqn:E3.
        -- assert (Oc : ordered (tel ++ [e])) by (destruct Ik as [Ic _ _ _ _]; apply ordered_app in Ic; auto; apply Ic).
           assert (MC := @maybe_coarsen_full S LW St cb A ltree (Datatypes.S fuel) st1 (zlen pre) tel e elc nc Oc Hc).
           destruct (maybe_coarsen _ _ _ _ _ _ _ _ _) as [[st2 tel2]| | |]; try tauto; [|lia]. destruct MC as [MC1 MC2].
           assert (I2 : inv cb A (pre ++ e :: rest) (pre ++ [e]) rest tel2 rem) by (eapply inv_csteps; eauto).
           rewrite Eapp in I2. rewrite Eapp, Ezl. destruct (IH st2 (pre ++ [e]) rest tel2 elc nc rem HO2 I2 Hc ltac:(lia)) as (st' & tel' & rem' & -> & HX).
           exists st', tel', rem'. split; auto. intros H0 H1 H2. destruct (HX H0 H1 H2) as (new & rr & -> & -> & HA). destruct (MC2 H1) as [-> MC3].
           exists (e :: new), rr. rewrite <- app_assoc. split; [auto|split; [auto|]]. econstructor; eauto. unfold r in E3. destruct ((0 <? r0) && _) eqn:T in E3; lia.
        -- assert (Er0 : r0 = -2) by (unfold r in *; destruct ((0 <? r0) && _) eqn:T in *; lia). destruct (r =? -2) eqn:E4; [|unfold r in E4; destruct ((0 <? r0) && _) eqn:T in E4; lia]. subst r0.
           assert (I2 : inv cb A (pre ++ e :: rest) (pre ++ [e]) rest tel true) by (apply (inv_skip LW (e := e) (rem := rem)); [apply inv_mono; exact I|auto]).
           rewrite Eapp in I2. rewrite Eapp, Ezl. destruct (IH st1 (pre ++ [e]) rest tel elc nc true HO2 I2 Hc ltac:(lia)) as (st' & tel' & rem' & -> & HX).
           exists st', tel', rem'. split; auto. intros H0 H1 H2. destruct (HX H0 H1 H2) as (new & rr & -> & -> & HA). exists new, true. rewrite orb_true_r. split; [auto|split; [auto|]]. econstructor; eauto.
Qed.

(** ** removal is reported exactly when the callback asks for it *)
Lemma refine_recursive_keeps fuel : cb_keeps cb -> forall st lelement lst tel rem st' tel' rem', refine_recursive cb A fuel st ltree lelement lst tel rem = Ok (st', tel', rem') -> rem' = rem.
Proof.
  intros CK. induction fuel as [|fuel IH]; intros st lelement lst tel rem st' tel' rem' H; destruct lst as [|e lst]; cbn [refine_recursive] in H; try discriminate; try congruence.
  specialize (CK st ltree lelement false [e]). destruct (cb st ltree lelement false [e]) as [st1 r]. cbn [snd] in CK. destruct (r =? -1); [discriminate|]. destruct (r =? 1).
  - destruct (_ && _); eapply IH; eauto.
  - destruct (Z.eqb_spec r (-2)); [congruence|]. destruct (r =? 0); [|discriminate]. eapply IH; eauto.
Qed.
Lemma adapt_loop_keeps fuel : cb_keeps cb -> forall st from i tel elc nc rem st' tel' rem', adapt_loop cb A fuel st ltree from i tel elc nc rem = Ok (st', tel', rem') -> rem' = rem.
Proof.
  intros CK. induction fuel as [|fuel IH]; intros st from i tel elc nc rem st' tel' rem' H; cbn [adapt_loop] in H; (destruct (_ <? _) in H; [|congruence]); [discriminate|].
  destruct (family_of A from ltree i) as [[els b] num]. assert (CK1 := CK st ltree i b (firstn (Z.to_nat num) els)).
  destruct (cb st ltree i b (firstn (Z.to_nat num) els)) as [st1 r0]. cbn [snd] in CK1. destruct (negb b && _); [discriminate|].
  set (r := if (0 <? r0) && _ then 0 else r0) in H. destruct (r =? 1).
  - destruct (a_recursive A); [|eapply IH; eauto]. destruct (refine_recursive _ _ _ _ _ _ _ _ _) as [[[st2 tel2] rem2]| | |] eqn:RR; try discriminate.
    apply (refine_recursive_keeps CK) in RR. subst rem2. eapply IH; eauto.
  - destruct (r =? -1); [|destruct (r =? 0)]; try (destruct (maybe_coarsen _ _ _ _ _ _ _ _ _) as [[st2 tel2]| | |]; try discriminate; eapply IH; eauto).
    destruct (Z.eqb_spec r (-2)) as [E|]; [|discriminate]. unfold r in E. destruct ((0 <? r0) && _) in E; lia.
Qed.

(** ** the flag is only written *)
Definition orem {B C} (rem : bool) (o : outcome (B * C * bool)) : outcome (B * C * bool) :=
  match o with Ok (a, b, r) => Ok (a, b, rem || r) | Oob => Oob | AssertFail => AssertFail | OutOfFuel => OutOfFuel end.
Lemma refine_recursive_flag fuel rem : forall st lelement lst tel r, refine_recursive cb A fuel st ltree lelement lst tel (rem || r) = orem rem (refine_recursive cb A fuel st ltree lelement lst tel r).
Proof.
  induction fuel as [|fuel IH]; intros st lelement lst tel r; destruct lst as [|e lst]; cbn [refine_recursive]; auto.
  destruct (cb st ltree lelement false [e]) as [st1 x]. destruct (x =? -1); auto. destruct (x =? 1); [destruct (_ && _); auto|]. destruct (x =? -2); [|destruct (x =? 0); auto].
  rewrite <- (IH _ _ _ _ true). now rewrite orb_true_r.
Qed.
Lemma adapt_loop_flag fuel rem : forall st from i tel elc nc r, adapt_loop cb A fuel st ltree from i tel elc nc (rem || r) = orem rem (adapt_loop cb A fuel st ltree from i tel elc nc r).
Proof.
  induction fuel as [|fuel IH]; intros st from i tel elc nc r; cbn [adapt_loop]; (destruct (_ <? _); [|auto]); [reflexivity|].
  destruct (family_of A from ltree i) as [[els b] num]. destruct (cb st ltree i b (firstn (Z.to_nat num) els)) as [st1 r0]. destruct (negb b && _); [auto|].
  destruct (_ =? 1).
  - destruct (a_recursive A); [|auto]. rewrite refine_recursive_flag. destruct (refine_recursive _ _ _ _ _ _ _ _ r) as [[[st2 tel2] rem2]| | |]; cbn [orem]; auto.
  - destruct (_ =? -1); [|destruct (_ =? 0)]; try (destruct (maybe_coarsen _ _ _ _ _ _ _ _ _) as [[st2 tel2]| | |]; cbn [orem]; auto; fail).
    destruct (_ =? -2); auto. rewrite <- (IH _ _ _ _ _ _ true). now rewrite orb_true_r.
Qed.

(** ** the relation is a function *)
Lemma family_at_nonempty pre rest p fam : family_at A ltree pre rest p fam -> exists e fam' r, fam = e :: fam' /\ rest = fam ++ r /\ Forall (fun f => In f (s_children p)) fam.
Proof.
  intros (V & HL & r & E & HF). destruct (a_incomplete A).
  - destruct HF as (N & F & _). destruct fam as [|e fam]; [congruence|]. exists e, fam, r. auto.
  - subst fam. destruct (children_cons LW V) as (l & El). exists (s_child p 0), l, r. split; [auto|]. split; [auto|]. apply Forall_forall. auto.
Qed.
Lemma family_at_det pre rest p1 fam1 p2 fam2 : family_at A ltree pre rest p1 fam1 -> family_at A ltree pre rest p2 fam2 -> p1 = p2 /\ fam1 = fam2.
Proof.
  intros H1 H2. destruct (family_at_nonempty H1) as (e & f1 & r & E1 & E2 & F1). destruct (family_at_nonempty H2) as (e' & f2 & r' & E1' & E2' & F2).
  assert (E3 : rest = e :: f1 ++ r) by (rewrite E2, E1; auto). rewrite E3 in H1, H2. destruct (family_parent LW H1) as (-> & _). destruct (family_parent LW H2) as (-> & _). split; auto.
  destruct H1 as (Vp & HL & r1 & G1 & G2). destruct H2 as (_ & _ & r2 & G3 & G4). destruct (a_incomplete A); [|congruence].
  destruct G2 as (_ & _ & G2 & _). destruct G4 as (_ & _ & G4 & _).
  assert (KEY : forall fa fb ra rb, fa ++ ra = fb ++ rb -> Forall (fun f => In f (s_children (s_parent e))) fb -> Forall (fun x => ~ below (s_parent e) x) (pre ++ ra) -> (length fb <= length fa)%nat).
  { intros fa fb ra rb Eq Fb Fr. destruct (Nat.le_gt_cases (length fb) (length fa)) as [|Hlt]; auto. exfalso.
    assert (Eb : fb = fa ++ firstn (length fb - length fa) ra).
    { assert (Q := f_equal (firstn (length fb)) Eq). rewrite firstn_app, firstn_all2 in Q by lia. rewrite firstn_app, Nat.sub_diag, firstn_all in Q. cbn [firstn] in Q. now rewrite app_nil_r in Q. }
    destruct ra as [|x ra]; [rewrite firstn_nil, app_nil_r in Eb; subst; lia|]. replace (length fb - length fa)%nat with (Datatypes.S (length fb - length fa - 1)) in Eb by lia. cbn [firstn] in Eb.
    rewrite Eb in Fb. apply Forall_app in Fb. destruct Fb as [_ Fb]. apply Forall_inv in Fb. apply Forall_app in Fr. destruct Fr as [_ Fr]. apply Forall_inv in Fr. apply Fr.
    apply in_children in Fb. destruct Fb as (i & Hi & ->). now apply below_child. }
  assert (EE : fam1 ++ r1 = fam2 ++ r2) by congruence.
  assert (length fam1 = length fam2).
  { apply Nat.le_antisymm; [eapply (KEY fam2 fam1 r2 r1)|eapply (KEY fam1 fam2 r1 r2)]; eauto. }
  assert (Q := f_equal (firstn (length fam1)) EE). rewrite firstn_app, Nat.sub_diag, firstn_all in Q. rewrite H, firstn_app, Nat.sub_diag, firstn_all in Q. cbn [firstn] in Q. now rewrite !app_nil_r in Q.
Qed.
Lemma shown_det pre rest b1 fam1 b2 fam2 : shown A ltree pre rest b1 fam1 -> shown A ltree pre rest b2 fam2 -> b1 = b2 /\ fam1 = fam2.
Proof.
  intros [p1 f1 H1|e1 r1 E1 N1] [p2 f2 H2|e2 r2 E2 N2].
  - split; auto. exact (proj2 (family_at_det H1 H2)).
  - destruct (N2 _ _ H1).
  - destruct (N1 _ _ H2).
  - split; congruence.
Qed.
Lemma adapts_inv pre e r (st st2 : St) n2 r2 : adapts cb A ltree pre (e :: r) st st2 n2 r2 -> exists b fam s1 a, shown A ltree pre (e :: r) b fam /\ cb st ltree (zlen pre) b fam = (s1, a) /\
  (a = 1 /\ s_level e < a_maxlevel A /\ (exists n', adapts cb A ltree (pre ++ [e]) r s1 st2 n' r2 /\ n2 = s_children e ++ n') \/
   (a = 0 \/ (0 < a /\ a_maxlevel A <= s_level e)) /\ (exists n', adapts cb A ltree (pre ++ [e]) r s1 st2 n' r2 /\ n2 = e :: n') \/
   a = -1 /\ (exists p r' n', e :: r = fam ++ r' /\ family_at A ltree pre (fam ++ r') p fam /\ adapts cb A ltree (pre ++ fam) r' s1 st2 n' r2 /\ n2 = p :: n') \/
   a = -2 /\ (exists r', adapts cb A ltree (pre ++ [e]) r s1 st2 n2 r' /\ r2 = true)).
Proof.
  intros H. remember (e :: r) as rest eqn:ER. destruct H as [pre st|pre e0 r0 st s1 s2 b fam new rem Sh C HL H|pre e0 r0 st s1 s2 b fam a new rem Sh C HL H|pre p fam r0 st s1 s2 new rem Fa C H|pre e0 r0 st s1 s2 b fam new rem Sh C H].
  - discriminate.
  - injection ER as -> ->. exists b, fam, s1, 1. split; auto. split; auto. left. eauto.
  - injection ER as -> ->. exists b, fam, s1, a. split; auto. split; auto. right. left. eauto.
  - exists true, fam, s1, (-1). split; [econstructor; eauto|]. split; auto. right. right. left. split; auto. exists p, r0, new. auto.
  - injection ER as -> ->. exists b, fam, s1, (-2). split; auto. split; auto. right. right. right. eauto.
Qed.
Lemma adapts_det pre rest (st st1 : St) n1 r1 st2 n2 r2 : adapts cb A ltree pre rest st st1 n1 r1 -> adapts cb A ltree pre rest st st2 n2 r2 -> st1 = st2 /\ n1 = n2 /\ r1 = r2.
Proof.
  remember (length rest) as k eqn:Ek. assert (Hk : (length rest <= k)%nat) by lia. clear Ek. revert pre rest st st1 n1 r1 st2 n2 r2 Hk.
  induction k as [|k IH]; intros pre rest st st1 n1 r1 st2 n2 r2 Hk H1 H2.
  - assert (rest = []) by (destruct rest; [auto|cbn in Hk; lia]). subst rest.
    assert (NIL : forall st st' n r, adapts cb A ltree pre [] st st' n r -> st' = st /\ n = [] /\ r = false).
    { intros s s' n r Hn. remember [] as l0 eqn:E0 in Hn. destruct Hn; try discriminate; auto. destruct (family_at_nonempty H) as (? & ? & ? & -> & _). discriminate. }
    destruct (NIL _ _ _ _ H1) as (-> & -> & ->). destruct (NIL _ _ _ _ H2) as (-> & -> & ->). auto.
  - destruct rest as [|e r]; [apply (IH pre [] st); auto; cbn; lia|]. cbn in Hk.
    destruct (adapts_inv H1) as (b & fam & s1 & a & Sh & C & D). destruct (adapts_inv H2) as (b' & fam' & s1' & a' & Sh' & C' & D').
    destruct (shown_det Sh Sh') as [<- <-]. rewrite C in C'. injection C' as <- <-.
    destruct D as [(E & L & n' & P & ->)|[(E & n' & P & ->)|[(E & p & rr & n' & Er & Fa & P & ->)|(E & rr & P & ->)]]];
      destruct D' as [(E' & L' & n'' & P' & ->)|[(E' & n'' & P' & ->)|[(E' & p' & rr' & n'' & Er' & Fa' & P' & ->)|(E' & rr' & P' & ->)]]]; try lia.
    + destruct (IH (pre ++ [e]) r s1 st1 n' r1 st2 n'' r2) as (-> & -> & ->); auto. lia.
    + destruct (IH (pre ++ [e]) r s1 st1 n' r1 st2 n'' r2) as (-> & -> & ->); auto. lia.
    + assert (rr = rr') by (rewrite Er in Er'; now apply app_inv_head in Er'). subst rr'. destruct (family_at_det Fa Fa') as [<- _].
      assert (length rr <= k)%nat. { destruct (family_at_nonempty Fa) as (x & f & r3 & -> & _). assert (Q := f_equal (@length _) Er). cbn in Q. rewrite app_length in Q. lia. }
      destruct (IH (pre ++ fam) rr s1 st1 n' r1 st2 n'' r2) as (-> & -> & ->); auto.
    + destruct (IH (pre ++ [e]) r s1 st1 n1 rr st2 n2 rr') as (-> & -> & ->); auto. lia.
Qed.
(** ** one tree *)
Lemma inv_init from : ordered from -> Forall (fun x => s_level x <= a_maxlevel A) from -> inv cb A from [] from [] false.
Proof. intros HO HL. split; auto. intros. apply incl_refl. Qed.
Lemma adapt_tree_flag fuel st from rem : adapt_tree cb A fuel st ltree from rem = orem rem (adapt_tree cb A fuel st ltree from false).
Proof.
  unfold adapt_tree. destruct from as [|e from]; [cbn; now rewrite orb_false_r|].
  rewrite <- (orb_false_r rem) at 1. rewrite adapt_loop_flag. destruct (adapt_loop _ _ _ _ _ _ _ _ _ _) as [[[st1 new1] rem1]| | |]; cbn; auto. destruct new1; auto.
Qed.
Lemma adapt_tree_loop fuel st from st' new rem' : adapt_tree cb A fuel st ltree from false = Ok (st', new, rem') ->
  from = [] /\ st' = st /\ new = [] /\ rem' = false \/ from <> [] /\ new <> [] /\ adapt_loop cb A fuel st ltree from 0 [] 0 (s_max_children S) false = Ok (st', new, rem').
Proof.
  unfold adapt_tree. destruct from as [|e from]; [injection 1 as <- <- <-; auto|]. destruct (adapt_loop _ _ _ _ _ _ _ _ _ _) as [[[st1 new1] rem1]| | |]; try discriminate.
  destruct new1; [discriminate|]. injection 1 as <- <- <-. right. repeat split; discriminate.
Qed.

Theorem adapt_tree_inv fuel st from rem0 st' new rem : leaves_ok A from -> Forall (fun x => s_level x <= a_maxlevel A) from ->
  adapt_tree cb A fuel st ltree from rem0 = Ok (st', new, rem) ->
  ordered new /\ Forall (fun x => s_level x <= a_maxlevel A) new /\ (from <> [] -> new <> []) /\
  (a_incomplete A = true -> Forall (fun x => exists y, In y from /\ (below x y \/ below y x)) new) /\
  (cb_keeps cb -> nodrop cb A -> rem = rem0 /\ incl (region from) (region new) /\ (a_incomplete A = false -> region new = region from)).
Proof.
  intros HO HL H. rewrite adapt_tree_flag in H. destruct (adapt_tree cb A fuel st ltree from false) as [[[st1 new1] rem1]| | |] eqn:E; try discriminate.
  cbn [orem] in H. injection H as <- <- <-.
  apply adapt_tree_loop in E. destruct E as [(-> & -> & -> & ->)|(HN & HN' & H)].
  - split; [exact (leaves_ordered HO)|]. split; [auto|]. split; [congruence|]. split; [constructor|]. intros _ _. split; [apply orb_false_r|]. split; [apply incl_refl|auto].
  - assert (I0 := inv_init (leaves_ordered HO) HL).
    assert (K := fun C => adapt_loop_keeps C H). apply (@adapt_loop_inv S LW St cb A ltree HMax fuel st [] from [] 0 (s_max_children S) false) in H; auto; [|lia]. cbn [app] in H.
    destruct H as [I1 I2 I3 I4 I5]. rewrite app_nil_r in *. split; [exact I1|]. split; [exact I5|]. split; [auto|]. split.
    + intros C. eapply Forall_impl; [|exact (I2 C)]. intros x Hx. apply Exists_exists in Hx. destruct Hx as (y & Hy & B). eauto.
    + intros CK ND. specialize (K CK). subst rem1. rewrite orb_false_r. split; [auto|]. split; auto.
Qed.
Theorem adapt_tree_exact fuel st from rem : a_recursive A = false -> cb_ok cb -> leaves_ok A from -> zlen from <= Z.of_nat fuel ->
  exists st' new r, adapts cb A ltree [] from st st' new r /\
    adapt_tree cb A fuel st ltree from rem = match from, new with _ :: _, [] => AssertFail | _, _ => Ok (st', new, rem || r) end.
Proof.
  intros HR CB HO HF. destruct (@adapt_loop_exact fuel HR CB st [] from [] 0 (s_max_children S) rem HO HF) as (st' & new & r & E & HA).
  exists st', new, r. split; auto. unfold adapt_tree. cbn [app] in E. change (zlen (@nil elt)) with 0 in E. destruct from as [|e from]; [|rewrite E; destruct new; auto].
  cbn in E. destruct fuel; cbn in E; injection E as <- <- <-; destruct rem; auto.
Qed.
Theorem adapt_tree_total st from rem : cb_ok cb -> leaves_ok A from -> Forall (fun x => s_level x <= a_maxlevel A) from ->
  exists n, forall fuel, (n <= fuel)%nat -> exists st' tel r,
    (adapt_tree cb A fuel st ltree from rem = match from, tel with _ :: _, [] => AssertFail | _, _ => Ok (st', tel, rem || r) end) /\
    (a_recursive A = true -> cb_no_coarsen cb -> cb_respects_maxlevel cb A -> adapts_rec cb A ltree [] from st st' tel r) /\
    (cb_keeps cb -> nodrop cb A -> from <> [] -> tel <> []).
Proof.
  intros CB HO HL. exists (Z.to_nat (zlen from + Z.of_nat (weight (s_root S)) + M)). intros fuel Hn.
  assert (I0 := inv_init (leaves_ordered HO) HL). pose proof (law_max LW). pose proof (zlen_ge0 from).
  destruct (@adapt_loop_total fuel CB st [] from [] 0 (s_max_children S) false HO I0 ltac:(lia) ltac:(lia)) as (st' & tel & r & E & HX). cbn [app] in E.
  exists st', tel, r. split; [|split].
  - rewrite adapt_tree_flag. unfold adapt_tree. change (zlen (@nil elt)) with 0 in E. destruct from as [|e from]; [|rewrite E; destruct tel; auto].
    cbn [orem]. destruct fuel; cbn in E; injection E as <- <- <-; auto.
  - intros H1 H2 H3. destruct (HX H1 H2 H3) as (new & r' & -> & -> & HA). exact HA.
  - intros CK ND HN ->. assert (r = false) by (now apply (adapt_loop_keeps CK) in E). subst r.
    change (zlen (@nil elt)) with 0 in E. apply (@adapt_loop_inv S LW St cb A ltree HMax fuel st [] from [] 0 (s_max_children S) false) in E; auto; [|lia].
    destruct E as [_ _ _ I4 _]. cbn [app] in I4. specialize (I4 ND eq_refl). cbn in I4. destruct from as [|e from]; [auto|].
    assert (Ve : valid e) by (assert (OV := ordered_valid (leaves_ordered HO)); now inversion OV). pose proof (cells_nonempty LW Ve). unfold region in I4. cbn [flat_map] in I4.
    destruct (cells e) as [|c cs]; [cbn in *; lia|]. exact (I4 c (or_introl eq_refl)).
Qed.
End adapt.

(** ** all trees of a process *)
Section forest.
Variable St : Type.
Variable cb : callback St.
Variable A : aenv.
Definition nelems (t : tree) : Z := zlen (t_elems t).

Lemma adapt_trees_spec fuel (R : forall S : scheme, list (elt S) -> list (elt S) -> Prop) ts :
  (forall t st ltree rem st' new rem', In t ts -> adapt_tree (@cb (t_scheme t)) A fuel st ltree (t_elems t) rem = Ok (st', new, rem') -> R (t_scheme t) (t_elems t) new) ->
  forall st ltree off rem st' out n rem', adapt_trees (@cb) A fuel st ltree off ts rem = Ok (st', out, n, rem') ->
  Forall2 (trees_rel R) ts (map fst out) /\ n = off + fold_right Z.add 0 (map (fun x => nelems (fst x)) out) /\
  forall i t o, nth_error out i = Some (t, o) -> nelems t <> 0 -> o = off + fold_right Z.add 0 (map (fun x => nelems (fst x)) (firstn i out)).
Proof.
  induction ts as [|t ts IH]; intros HT st ltree off rem st' out n rem' H; cbn [adapt_trees] in H.
  - injection H as <- <- <- <-. cbn. split; [constructor|]. split; [lia|]. intros i t o Hi. destruct i; discriminate.
  - destruct (adapt_tree (@cb (t_scheme t)) A fuel st ltree (t_elems t) rem) as [[[st1 new] rem1]| | |] eqn:E; try discriminate.
    destruct (adapt_trees (@cb) A fuel st1 (ltree + 1) (off + zlen new) ts rem1) as [[[[st2 out2] n2] rem2]| | |] eqn:E2; try discriminate. injection H as <- <- <- <-.
    destruct (IH (fun t' st ltree rem st' new rem' I => HT t' st ltree rem st' new rem' (or_intror I)) _ _ _ _ _ _ _ _ E2) as (F & En & Ho).
    assert (HR := HT t _ _ _ _ _ _ (or_introl eq_refl) E). destruct t as [S l]. cbn [t_scheme t_elems] in *. cbn [map fst fold_right nelems t_elems]. split; [|split].
    + constructor; auto. exists S, l, new. auto.
    + unfold nelems at 1. cbn. lia.
    + intros [|i] t o Hi Nt; cbn [nth_error firstn map fold_right fst] in *.
      * injection Hi as <- <-. unfold nelems in Nt. cbn in Nt. assert (zlen l <> 0). { intros Z0. destruct l; [|rewrite zlen_cons in Z0; pose proof (zlen_ge0 l); lia]. cbn in E. injection E as <- <- <-. now cbn in Nt. }
        destruct (Z.eqb_spec (zlen l) 0); [congruence|lia].
      * rewrite (Ho i t o Hi Nt). unfold nelems at 2. cbn. lia.
Qed.
End forest.

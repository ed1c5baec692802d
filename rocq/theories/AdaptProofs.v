(** The adaptation step keeps the leaves ordered, covers the same region and obeys the callback. *)
From Verif Require Import Prelude PathSpec SchemeModel SchemeSpec SchemeProofs SchemeOrderProofs AdaptModel AdaptSpec AdaptFamilyProofs.
From Coq Require Import Sorting.Sorted.

Section adapt.
Variable S : scheme.
Hypothesis LW : laws S.
Notation elt := (elt S).
Notation M := (s_maxlevel S).
Variable St : Type.
Variable cb : St -> Z -> Z -> bool -> list elt -> St * Z.
Variable A : aenv.
Variable ltree : Z.
Hypothesis HMax : a_maxlevel A <= M.
Implicit Types e f p x y : elt.
Implicit Types l pre rest fam tel a b lst new from : list elt.
Notation el l i := (znth (s_root S) l i).

(** ** recursive coarsening *)
(** one step: the last elements of the array, children of p, are replaced by p *)
Inductive cstep : list elt -> list elt -> Prop :=
| cs a fam e p : valid p -> s_level p < M -> Forall (fun f => In f (s_children p)) (fam ++ [e]) ->
    e = s_child p (s_num_children p - 1) -> Forall (fun x => ~ below p x) a ->
    (a_incomplete A = false -> fam ++ [e] = s_children p) -> cstep (a ++ fam ++ [e]) (a ++ [p]).
Inductive csteps : list elt -> list elt -> Prop :=
| cs_refl tel : csteps tel tel
| cs_step t1 t2 t3 : cstep t1 t2 -> csteps t2 t3 -> csteps t1 t3.

Lemma last_elem tel e : el (tel ++ [e]) (zlen (tel ++ [e]) - 1) = e.
Proof. rewrite zlen_snoc. replace (zlen tel + 1 - 1) with (zlen tel) by lia. apply (znth_pre (s_root S) tel e []). Qed.

Lemma children_member p f : valid p -> s_level p < M -> valid f -> 0 < s_level f ->
  (s_level f = s_level p + 1 /\ s_equal p (s_parent f) = true <-> In f (s_children p)).
Proof.
  intros V HL Vf Hf. pose proof (valid_level LW V). destruct (valid_parent LW Vf Hf) as (Vp' & El' & Hi & Ec & _). rewrite (valid_equal LW V Vp'). split.
  - intros [El E]. apply in_children. exists (s_child_id f). rewrite E. split; auto.
  - intros I. apply in_children in I. destruct I as (i & Hi' & ->). destruct (valid_child LW V HL Hi') as (_ & -> & -> & _). auto.
Qed.

Lemma pos_loop_spec n tel e nsib p : valid p -> s_level p < M -> s_level e = s_level p + 1 ->
  forall a fam pos cmp, a ++ fam = tel ++ [e] -> Forall valid (a ++ fam) -> Forall (fun f => In f (s_children p)) fam -> 1 <= zlen fam <= nsib -> nsib - zlen fam < Z.of_nat n ->
  (zlen fam = 1 /\ pos = -1 \/ 1 < zlen fam /\ pos = zlen a) ->
  exists a' fam' pos' cmp', pos_loop n (tel ++ [e]) (zlen tel) nsib (s_level e) p (zlen fam) pos cmp = (zlen fam', pos', cmp') /\
    a' ++ fam' = tel ++ [e] /\ Forall (fun f => In f (s_children p)) fam' /\ 1 <= zlen fam' <= nsib /\
    ((zlen fam' = nsib \/ a' = []) /\ (zlen fam' = 1 /\ pos' = -1 \/ 1 < zlen fam' /\ pos' = zlen a') \/
     zlen fam' < nsib /\ exists a'', a' = a'' ++ [cmp'] /\ pos' = zlen a'' /\ ~ In cmp' (s_children p)).
Proof.
  intros Vp HL Le. induction n as [|n IH]; intros a fam pos cmp E Va F R Hn Hpos; [lia|]. cbn [pos_loop].
  assert (ZL : zlen (tel ++ [e]) = zlen a + zlen fam) by (rewrite <- E; apply zlen_app). pose proof (zlen_ge0 a) as Za.
  destruct (Z.ltb_spec (zlen fam) nsib) as [H1|H1]; cbn [andb].
  2:{ exists a, fam, pos, cmp. split; [reflexivity|]. split; [exact E|]. split; [exact F|]. split; [lia|]. left. split; [left; lia|exact Hpos]. }
  destruct (Z.ltb_spec (zlen fam) (zlen (tel ++ [e]))) as [H2|H2].
  2:{ exists a, fam, pos, cmp. split; [reflexivity|]. split; [exact E|]. split; [exact F|]. split; [lia|]. left. split; [right|exact Hpos]. destruct a; [auto|]. rewrite zlen_cons in *. pose proof (zlen_ge0 a). lia. }
  destruct a as [|c a _] using rev_ind; [rewrite zlen_nil in *; lia|].
  rewrite (zlen_snoc tel e) in ZL, H2. rewrite (zlen_snoc a c) in ZL, Za. assert (Zt : zlen tel - zlen fam = zlen a) by lia. rewrite Zt.
  assert (Ec : el (tel ++ [e]) (zlen a) = c) by (rewrite <- E, <- app_assoc; apply (znth_pre (s_root S) a c fam)). rewrite Ec.
  assert (Vc : valid c) by (apply Forall_app in Va; destruct Va as [Va _]; apply Forall_app in Va; destruct Va as [_ Va]; now inversion Va).
  pose proof (valid_level LW Vp).
  destruct (Z.eqb_spec (s_level e) (s_level c)) as [Lc|Lc]; cbn [negb].
  2:{ exists (a ++ [c]), fam, (zlen a), c. split; [reflexivity|]. split; [exact E|]. split; [exact F|]. split; [lia|]. right. split; [exact H1|]. exists a. split; [reflexivity|]. split; [reflexivity|].
      intros I. apply (child_iff LW Vp HL Vc) in I. lia. }
  assert (CM := @children_member p c Vp HL Vc ltac:(lia)).
  destruct (s_equal p (s_parent c)) eqn:Q; cbn [negb].
  2:{ exists (a ++ [c]), fam, (zlen a), c. split; [reflexivity|]. split; [exact E|]. split; [exact F|]. split; [lia|]. right. split; [exact H1|]. exists a. split; [reflexivity|]. split; [reflexivity|]. intros I. apply CM in I. destruct I. discriminate. }
  destruct (IH a (c :: fam) (zlen a) c) as (a' & fam' & pos' & cmp' & HR); auto.
  - rewrite <- E, <- app_assoc. reflexivity.
  - rewrite <- app_assoc in Va. exact Va.
  - constructor; auto. apply CM. split; auto. lia.
  - rewrite zlen_cons. lia.
  - rewrite zlen_cons. lia.
  - right. rewrite zlen_cons. lia.
  - exists a', fam', pos', cmp'. rewrite zlen_cons in HR. exact HR.
Qed.

Lemma forest_pos_spec tel e : ordered (tel ++ [e]) -> 0 <= forest_pos A (tel ++ [e]) (zlen tel) ->
  exists a fam, a ++ fam = tel ++ [e] /\ forest_pos A (tel ++ [e]) (zlen tel) = zlen a /\ 0 < s_level e /\
    e = s_child (s_parent e) (s_num_children (s_parent e) - 1) /\ Forall (fun f => In f (s_children (s_parent e))) fam /\
    1 <= zlen fam <= s_num_siblings e /\ Forall (fun x => ~ below (s_parent e) x) a.
Proof.
  intros HO. assert (HV := ordered_valid HO). assert (Ve : valid e) by (apply Forall_app in HV; destruct HV as [_ HV]; now inversion HV).
  pose proof (valid_level LW Ve) as LE.
  unfold forest_pos. rewrite (znth_pre (s_root S) tel e []). set (p := s_parent e).
  destruct (negb _ || _) eqn:G; [unfold INT32_MIN; lia|].
  destruct (@valid_parent S LW e Ve ltac:(lia)) as (Vp & ELp & Hid & Ec & ENs). fold p in Vp, ELp, Hid, Ec, ENs.
  assert (HL : s_level p < M) by lia. assert (Ie : In e (s_children p)) by (apply in_children; exists (s_child_id e); auto).
  assert (N2 : 1 < s_num_siblings e) by lia.
  destruct (@pos_loop_spec (Z.to_nat (s_num_siblings e)) tel e (s_num_siblings e) p Vp HL ltac:(lia) tel [e] (-1) e) as (a & fam & pos & cmp & EL & E & F & R & HC); auto.
  { change (zlen [e]) with 1. lia. }
  { change (zlen [e]) with 1. lia. }
  change (zlen [e]) with 1 in EL. rewrite EL. assert (ZL : zlen (tel ++ [e]) = zlen a + zlen fam) by (rewrite <- E; apply zlen_app). pose proof (zlen_ge0 a) as Za.
  assert (HO' := HO). rewrite <- E in HO'.
  assert (Bpe : below p e) by (apply below_parent; auto; lia).
  assert (KEY : forall pos', (if (pos' =? 0) && (0 <? a_rank A) && (0 <? s_child_id (el (tel ++ [e]) pos')) then INT32_MIN else pos') >= 0 ->
     pos' >= 0 /\ (if (pos' =? 0) && (0 <? a_rank A) && (0 <? s_child_id (el (tel ++ [e]) pos')) then INT32_MIN else pos') = pos').
  { intros pos'. destruct (_ && _ && _); [unfold INT32_MIN|]; lia. }
  intros HP. apply Z.le_ge in HP. apply KEY in HP. destruct HP as [HP ->]. clear KEY.
  assert (Elast : e = s_child p (s_num_children p - 1)) by (rewrite <- Ec at 1; f_equal; lia).
  destruct HC as [[HE HC]|(Hlt & a'' & Ea & Epos & Nc)].
  - (* the loop ran to its end *)
    assert (G2 : (zlen fam <? s_num_siblings e) && (zlen fam <? zlen (tel ++ [e])) = false).
    { destruct HE as [->| ->]; [rewrite Z.ltb_irrefl; reflexivity|]. rewrite ZL, zlen_nil. replace (0 + zlen fam) with (zlen fam) by lia. rewrite Z.ltb_irrefl. apply andb_false_r. }
    rewrite G2 in *. exists a, fam. split; [exact E|]. split; [lia|]. split; [lia|]. split; [exact Elast|]. split; [exact F|]. split; [lia|].
    destruct HE as [HE| ->]; [|constructor].
    apply ordered_app in HO'; auto. destruct HO' as (_ & Of & Hb).
    assert (EF : fam = s_children p) by (apply full_family; auto; rewrite <- ENs; unfold zlen in HE; lia).
    apply Forall_forall. intros x Hx B. rewrite Forall_forall in Hb. specialize (Hb x Hx). rewrite EF in Hb. destruct (children_cons LW Vp) as (l & El). rewrite El in Hb.
    assert (H1 := Forall_inv Hb). unfold before in H1. rewrite (child_first_lo LW Vp HL) in H1. pose proof (below_nested LW B). destruct (below_valid B) as [_ Vx].
    pose proof (lo_hi LW Vx). lia.
  - (* stopped at cmp *)
    assert (Zaa : zlen a = zlen a'' + 1) by (rewrite Ea; apply zlen_snoc). pose proof (zlen_ge0 a'').
    assert (G2 : (zlen fam <? s_num_siblings e) && (zlen fam <? zlen (tel ++ [e])) = true) by (apply andb_true_iff; split; apply Z.ltb_lt; lia).
    rewrite G2 in *.
    assert (Vc : valid cmp). { rewrite <- E, Ea in HV. apply Forall_app in HV. destruct HV as [HV _]. apply Forall_app in HV. destruct HV as [_ HV]. now inversion HV. }
    destruct ((s_level e <? s_level cmp) && (s_level (s_nca e cmp) =? s_level e - 1)) eqn:G3; [unfold INT32_MIN in HP; lia|].
    assert (Bce : before cmp e).
    { rewrite Ea in HO'. assert (Hf : exists f0 : list elt, fam = f0 ++ [e]).
      { destruct fam as [|x fam0 _] using rev_ind; [rewrite zlen_nil in R; lia|]. exists fam0. rewrite app_assoc in E. apply app_inj_tail in E. destruct E as [_ ->]. reflexivity. }
      destruct Hf as (f0 & ->). rewrite <- app_assoc in HO'. cbn [app] in HO'. apply ordered_app in HO'; auto. destruct HO' as (_ & HO' & _).
      apply ordered_cons in HO'; auto. destruct HO' as (_ & _ & HB). apply Forall_app in HB. destruct HB as [_ HB]. now inversion HB. }
    assert (NB : ~ below p cmp).
    { intros B. destruct (below_level LW B) as [L1 L2].
      destruct (Z.eq_dec (s_level p) (s_level cmp)) as [Eq|]; [specialize (L2 Eq); rewrite <- L2 in Bce; destruct (below_not_before LW Bpe); tauto|].
      destruct (Z.eq_dec (s_level cmp) (s_level p + 1)) as [Eq|]; [apply Nc; apply (child_iff LW); auto|].
      destruct (nca_below LW Ve Vc) as (B1 & B2 & B3). assert (B4 := B3 p Bpe B). destruct (below_level LW B4) as [L3 _].
      destruct (below_level LW B1) as [L4 L5]. destruct (Z.eq_dec (s_level (s_nca e cmp)) (s_level e)) as [Eq|]; [|lia].
      specialize (L5 Eq). rewrite L5 in B2. destruct (below_not_before LW B2). tauto. }
    exists a, fam. split; [exact E|]. split; [lia|]. split; [lia|]. split; [exact Elast|]. split; [exact F|]. split; [lia|].
    rewrite Ea. destruct fam as [|f fam]; [rewrite zlen_nil in R; lia|]. assert (If := Forall_inv F).
    apply (@none_before S LW p a'' cmp f fam); auto; [now rewrite <- Ea|]. apply in_children in If. destruct If as (i & Hi & ->). now apply below_child.
Qed.

Lemma fam_last a fam tel e : a ++ fam = tel ++ [e] -> 1 <= zlen fam -> exists f0 : list elt, fam = f0 ++ [e] /\ tel = a ++ f0.
Proof.
  intros E R. destruct fam as [|x fam0 _] using rev_ind; [rewrite zlen_nil in R; lia|]. rewrite app_assoc in E. apply app_inj_tail in E. destruct E as [<- ->]. eauto.
Qed.
Lemma coarsen_loop_full fuel : forall st lelement tel e el_coarsen, ordered (tel ++ [e]) -> 0 <= el_coarsen ->
  match coarsen_loop cb A fuel st ltree lelement (tel ++ [e]) el_coarsen (s_num_siblings e) (forest_pos A (tel ++ [e]) (zlen tel)) with
  | Ok (st', tel') => csteps (tel ++ [e]) tel' /\ (cb_no_coarsen cb -> tel' = tel ++ [e] /\ declined cb ltree lelement st st')
  | OutOfFuel => Z.of_nat fuel < s_level e
  | _ => False
  end.
Proof.
  assert (DONE : forall lelement st tel, csteps tel tel /\ (cb_no_coarsen cb -> tel = tel /\ declined cb ltree lelement st st)) by (intros; split; [constructor|split; [auto|now left]]).
  induction fuel as [|fuel IH]; intros st lelement tel e el_coarsen HO Hc; cbn [coarsen_loop].
  - destruct (_ && _) eqn:G; [|apply DONE]. destruct (@forest_pos_spec tel e HO ltac:(lia)) as (_ & _ & _ & _ & HLe & _). cbn. lia.
  - set (pos := forest_pos A (tel ++ [e]) (zlen tel)) in *. destruct (_ && _) eqn:G; [|apply DONE].
    destruct (@forest_pos_spec tel e HO ltac:(fold pos; lia)) as (a & fam & E & Epos & HLe & Elast & F & R & Na). fold pos in Epos.
    assert (Ve : valid e) by (assert (HV := ordered_valid HO); apply Forall_app in HV; destruct HV as [_ HV]; now inversion HV).
    destruct (valid_parent LW Ve HLe) as (Vp & ELp & Hid & Ec & ENs). set (p := s_parent e) in *. pose proof (valid_level LW Ve).
    destruct (fam_last E ltac:(lia)) as (f0 & Ef & Et).
    assert (SK : skipn (Z.to_nat pos) (tel ++ [e]) = fam) by (rewrite Epos, <- E; apply skipn_pre).
    assert (FN : firstn (Z.to_nat (s_num_siblings e)) fam = fam) by (apply firstn_all2; unfold zlen in R; lia). rewrite SK, FN.
    assert (ZL : zlen (tel ++ [e]) = pos + zlen fam) by (rewrite <- E, zlen_app; lia).
    assert (HP : s_parent (el fam 0) = p).
    { destruct fam as [|f fam]; [rewrite zlen_nil in R; lia|]. assert (If := Forall_inv F). change (el (f :: fam) 0) with f. apply in_children in If. destruct If as (i & Hi & ->).
      apply valid_child; auto. lia. }
    assert (KEY : forall num, num = zlen fam -> firstn (Z.to_nat (zlen (tel ++ [e]) - (num - 1))) (firstn (Z.to_nat pos) (tel ++ [e]) ++ s_parent (el fam 0) :: skipn (Z.to_nat (pos + 1)) (tel ++ [e])) = a ++ [p]).
    { intros num ->. rewrite HP. assert (F1 : firstn (Z.to_nat pos) (tel ++ [e]) = a).
      { rewrite <- E, Epos. unfold zlen. rewrite Nat2Z.id, firstn_app, Nat.sub_diag, firstn_all. cbn [firstn]. apply app_nil_r. }
      rewrite F1. replace (Z.to_nat (zlen (tel ++ [e]) - (zlen fam - 1))) with (length a + 1)%nat by (unfold zlen in *; lia).
      rewrite firstn_app_2. reflexivity. }
    assert (STEP : (a_incomplete A = false -> fam = s_children p) -> cstep (tel ++ [e]) (a ++ [p])).
    { intros HF. rewrite <- E, Ef. constructor; auto; try (now rewrite <- Ef); try lia. }
    assert (OP : ordered (a ++ [p])).
    { rewrite <- E in HO. change (a ++ [p]) with (a ++ p :: []). apply (@ordered_coarsen S LW a p fam []).
      - now rewrite app_nil_r.
      - destruct fam; [rewrite zlen_nil in R; lia|discriminate].
      - rewrite Forall_forall in F |- *. intros f Hf. specialize (F f Hf). apply in_children in F. destruct F as (i & Hi & ->). apply below_child; auto. lia.
      - rewrite app_nil_r. exact Na. }
    destruct (if a_incomplete A then _ else _) as [isf num] eqn:FT.
    destruct isf; cbn [negb]; [|apply DONE].
    assert (Hnum : num = zlen fam /\ (a_incomplete A = false -> fam = s_children p)).
    { destruct (a_incomplete A).
      - injection FT as <-. split; [lia|discriminate].
      - destruct (_ && _) eqn:T in FT; [|discriminate]. injection FT as <-. split; [lia|]. intros _. apply full_family; auto; [lia| |rewrite <- ENs; unfold zlen in T; lia].
        rewrite <- E in HO. apply ordered_app in HO; auto. apply HO. }
    destruct Hnum as [Hnum HF]. rewrite (KEY num Hnum).
    destruct (cb st ltree lelement true (firstn (Z.to_nat num) fam)) as [st1 r] eqn:C. destruct (Z.eqb_spec r (-1)) as [Er|Er].
    2:{ split; [constructor|]. intros _. split; auto. right. exists (firstn (Z.to_nat num) fam). now rewrite C. }
    rewrite HP. replace pos with (zlen a) by lia. specialize (IH st1 lelement a p el_coarsen OP Hc).
    destruct (coarsen_loop _ _ _ _ _ _ _ _ _ _) as [[st' tel']| | |]; auto; [|lia].
    split; [econstructor; [apply STEP; auto|apply IH]|]. intros NC. specialize (NC st ltree lelement true (firstn (Z.to_nat num) fam)). rewrite C in NC. cbn [snd] in NC. congruence.
Qed.
Lemma maybe_coarsen_full fuel st lelement tel e el_coarsen nc : ordered (tel ++ [e]) -> 0 <= el_coarsen ->
  match maybe_coarsen cb A fuel st ltree lelement (tel ++ [e]) el_coarsen nc with
  | Ok (st', tel') => csteps (tel ++ [e]) tel' /\ (cb_no_coarsen cb -> tel' = tel ++ [e] /\ declined cb ltree lelement st st')
  | OutOfFuel => Z.of_nat fuel < s_level e
  | _ => False
  end.
Proof.
  intros HO Hc. unfold maybe_coarsen. destruct (a_recursive A); [|split; [constructor|split; [auto|now left]]].
  destruct (_ && _); [|split; [constructor|split; [auto|now left]]]. unfold coarsen_recursive. rewrite last_elem.
  replace (zlen (tel ++ [e]) - 1) with (zlen tel) by (rewrite zlen_snoc; lia). now apply coarsen_loop_full.
Qed.
Lemma maybe_coarsen_steps fuel st lelement tel e el_coarsen nc st' tel' : ordered (tel ++ [e]) -> 0 <= el_coarsen ->
  maybe_coarsen cb A fuel st ltree lelement (tel ++ [e]) el_coarsen nc = Ok (st', tel') -> csteps (tel ++ [e]) tel'.
Proof. intros HO Hc H. assert (F := @maybe_coarsen_full fuel st lelement tel e el_coarsen nc HO Hc). rewrite H in F. apply F. Qed.

(** ** the invariant of the element loop *)
Definition comp (pre : list elt) (x : elt) : Prop := Exists (fun y => below x y \/ below y x) pre.
(** no element is dropped silently *)
Definition nodrop : Prop := a_recursive A = true -> cb_respects_maxlevel cb A.
Record inv (from pre rest tel : list elt) (rem : bool) : Prop := {
  i_ord : ordered (tel ++ rest);
  i_comp : a_incomplete A = true -> Forall (comp pre) tel;
  i_region : nodrop -> a_incomplete A = false -> rem = false -> region (tel ++ rest) = region from;
  i_cover : nodrop -> rem = false -> incl (region from) (region (tel ++ rest));
  i_lev : Forall (fun x => s_level x <= a_maxlevel A) (tel ++ rest) }.

Lemma comp_mono pre q x : comp pre x -> comp (pre ++ q) x.
Proof. intros H. apply Exists_app. now left. Qed.
Lemma comp_children pre e q : valid e -> s_level e < M -> Forall (comp (pre ++ e :: q)) (s_children e).
Proof.
  intros V HL. eapply Forall_impl; [|apply (children_below LW V HL)]. intros c B. apply Exists_app. right. constructor. now right.
Qed.
Lemma cells_below e f : below e f -> incl (cells f) (cells e).
Proof.
  intros (p & r & H & -> & ->). revert H. induction r as [|i r IH] using rev_ind; intros H; [rewrite app_nil_r; apply incl_refl|].
  rewrite app_assoc in *. apply gpath_snoc_inv in H. destruct H as (H & HL & Hi). eapply incl_tran; [|exact (IH H)].
  assert (V := valid_walk H). rewrite <- (cells_children LW V) by (rewrite (law_level LW H); auto). rewrite gwalk_snoc.
  intros c Hc. apply in_flat_map. exists (s_child (gwalk S (p ++ r)) i). split; auto. apply in_children. eauto.
Qed.
Lemma incl_region_mid a m b m' (c : list elt) : incl c (region (a ++ m ++ b)) -> incl (region m) (region m') -> incl c (region (a ++ m' ++ b)).
Proof.
  intros H1 H2 x Hx. specialize (H1 x Hx). rewrite !region_app, !in_app_iff in *. destruct H1 as [H1|[H1|H1]]; [now left| |now (right; right)]. right. left. now apply H2.
Qed.
Lemma fam_region_incl p fam : valid p -> s_level p < M -> Forall (fun f => In f (s_children p)) fam -> incl (region fam) (cells p).
Proof.
  intros V HL F x Hx. apply in_flat_map in Hx. destruct Hx as (f & Hf & Hx). rewrite Forall_forall in F. rewrite <- (cells_children LW V HL).
  apply in_flat_map. exists f. split; auto.
Qed.

Lemma inv_mono from pre q rest tel rem : inv from pre rest tel rem -> inv from (pre ++ q) rest tel rem.
Proof.
  intros [I1 I2 I3 I4 I5]. split; auto. intros H. eapply Forall_impl; [|exact (I2 H)]. intros x. apply comp_mono.
Qed.
(** an element of the rest is copied / refined / skipped *)
Lemma inv_keep from pre e rest tel rem : inv from pre (e :: rest) tel rem -> comp pre e -> inv from pre rest (tel ++ [e]) rem.
Proof.
  intros [I1 I2 I3 I4 I5] C. split; try (rewrite <- app_assoc; cbn [app]; auto; fail).
  intros H. apply Forall_app. split; auto.
Qed.
Lemma inv_refine from pre e rest tel rem : inv from pre (e :: rest) tel rem -> s_level e < a_maxlevel A -> inv from pre (s_children e ++ rest) tel rem.
Proof.
  intros [I1 I2 I3 I4 I5] HL. assert (V : valid e). { apply ordered_valid, Forall_app in I1. destruct I1 as [_ I1]. now inversion I1. }
  assert (R : region (tel ++ s_children e ++ rest) = region (tel ++ e :: rest)).
  { rewrite !region_app, region_cons, (cells_children LW V) by lia. reflexivity. }
  split; auto.
  - apply ordered_refine; auto. lia.
  - intros. rewrite R. auto.
  - intros. rewrite R. auto.
  - apply Forall_app in I5. destruct I5 as [F1 F2]. inversion F2; subst. apply Forall_app. split; auto. apply Forall_app. split; auto.
    apply Forall_forall. intros c Hc. apply in_children in Hc. destruct Hc as (i & Hi & ->). destruct (@valid_child S LW e i V ltac:(lia) Hi) as (_ & -> & _). lia.
Qed.
Lemma inv_skip from pre e rest tel rem rem' : inv from pre (e :: rest) tel rem -> (nodrop -> rem' = true) -> inv from pre rest tel rem'.
Proof.
  intros [I1 I2 I3 I4 I5] HR. split; auto.
  - change (tel ++ e :: rest) with (tel ++ [e] ++ rest) in I1. now apply (ordered_drop LW) in I1.
  - intros N _ H. rewrite (HR N) in H. discriminate.
  - intros N H. rewrite (HR N) in H. discriminate.
  - apply Forall_app in I5. destruct I5 as [F1 F2]. inversion F2; subst. apply Forall_app. auto.
Qed.
Lemma inv_cstep from pre rest tel tel' rem : cstep tel tel' -> inv from pre rest tel rem -> inv from pre rest tel' rem.
Proof.
  intros HC [I1 I2 I3 I4 I5]. destruct HC as [a fam e p Vp HL F Elast Na HF].
  assert (Be : below p e) by (rewrite Elast; apply below_child; auto; pose proof (valid_nchild LW Vp); lia).
  assert (Bf : Forall (below p) (fam ++ [e])).
  { eapply Forall_impl; [|exact F]. intros f If. apply in_children in If. destruct If as (i & Hi & ->). now apply below_child. }
  assert (Nr : Forall (fun x => ~ below p x) rest).
  { apply Forall_forall. intros x Hx B. rewrite <- !app_assoc in I1. apply ordered_app in I1; auto. destruct I1 as (_ & I1 & _).
    apply ordered_app in I1; auto. destruct I1 as (_ & I1 & _). cbn [app] in I1. apply ordered_cons in I1; auto. destruct I1 as (_ & _ & I1).
    rewrite Forall_forall in I1. specialize (I1 x Hx). unfold before in I1. rewrite Elast, (child_last_hi LW Vp HL) in I1. pose proof (below_nested LW B).
    destruct (below_valid B) as [_ Vx]. pose proof (lo_hi LW Vx). lia. }
  rewrite <- app_assoc in I1, I3, I4, I5.
  split; rewrite <- ?app_assoc.
  - apply (@ordered_coarsen S LW a p (fam ++ [e]) rest); auto; [destruct fam; discriminate|]. apply Forall_app. auto.
  - intros H. specialize (I2 H). rewrite Forall_app in I2 |- *. destruct I2 as [Ia Ie]. split; auto. constructor; [|constructor].
    apply Forall_app in Ie. destruct Ie as [_ Ie]. inversion Ie as [|? ? Ce _]; subst x l. apply Exists_exists in Ce. apply Exists_exists. destruct Ce as (y & Hy & Cy). exists y. split; auto.
    destruct Cy as [B|B]; [left; eapply below_trans; eauto|]. destruct (below_linear LW Be B); auto.
  - intros N HI HR. rewrite <- (I3 N HI HR). rewrite (HF HI), !region_app, region_one, (cells_children LW Vp HL). reflexivity.
  - intros N HR. eapply incl_region_mid; [exact (I4 N HR)|]. rewrite region_one. now apply fam_region_incl.
  - apply Forall_app in I5. destruct I5 as [F1 F2]. apply Forall_app in F2. destruct F2 as [F2 F3]. apply Forall_app. split; auto. apply Forall_app. split; auto.
    constructor; [|constructor]. apply Forall_app in F2. destruct F2 as [_ F2]. inversion F2 as [|? ? Le _]; subst x l. destruct (below_level LW Be). lia.
Qed.
Lemma inv_csteps from pre rest tel tel' rem : csteps tel tel' -> inv from pre rest tel rem -> inv from pre rest tel' rem.
Proof. intros H. induction H; auto. intros I. apply IHcsteps. eapply inv_cstep; eauto. Qed.
(** a family of the rest is replaced by its parent *)
Lemma inv_coarsen from pre r tel rem p fam e rest : ordered (pre ++ e :: rest) -> family_at A ltree pre (e :: rest) p fam -> e :: rest = fam ++ r ->
  inv from pre (e :: rest) tel rem -> inv from (pre ++ fam) r (tel ++ [p]) rem.
Proof.
  intros HO (Vp & HL & r' & E' & HF) E [I1 I2 I3 I4 I5]. assert (r' = r) by (rewrite E in E'; now apply app_inv_head in E'). subst r'.
  assert (Fc : fam <> [] /\ Forall (fun f => In f (s_children p)) fam).
  { destruct (a_incomplete A); [tauto|]. subst fam. split; [destruct (children_cons LW Vp) as (l & ->); discriminate|]. now apply Forall_forall. }
  destruct Fc as [Nf Fc].
  assert (Bf : Forall (below p) fam).
  { eapply Forall_impl; [|exact Fc]. intros f If. apply in_children in If. destruct If as (i & Hi & ->). now apply below_child. }
  rewrite E in *.
  assert (If : exists f, In f fam) by (destruct fam as [|f fam']; [congruence|exists f; now left]). destruct If as (f & If).
  assert (Bpf : below p f) by (rewrite Forall_forall in Bf; auto).
  split; rewrite <- ?app_assoc.
  - apply (@ordered_coarsen S LW tel p fam r); auto. apply Forall_app. destruct (a_incomplete A) eqn:C.
    + destruct HF as (_ & _ & HF & _). apply Forall_app in HF. destruct HF as [HF1 HF2]. split; auto.
      specialize (I2 eq_refl). apply Forall_forall. intros x Hx B. rewrite Forall_forall in I2, HF1. specialize (I2 x Hx). apply Exists_exists in I2. destruct I2 as (y & Hy & [By|By]).
      * apply (HF1 y Hy). eapply below_trans; eauto.
      * destruct (below_linear LW B By) as [B'|B']; [exact (HF1 y Hy B')|].
        (* p is below y, hence x overlaps f *)
        apply ordered_app in HO; auto. destruct HO as (_ & _ & Hb). rewrite Forall_forall in Hb. specialize (Hb y Hy). apply Forall_app in Hb. destruct Hb as [Hb _].
        rewrite Forall_forall in Hb. specialize (Hb f If). assert (Byf := below_trans LW B' Bpf). destruct (below_not_before LW Byf). tauto.
    + subst fam. apply ordered_app in I1; auto. destruct I1 as (_ & I1 & Hb). apply ordered_app in I1; auto. destruct I1 as (_ & _ & Hb2).
      pose proof (valid_nchild LW Vp). split; apply Forall_forall; intros x Hx B; pose proof (below_nested LW B); destruct (below_valid B) as [_ Vx]; pose proof (lo_hi LW Vx).
      * rewrite Forall_forall in Hb. specialize (Hb x Hx). apply Forall_app in Hb. destruct Hb as [Hb _]. destruct (children_cons LW Vp) as (l & El). rewrite El in Hb.
        assert (Hb1 := Forall_inv Hb). unfold before in Hb1. rewrite (child_first_lo LW Vp HL) in Hb1. lia.
      * rewrite Forall_forall in Hb2. assert (Il : In (s_child p (s_num_children p - 1)) (s_children p)) by (apply in_children; exists (s_num_children p - 1); split; [lia|auto]).
        specialize (Hb2 _ Il). rewrite Forall_forall in Hb2. specialize (Hb2 x Hx). unfold before in Hb2. rewrite (child_last_hi LW Vp HL) in Hb2. lia.
  - intros H. specialize (I2 H). apply Forall_app. split; [eapply Forall_impl; [|exact I2]; intros x; apply comp_mono|]. constructor; [|constructor].
    apply Exists_app. right. apply Exists_exists. exists f. auto.
  - intros N HI HR. rewrite <- (I3 N HI HR). rewrite HI in HF. subst fam. rewrite !region_app, region_one, (cells_children LW Vp HL). reflexivity.
  - intros N HR. eapply incl_region_mid; [exact (I4 N HR)|]. rewrite region_one. now apply fam_region_incl.
  - apply Forall_app in I5. destruct I5 as [F1 F2]. apply Forall_app in F2. destruct F2 as [F2 F3]. apply Forall_app. split; auto. apply Forall_app. split; auto.
    constructor; [|constructor]. rewrite Forall_forall in F2. specialize (F2 f If). destruct (below_level LW Bpf). lia.
Qed.

(** ** recursive refinement *)
Definition under (pre : list elt) (x : elt) : Prop := Exists (fun y => below y x) pre.
Lemma under_comp pre x : under pre x -> comp pre x.
Proof. intros H. eapply Exists_impl; [|exact H]. cbn. tauto. Qed.
Lemma refine_recursive_inv fuel : a_recursive A = true -> forall from pre rest st lelement lst tel rem st' tel' rem',
  inv from pre (lst ++ rest) tel rem -> Forall (under pre) lst ->
  refine_recursive cb A fuel st ltree lelement lst tel rem = Ok (st', tel', rem') -> inv from pre rest tel' rem'.
Proof.
  intros HR from pre rest. induction fuel as [|fuel IH]; intros st lelement lst tel rem st' tel' rem' I U H; destruct lst as [|e lst]; cbn [refine_recursive] in H;
    try discriminate; try (injection H as <- <- <-; exact I).
  destruct (cb st ltree lelement false [e]) as [st1 r] eqn:C. destruct (r =? -1) eqn:T1; [discriminate|].
  assert (Ve : valid e). { destruct I as [I _ _ _ _]. apply ordered_valid, Forall_app in I. destruct I as [_ I]. now inversion I. }
  assert (U1 := Forall_inv U). assert (U2 := Forall_inv_tail U). cbn [app] in I.
  destruct (Z.eqb_spec r 1) as [E1|E1].
  - unfold s_refinable in H. destruct (_ && _) eqn:G.
    + eapply IH; [|  |exact H].
      * rewrite <- app_assoc. apply inv_refine; auto. lia.
      * apply Forall_app. split; auto. eapply Forall_impl; [|apply (children_below LW Ve)]; [|lia]. intros c B. apply Exists_exists in U1. destruct U1 as (y & Hy & By).
        apply Exists_exists. exists y. split; auto. eapply below_trans; eauto.
    + eapply IH; [|exact U2|exact H]. eapply inv_skip; [exact I|]. intros N. specialize (N HR st ltree lelement e). rewrite C in N. cbn [snd] in N. specialize (N E1). lia.
  - destruct (r =? -2) eqn:E2.
    + eapply IH; [|exact U2|exact H]. eapply inv_skip; [exact I|]. auto.
    + destruct (r =? 0) eqn:E3; [|discriminate]. eapply IH; [|exact U2|exact H]. apply inv_keep; auto. now apply under_comp.
Qed.

(** ** the element loop *)
Lemma leaves_ordered from : leaves_ok A from -> ordered from.
Proof. unfold leaves_ok. destruct (a_incomplete A); auto. intros H. now apply contiguous_ordered. Qed.

Lemma adapt_loop_inv fuel : forall st pre rest tel elc nc rem st' tel' rem', leaves_ok A (pre ++ rest) -> inv (pre ++ rest) pre rest tel rem -> 0 <= elc ->
  adapt_loop cb A fuel st ltree (pre ++ rest) (zlen pre) tel elc nc rem = Ok (st', tel', rem') -> inv (pre ++ rest) (pre ++ rest) [] tel' rem'.
Proof.
  induction fuel as [|fuel IH]; intros st pre rest tel elc nc rem st' tel' rem' HO I Hc H; cbn [adapt_loop] in H; rewrite zlen_app in H; pose proof (zlen_ge0 rest) as Zr.
  - destruct (Z.ltb_spec (zlen pre) (zlen pre + zlen rest)) as [G|G]; [discriminate|]. injection H as <- <- <-. destruct rest; [|rewrite zlen_cons in *; pose proof (zlen_ge0 rest); lia]. now rewrite app_nil_r in *.
  - destruct (Z.ltb_spec (zlen pre) (zlen pre + zlen rest)) as [G|G].
    2:{ injection H as <- <- <-. destruct rest; [|rewrite zlen_cons in *; pose proof (zlen_ge0 rest); lia]. now rewrite app_nil_r in *. }
    destruct rest as [|e rest]; [rewrite zlen_nil in G; lia|].
    destruct (@family_of_spec S LW A ltree pre e rest HO) as (els & b & num & EF & Eh & Enum & Pnum & HF). rewrite EF, Eh, znth_pre in H.
    assert (HO1 := leaves_ordered HO).
    assert (Ve : valid e) by (apply ordered_valid, Forall_app in HO1; destruct HO1 as [_ HO1]; now inversion HO1).
    destruct (cb st ltree (zlen pre) b (firstn (Z.to_nat num) els)) as [st1 r0] eqn:C. destruct (negb b && (r0 =? -1)) eqn:T1; [discriminate|].
    unfold s_refinable in H. set (r := if (0 <? r0) && _ then 0 else r0) in H.
    assert (Eapp : pre ++ e :: rest = (pre ++ [e]) ++ rest) by (now rewrite <- app_assoc).
    assert (Ezl : zlen pre + 1 = zlen (pre ++ [e])) by (now rewrite zlen_snoc).
    assert (Cpe : comp (pre ++ [e]) e) by (apply Exists_app; right; constructor; left; now apply below_refl).
    assert (Ik : inv (pre ++ e :: rest) (pre ++ [e]) rest (tel ++ [e]) rem) by (apply inv_keep; auto; now apply inv_mono).
    destruct (Z.eqb_spec r 1) as [E1|E1].
    + assert (HLe : s_level e < a_maxlevel A) by (unfold r in E1; destruct ((0 <? r0) && _) eqn:T in E1; lia).
      assert (Ir : inv (pre ++ e :: rest) (pre ++ [e]) (s_children e ++ rest) tel rem) by (apply inv_refine; auto; now apply inv_mono).
      assert (Uc : Forall (under (pre ++ [e])) (s_children e)).
      { eapply Forall_impl; [|apply (children_below LW Ve)]; [|lia]. intros c B. apply Exists_app. right. now constructor. }
      destruct (a_recursive A) eqn:HR.
      * destruct (refine_recursive cb A (Datatypes.S fuel) st1 ltree (zlen pre) (s_children e) tel rem) as [[[st2 tel2] rem2]| | |] eqn:RR; try discriminate.
        rewrite Eapp, Ezl in H. apply IH in H; auto; [now rewrite Eapp|now rewrite <- Eapp| |apply zlen_ge0]. rewrite <- Eapp. eapply refine_recursive_inv; eauto.
      * rewrite Eapp, Ezl in H. apply IH in H; auto; [now rewrite Eapp|now rewrite <- Eapp|]. rewrite <- Eapp.
        clear IH H. revert Ir. assert (Uc' := Uc). clear -Uc' LW HMax. revert tel. induction (s_children e) as [|c cs IHc]; intros tel Ir; [now rewrite app_nil_r|].
        change (tel ++ c :: cs) with (tel ++ [c] ++ cs). rewrite app_assoc. apply IHc; [now apply Forall_inv_tail in Uc'|]. apply inv_keep; auto. apply under_comp. now apply Forall_inv in Uc'.
    + destruct (Z.eqb_spec r (-1)) as [E2|E2].
      * assert (Er0 : r0 = -1) by (unfold r in E2; destruct ((0 <? r0) && _) in E2; lia). subst r0.
        destruct HF as [[-> HFam]|(-> & _)]; [|discriminate].
        set (fam := firstn (Z.to_nat num) els) in *. assert (Hx := HFam). destruct Hx as (_ & _ & rr & Er & _).
        assert (Ic : inv (pre ++ e :: rest) (pre ++ fam) rr (tel ++ [s_parent e]) rem) by (eapply inv_coarsen; eauto).
        assert (Eapp2 : pre ++ e :: rest = (pre ++ fam) ++ rr) by (rewrite Er; apply app_assoc).
        assert (Ezl2 : zlen pre + num = zlen (pre ++ fam)) by (rewrite zlen_app; lia).
        destruct (maybe_coarsen _ _ _ _ _ _ _ _ _) as [[st2 tel2]| | |] eqn:MC; try discriminate.
        rewrite Eapp2, Ezl2 in H. apply IH in H; auto; [now rewrite Eapp2|now rewrite <- Eapp2|]. rewrite <- Eapp2.
        apply maybe_coarsen_steps in MC; auto; [eapply inv_csteps; eauto|]. destruct Ic as [Ic _ _ _ _]. apply ordered_app in Ic; auto. apply Ic.
      * destruct (r =? 0) eqn:E3.
        -- destruct (maybe_coarsen _ _ _ _ _ _ _ _ _) as [[st2 tel2]| | |] eqn:MC; try discriminate.
           rewrite Eapp, Ezl in H. apply IH in H; auto; [now rewrite Eapp|now rewrite <- Eapp|]. rewrite <- Eapp.
           apply maybe_coarsen_steps in MC; auto; [eapply inv_csteps; eauto|]. destruct Ik as [Ik _ _ _ _]. apply ordered_app in Ik; auto. apply Ik.
        -- destruct (r =? -2) eqn:E4; [|discriminate]. rewrite Eapp, Ezl in H. apply IH in H; auto; [now rewrite Eapp|now rewrite <- Eapp|]. rewrite <- Eapp.
           eapply inv_skip; [apply inv_mono; exact I|]. auto.
Qed.
End adapt.

(** The family tests of the adaptation step find exactly the families of AdaptSpec.v. *)
From Verif Require Import Prelude PathSpec SchemeModel SchemeSpec SchemeProofs SchemeOrderProofs AdaptModel AdaptSpec.
From Coq Require Import Sorting.Sorted.

Section family.
Variable S : scheme.
Hypothesis LW : laws S.
Notation elt := (elt S).
Notation M := (s_maxlevel S).
Variable A : aenv.
Variable ltree : Z.
Implicit Types e f p : elt.
Implicit Types l pre rest fam : list elt.

Lemma gather_complete n zz rest b z : a_incomplete A = false -> gather A n zz rest = (b, z) ->
  (exists r, rest = b ++ r) /\ z <= zz + Z.of_nat n /\ (z = zz + Z.of_nat n -> length b = n) /\ ((0 < n)%nat -> hd_error b = hd_error rest).
Proof.
  intros C. revert zz rest b z. induction n as [|n IH]; intros zz rest b z H; cbn [gather] in H.
  - injection H as <- <-. split; [now exists rest|]. split; [lia|]. split; [reflexivity|lia].
  - destruct rest as [|e rest]; [injection H as <- <-; split; [now exists []|]; split; [lia|]; split; [lia|reflexivity]|].
    rewrite C in H. cbn [negb andb] in H. destruct (s_child_id e =? zz) eqn:E; cbn [negb] in H.
    + destruct (gather A n (zz + 1) rest) as [b' z'] eqn:G. injection H as <- <-. destruct (IH _ _ _ _ G) as ((r & ->) & H1 & H2 & _).
      split; [now exists r|]. split; [lia|]. split; [|reflexivity]. intros Hz. cbn [length]. f_equal. apply H2. lia.
    + injection H as <- <-. split; [now exists rest|]. split; [lia|]. split; [lia|reflexivity].
Qed.
Lemma gather_children p n i r : a_incomplete A = false -> valid p -> s_level p < M -> 0 <= i -> i + Z.of_nat n <= s_num_children p ->
  gather A n i (map (s_child p) (zseq i n) ++ r) = (map (s_child p) (zseq i n), i + Z.of_nat n).
Proof.
  intros C V HL. revert i. induction n as [|n IH]; intros i Hi Hn; cbn [gather zseq map app]; [f_equal; lia|].
  rewrite C. destruct (@valid_child S LW p i V HL ltac:(lia)) as (_ & _ & _ & -> & _). rewrite Z.eqb_refl. cbn [negb andb].
  rewrite IH by lia. f_equal. lia.
Qed.
Lemma gather_incomplete n zz rest : a_incomplete A = true -> gather A n zz rest = (firstn n rest, zz + zlen (firstn n rest)).
Proof.
  intros C. revert zz rest. induction n as [|n IH]; intros zz rest; cbn [gather firstn].
  - rewrite zlen_nil. f_equal. lia.
  - destruct rest as [|e rest]; [rewrite zlen_nil; f_equal; lia|]. rewrite C. cbn [negb andb]. rewrite IH, zlen_cons. f_equal. lia.
Qed.
Lemma skipn_pre {B} (pre rest : list B) : skipn (Z.to_nat (zlen pre)) (pre ++ rest) = rest.
Proof. unfold zlen. rewrite Nat2Z.id, skipn_app, skipn_all, Nat.sub_diag. reflexivity. Qed.
Lemma znth_pre {B} (d : B) (pre : list B) (e : B) (post : list B) : znth d (pre ++ e :: post) (zlen pre) = e.
Proof. unfold znth, zlen. rewrite Nat2Z.id, app_nth2, Nat.sub_diag by lia. reflexivity. Qed.

(** the head of a family determines the parent *)
Lemma family_parent pre e post p fam : family_at A ltree pre (e :: post) p fam -> p = s_parent e /\ 0 < s_level e /\ valid e /\ s_num_siblings e = s_num_children p.
Proof.
  intros (V & HL & r & E & H). assert (I : In e (s_children p)).
  { destruct (a_incomplete A).
    - destruct H as (N & F & _). destruct fam as [|f fam]; [congruence|]. cbn [app] in E. injection E as -> _. now inversion F.
    - subst fam. destruct (children_cons LW V) as (l & El). rewrite El in *. cbn [app] in E. injection E as -> _. now left. }
  apply in_children in I. destruct I as (i & Hi & ->). destruct (valid_child LW V HL Hi) as (Vc & -> & -> & _ & ->). pose proof (valid_level LW V). repeat split; auto; lia.
Qed.
Lemma child_iff p e : valid p -> s_level p < M -> valid e -> (In e (s_children p) <-> below p e /\ s_level e = s_level p + 1).
Proof.
  intros V HL Ve. rewrite in_children. split.
  - intros (i & Hi & ->). split; [now apply below_child|]. now apply valid_child.
  - intros [B EL]. pose proof (valid_level LW V). destruct (@below_parent_of S LW p e B) as [L' B']; [intros ->; lia|].
    destruct (valid_parent LW Ve L') as (Vp & El & Hi & Ec & _). destruct (below_level LW B') as [_ Eq]. rewrite Eq in * by lia. exists (s_child_id e). auto.
Qed.

(** ** complete forests *)
Lemma family_of_complete pre e post : a_incomplete A = false -> contiguous (pre ++ e :: post) ->
  exists els b num, family_of A (pre ++ e :: post) ltree (zlen pre) = (els, b, num) /\ znth (s_root S) els 0 = e /\ num = zlen (firstn (Z.to_nat num) els) /\ 0 < num /\
  ((b = true /\ family_at A ltree pre (e :: post) (s_parent e) (firstn (Z.to_nat num) els)) \/
   (b = false /\ num = 1 /\ firstn (Z.to_nat num) els = [e] /\ forall p fam, ~ family_at A ltree pre (e :: post) p fam)).
Proof.
  intros C HC. assert (Cr := contiguous_app_r HC). assert (Ve : valid e) by (destruct Cr as [V _]; now inversion V).
  pose proof (nsib_pos LW Ve) as NP.
  unfold family_of. rewrite znth_pre, skipn_pre. destruct (gather A (Z.to_nat (s_num_siblings e)) 0 (e :: post)) as [els zz] eqn:G. rewrite C.
  destruct (gather_complete C G) as ((r & Er) & Hz & HL & HH). specialize (HH ltac:(lia)). cbn [hd_error] in HH.
  assert (E0 : exists els', els = e :: els') by (destruct els as [|x els']; [discriminate|injection HH as ->; eauto]). destruct E0 as (els' & E0).
  destruct ((zz =? s_num_siblings e) && s_is_family els) eqn:T.
  - apply andb_true_iff in T. destruct T as [T1 T2]. apply Z.eqb_eq in T1. specialize (HL ltac:(lia)).
    assert (Ce : contiguous els) by (rewrite Er in Cr; now apply contiguous_app_l in Cr).
    destruct (@law_family_only S LW els e Ce HH ltac:(lia) T2) as [L1 L2].
    exists els, true, (s_num_siblings e). assert (FN : firstn (Z.to_nat (s_num_siblings e)) els = els) by (rewrite <- HL; apply firstn_all). rewrite FN.
    split; [reflexivity|]. split; [subst els; reflexivity|]. split; [unfold zlen; lia|]. split; [lia|]. left. split; auto.
    destruct (valid_parent LW Ve L1) as (Vp & EL & _). pose proof (valid_level LW Ve).
    split; auto. split; [lia|]. exists r. rewrite C. split; [now rewrite Er|exact L2].
  - exists els, false, 1. split; [reflexivity|]. split; [subst els; reflexivity|]. split; [subst els; reflexivity|]. split; [lia|]. right. split; [reflexivity|]. split; [reflexivity|].
    split; [subst els; reflexivity|]. intros p fam HF. destruct (family_parent HF) as (-> & HLe & _ & HN).
    destruct HF as (Vp & HLp & r' & E & HF). rewrite C in HF. subst fam. rewrite E in G. rewrite HN in G. unfold s_children in G.
    rewrite gather_children in G; auto; [|lia|lia]. injection G as <- <-. rewrite HN in T.
    assert (F := valid_nchild LW Vp). rewrite andb_false_iff in T. destruct T as [T|T]; [lia|].
    assert (X : s_is_family (s_children (s_parent e)) = true); [|unfold s_children in X; congruence].
    destruct Vp as (q & Hq & Eq). rewrite Eq. apply (law_family LW Hq). rewrite Eq, (law_level LW Hq) in HLp. exact HLp.
Qed.

(** ** incomplete forests *)
Lemma run_le lev p l : 0 <= incomplete_run lev p l <= zlen l.
Proof.
  induction l as [|e l IH]; cbn [incomplete_run]; [unfold zlen; cbn [length]; lia|]. rewrite zlen_cons. pose proof (zlen_ge0 l).
  destruct (negb _); [lia|]. destruct (negb _); lia.
Qed.
Lemma run_spec p l : valid p -> s_level p < M -> Forall valid l -> let n := incomplete_run (s_level p + 1) p l in
  Forall (fun f => In f (s_children p)) (firstn (Z.to_nat n) l) /\
  (forall x r, skipn (Z.to_nat n) l = x :: r -> ~ In x (s_children p)).
Proof.
  intros V HL F. induction F as [|e l Ve F IH]; cbn [incomplete_run].
  - split; [constructor|]. intros x r E. rewrite skipn_nil in E. discriminate.
  - assert (CI := child_iff V HL Ve). assert (EP : s_level e = s_level p + 1 -> (s_equal p (s_parent e) = true <-> In e (s_children p))).
    { intros El. pose proof (valid_level LW V). destruct (@valid_parent S LW e Ve ltac:(lia)) as (Vp' & El' & Hi & Ec & _). rewrite (valid_equal LW V Vp'). split.
      - intros E. apply in_children. exists (s_child_id e). rewrite E. split; auto.
      - intros I. apply in_children in I. destruct I as (i & Hi' & ->). now destruct (valid_child LW V HL Hi') as (_ & _ & -> & _). }
    destruct (Z.eqb_spec (s_level e) (s_level p + 1)) as [El|El]; cbn [negb].
    2:{ cbn. split; [constructor|]. intros x r E. injection E as <- <-. intros I. apply CI in I. lia. }
    specialize (EP El). destruct (s_equal p (s_parent e)) eqn:Q; cbn [negb].
    2:{ cbn. split; [constructor|]. intros x r E. injection E as <- <-. intros I. apply EP in I. discriminate. }
    destruct IH as [IH1 IH2]. pose proof (run_le (s_level p + 1) p l).
    replace (Z.to_nat (1 + incomplete_run (s_level p + 1) p l)) with (Datatypes.S (Z.to_nat (incomplete_run (s_level p + 1) p l))) by lia. cbn [firstn skipn].
    split; [constructor; [now apply EP|exact IH1]|exact IH2].
Qed.
Lemma nca_level_below p x : valid p -> valid x -> (s_level (s_nca p x) = s_level p <-> below p x).
Proof.
  intros Vp Vx. destruct (nca_below LW Vp Vx) as (B1 & B2 & B3). split.
  - intros E. destruct (below_level LW B1) as [_ Eq]. now rewrite <- (Eq E).
  - intros B. destruct (below_level LW B1) as [L1 _]. destruct (below_level LW (B3 p (below_refl Vp) B)) as [L2 _]. lia.
Qed.
(** no element between descendants of p escapes *)
Lemma none_before p pre t e rest : ordered ((pre ++ [t]) ++ e :: rest) -> below p e -> ~ below p t -> Forall (fun x => ~ below p x) (pre ++ [t]).
Proof.
  intros HO B N. rewrite <- app_assoc in HO. cbn [app] in HO. apply Forall_app. split; [|constructor; auto].
  apply Forall_forall. intros x Hx Bx. apply N. apply ordered_app in HO; auto. destruct HO as (_ & HO & Hp). rewrite Forall_forall in Hp. specialize (Hp x Hx).
  inversion Hp as [|? ? H1 _]; subst. apply ordered_cons in HO; auto. destruct HO as (Vt & _ & HO). inversion HO; subst.
  eapply (@between S LW p x t e); eauto.
Qed.
Lemma none_after p e t rest : ordered (e :: t :: rest) -> below p e -> ~ below p t -> Forall (fun x => ~ below p x) (t :: rest).
Proof.
  intros HO B N. constructor; auto. apply ordered_cons in HO; auto. destruct HO as (_ & HO & H1). inversion H1; subst. apply ordered_cons in HO; auto.
  destruct HO as (Vt & _ & HA). apply Forall_forall. intros x Hx Bx. apply N. rewrite Forall_forall in HA. eapply (@between S LW p e t x); eauto.
Qed.

Lemma family_of_incomplete pre e post : a_incomplete A = true -> ordered (pre ++ e :: post) ->
  exists els b num, family_of A (pre ++ e :: post) ltree (zlen pre) = (els, b, num) /\ znth (s_root S) els 0 = e /\ num = zlen (firstn (Z.to_nat num) els) /\ 0 < num /\
  ((b = true /\ family_at A ltree pre (e :: post) (s_parent e) (firstn (Z.to_nat num) els)) \/
   (b = false /\ num = 1 /\ firstn (Z.to_nat num) els = [e] /\ forall p fam, ~ family_at A ltree pre (e :: post) p fam)).
Proof.
  intros C HO. assert (HV := ordered_valid HO). apply Forall_app in HV. destruct HV as [Vpre Vrest].
  assert (Ve : valid e) by (now inversion Vrest). pose proof (nsib_pos LW Ve) as NP. pose proof (valid_level LW Ve) as LE.
  unfold family_of. rewrite znth_pre, skipn_pre, gather_incomplete by auto. set (els := firstn (Z.to_nat (s_num_siblings e)) (e :: post)). rewrite C.
  assert (E0 : els = e :: firstn (Z.to_nat (s_num_siblings e - 1)) post).
  { unfold els. replace (Z.to_nat (s_num_siblings e)) with (Datatypes.S (Z.to_nat (s_num_siblings e - 1))) by lia. reflexivity. }
  replace (firstn (Z.to_nat (0 + zlen els)) els) with els by (unfold zlen; rewrite Z.add_0_l, Nat2Z.id; now rewrite firstn_all).
  set (n := is_incomplete_family A (pre ++ e :: post) ltree (zlen pre) els).
  enough (0 <= n <= zlen els /\ (0 < n -> family_at A ltree pre (e :: post) (s_parent e) (firstn (Z.to_nat n) els)) /\ (n = 0 -> forall p fam, ~ family_at A ltree pre (e :: post) p fam)) as (Rn & H1 & H2).
  { destruct (Z.ltb_spec 0 n).
    - exists els, true, n. split; [reflexivity|]. split; [rewrite E0; reflexivity|]. split; [unfold zlen; rewrite firstn_length; unfold zlen in *; lia|].
      split; [lia|]. left. auto.
    - exists els, false, 1. split; [reflexivity|]. split; [rewrite E0; reflexivity|]. split; [rewrite E0; reflexivity|]. split; [lia|]. right. split; [reflexivity|]. split; [reflexivity|].
      split; [rewrite E0; reflexivity|]. apply H2. lia. }
  assert (Zels : 0 <= zlen els) by apply zlen_ge0.
  unfold n, is_incomplete_family. replace (znth (s_root S) els 0) with e by (rewrite E0; reflexivity). clear n.
  destruct (Z.eqb_spec (s_level e) 0) as [L0|L0].
  { split; [lia|]. split; [lia|]. intros _ p fam HF. destruct (family_parent HF) as (_ & H & _). lia. }
  destruct (@valid_parent S LW e Ve ltac:(lia)) as (Vp & ELp & Hid & Ec & ENs). set (p := s_parent e) in *.
  assert (HLp : s_level p < M) by lia. assert (Bpe : below p e) by (apply below_parent; auto; lia).
  assert (NF : forall q fam, family_at A ltree pre (e :: post) q fam -> q = p) by (intros q fam HF; now destruct (family_parent HF)).
  (* previous element *)
  match goal with |- context [if ?c then 0 else ?rest] => set (c1 := c); set (R1 := rest) end.
  assert (C1 : c1 = true <-> ~ Forall (fun x => ~ below p x) pre).
  { unfold c1. destruct pre as [|t pre' _] using rev_ind.
    - cbn [zlen length]. rewrite andb_false_intro1; [|rewrite andb_false_iff; right; reflexivity]. split; [discriminate|]. intros H. exfalso. apply H. constructor.
    - rewrite zlen_snoc. replace (zlen pre' + 1 - 1) with (zlen pre') by lia.
      replace (znth (s_root S) ((pre' ++ [t]) ++ e :: post) (zlen pre')) with t by (rewrite <- app_assoc; cbn [app]; now rewrite znth_pre).
      assert (Vt : valid t) by (apply Forall_app in Vpre; destruct Vpre as [_ Vpre]; now inversion Vpre).
      assert (Bte : before t e).
      { rewrite <- app_assoc in HO. cbn [app] in HO. apply ordered_app in HO; auto. destruct HO as (_ & HO & _). apply ordered_cons in HO; auto. destruct HO as (_ & _ & HO). now inversion HO. }
      assert (X : Forall (fun x => ~ below p x) (pre' ++ [t]) <-> ~ below p t).
      { split; [intros F; apply Forall_app in F; destruct F as [_ F]; now inversion F|]. now apply none_before with (e := e) (rest := post). }
      rewrite X. assert (Y := nca_level_below Vp Vt). pose proof (zlen_ge0 pre').
      assert (W : below p t -> s_level e <= s_level t /\ 0 < s_child_id e).
      { intros B. split.
        - destruct (below_level LW B) as [L1 L2]. destruct (Z.eq_dec (s_level p) (s_level t)) as [Eq|]; [|lia]. specialize (L2 Eq). rewrite <- L2 in Bte.
          exfalso. destruct (below_not_before LW Bpe). tauto.
        - destruct (Z.eq_dec (s_child_id e) 0) as [Z0|]; [|lia]. exfalso. rewrite Z0 in Ec. assert (Lo := child_first_lo LW Vp HLp). rewrite Ec in Lo.
          pose proof (below_nested LW B). pose proof (lo_hi LW Vt). unfold before in Bte. lia. }
      split.
      + intros H' NB. apply NB. apply Y. lia.
      + intros H'. assert (B : below p t). { destruct (Z.eq_dec (s_level (s_nca p t)) (s_level p)) as [Eq|Ne]; [now apply Y|]. exfalso. apply H'. rewrite <- Y. exact Ne. }
        destruct (W B). apply Y in B. lia. }
  destruct c1.
  { split; [lia|]. split; [lia|]. intros _ q fam HF. assert (q = p) by eauto. subst q. apply (proj1 C1 eq_refl). destruct HF as (_ & _ & r & _ & HF). rewrite C in HF.
    destruct HF as (_ & _ & HF & _). now apply Forall_app in HF. }
  assert (Fpre : Forall (fun x => ~ below p x) pre).
  { apply Forall_forall. intros x Hx B. assert (X : false = true); [|discriminate]. apply C1. intros F. rewrite Forall_forall in F. exact (F x Hx B). }
  clear C1. unfold R1. clear R1.
  assert (RS : let n := incomplete_run (s_level e) p (tl els) in Forall (fun f => In f (s_children p)) (firstn (Z.to_nat n) (tl els)) /\
    (forall x r, skipn (Z.to_nat n) (tl els) = x :: r -> ~ In x (s_children p))).
  { replace (s_level e) with (s_level p + 1) by lia. apply run_spec; auto. rewrite E0. cbn [tl]. inversion Vrest; subst.
    rewrite <- (firstn_skipn (Z.to_nat (s_num_siblings e - 1)) post) in H2. now apply Forall_app in H2. }
  assert (RL := run_le (s_level e) p (tl els)). set (run := incomplete_run (s_level e) p (tl els)) in *. cbn zeta in RS. destruct RS as [RS1 RS2].
  set (n := 1 + run) in *. assert (Zn : zlen els = 1 + zlen (tl els)) by (rewrite E0; cbn [tl]; rewrite zlen_cons; lia).
  assert (FN : firstn (Z.to_nat n) els = e :: firstn (Z.to_nat run) (tl els)).
  { unfold n. replace (Z.to_nat (1 + run)) with (Datatypes.S (Z.to_nat run)) by lia. rewrite E0. reflexivity. }
  assert (Ie : In e (s_children p)) by (apply in_children; exists (s_child_id e); auto).
  assert (FF : Forall (fun f => In f (s_children p)) (firstn (Z.to_nat n) els)) by (rewrite FN; constructor; auto).
  assert (Sk : forall x r, skipn (Z.to_nat n) els = x :: r -> ~ In x (s_children p)).
  { intros x r E. apply (RS2 x r). rewrite <- E. unfold n. replace (Z.to_nat (1 + run)) with (Datatypes.S (Z.to_nat run)) by lia. now rewrite E0. }
  assert (Esplit : e :: post = firstn (Z.to_nat n) els ++ skipn (Z.to_nat n) (e :: post)).
  { rewrite <- (firstn_skipn (Z.to_nat n) (e :: post)) at 1. f_equal.
    assert (Le : (length els <= Z.to_nat (s_num_siblings e))%nat) by apply firstn_le_length. unfold els. rewrite firstn_firstn. f_equal. unfold zlen in *. lia. }
  assert (HOr : ordered (e :: post)) by (apply ordered_app in HO; auto; apply HO).
  assert (OF : ordered (firstn (Z.to_nat n) els)) by (rewrite Esplit in HOr; apply ordered_app in HOr; auto; apply HOr).
  (* the rest below p? *)
  assert (NextSome : n < zlen els -> exists t r, skipn (Z.to_nat n) (e :: post) = t :: r /\ znth (s_root S) els n = t /\ ~ In t (s_children p) /\ valid t /\ before e t).
  { intros Hn. destruct (skipn (Z.to_nat n) els) as [|t r] eqn:Es.
    { apply (f_equal (@length elt)) in Es. rewrite skipn_length in Es. cbn [length] in Es. unfold zlen in Hn. lia. }
    assert (Ep : e :: post = els ++ skipn (Z.to_nat (s_num_siblings e)) (e :: post)) by (unfold els; now rewrite firstn_skipn).
    assert (Et : skipn (Z.to_nat n) (e :: post) = t :: r ++ skipn (Z.to_nat (s_num_siblings e)) (e :: post)).
    { rewrite Ep, skipn_app, Es. cbn [app]. do 2 f_equal. replace (Z.to_nat n - length els)%nat with 0%nat by (unfold zlen in *; lia). now rewrite <- Ep. }
    exists t, (r ++ skipn (Z.to_nat (s_num_siblings e)) (e :: post)). split; [exact Et|].
    split. { unfold znth. rewrite <- (firstn_skipn (Z.to_nat n) els), Es. rewrite app_nth2; rewrite firstn_length; [|lia].
      replace (Z.to_nat n - Nat.min (Z.to_nat n) (length els))%nat with 0%nat by (unfold zlen in *; lia). reflexivity. }
    split; [now apply (Sk t r)|]. rewrite Et, FN in Esplit. cbn [app] in Esplit. injection Esplit as Esplit.
    apply ordered_cons in HOr; auto. destruct HOr as (_ & HOp & Hb). rewrite Esplit in HOp, Hb.
    apply ordered_valid, Forall_app in HOp. destruct HOp as [_ HOp]. apply Forall_app in Hb. destruct Hb as [_ Hb]. inversion HOp; inversion Hb; auto. }
  assert (Bnext : forall t, valid t -> before e t -> ~ In t (s_children p) -> (below p t <-> s_level e < s_level t /\ s_level (s_nca p t) = s_level e - 1)).
  { intros t Vt Bt Nt. rewrite <- ELp, (nca_level_below Vp Vt). split; [|tauto]. intros B. split; auto. destruct (below_level LW B) as [L1 L2].
    destruct (Z.eq_dec (s_level p) (s_level t)) as [Eq|]; [exfalso; specialize (L2 Eq); rewrite <- L2 in Bt; destruct (below_not_before LW Bpe); tauto|].
    destruct (Z.eq_dec (s_level t) (s_level p + 1)) as [Eq|]; [|lia]. exfalso. apply Nt. apply child_iff; auto. }
  match goal with |- context [if ?c then 0 else ?rest] => set (c2 := c); set (R2 := rest) end.
  assert (C2 : c2 = false -> Forall (fun x => ~ below p x) (skipn (Z.to_nat n) (e :: post))).
  { intros Hc2. destruct (Z.ltb_spec n (zlen els)) as [Hn|Hn].
    - destruct (NextSome Hn) as (t & r & Et & Ent & Nt & Vt & Bt). unfold c2 in Hc2. rewrite Ent in Hc2.
      assert (NB : ~ below p t) by (rewrite (Bnext t Vt Bt Nt); lia). rewrite Et.
      apply (@none_after p e t r); auto. rewrite Et, FN in Esplit. cbn [app] in Esplit. injection Esplit as Esplit. rewrite Esplit in HOr.
      change (e :: firstn (Z.to_nat run) (tl els) ++ t :: r) with ([e] ++ firstn (Z.to_nat run) (tl els) ++ t :: r) in HOr. apply (ordered_drop LW) in HOr. exact HOr.
    - assert (Hn' : n = zlen els) by lia. destruct (Nat.le_gt_cases (length (e :: post)) (Z.to_nat (s_num_siblings e))) as [HL|HL].
      + assert (els = e :: post) by (unfold els; now apply firstn_all2). rewrite skipn_all2; [constructor|]. rewrite H in Hn'. unfold zlen in Hn'. lia.
      + assert (Hlen : length els = Z.to_nat (s_num_siblings e)) by (unfold els; rewrite firstn_length; lia).
        assert (EF : firstn (Z.to_nat n) els = s_children p).
        { apply full_family; auto. rewrite firstn_length. unfold zlen in Hn'. rewrite <- ENs. lia. }
        rewrite Esplit in HOr. apply ordered_app in HOr; auto. destruct HOr as (_ & _ & Hb). rewrite EF in Hb. rewrite Forall_forall in Hb.
        pose proof (valid_nchild LW Vp). assert (Il : In (s_child p (s_num_children p - 1)) (s_children p)) by (apply in_children; exists (s_num_children p - 1); split; [lia|auto]).
        specialize (Hb _ Il). apply Forall_forall. intros x Hx B. rewrite Forall_forall in Hb. specialize (Hb x Hx). unfold before in Hb. rewrite (child_last_hi LW Vp HLp) in Hb.
        pose proof (below_nested LW B). destruct (below_valid B) as [_ Vx]. pose proof (lo_hi LW Vx). lia. }
  assert (C2' : c2 = true -> forall q fam, ~ family_at A ltree pre (e :: post) q fam).
  { intros Hc2 q fam HF. assert (q = p) by eauto. subst q. unfold c2 in Hc2. apply andb_true_iff in Hc2. destruct Hc2 as [Hn Hc2]. apply Z.ltb_lt in Hn.
    destruct (NextSome Hn) as (t & r & Et & Ent & Nt & Vt & Bt). rewrite Ent in Hc2. assert (B : below p t) by (apply (Bnext t Vt Bt Nt); lia).
    destruct HF as (_ & _ & r' & Er & HF). rewrite C in HF. destruct HF as (_ & FF' & HF & _). apply Forall_app in HF. destruct HF as [_ HF].
    assert (It : In t (fam ++ r')). { rewrite <- Er, Esplit, Et. apply in_app_iff. right. now left. }
    apply in_app_iff in It. rewrite Forall_forall in FF', HF. destruct It as [It|It]; [exact (Nt (FF' t It))|exact (HF t It B)]. }
  destruct c2; [split; [lia|]; split; [lia|]; intros _; now apply C2'|]. clear C2'. specialize (C2 eq_refl). unfold R2. clear R2.
  assert (FNe : firstn (Z.to_nat n) els <> []) by (rewrite FN; discriminate).
  assert (Uniq : forall q fam, family_at A ltree pre (e :: post) q fam -> q = p /\ hd_error fam = Some e).
  { intros q fam HF. split; [eauto|]. destruct HF as (_ & _ & r' & Er & HF). rewrite C in HF. destruct HF as (Nf & _). destruct fam as [|f fam]; [congruence|].
    cbn [app] in Er. now injection Er as -> _. }
  destruct (_ && (0 <? a_rank A)) eqn:T1.
  { split; [lia|]. split; [lia|]. intros _ q fam HF. destruct (Uniq _ _ HF) as [-> Hhd]. destruct HF as (_ & _ & r' & Er & HF). rewrite C in HF. destruct HF as (_ & _ & _ & NC & _). apply NC.
    split; [lia|]. split; [lia|]. split; [destruct pre; [reflexivity|rewrite zlen_cons in T1; pose proof (zlen_ge0 pre); lia]|].
    destruct fam as [|f fam]; [discriminate|]. injection Hhd as ->. exists e, fam. split; [reflexivity|lia]. }
  assert (Zr : zlen (pre ++ e :: post) = zlen pre + zlen (e :: post)) by apply zlen_app.
  destruct (_ && (a_rank A <? a_size A - 1)) eqn:T2.
  { split; [lia|]. split; [lia|]. intros _ q fam HF. destruct (Uniq _ _ HF) as [-> Hhd]. destruct HF as (_ & _ & r' & Er & HF). rewrite C in HF. destruct HF as (_ & _ & _ & _ & NC). apply NC.
    split; [lia|]. split; [lia|]. rewrite <- ENs. lia. }
  split; [lia|]. split; [|lia]. intros _. split; [exact Vp|]. split; [exact HLp|]. exists (skipn (Z.to_nat n) (e :: post)). split; [exact Esplit|]. rewrite C.
  split; [exact FNe|]. split; [exact FF|]. split; [apply Forall_app; auto|]. split.
  - intros (H1 & H2 & H3 & e' & r & H4 & H5). rewrite FN in H4. injection H4 as <- _. subst pre. cbn in T1. lia.
  - intros (H1 & H2 & H3). rewrite <- ENs in H3. lia.
Qed.
Theorem family_of_spec pre e post : leaves_ok A (pre ++ e :: post) ->
  exists els b num, family_of A (pre ++ e :: post) ltree (zlen pre) = (els, b, num) /\ znth (s_root S) els 0 = e /\ num = zlen (firstn (Z.to_nat num) els) /\ 0 < num /\
  ((b = true /\ family_at A ltree pre (e :: post) (s_parent e) (firstn (Z.to_nat num) els)) \/
   (b = false /\ num = 1 /\ firstn (Z.to_nat num) els = [e] /\ forall p fam, ~ family_at A ltree pre (e :: post) p fam)).
Proof. unfold leaves_ok. destruct (a_incomplete A) eqn:C; intros H; [now apply family_of_incomplete|now apply family_of_complete]. Qed.
End family.

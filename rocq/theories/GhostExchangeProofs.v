(** The messages of the ghost layer: the order in which they arrive does not matter, and the ghosts are the elements of the messages
    in the order of the ranks. *)
From Coq Require Import Sorting.Sorted Sorting.Permutation.
From Verif Require Import Prelude PathSpec SchemeModel SchemeSpec SchemeProofs SchemeOrderProofs SearchModel OwnerModel FaceModel GhostModel GhostSpec GhostOwnerProofs GhostRemoteProofs GhostSearchProofs.

(** ** sorting the ranks *)
Lemma insert_perm q l : Permutation (insert_rank q l) (q :: l).
Proof. induction l as [|a l IH]; cbn [insert_rank]; [reflexivity|]. destruct (q <=? a); [reflexivity|]. rewrite IH. apply perm_swap. Qed.
Lemma sort_perm l : Permutation (sort_ranks l) l.
Proof. induction l as [|a l IH]; cbn [sort_ranks fold_right]; [reflexivity|]. fold (sort_ranks l). rewrite insert_perm. now constructor. Qed.
Lemma insert_sorted q l : StronglySorted Z.lt l -> ~ In q l -> StronglySorted Z.lt (insert_rank q l).
Proof.
  induction l as [|a l IH]; intros S N; cbn [insert_rank]; [repeat constructor|]. inversion S as [|? ? S' F]; subst. destruct (Z.leb_spec q a) as [C|C].
  - constructor; [exact S|]. assert (q <> a) by (intros ->; apply N; now left). constructor; [lia|]. eapply Forall_impl; [|exact F]. intros x Hx. cbn in Hx. lia.
  - constructor; [apply IH; [exact S'|intros H; apply N; now right]|]. eapply Permutation_Forall; [symmetry; apply insert_perm|]. constructor; [lia|exact F].
Qed.
Lemma sort_sorted l : NoDup l -> StronglySorted Z.lt (sort_ranks l).
Proof.
  induction l as [|a l IH]; intros N; cbn [sort_ranks fold_right]; [constructor|]. inversion N as [|? ? N1 N2]; subst. fold (sort_ranks l). apply insert_sorted; [now apply IH|].
  intros H. apply N1. eapply Permutation_in; [apply sort_perm|exact H].
Qed.
Lemma lt_sorted_nodup l : StronglySorted Z.lt l -> NoDup l.
Proof. induction 1 as [|a l S IH F]; constructor; [|exact IH]. intros H. rewrite Forall_forall in F. apply F in H. lia. Qed.
Lemma lt_sorted_ext l l' : StronglySorted Z.lt l -> StronglySorted Z.lt l' -> (forall x, In x l <-> In x l') -> l = l'.
Proof.
  intros S. revert l'. induction S as [|a l S IH F]; intros l' S' E.
  - destruct l' as [|b l']; [reflexivity|]. exfalso. apply (E b). now left.
  - destruct S' as [|b l' S' F']; [exfalso; apply (E a); now left|]. rewrite Forall_forall in F, F'.
    assert (a = b). { destruct (proj1 (E a) (or_introl eq_refl)) as [?|H1]; [congruence|]. destruct (proj2 (E b) (or_introl eq_refl)) as [?|H2]; [congruence|]. apply F in H2. apply F' in H1. lia. }
    subst b. f_equal. apply IH; [exact S'|]. intros x. split; intros H.
    + destruct (proj1 (E x) (or_intror H)) as [->|?]; [apply F in H; lia|assumption].
    + destruct (proj2 (E x) (or_intror H)) as [->|?]; [apply F' in H; lia|assumption].
Qed.
Lemma rank_pos_iff procs q : NoDup procs -> forall k, rank_pos procs q = Some k <-> nth_error procs k = Some q.
Proof.
  induction 1 as [|a l N ND IH]; intros k; cbn [rank_pos].
  - destruct k; split; discriminate.
  - destruct (Z.eqb_spec a q) as [->|E].
    + split; [intros H; injection H as <-; reflexivity|]. destruct k as [|k]; [reflexivity|]. cbn. intros H. exfalso. apply N. eapply nth_error_In; eauto.
    + destruct (rank_pos l q) as [j|] eqn:Q; cbn [option_map].
      * destruct k as [|k]; cbn; [split; [discriminate|congruence]|]. rewrite <- IH. split; congruence.
      * destruct k as [|k]; cbn; [split; [discriminate|congruence]|]. rewrite <- IH. split; discriminate.
Qed.
Lemma rank_pos_in procs q : NoDup procs -> In q procs -> exists k, rank_pos procs q = Some k /\ nth_error procs k = Some q.
Proof. intros ND H. apply In_nth_error in H. destruct H as (k & H). exists k. split; [now apply rank_pos_iff|exact H]. Qed.

(** ** the order of the messages *)
Section receive.
Variable cls : Z -> scheme.
Notation message := (message cls).
Notation ghosts := (ghosts cls).
Fixpoint parse_seq (l : list (Z * message)) (s : Z * ghosts) : outcome (Z * ghosts) :=
  match l with [] => Ok s | (q, m) :: r => do s <- parse_message q m (fst s) (snd s); parse_seq r s end.
Lemma parse_seq_app a b s : parse_seq (a ++ b) s = do s <- parse_seq a s; parse_seq b s.
Proof. revert s. induction a as [|[q m] a IH]; intros s; cbn [app parse_seq]; [reflexivity|]. destruct (parse_message q m (fst s) (snd s)); cbn [obind]; auto. Qed.
Variable procs : list Z.
Hypothesis SP : StronglySorted Z.lt procs.
Variable msg : Z -> message.
Definition upto (k : nat) : list (Z * message) := map (fun q => (q, msg q)) (firstn k procs).
Hypothesis PO : forall k, (k <= length procs)%nat -> exists s, parse_seq (upto k) (0, no_ghosts) = Ok s.
Definition buf_ok (seen : list Z) (buf : list (option message)) : Prop :=
  length buf = length procs /\ forall i q, nth_error procs i = Some q -> nth_error buf i = Some (if inb q seen then Some (msg q) else None).
Definition ready (seen : list Z) (k : nat) (off : Z) (h : ghosts) : Prop :=
  (k <= length procs)%nat /\ (forall i q, (i < k)%nat -> nth_error procs i = Some q -> In q seen) /\ parse_seq (upto k) (0, no_ghosts) = Ok (off, h).
Definition blocked (seen : list Z) (k : nat) : Prop := forall q, nth_error procs k = Some q -> ~ In q seen.
Lemma upto_S k q : nth_error procs k = Some q -> upto (S k) = upto k ++ [(q, msg q)].
Proof.
  intros H. unfold upto. change [(q, msg q)] with (map (fun q => (q, msg q)) [q]). rewrite <- map_app. f_equal. clear - H. revert k H. induction procs as [|a l IH]; intros k H; [destruct k; discriminate|].
  destruct k as [|k]; cbn [nth_error] in H; [injection H as ->; reflexivity|]. change (a :: firstn (S k) l = a :: (firstn k l ++ [q])). f_equal. now apply IH.
Qed.
Lemma parse_ready_ok fuel : forall seen buf k off h, buf_ok seen buf -> ready seen k off h -> (length procs - k < fuel)%nat ->
  exists k' off' h', parse_ready fuel procs buf k off h = Ok (k', off', h') /\ ready seen k' off' h' /\ blocked seen k'.
Proof.
  induction fuel as [|fuel IH]; intros seen buf k off h B R Hf; [lia|]. cbn [parse_ready]. destruct B as [LB B]. destruct R as (R1 & R2 & R3).
  destruct (nth_error procs k) as [q|] eqn:E.
  - rewrite (B k q E). destruct (inb q seen) eqn:Q.
    + apply inb_iff in Q. assert (HK : (S k <= length procs)%nat) by (apply nth_error_Some; congruence). destruct (PO HK) as (s & Es). rewrite (upto_S E), parse_seq_app, R3 in Es. cbn [obind parse_seq fst snd] in Es.
      destruct (parse_message q (msg q) off h) as [[off' h']| | |] eqn:EP; try discriminate. cbn [obind fst snd] in *. apply IH; [split; auto| |lia].
      split; [exact HK|]. split; [intros i q' Hi Hq'; destruct (Nat.eq_dec i k) as [->|N]; [congruence|apply (R2 i); [lia|exact Hq']]|]. rewrite (upto_S E), parse_seq_app, R3. cbn [obind parse_seq fst snd]. rewrite EP. reflexivity.
    + exists k, off, h. split; [reflexivity|]. split; [repeat split; auto|]. intros q' Hq' Hin. rewrite E in Hq'. injection Hq' as <-. apply inb_iff in Hin. congruence.
  - replace (nth_error buf k) with (@None (option message)) by (symmetry; apply nth_error_None; apply nth_error_None in E; lia).
    exists k, off, h. split; [reflexivity|]. split; [repeat split; auto|]. intros q' Hq'. congruence.
Qed.
Lemma receive_loop_ok arrived : forall seen buf k off h, buf_ok seen buf -> ready seen k off h -> blocked seen k ->
  NoDup (map fst arrived) -> (forall q, In q (map fst arrived) -> In q procs /\ ~ In q seen) -> Forall (fun x => snd x = msg (fst x)) arrived ->
  exists k' h', receive_loop procs arrived buf k off h = Ok (k', h') /\ (exists off', ready (map fst arrived ++ seen) k' off' h') /\ blocked (map fst arrived ++ seen) k'.
Proof.
  induction arrived as [|[q m] r IH]; intros seen buf k off h B R BL ND HI HM; cbn [receive_loop map app].
  - exists k, h. split; [reflexivity|]. split; [exists off; exact R|exact BL].
  - cbn [map fst] in *. inversion ND as [|? ? N1 N2]; subst. apply Forall_cons_iff in HM. destruct HM as [Em HM]. cbn [fst snd] in Em. destruct (HI q (or_introl eq_refl)) as [Iq Nq].
    destruct (rank_pos_in (lt_sorted_nodup SP) Iq) as (pos & E1 & E2). rewrite E1. destruct B as [LB B]. rewrite (B pos q E2). replace (inb q seen) with false by (symmetry; apply not_true_iff_false; rewrite inb_iff; exact Nq).
    destruct (Nat.ltb_spec pos k) as [C|C]; [exfalso; destruct R as (_ & R & _); apply Nq, (R pos q C E2)|].
    assert (HP : (pos < length procs)%nat) by (apply nth_error_Some; congruence).
    assert (B' : buf_ok (q :: seen) (set_at buf (Z.of_nat pos) (Some m))).
    { split; [rewrite set_at_length; [exact LB|unfold zlen; lia]|]. intros i q' Hq'. rewrite set_at_nth by (unfold zlen; lia). rewrite Nat2Z.id. destruct (Nat.eqb_spec i pos) as [->|N].
      - assert (q' = q) by congruence. subst q'. cbn [inb existsb]. rewrite Z.eqb_refl. cbn [orb]. now rewrite Em.
      - rewrite (B i q' Hq'). cbn [inb existsb]. destruct (Z.eqb_spec q' q) as [->|_]; [|reflexivity]. exfalso. apply N. eapply (NoDup_nth_error procs); [apply lt_sorted_nodup, SP|apply nth_error_Some; congruence|congruence]. }
    assert (R' : ready (q :: seen) k off h). { destruct R as (R1 & R2 & R3). split; [exact R1|]. split; [|exact R3]. intros i q' Hi Hq'. right. apply (R2 i); auto. }
    destruct (@parse_ready_ok (S (length procs)) _ _ _ _ _ B' R' ltac:(lia)) as (k1 & off1 & h1 & E3 & R3 & BL3). rewrite E3. cbn [obind].
    destruct (IH (q :: seen) _ k1 off1 h1 B' R3 BL3 N2) as (k' & h' & E4 & R4 & BL4).
    + intros q' Hq'. destruct (HI q' (or_intror Hq')) as [I1 I2]. split; [exact I1|]. intros [<-|H]; [contradiction|contradiction].
    + exact HM.
    + exists k', h'. split; [exact E4|]. assert (SE : forall x, In x (map fst r ++ q :: seen) <-> In x (q :: map fst r ++ seen)) by (intros x; cbn [In]; rewrite !in_app_iff; cbn [In]; tauto).
      split.
      * destruct R4 as (off' & A1 & A2 & A3). exists off'. split; [exact A1|]. split; [|exact A3]. intros i q' Hi Hq'. apply SE, (A2 i); auto.
      * intros q' Hq' Hin. apply (BL4 q' Hq'), SE, Hin.
Qed.
End receive.
Theorem receive_ok cls procs (msg : Z -> message cls) arrived s : NoDup procs -> NoDup (map fst arrived) -> (forall q, In q (map fst arrived) <-> In q procs) ->
  Forall (fun x => snd x = msg (fst x)) arrived -> parse_seq (map (fun q => (q, msg q)) (sort_ranks procs)) (0, no_ghosts) = Ok s ->
  receive procs arrived = Ok (snd s).
Proof.
  intros ND NA HI HM E. unfold receive. assert (SS := sort_sorted ND). set (ps := sort_ranks procs) in *. assert (IP : forall q, In q ps <-> In q procs) by (intros q; split; apply Permutation_in; [apply sort_perm|symmetry; apply sort_perm]).
  assert (PO : forall k, (k <= length ps)%nat -> exists s, parse_seq (upto ps msg k) (0, no_ghosts) = Ok s).
  { intros k _. unfold upto. rewrite <- (firstn_skipn k ps), map_app, parse_seq_app in E. destruct (parse_seq (map (fun q => (q, msg q)) (firstn k ps)) (0, no_ghosts)); try discriminate. eauto. }
  destruct (@receive_loop_ok cls ps SS msg PO arrived [] (repeat None (length ps)) 0%nat 0 no_ghosts) as (k' & h' & E1 & (off' & A1 & A2 & A3) & BL); auto.
  - split; [apply repeat_length|]. intros i q Hq. apply nth_error_repeat. apply nth_error_Some. congruence.
  - split; [lia|]. split; [intros i q Hi; lia|]. reflexivity.
  - intros q Hq [].
  - intros q Hq. split; [apply IP, HI, Hq|intros []].
  - rewrite E1. cbn [obind fst snd]. assert (KL : k' = length ps).
    { destruct (Nat.eq_dec k' (length ps)) as [?|N]; [assumption|exfalso]. destruct (nth_error ps k') as [q|] eqn:Q; [|apply nth_error_None in Q; lia]. apply (BL q Q). rewrite app_nil_r. apply HI, IP. eapply nth_error_In; eauto. }
    rewrite KL, Nat.eqb_refl. f_equal. unfold upto in A3. rewrite KL, firstn_all, E in A3. injection A3 as ->. reflexivity.
Qed.

(** ** the ghosts *)
Section parse.
Variable cls : Z -> scheme.
Notation leaf := {t : Z & elt (cls t)}.
Notation message := (message cls).
Notation ghosts := (ghosts cls).
Notation gtree := (gtree cls).
Implicit Types (ts : list gtree) (G : list leaf).
Definition all_of (t : Z) (es : list leaf) : Prop := Forall (fun x => projT1 x = t) es.
Definition gtrees_ok ts : Prop := Forall (fun T => gt_elems T <> [] /\ all_of (gt_tree T) (gt_elems T)) ts /\ StronglySorted Z.lt (map gt_tree ts) /\
  forall pre T post, ts = pre ++ T :: post -> gt_offset T = zlen (flat_map gt_elems pre).
Definition gok (h : ghosts) G : Prop := gtrees_ok (gh_trees h) /\ flat_map gt_elems (gh_trees h) = G /\ gh_num h = zlen G.
Definition msg_ok (m : message) : Prop := Forall (fun x => snd x <> [] /\ all_of (fst x) (snd x)) m /\ StronglySorted Z.lt (map fst m).
Definition mflat (m : message) : list leaf := flat_map snd m.
Definition located ts (ti fe k : Z) : Prop := exists T, 0 <= ti /\ nth_error ts (Z.to_nat ti) = Some T /\ gt_offset T + fe = k /\ 0 <= fe < zlen (gt_elems T).
Definition grows ts ts' : Prop := forall i T, nth_error ts i = Some T -> exists T' more, nth_error ts' i = Some T' /\ gt_offset T' = gt_offset T /\ gt_elems T' = gt_elems T ++ more.
Lemma grows_refl ts : grows ts ts.
Proof. intros i T H. exists T, []. rewrite app_nil_r. auto. Qed.
Lemma grows_trans a b c : grows a b -> grows b c -> grows a c.
Proof. intros H1 H2 i T E. destruct (H1 i T E) as (T1 & m1 & E1 & O1 & M1). destruct (H2 i T1 E1) as (T2 & m2 & E2 & O2 & M2). exists T2, (m1 ++ m2). rewrite app_assoc, <- M1. repeat split; auto; congruence. Qed.
Lemma located_grows ts ts' ti fe k : grows ts ts' -> located ts ti fe k -> located ts' ti fe k.
Proof. intros H (T & H1 & H2 & H3 & H4). destruct (H _ _ H2) as (T' & m & E & O & M). exists T'. rewrite O, M, zlen_app. pose proof (zlen_ge0 m). repeat split; auto; lia. Qed.
Lemma gtrees_snoc ts T : gtrees_ok (ts ++ [T]) <-> gtrees_ok ts /\ (gt_elems T <> [] /\ all_of (gt_tree T) (gt_elems T)) /\ (forall x, In x ts -> gt_tree x < gt_tree T) /\ gt_offset T = zlen (flat_map gt_elems ts).
Proof.
  unfold gtrees_ok. rewrite Forall_app, map_app, sorted_app. cbn [map]. split.
  - intros ((F & FT) & (S & _ & C) & O). inversion FT; subst. split; [split; [exact F|split; [exact S|]]|split; [assumption|split]].
    + intros pre x post E. apply (O pre x (post ++ [T])). rewrite E, <- app_assoc. reflexivity.
    + intros x Hx. apply C; [now apply in_map|now left].
    + apply (O ts T []). reflexivity.
  - intros ((F & S & O) & FT & C & OT). split; [split; [exact F|constructor; [exact FT|constructor]]|]. split; [split; [exact S|split; [repeat constructor|]]|].
    + intros x y Hx [<-|[]]. apply in_map_iff in Hx. destruct Hx as (u & <- & Hu). auto.
    + intros pre x post E. destruct post as [|y post] using rev_ind.
      * apply app_inj_tail in E. destruct E as [<- <-]. exact OT.
      * clear IHpost. rewrite app_comm_cons, app_assoc in E. apply app_inj_tail in E. destruct E as [E _]. exact (O _ _ _ E).
Qed.
Lemma tree_pos_last ts t : gtrees_ok ts -> (forall x, In x ts -> gt_tree x <= t) ->
  match tree_pos ts t with
  | None => forall x, In x ts -> gt_tree x < t
  | Some k => exists pre T, ts = pre ++ [T] /\ gt_tree T = t /\ k = length pre
  end.
Proof.
  intros (_ & S & _). induction ts as [|x ts IH]; intros LE; cbn [tree_pos].
  - intros x [].
  - cbn [map] in S. inversion S as [|? ? S' F]; subst. destruct (Z.eqb_spec (gt_tree x) t) as [E|E].
    + destruct ts as [|y ts]; [exists [], x; auto|]. exfalso. rewrite Forall_forall in F. assert (gt_tree x < gt_tree y) by (apply F; now left). specialize (LE y (or_intror (or_introl eq_refl))). lia.
    + specialize (IH S' (fun y Hy => LE y (or_intror Hy))). destruct (tree_pos ts t) as [k|]; cbn [option_map].
      * destruct IH as (pre & T & -> & ET & ->). exists (x :: pre), T. auto.
      * intros y [<-|Hy]; [specialize (LE x (or_introl eq_refl)); lia|auto].
Qed.
Lemma append_last (pre : list gtree) (T : gtree) (es : list leaf) : append_to (pre ++ [T]) (length pre) es = pre ++ [GTree (gt_tree T) (gt_offset T) (gt_elems T ++ es)].
Proof. induction pre as [|x pre IH]; [reflexivity|]. cbn [app length append_to]. now rewrite IH. Qed.
Lemma flat_snoc (pre : list gtree) (T : gtree) : flat_map gt_elems (pre ++ [T]) = flat_map gt_elems pre ++ gt_elems T.
Proof. rewrite flat_map_app. cbn [flat_map]. now rewrite app_nil_r. Qed.
Lemma parse_trees_ok m : forall off first h G, gok h G -> msg_ok m -> off = zlen G -> (forall x y, In x G -> In y (mflat m) -> projT1 x <= projT1 y) ->
  exists first' h', parse_trees m off first h = (zlen (G ++ mflat m), first', h') /\ gok h' (G ++ mflat m) /\ gh_procs h' = gh_procs h /\ grows (gh_trees h) (gh_trees h') /\
    match first with Some x => first' = Some x | None => m <> [] -> exists ti fe, first' = Some (ti, fe) /\ located (gh_trees h') ti fe (zlen G) end.
Proof.
  induction m as [|[t es] m IH]; intros off first h G HG HM HO LE; cbn [parse_trees].
  - exists first, h. unfold mflat. cbn [flat_map]. rewrite app_nil_r, HO. split; [reflexivity|]. split; [exact HG|]. split; [reflexivity|]. split; [apply grows_refl|]. destruct first; [reflexivity|congruence].
  - destruct HG as (TO & FG & NG). destruct HM as (MF & MS). apply Forall_cons_iff in MF. destruct MF as [[NE AT] MF]. cbn [fst snd] in NE, AT. cbn [map fst] in MS. inversion MS as [|? ? MS' MFt]; subst.
    assert (TL : forall x, In x (gh_trees h) -> gt_tree x <= t).
    { intros T HT. destruct TO as (F & _). rewrite Forall_forall in F. destruct (F T HT) as [NT AT']. destruct (gt_elems T) as [|y l] eqn:EL; [congruence|]. apply Forall_cons_iff in AT'. destruct AT' as [AY _].
      destruct es as [|z es']; [exfalso; exact (NE eq_refl)|]. apply Forall_cons_iff in AT. destruct AT as [AZ _]. rewrite <- AY, <- AZ. apply LE; [apply in_flat_map; exists T; split; [exact HT|rewrite EL; now left]|unfold mflat; cbn [flat_map snd app]; now left]. }
    assert (MO : msg_ok m) by (split; assumption).
    assert (LE' : forall x y, In x (flat_map gt_elems (gh_trees h) ++ es) -> In y (mflat m) -> projT1 x <= projT1 y).
    { intros x y Hx Hy. apply in_app_iff in Hx. destruct Hx as [Hx|Hx]; [apply LE; [exact Hx|unfold mflat; cbn [flat_map]; apply in_or_app; now right]|].
      unfold all_of in AT. rewrite Forall_forall in AT. rewrite (AT x Hx). apply in_flat_map in Hy. destruct Hy as ([u fs] & Hu & Hy). rewrite Forall_forall in MF, MFt. destruct (MF _ Hu) as [_ A]. unfold all_of in A. rewrite Forall_forall in A.
      cbn [fst snd] in *. rewrite (A y Hy). specialize (MFt u (in_map fst _ _ Hu)). lia. }
    set (G := flat_map gt_elems (gh_trees h)) in *.
    assert (EF : (G ++ es) ++ mflat m = G ++ mflat ((t, es) :: m)) by (unfold mflat; cbn [flat_map snd]; now rewrite app_assoc).
    assert (TP := tree_pos_last TO TL). destruct (tree_pos (gh_trees h) t) as [k|] eqn:TE.
    + destruct TP as (pre & T & ET & Et & Ek). set (h1 := Ghosts (append_to (gh_trees h) k es) (gh_num h + zlen es) (gh_procs h)).
      assert (E1 : gh_trees h1 = pre ++ [GTree (gt_tree T) (gt_offset T) (gt_elems T ++ es)]) by (unfold h1; cbn [gh_trees]; rewrite ET, Ek; apply append_last).
      assert (G1 : gok h1 (G ++ es)).
      { split; [|split].
        - rewrite E1. rewrite ET in TO. apply gtrees_snoc in TO. destruct TO as (A & (B1 & B2) & C & O). apply gtrees_snoc. cbn [gt_elems gt_tree gt_offset]. split; [exact A|]. split; [|split; [exact C|exact O]].
          split; [destruct (gt_elems T); [congruence|discriminate]|]. apply Forall_app. split; [exact B2|rewrite Et; exact AT].
        - rewrite E1, flat_snoc. cbn [gt_elems]. unfold G. rewrite ET, flat_snoc, app_assoc. reflexivity.
        - unfold h1. cbn [gh_num]. rewrite NG, zlen_app. reflexivity. }
      assert (GR : grows (gh_trees h) (gh_trees h1)).
      { rewrite E1, ET. intros i x Hx. destruct (Nat.lt_ge_cases i (length pre)) as [C|C].
        - rewrite nth_error_app1 in * by exact C. exists x, []. rewrite app_nil_r. auto.
        - rewrite nth_error_app2 in * by exact C. destruct (i - length pre)%nat as [|j]; [|destruct j; discriminate]. cbn in Hx. injection Hx as <-. eexists _, es. split; [reflexivity|]. auto. }
      match goal with |- context [parse_trees m ?o ?f ?h] => destruct (IH o f h (G ++ es)) as (f' & h' & E2 & G2 & P2 & R2 & F2) end; auto; [now rewrite zlen_app|].
      rewrite E2. exists f', h'. split; [do 2 f_equal; exact (f_equal (@zlen leaf) EF)|]. split; [exact (eq_rect _ (gok h') G2 _ EF)|]. split; [exact P2|]. split; [exact (grows_trans GR R2)|].
      destruct first as [x|]; [exact F2|]. intros _. eexists _, _. split; [exact F2|]. apply (located_grows R2). eexists. split; [lia|]. rewrite Nat2Z.id, Ek, E1. split; [rewrite nth_error_app2, Nat.sub_diag by lia; reflexivity|]. cbn [gt_offset gt_elems].
      rewrite ET, nth_middle. rewrite ET in TO. apply gtrees_snoc in TO. destruct TO as (_ & _ & _ & O). split.
      * rewrite O. unfold G. rewrite ET, flat_snoc, zlen_app. reflexivity.
      * rewrite zlen_app. destruct es as [|z es']; [exfalso; exact (NE eq_refl)|]. rewrite (zlen_cons z es'). pose proof (zlen_ge0 (gt_elems T)). pose proof (zlen_ge0 es'). lia.
    + set (h1 := Ghosts (gh_trees h ++ [GTree t (zlen G) es]) (gh_num h + zlen es) (gh_procs h)).
      assert (G1 : gok h1 (G ++ es)).
      { split; [|split].
        - unfold h1. cbn [gh_trees]. apply gtrees_snoc. cbn [gt_elems gt_tree gt_offset]. auto.
        - unfold h1. cbn [gh_trees]. rewrite flat_snoc. reflexivity.
        - unfold h1. cbn [gh_num]. rewrite NG, zlen_app. reflexivity. }
      assert (GR : grows (gh_trees h) (gh_trees h1)).
      { intros i x Hx. exists x, []. rewrite app_nil_r. split; [|auto]. unfold h1. cbn [gh_trees]. rewrite nth_error_app1; [exact Hx|]. apply nth_error_Some. congruence. }
      match goal with |- context [parse_trees m ?o ?f ?h] => destruct (IH o f h (G ++ es)) as (f' & h' & E2 & G2 & P2 & R2 & F2) end; auto; [now rewrite zlen_app|].
      rewrite E2. exists f', h'. split; [do 2 f_equal; exact (f_equal (@zlen leaf) EF)|]. split; [exact (eq_rect _ (gok h') G2 _ EF)|]. split; [exact P2|]. split; [exact (grows_trans GR R2)|].
      destruct first as [x|]; [exact F2|]. intros _. eexists _, _. split; [exact F2|]. apply (located_grows R2). exists (GTree t (zlen G) es). split; [apply zlen_ge0|]. split; [unfold h1, zlen; cbn [gh_trees]; rewrite Nat2Z.id, nth_error_app2, Nat.sub_diag by lia; reflexivity|].
      cbn [gt_offset gt_elems]. split; [apply Z.add_0_r|]. destruct es as [|z es']; [exfalso; exact (NE eq_refl)|]. rewrite zlen_cons. pose proof (zlen_ge0 es'). lia.
Qed.
(** the entry of a process *)
Definition procs_ok (h : ghosts) (msg : Z -> message) (l : list Z) : Prop := map gp_rank (gh_procs h) = l /\
  forall pre q post, l = pre ++ q :: post -> exists e, nth_error (gh_procs h) (length pre) = Some e /\ gp_rank e = q /\ gp_offset e = zlen (flat_map (fun q => mflat (msg q)) pre) /\
    located (gh_trees h) (gp_tree e) (gp_first e) (gp_offset e).
Lemma parse_seq_ok (msg : Z -> message) r : forall l h, NoDup (l ++ r) -> (forall q, In q r -> msg_ok (msg q) /\ msg q <> []) ->
  (forall pre q post x y, l ++ r = pre ++ q :: post -> In x (flat_map (fun q => mflat (msg q)) pre) -> In y (mflat (msg q)) -> projT1 x <= projT1 y) ->
  gok h (flat_map (fun q => mflat (msg q)) l) -> procs_ok h msg l ->
  exists h', parse_seq (map (fun q => (q, msg q)) r) (zlen (flat_map (fun q => mflat (msg q)) l), h) = Ok (zlen (flat_map (fun q => mflat (msg q)) (l ++ r)), h') /\
    gok h' (flat_map (fun q => mflat (msg q)) (l ++ r)) /\ procs_ok h' msg (l ++ r).
Proof.
  induction r as [|q r IH]; intros l h ND MO LE HG HP; cbn [map parse_seq].
  - exists h. rewrite app_nil_r. auto.
  - cbn [fst snd]. set (G := flat_map (fun q => mflat (msg q)) l) in *. destruct (MO q (or_introl eq_refl)) as [M1 M2].
    destruct (parse_trees_ok None (h := h) (G := G) HG M1 eq_refl) as (f' & h' & E & G1 & P1 & R1 & F1); [intros x y; apply (LE l q r); reflexivity|]. destruct (F1 M2) as (ti & fe & -> & LO).
    unfold parse_message. rewrite E. destruct HP as [HP1 HP2].
    assert (NQ : existsb (fun p => gp_rank p =? q) (gh_procs h) = false).
    { apply not_true_iff_false. intros H. apply existsb_exists in H. destruct H as (e & He & Q). apply Z.eqb_eq in Q. apply NoDup_remove_2 in ND. apply ND. apply in_or_app. left. rewrite <- HP1, <- Q. now apply in_map. }
    rewrite NQ. cbn [obind]. set (h1 := Ghosts (gh_trees h') (gh_num h') (gh_procs h' ++ [GProc q ti fe (gh_num h)])).
    assert (EG : flat_map (fun q => mflat (msg q)) (l ++ [q]) = G ++ mflat (msg q)) by (rewrite flat_map_app; cbn [flat_map]; now rewrite app_nil_r).
    rewrite <- EG in *. replace (l ++ q :: r) with ((l ++ [q]) ++ r) in * by (rewrite <- app_assoc; reflexivity).
    apply IH; auto.
    + intros q' Hq'. apply MO. now right.
    + split.
      * unfold h1. cbn [gh_procs]. rewrite map_app, P1, HP1. reflexivity.
      * intros pre q' post EQ. unfold h1. cbn [gh_procs gh_trees]. destruct post as [|y post] using rev_ind.
        -- apply app_inj_tail in EQ. destruct EQ as [<- <-]. exists (GProc q ti fe (gh_num h)). cbn [gp_rank gp_offset gp_tree gp_first]. destruct HG as (_ & _ & NG). rewrite NG. split; [|split; [reflexivity|split; [reflexivity|exact LO]]].
           rewrite P1, nth_error_app2; rewrite <- (map_length gp_rank (gh_procs h)), HP1; [now rewrite Nat.sub_diag|lia].
        -- clear IHpost. rewrite app_comm_cons, app_assoc in EQ. apply app_inj_tail in EQ. destruct EQ as [EQ _]. destruct (HP2 _ _ _ EQ) as (e & E1 & E2 & E3 & E4). exists e. split; [|split; [exact E2|split; [exact E3|exact (located_grows R1 E4)]]].
           rewrite P1, nth_error_app1; [exact E1|]. apply nth_error_Some. congruence.
Qed.
End parse.

(** The composition of the log of a search from the logs for the children of an element. *)
From Coq Require Import Sorting.Sorted.
From Verif Require Import Prelude PathSpec SchemeModel SchemeSpec SchemeProofs SchemeOrderProofs SearchModel SearchSpec.

Section compose.
Variable S : scheme.
Hypothesis LW : laws S.
Notation elt := (elt S).
Notation event := (event elt).
Notation M := (s_maxlevel S).
Notation walk := (gwalk S).
Notation path := (gpath S).
Implicit Types e f x a : elt.
Implicit Types l ls : list elt.
Implicit Types log seg : list event.
Implicit Types v w : event.

(** ** children *)
Lemma below_antisym e f : below e f -> below f e -> e = f.
Proof. intros H1 H2. destruct (below_level LW H1) as [A B]. destruct (below_level LW H2) as [C D]. apply B. lia. Qed.
Lemma proper_child e x : below e x -> x <> e ->
  s_level e < M /\ exists i, 0 <= i < s_num_children e /\ below (s_child e i) x.
Proof.
  intros (p & r & H & -> & ->) N. destruct r as [|i r]; [now rewrite app_nil_r in N|].
  replace (p ++ i :: r) with ((p ++ [i]) ++ r) in * by (now rewrite <- app_assoc).
  assert (H' := gpath_app H). apply gpath_snoc_inv in H'. destruct H' as (Hp & HL & Hi). rewrite (law_level LW Hp). split; [exact HL|].
  exists i. split; [exact Hi|]. rewrite <- gwalk_snoc. exists (p ++ [i]), r. auto.
Qed.
Lemma child_anc_id e x i : valid e -> s_level e < M -> 0 <= i < s_num_children e -> below (s_child e i) x ->
  s_level e < s_level x /\ s_ancestor_id x (s_level e + 1) = i.
Proof.
  intros (p & Hp & ->) HL Hi (q & r & H & E & ->). rewrite (law_level LW Hp) in *. rewrite <- gwalk_snoc in E.
  assert (Hpi : path (p ++ [i])) by (constructor; auto). apply (gwalk_inj LW Hpi) in E; [|now apply gpath_app in H]. subst q.
  rewrite (law_level LW H), zlen_app, zlen_snoc. pose proof (zlen_ge0 r). pose proof (zlen_ge0 p). split; [lia|].
  rewrite (law_ancestor_id LW H) by (rewrite zlen_app, zlen_snoc; lia).
  rewrite <- app_assoc, app_nth2 by (unfold zlen; lia). replace (Z.to_nat (zlen p + 1 - 1) - length p)%nat with 0%nat by (unfold zlen; lia). reflexivity.
Qed.
Lemma child_unique e x i j : valid e -> s_level e < M -> 0 <= i < s_num_children e -> 0 <= j < s_num_children e ->
  below (s_child e i) x -> below (s_child e j) x -> i = j.
Proof. intros V HL Hi Hj H1 H2. destruct (child_anc_id V HL Hi H1) as [_ <-]. destruct (child_anc_id V HL Hj H2) as [_ <-]. reflexivity. Qed.
Lemma child_not_above e i : valid e -> s_level e < M -> 0 <= i < s_num_children e -> ~ below (s_child e i) e.
Proof. intros V HL Hi H. destruct (child_anc_id V HL Hi H). lia. Qed.
Lemma between_child e x i a : valid e -> s_level e < M -> 0 <= i < s_num_children e -> below (s_child e i) x ->
  (between e a x <-> a = e \/ between (s_child e i) a x).
Proof.
  intros V HL Hi H. assert (Bc := below_child LW V HL Hi). assert (Lc : s_level (s_child e i) = s_level e + 1) by (apply (valid_child LW V HL Hi)). split.
  - intros (H1 & H2 & H3). destruct (below_linear LW H H2) as [C|C].
    + right. split; [exact C|]. auto.
    + destruct (below_level LW H1) as [L1 E1]. destruct (below_level LW C) as [L2 E2].
      destruct (Z.eq_dec (s_level e) (s_level a)) as [Q|Q]; [left; symmetry; now apply E1|].
      assert (a = s_child e i) by (apply E2; lia). right. split; [|auto]. subst a. apply below_refl; auto. apply (valid_child LW V HL Hi).
  - intros [->|(H1 & H2 & H3)].
    + split; [now apply below_refl|]. split; [eapply below_trans; eauto|]. intros ->. now apply (child_not_above V HL Hi).
    + split; [eapply below_trans; eauto|]. auto.
Qed.
Lemma compare_before e f : valid e -> valid f -> before e f -> s_compare e f < 0.
Proof.
  intros Ve Vf B. destruct Ve as (p & Hp & ->), Vf as (q & Hq & ->). assert (C := law_compare LW Hp Hq).
  destruct (path_cmp p q) eqn:E; [apply path_cmp_eq in E; subst; exfalso|rewrite Z.compare_lt_iff in C; exact C|exfalso].
  - assert (V : valid (walk q)) by (now exists q). pose proof (lo_hi LW V). unfold before in B. lia.
  - destruct (paths_cases p q) as [(r & ->)|[(r & ->)|(c & i & j & p' & q' & -> & -> & N)]].
    + destruct (below_not_before LW (e := walk p) (f := walk (p ++ r))) as [H _]; [now exists p, r|contradiction].
    + destruct (below_not_before LW (e := walk q) (f := walk (q ++ r))) as [_ H]; [now exists q, r|contradiction].
    + assert (i < j).
      { destruct (Z.lt_trichotomy i j) as [H|[H|H]]; [exact H|contradiction|].
        assert (B' := diverge_before LW Hq Hp H). assert (V : valid (walk (c ++ i :: p'))) by (now exists (c ++ i :: p')).
        assert (V' : valid (walk (c ++ j :: q'))) by (now exists (c ++ j :: q')). pose proof (lo_hi LW V). pose proof (lo_hi LW V'). unfold before in *. lia. }
      clear -E H. induction c as [|a c IH]; cbn in E; [|rewrite Z.compare_refl in E; auto].
      assert (C : (i ?= j) = Lt) by (now apply Z.compare_lt_iff). rewrite C in E. discriminate.
Qed.
Lemma compare_below e f : below e f -> e <> f -> s_compare e f < 0.
Proof.
  intros (p & r & H & -> & ->) N. assert (Hp := gpath_app H). assert (C := law_compare LW Hp H).
  assert (E : path_cmp p (p ++ r) = Lt).
  { destruct r as [|i r]; [now rewrite app_nil_r in N|]. clear. induction p as [|a p IH]; [reflexivity|]. cbn. now rewrite Z.compare_refl. }
  rewrite E in C. now apply Z.compare_lt_iff in C.
Qed.

(** ** logs *)
Lemma seg_below l base top qs log v : search_ok l base top qs log -> In v log -> below top (ev_elem v).
Proof.
  intros H Hv. destruct v as [e b ls i r|e b ls i q r]; cbn.
  - apply (so_called H). now exists b, ls, i, r.
  - assert (A : asked log e q) by (now exists b, ls, i, r). apply (so_asked H) in A. destruct A as [(b' & ls' & i' & A) _].
    apply (so_called H). now exists b', ls', i', true.
Qed.
Lemma empty_ok l base top qs : l = [] \/ qs = Some [] -> search_ok l base top qs [].
Proof.
  intros H. split.
  - intros e b ls i r [].
  - intros e b ls i q r [].
  - intros e. split; [intros (b & ls & i & r & [])|]. intros (_ & (x & Hx & _) & _ & HQ). destruct H as [->| ->]; [destruct Hx|].
    destruct HQ as (q & (n & [= <-] & []) & _). discriminate.
  - intros e q. split; [intros (b & ls & i & r & [])|intros [(b & ls & i & []) _]].
  - constructor.
Qed.

(** the element callback for e followed by the calls for the queries, with their results [rs] *)
Definition asks (e : elt) (b : bool) (ls : list elt) (base : Z) (rs : list (Z * bool)) : list event :=
  map (fun p : Z * bool => Asked e b ls base (fst p) (snd p)) rs.
Definition qs_rs (qs : option (list Z)) (rs : list (Z * bool)) : Prop :=
  match qs with None => rs = [] | Some n => n <> [] /\ map fst rs = n /\ StronglySorted Z.lt n /\ Forall (fun q => 0 <= q) n end.
Lemma asks_in e b ls base rs v : In v (asks e b ls base rs) <-> exists q r, In (q, r) rs /\ v = Asked e b ls base q r.
Proof. unfold asks. rewrite in_map_iff. split; [intros ([q r] & <- & H); eauto|intros (q & r & H & ->); exists (q, r); auto]. Qed.
Lemma asks_sorted e b ls base rs : StronglySorted Z.lt (map fst rs) -> StronglySorted (@earlier S) (asks e b ls base rs).
Proof.
  induction rs as [|[q r] rs IH]; intros H; [constructor|]. cbn in H. inversion H as [|? ? H1 H2]; subst. cbn. constructor; [now apply IH|].
  apply Forall_forall. intros v Hv. apply asks_in in Hv. destruct Hv as (q' & r' & Hi & ->). right. cbn. split; [reflexivity|].
  rewrite Forall_forall in H2. apply H2. apply in_map_iff. exists (q', r'). auto.
Qed.
Lemma qs_sorted qs rs : qs_rs qs rs -> StronglySorted Z.lt (map fst rs) /\ Forall (fun q => 0 <= q) (map fst rs).
Proof. destruct qs as [n|]; cbn; [intros (_ & -> & H & H'); auto|intros ->; split; constructor]. Qed.
Lemma qs_active qs rs q : qs_rs qs rs -> (exists n, qs = Some n /\ In q n) <-> exists r, In (q, r) rs.
Proof.
  destruct qs as [n|]; cbn.
  - intros (_ & E & _). split.
    + intros (n' & [= <-] & H). rewrite <- E in H. apply in_map_iff in H. destruct H as ([q' r] & <- & H). now exists r.
    + intros (r & H). exists n. split; [reflexivity|]. rewrite <- E. apply in_map_iff. exists (q, r). auto.
  - intros ->. split; [intros (n & H & _); discriminate|intros (r & [])].
Qed.
Lemma between_self e a : ~ between e a e.
Proof. intros (H1 & H2 & H3). apply H3. now apply below_antisym. Qed.

Section node.
Variables (e : elt) (ls : list elt) (base : Z) (qs : option (list Z)) (rs : list (Z * bool)).
Hypothesis Ve : valid e.
Hypothesis NE : ls <> [].
Hypothesis BE : Forall (below e) ls.
Hypothesis HQ : qs_rs qs rs.

Lemma has_leaf : exists x, In x ls /\ below e x.
Proof. destruct ls as [|x l]; [congruence|]. exists x. split; [now left|now inversion BE]. Qed.
Lemma self_args b : (b = true <-> In e ls) -> right_args ls base e b ls base.
Proof. intros H. split; [|exact H]. exists [], []. rewrite app_nil_r. cbn. split; [reflexivity|]. split; [unfold zlen; cbn; lia|]. split; [exact BE|constructor]. Qed.
Lemma some_active log : qs <> None -> exists q, active e qs log e q.
Proof.
  intros N. destruct qs as [n|]; [|congruence]. destruct HQ as (H1 & _). destruct n as [|q n]; [congruence|]. exists q. split.
  - exists (q :: n). split; [reflexivity|now left].
  - intros a Ha. now apply between_self in Ha.
Qed.
(** the callback returned false *)
Lemma reject_ok b : (b = true <-> In e ls) -> search_ok ls base e qs [Called e b ls base false].
Proof.
  intros Hb. split.
  - intros e' b' ls' i r [[= <- <- <- <- <-]|[]]. now apply self_args.
  - intros e' b' ls' i q r [H|[]]. discriminate.
  - intros x. split.
    + intros (b' & ls' & i & r & [[= <- _ _ _ _]|[]]). split; [now apply below_refl|]. split; [apply has_leaf|]. split; [|intros N; now apply some_active].
      intros a Ha. now apply between_self in Ha.
    + intros (H1 & _ & H3 & _). destruct (below_level LW H1) as [L1 L2]. destruct (Z.eq_dec (s_level e) (s_level x)) as [Q|Q].
      * rewrite <- (L2 Q). exists b, ls, base, false. now left.
      * destruct (H3 e) as (b' & ls' & i & [H|[]]); [|discriminate]. split; [now apply below_refl|]. split; [exact H1|]. intros ->. lia.
  - intros x q. split; [intros (b' & ls' & i & r & [H|[]]); discriminate|]. intros [(b' & ls' & i & [H|[]]) _]. discriminate.
  - constructor; constructor.
Qed.
(** the element is a leaf *)
Lemma leaf_ok : ls = [e] -> search_ok ls base e qs (Called e true ls base true :: asks e true ls base rs).
Proof.
  intros El. assert (Hb : true = true <-> In e ls) by (rewrite El; cbn; tauto). split.
  - intros e' b' ls' i r [[= <- <- <- <- <-]|H]; [now apply self_args|]. apply asks_in in H. destruct H as (q & r' & _ & H). discriminate.
  - intros e' b' ls' i q r [H|H]; [discriminate|]. apply asks_in in H. destruct H as (q' & r' & _ & [= -> -> -> -> -> ->]). now apply self_args.
  - intros x. split.
    + intros (b' & ls' & i & r & [[= <- _ _ _ _]|H]).
      * split; [now apply below_refl|]. split; [apply has_leaf|]. split; [|intros N; now apply some_active]. intros a Ha. now apply between_self in Ha.
      * apply asks_in in H. destruct H as (q & r' & _ & H). discriminate.
    + intros (H1 & (y & Hy & By) & _). rewrite El in Hy. destruct Hy as [<-|[]]. rewrite (below_antisym H1 By) in *. exists true, ls, base, true. now left.
  - intros x q. split.
    + intros (b' & ls' & i & r & [H|H]); [discriminate|]. apply asks_in in H. destruct H as (q' & r' & Hin & [= -> -> -> -> -> ->]). split.
      * exists true, ls, base. now left.
      * split; [apply (qs_active q' HQ); eauto|]. intros a Ha. now apply between_self in Ha.
    + intros [(b' & ls' & i & [[= <- _ _ _]|H]) (H2 & _)].
      * apply (qs_active q HQ) in H2. destruct H2 as (r & H2). exists true, ls, base, r. right. apply asks_in. eauto.
      * apply asks_in in H. destruct H as (q' & r' & _ & H). discriminate.
  - destruct (qs_sorted HQ) as [Hs Hp]. constructor; [now apply asks_sorted|]. apply Forall_forall. intros v Hv. apply asks_in in Hv.
    destruct Hv as (q & r & Hin & ->). right. cbn. split; [reflexivity|]. rewrite Forall_forall in Hp.
    assert (0 <= q); [|lia]. apply Hp. apply in_map_iff. exists (q, r). auto.
Qed.

(** an inner element: [segs] are the logs of the searches in the children *)
Hypothesis NL : ~ In e ls.
Variable segs : list (list event).
Definition next_qs : option (list Z) := match qs with None => None | Some _ => Some (map fst (filter snd rs)) end.
Hypothesis Lsegs : zlen segs = s_num_children e.
Hypothesis Hsegs : forall i seg, nth_error segs i = Some seg -> exists pre por post,
  ls = pre ++ por ++ post /\ Forall (below (s_child e (Z.of_nat i))) por /\ Forall (fun x => ~ below (s_child e (Z.of_nat i)) x) (pre ++ post) /\
  search_ok por (base + zlen pre) (s_child e (Z.of_nat i)) next_qs seg.
Let log : list event := Called e false ls base true :: asks e false ls base rs ++ concat segs.

Lemma node_level : s_level e < M.
Proof.
  destruct has_leaf as (x & Hx & Bx). apply (proper_child Bx). intros ->. contradiction.
Qed.
Lemma in_concat_nth v : In v (concat segs) <-> exists i seg, nth_error segs i = Some seg /\ In v seg.
Proof.
  rewrite in_concat. split.
  - intros (seg & H1 & H2). apply In_nth_error in H1. destruct H1 as (i & H1). eauto.
  - intros (i & seg & H1 & H2). exists seg. split; [now apply nth_error_In in H1|exact H2].
Qed.
Lemma segs_range i seg : nth_error segs i = Some seg -> 0 <= Z.of_nat i < s_num_children e.
Proof. intros H. assert (i < length segs)%nat by (apply nth_error_Some; congruence). unfold zlen in Lsegs. lia. Qed.
Lemma segs_below i seg v : nth_error segs i = Some seg -> In v seg -> below (s_child e (Z.of_nat i)) (ev_elem v).
Proof. intros H Hv. destruct (Hsegs H) as (pre & por & post & _ & _ & _ & OK). apply (seg_below OK Hv). Qed.
(** events about elements in a child are in the log of this child *)
Lemma located i seg x v : nth_error segs i = Some seg -> below (s_child e (Z.of_nat i)) x -> ev_elem v = x -> (In v log <-> In v seg).
Proof.
  intros H Bx Ev. pose proof node_level as HL. assert (R := segs_range H). split.
  - intros [Q|Q].
    + subst v. cbn in Ev. subst x. now apply (child_not_above Ve HL R) in Bx.
    + apply in_app_iff in Q. destruct Q as [Q|Q].
      * apply asks_in in Q. destruct Q as (q & r & _ & ->). cbn in Ev. subst x. now apply (child_not_above Ve HL R) in Bx.
      * apply in_concat_nth in Q. destruct Q as (j & seg' & H' & Q). assert (Bj := segs_below H' Q). rewrite Ev in Bj.
        assert (Z.of_nat i = Z.of_nat j) by (apply (child_unique Ve HL R (segs_range H') Bx Bj)). assert (i = j) by lia. subst j. congruence.
  - intros Q. right. apply in_app_iff. right. apply in_concat_nth. eauto.
Qed.
Lemma called_iff i seg x : nth_error segs i = Some seg -> below (s_child e (Z.of_nat i)) x -> (called log x <-> called seg x).
Proof. intros H B. unfold called. split; intros (b & l & k & r & Q); exists b, l, k, r; now apply (located H B (v := Called x b l k r) eq_refl). Qed.
Lemma accepted_iff i seg x : nth_error segs i = Some seg -> below (s_child e (Z.of_nat i)) x -> (accepted log x <-> accepted seg x).
Proof. intros H B. unfold accepted. split; intros (b & l & k & Q); exists b, l, k; now apply (located H B (v := Called x b l k true) eq_refl). Qed.
Lemma asked_iff i seg x q : nth_error segs i = Some seg -> below (s_child e (Z.of_nat i)) x -> (asked log x q <-> asked seg x q).
Proof. intros H B. unfold asked. split; intros (b & l & k & r & Q); exists b, l, k, r; now apply (located H B (v := Asked x b l k q r) eq_refl). Qed.
Lemma matched_iff i seg x q : nth_error segs i = Some seg -> below (s_child e (Z.of_nat i)) x -> (matched log x q <-> matched seg x q).
Proof. intros H B. unfold matched. split; intros (b & l & k & Q); exists b, l, k; now apply (located H B (v := Asked x b l k q true) eq_refl). Qed.
Lemma child_of x : below e x -> x <> e -> exists i seg, nth_error segs i = Some seg /\ below (s_child e (Z.of_nat i)) x.
Proof.
  intros B N. destruct (proper_child B N) as (_ & i & Hi & Bi). assert (HN : nth_error segs (Z.to_nat i) <> None) by (apply nth_error_Some; unfold zlen in Lsegs; lia).
  destruct (nth_error segs (Z.to_nat i)) as [seg|] eqn:E; [|congruence]. exists (Z.to_nat i), seg. split; [exact E|]. rewrite Z2Nat.id by lia. exact Bi.
Qed.
Lemma head_accepted : accepted log e.
Proof. exists false, ls, base. now left. Qed.
(** events about e itself *)
Lemma ev_self v : In v log -> ev_elem v = e -> v = Called e false ls base true \/ In v (asks e false ls base rs).
Proof.
  intros [H|H] E; [left; now symmetry|]. apply in_app_iff in H. destruct H as [H|H]; [now right|]. exfalso.
  apply in_concat_nth in H. destruct H as (i & seg & H & Hv). assert (B := segs_below H Hv). rewrite E in B.
  now apply (child_not_above Ve node_level (segs_range H)) in B.
Qed.
Lemma matched_self q : matched log e q <-> In (q, true) rs.
Proof.
  split.
  - intros (b & l & k & H). destruct (ev_self H eq_refl) as [Q|Q]; [discriminate|]. apply asks_in in Q. destruct Q as (q' & r & Hin & [= _ _ _ -> <-]). exact Hin.
  - intros H. exists false, ls, base. right. apply in_app_iff. left. apply asks_in. eauto.
Qed.
Lemma next_in q : (exists n, next_qs = Some n /\ In q n) <-> In (q, true) rs.
Proof.
  unfold next_qs. destruct qs as [n|] eqn:EQ.
  - split.
    + intros (n' & [= <-] & H). apply in_map_iff in H. destruct H as ([q' r] & <- & H). apply filter_In in H. destruct H as [H E]. cbn in E. now subst r.
    + intros H. eexists. split; [reflexivity|]. apply in_map_iff. exists (q, true). split; [reflexivity|]. apply filter_In. auto.
  - cbn in HQ. rewrite HQ. split; [intros (n & H & _); discriminate|intros []].
Qed.
Lemma active_child i seg x q : nth_error segs i = Some seg -> below (s_child e (Z.of_nat i)) x ->
  (active e qs log x q <-> active (s_child e (Z.of_nat i)) next_qs seg x q).
Proof.
  intros H B. pose proof node_level as HL. assert (R := segs_range H). unfold active. rewrite next_in. split.
  - intros [H1 H2]. split.
    + apply matched_self. apply H2. apply (between_child e (i := Z.of_nat i) Ve HL R B). now left.
    + intros a Ha. assert (Ba : below (s_child e (Z.of_nat i)) a) by apply Ha. apply (matched_iff q H Ba). apply H2.
      apply (between_child a Ve HL R B). now right.
  - intros [H1 H2]. split.
    + apply (qs_active q HQ). eauto.
    + intros a Ha. apply (between_child a Ve HL R B) in Ha. destruct Ha as [->|Ha].
      * now apply matched_self.
      * assert (Ba : below (s_child e (Z.of_nat i)) a) by apply Ha. apply (matched_iff q H Ba). now apply H2.
Qed.
Lemma child_args i seg x b l k : nth_error segs i = Some seg -> forall pre por post,
  ls = pre ++ por ++ post -> Forall (fun x => ~ below (s_child e (Z.of_nat i)) x) (pre ++ post) -> below (s_child e (Z.of_nat i)) x ->
  right_args por (base + zlen pre) x b l k -> right_args ls base x b l k.
Proof.
  intros H pre por post E N B [(p1 & p2 & E1 & E2 & F1 & F2) Hb].
  assert (NX : Forall (fun y => ~ below x y) (pre ++ post)).
  { eapply Forall_impl; [|exact N]. intros y Hy Q. apply Hy. eapply below_trans; eauto. }
  apply Forall_app in NX. destruct NX as [N1 N2]. apply Forall_app in F2. destruct F2 as [F2 F3]. split.
  - exists (pre ++ p1), (p2 ++ post). split; [rewrite E, E1, <- !app_assoc; reflexivity|]. split; [rewrite zlen_app; lia|]. split; [exact F1|].
    rewrite !Forall_app. auto.
  - rewrite Hb, E, !in_app_iff. split; [tauto|]. intros [Q|[Q|Q]]; [|exact Q|].
    + rewrite Forall_forall in N1. exfalso. apply (N1 x Q). apply below_refl; auto. apply (below_valid B).
    + rewrite Forall_forall in N2. exfalso. apply (N2 x Q). apply below_refl; auto. apply (below_valid B).
Qed.

Lemma self_or_child x : below e x -> x = e \/ exists i seg, nth_error segs i = Some seg /\ below (s_child e (Z.of_nat i)) x.
Proof.
  intros B. destruct (below_level LW B) as [L1 L2]. destruct (Z.eq_dec (s_level e) (s_level x)) as [Q|Q]; [left; symmetry; now apply L2|].
  right. apply child_of; auto. intros ->. lia.
Qed.
Lemma log_below v : In v log -> below e (ev_elem v).
Proof.
  intros [<-|H]; [cbn; now apply below_refl|]. apply in_app_iff in H. destruct H as [H|H].
  - apply asks_in in H. destruct H as (q & r & _ & ->). cbn. now apply below_refl.
  - apply in_concat_nth in H. destruct H as (i & seg & H & Hv). eapply below_trans; [exact LW| |apply (segs_below H Hv)].
    apply below_child; auto; [apply node_level|apply (segs_range H)].
Qed.
Lemma sorted_concat (ss : list (list event)) : (forall i s, nth_error ss i = Some s -> StronglySorted (@earlier S) s) ->
  (forall i j s t v w, nth_error ss i = Some s -> nth_error ss j = Some t -> (i < j)%nat -> In v s -> In w t -> earlier v w) ->
  StronglySorted (@earlier S) (concat ss).
Proof.
  induction ss as [|s ss IH]; intros H1 H2; [constructor|]. cbn [concat]. apply sorted_app_gen. split; [|split].
  - now apply (H1 0%nat).
  - apply IH; [intros i t Ht; now apply (H1 (Datatypes.S i))|]. intros i j t u v w Ht Hu Hij. apply (H2 (Datatypes.S i) (Datatypes.S j)); auto. lia.
  - apply Forall_forall. intros v Hv. apply Forall_forall. intros w Hw. apply in_concat in Hw. destruct Hw as (t & Ht & Hw). apply In_nth_error in Ht.
    destruct Ht as (j & Ht). apply (H2 0%nat (Datatypes.S j) s t); auto. lia.
Qed.

Lemma node_ok : search_ok ls base e qs log.
Proof.
  pose proof node_level as HL. split.
  - intros x b l k r Hin. assert (BX : below e x) by apply (log_below Hin). destruct (self_or_child BX) as [EX|(i & seg & H & B)]; [rewrite EX in *; clear EX|].
    + destruct (ev_self Hin eq_refl) as [[= -> -> -> ->]|Q].
      * apply self_args. split; [discriminate|contradiction].
      * apply asks_in in Q. destruct Q as (q & r' & _ & Q). discriminate.
    + apply (located H B (v := Called x b l k r) eq_refl) in Hin. destruct (Hsegs H) as (pre & por & post & E & _ & N & OK).
      eapply (child_args H E N B). apply (so_called_args OK Hin).
  - intros x b l k q r Hin. assert (BX : below e x) by apply (log_below Hin). destruct (self_or_child BX) as [EX|(i & seg & H & B)]; [rewrite EX in *; clear EX|].
    + destruct (ev_self Hin eq_refl) as [Q|Q]; [discriminate|].
      apply asks_in in Q. destruct Q as (q' & r' & _ & [= -> -> -> -> ->]). apply self_args. split; [discriminate|contradiction].
    + apply (located H B (v := Asked x b l k q r) eq_refl) in Hin. destruct (Hsegs H) as (pre & por & post & E & _ & N & OK).
      eapply (child_args H E N B). apply (so_asked_args OK Hin).
  - intros x. assert (Bx : called log x -> below e x) by (intros (b & l & k & r & H); apply (log_below H)). split.
    + intros C. destruct (self_or_child (Bx C)) as [->|(i & seg & H & B)].
      * split; [now apply below_refl|]. split; [apply has_leaf|]. split; [|intros N; now apply some_active]. intros a Ha. now apply between_self in Ha.
      * apply (called_iff H B) in C. destruct (Hsegs H) as (pre & por & post & E & _ & N & OK). apply (so_called OK) in C.
        destruct C as (_ & (y & Hy & By) & HA & HQ'). assert (R := segs_range H). split; [eapply below_trans; eauto; now apply below_child|].
        split; [exists y; split; [rewrite E, !in_app_iff; auto|exact By]|]. split.
        -- intros a Ha. apply (between_child a Ve HL R B) in Ha. destruct Ha as [->|Ha]; [apply head_accepted|].
           assert (Ba : below (s_child e (Z.of_nat i)) a) by apply Ha. apply (accepted_iff H Ba). now apply HA.
        -- intros Q. destruct HQ' as (q & HQ'); [unfold next_qs; destruct qs; congruence|]. exists q. now apply (active_child q H B).
    + intros (B & (y & Hy & By) & HA & HQ'). destruct (self_or_child B) as [->|(i & seg & H & Bi)]; [exists false, ls, base, true; now left|].
      apply (called_iff H Bi). destruct (Hsegs H) as (pre & por & post & E & _ & N & OK). apply (so_called OK). assert (R := segs_range H). split; [exact Bi|].
      split; [|split].
      * exists y. split; [|exact By]. rewrite E, !in_app_iff in Hy. assert (Byc : below (s_child e (Z.of_nat i)) y) by (eapply below_trans; eauto).
        rewrite Forall_forall in N. destruct Hy as [Hy|[Hy|Hy]]; [|exact Hy|]; exfalso; apply (N y); auto; apply in_app_iff; auto.
      * intros a Ha. assert (Ba : below (s_child e (Z.of_nat i)) a) by apply Ha. apply (accepted_iff H Ba). apply HA. apply (between_child a Ve HL R Bi). now right.
      * intros Q. destruct HQ' as (q & HQ'); [unfold next_qs in Q; destruct qs; congruence|]. exists q. now apply (active_child q H Bi).
  - intros x q. assert (Bx : accepted log x \/ asked log x q -> below e x).
    { intros [(b & l & k & H)|(b & l & k & r & H)]; apply (log_below H). }
    split.
    + intros C. destruct (self_or_child (Bx (or_intror C))) as [->|(i & seg & H & B)].
      * destruct C as (b & l & k & r & C). split; [apply head_accepted|]. destruct (ev_self C eq_refl) as [Q|Q]; [discriminate|].
        apply asks_in in Q. destruct Q as (q' & r' & Q & [= -> -> -> -> ->]). split; [apply (qs_active q' HQ); eauto|]. intros a Ha. now apply between_self in Ha.
      * apply (asked_iff q H B) in C. destruct (Hsegs H) as (pre & por & post & E & _ & N & OK). apply (so_asked OK) in C. destruct C as [C1 C2].
        split; [now apply (accepted_iff H B)|now apply (active_child q H B)].
    + intros [C1 C2]. destruct (self_or_child (Bx (or_introl C1))) as [->|(i & seg & H & B)].
      * destruct C2 as [C2 _]. apply (qs_active q HQ) in C2. destruct C2 as (r & C2). exists false, ls, base, r. right. apply in_app_iff. left. apply asks_in. eauto.
      * apply (asked_iff q H B). destruct (Hsegs H) as (pre & por & post & E & _ & N & OK). apply (so_asked OK).
        split; [now apply (accepted_iff H B)|now apply (active_child q H B)].
  - destruct (qs_sorted HQ) as [Hs Hp]. unfold log. change (Called e false ls base true :: asks e false ls base rs ++ concat segs) with
      ((Called e false ls base true :: asks e false ls base rs) ++ concat segs). apply sorted_app_gen. split; [|split].
    + constructor; [now apply asks_sorted|]. apply Forall_forall. intros v Hv. apply asks_in in Hv.
      destruct Hv as (q & r & Hin & ->). right. cbn. split; [reflexivity|]. rewrite Forall_forall in Hp.
      assert (0 <= q); [|lia]. apply Hp. apply in_map_iff. exists (q, r). auto.
    + apply sorted_concat.
      * intros i s H. destruct (Hsegs H) as (pre & por & post & E & _ & N & OK). apply (so_order OK).
      * intros i j s t v w Hs' Ht Hij Hv Hw. left. assert (R1 := segs_range Hs'). assert (R2 := segs_range Ht).
        assert (B1 := segs_below Hs' Hv). assert (B2 := segs_below Ht Hw). destruct (below_valid B1) as [V1 V1']. destruct (below_valid B2) as [V2 V2'].
        apply compare_before; auto. assert (SB : before (s_child e (Z.of_nat i)) (s_child e (Z.of_nat j))) by (apply sibling_before; auto; lia).
        pose proof (below_nested LW B1). pose proof (below_nested LW B2). unfold before in *. lia.
    + apply Forall_forall. intros v Hv. apply Forall_forall. intros w Hw. apply in_concat_nth in Hw. destruct Hw as (i & seg & H & Hw).
      assert (Ev : ev_elem v = e). { destruct Hv as [<-|Hv]; [reflexivity|]. apply asks_in in Hv. destruct Hv as (q & r & _ & ->). reflexivity. }
      left. rewrite Ev. assert (Bw := segs_below H Hw). assert (R := segs_range H). apply compare_below.
      * eapply below_trans; eauto. now apply below_child.
      * intros Q. rewrite <- Q in Bw. now apply (child_not_above Ve HL R) in Bw.
Qed.
End node.
End compose.

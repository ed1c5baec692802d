(** The search produces a correct log. *)
From Coq Require Import Sorting.Sorted.
From Verif Require Import Prelude PathSpec SchemeModel SchemeSpec SchemeProofs SchemeOrderProofs LeafModel LeafSpec LeafProofs AdaptModel.
From Verif Require Import SearchModel SearchSpec SplitProofs SearchProofs.

Section one_tree.
Variable S : scheme.
Hypothesis LW : laws S.
Notation elt := (elt S).
Notation event := (event elt).
Notation M := (s_maxlevel S).
Implicit Types e f x a : elt.
Implicit Types l ls : list elt.

(** ** t8_forest_split_array *)
Definition anc (e : elt) (ls : list elt) (k : Z) : Z :=
  match nth_error ls (Z.to_nat k) with Some x => s_ancestor_id x (s_level e + 1) | None => 0 end.
Lemma split_array_spec e ls : valid e -> ordered ls -> Forall (below e) ls -> ~ In e ls ->
  exists offs, split_array e ls = Ok offs /\ offsets_ok (anc e ls) (s_num_children e) (zlen ls) offs.
Proof.
  intros V O B N. unfold split_array. pose proof (valid_nchild LW V) as NC.
  assert (K : forall k, 0 <= k < zlen ls -> exists x, nth_error ls (Z.to_nat k) = Some x /\ s_level e < M /\ exists i, 0 <= i < s_num_children e /\ below (s_child e i) x).
  { intros k Hk. destruct (nth_error ls (Z.to_nat k)) as [x|] eqn:E; [|apply nth_error_None in E; unfold zlen in Hk; lia].
    exists x. split; [reflexivity|]. assert (I := nth_error_In _ _ E). rewrite Forall_forall in B. apply (proper_child LW (B x I)). intros ->. contradiction. }
  apply split_spec; [lia|unfold zlen; lia| |].
  - intros k Hk. destruct (K k Hk) as (x & E & HL & i & Hi & Bi). unfold determine_child_type, anc. rewrite E.
    destruct (child_anc_id LW V HL Hi Bi) as [H1 H2]. rewrite (proj2 (Z.ltb_lt _ _) H1). rewrite H2. auto.
  - intros k j Hk Hj. destruct (K k ltac:(lia)) as (x & E & HL & i & Hi & Bi). destruct (K j ltac:(lia)) as (y & E' & _ & i' & Hi' & Bi').
    unfold anc. rewrite E, E'. rewrite (proj2 (child_anc_id LW V HL Hi Bi)), (proj2 (child_anc_id LW V HL Hi' Bi')).
    destruct (Z.eq_dec k j) as [->|NK].
    + rewrite E in E'. injection E' as <-. rewrite (child_unique LW V HL Hi Hi' Bi Bi'). lia.
    + destruct (Z.le_gt_cases i i') as [C|C]; [exact C|]. exfalso.
      assert (SB := sorted_before LW O E E' ltac:(lia)). assert (SB' : before (s_child e i') (s_child e i)) by (apply (sibling_before LW); auto; lia).
      pose proof (below_nested LW Bi). pose proof (below_nested LW Bi'). destruct (below_valid Bi) as [_ Vx]. destruct (below_valid Bi') as [_ Vy].
      pose proof (lo_hi LW Vx). pose proof (lo_hi LW Vy). unfold before in *. lia.
Qed.
Lemma skip2 (n m : nat) ls : skipn n (skipn m ls) = skipn (m + n) ls.
Proof. revert ls. induction m as [|m IH]; intros ls; [reflexivity|]. destruct ls; [now rewrite !skipn_nil|]. apply IH. Qed.
(** the leaves between two offsets *)
Lemma portion_spec e ls offs i (a b : Z) : valid e -> ordered ls -> Forall (below e) ls -> ~ In e ls ->
  offsets_ok (anc e ls) (s_num_children e) (zlen ls) offs -> 0 <= i < s_num_children e ->
  nth_error offs (Z.to_nat i) = Some a -> nth_error offs (Z.to_nat (i + 1)) = Some b ->
  let por := firstn (Z.to_nat (b - a)) (skipn (Z.to_nat a) ls) in
  0 <= a <= zlen ls /\ b <= zlen ls /\ exists pre post, ls = pre ++ por ++ post /\ zlen pre = a /\ Forall (below (s_child e i)) por /\
    Forall (fun x => ~ below (s_child e i) x) (pre ++ post).
Proof.
  intros V O B N [OL OK] Hi Ha Hb por. destruct (OK _ _ Ha) as [Ra Pa]. destruct (OK _ _ Hb) as [Rb Pb].
  rewrite Z2Nat.id in Pa, Pb by lia. split; [lia|]. split; [lia|].
  assert (K : forall k x, nth_error ls k = Some x -> s_level e < M /\ exists j, 0 <= j < s_num_children e /\ below (s_child e j) x /\ anc e ls (Z.of_nat k) = j).
  { intros k x E. assert (I := nth_error_In _ _ E). rewrite Forall_forall in B. destruct (proper_child LW (B x I)) as (HL & j & Hj & Bj); [intros ->; contradiction|].
    split; [exact HL|]. exists j. split; [exact Hj|]. split; [exact Bj|]. unfold anc. rewrite Nat2Z.id, E. apply (child_anc_id LW V HL Hj Bj). }
  assert (LT : forall k x, nth_error ls k = Some x -> Z.of_nat k < zlen ls) by (intros k x E; assert (k < length ls)%nat by (apply nth_error_Some; congruence); unfold zlen; lia).
  assert (AB : a <= b).
  { destruct (Z.le_gt_cases a b) as [C|C]; [exact C|]. specialize (Pa b ltac:(lia)). specialize (Pb b ltac:(lia)). lia. }
  exists (firstn (Z.to_nat a) ls), (skipn (Z.to_nat b) ls). split; [|split; [|split]].
  - unfold por. rewrite <- (firstn_skipn (Z.to_nat a) ls) at 1. f_equal. rewrite <- (firstn_skipn (Z.to_nat (b - a)) (skipn (Z.to_nat a) ls)) at 1. f_equal.
    rewrite skip2. f_equal. lia.
  - unfold zlen in *. rewrite firstn_length. lia.
  - apply Forall_forall. intros x Hx. unfold por in Hx. apply In_nth_error in Hx. destruct Hx as (k & Hx).
    assert (Hk : (k < Z.to_nat (b - a))%nat).
    { assert (k < length (firstn (Z.to_nat (b - a)) (skipn (Z.to_nat a) ls)))%nat by (apply nth_error_Some; congruence). rewrite firstn_length in H. lia. }
    rewrite nth_error_firstn', nth_error_skipn' in Hx by exact Hk. destruct (K _ _ Hx) as (HL & j & Hj & Bj & E). specialize (LT _ _ Hx).
    specialize (Pa (Z.of_nat (Z.to_nat a + k)) ltac:(lia)). specialize (Pb (Z.of_nat (Z.to_nat a + k)) ltac:(lia)). rewrite E in *.
    assert (JI : j = i) by lia. rewrite <- JI. exact Bj.
  - apply Forall_app. split; apply Forall_forall; intros x Hx Bx; apply In_nth_error in Hx; destruct Hx as (k & Hx).
    + assert (Hk : (k < Z.to_nat a)%nat).
      { assert (k < length (firstn (Z.to_nat a) ls))%nat by (apply nth_error_Some; congruence). rewrite firstn_length in H. lia. }
      rewrite nth_error_firstn' in Hx by exact Hk. destruct (K _ _ Hx) as (HL & j & Hj & Bj & E). specialize (LT _ _ Hx).
      specialize (Pa (Z.of_nat k) ltac:(lia)). rewrite E in Pa. rewrite (child_unique LW V HL Hj Hi Bj Bx) in *. lia.
    + rewrite nth_error_skipn' in Hx. destruct (K _ _ Hx) as (HL & j & Hj & Bj & E). specialize (LT _ _ Hx).
      specialize (Pb (Z.of_nat (Z.to_nat b + k)) ltac:(lia)). rewrite E in Pb. rewrite (child_unique LW V HL Hj Hi Bj Bx) in *. lia.
Qed.
Lemma infix_ordered (pre por post : list elt) : ordered (pre ++ por ++ post) -> ordered por.
Proof. intros O. apply (ordered_app LW) in O. destruct O as (_ & O & _). apply (ordered_app LW) in O. apply O. Qed.

(** is the element a leaf? *)
Lemma check_is_leaf_spec all e ls : ordered all -> valid e -> ordered ls -> ls <> [] -> Forall (below e) ls -> incl ls all ->
  exists b, check_is_leaf all e ls = Ok b /\ (b = true <-> In e ls) /\ (b = true -> ls = [e]).
Proof.
  intros OA V O NE B I. destruct ls as [|x [|y ls]]; [congruence| |].
  - assert (Bx : below e x) by (now inversion B). destruct (below_level LW Bx) as [L1 L2]. destruct (below_valid Bx) as [_ Vx]. cbn [check_is_leaf].
    destruct (Z.ltb_spec (s_level x) (s_level e)); [lia|]. destruct (Z.eqb_spec (s_level e) (s_level x)) as [Q|Q].
    + rewrite <- (L2 Q) in *. assert (Ia : In e all) by (apply I; now left).
      destruct (find_spec LW OA (e := e)) as (r & E & F); auto; [intros ->; destruct Ia|]. unfold element_is_leaf. rewrite E. cbn [obind].
      destruct F as [[-> F]|[H1 H2]]; [contradiction|]. rewrite (proj2 (Z.leb_le _ _) H1). rewrite (proj2 (valid_equal LW V V) eq_refl). cbn [andb].
      exists true. split; [reflexivity|]. split; [|reflexivity]. split; [now left|reflexivity].
    + exists false. split; [reflexivity|]. split; [|discriminate]. split; [discriminate|]. intros [->|[]]. lia.
  - exists false. split; [reflexivity|]. split; [|discriminate]. split; [discriminate|]. intros Hin. exfalso.
    apply (ordered_cons LW) in O. destruct O as (Vx & O & F). apply (ordered_cons LW) in O. destruct O as (Vy & O & F').
    apply Forall_cons_iff in B as [B1 B]. apply Forall_cons_iff in B as [B2 B3]. apply Forall_cons_iff in F as [F1 F].
    destruct Hin as [->|[->|Hin]].
    + now apply (below_not_before LW) in B2.
    + now apply (below_not_before LW) in B1.
    + rewrite Forall_forall in F. apply F in Hin. apply (below_not_before LW) in B1. tauto.
Qed.

(** ** the recursion *)
Variable St : Type.
Variable cb : element_callback St.
Variable Q : queries St.
Notation cb' := (record_cb cb).
Notation Q' := (record Q).
Variable all : list elt.
Hypothesis OA : ordered all.
Variable lt : Z.
Definition tag (v : event) : entry := @Entry lt S v.
Definition qs_of (active : list Z) : option (list Z) := match Q with QNone => None | _ => Some active end.
Definition qs_fine (qs : option (list Z)) : Prop := match qs with None => True | Some n => StronglySorted Z.lt n /\ Forall (fun q => 0 <= q) n end.

Lemma copy_if_spec (e : elt) b ls i (qcb : query_callback St) (n : list Z) (st : St) (log : list entry) :
  exists st' rs, copy_if (fun (st : St * list entry) q => record_query qcb st lt e b ls i q) (st, log) n =
    ((st', log ++ map tag (asks e b ls i rs)), map fst (filter snd rs)) /\ map fst rs = n.
Proof.
  revert st log. induction n as [|q n IH]; intros st log; cbn [copy_if].
  - exists st, []. cbn. rewrite app_nil_r. auto.
  - unfold record_query at 1. cbn [fst snd]. destruct (qcb S st lt e b ls i q) as [st1 r].
    destruct (IH st1 (log ++ [tag (Asked e b ls i q r)])) as (st2 & rs & E & F). unfold tag in E at 1. rewrite E. exists st2, ((q, r) :: rs).
    cbn [map asks fst snd filter]. split; [|now rewrite F]. rewrite <- app_assoc. destruct r; reflexivity.
Qed.
Lemma check_queries_spec (e : elt) b ls i (active : list Z) (st : St) (log : list entry) : qs_fine (qs_of active) ->
  stop_due_to_queries Q active = false ->
  exists st' rs, check_queries Q' (st, log) active lt e b ls i = ((st', log ++ map tag (asks e b ls i rs)), match Q with QNone => [] | _ => map fst (filter snd rs) end) /\
    qs_rs (qs_of active) rs.
Proof.
  intros F NS. unfold check_queries, record, qs_of in *. destruct Q as [|n qcb|n qcb]; cbn in NS.
  - exists st, []. cbn. now rewrite app_nil_r.
  - destruct active as [|q r] eqn:EA; [discriminate|]. destruct (copy_if_spec e b ls i qcb (q :: r) st log) as (st' & rs & E & F').
    exists st', rs. split; [exact E|]. cbn [qs_rs]. destruct F as [F1 F2]. repeat split; auto. discriminate.
  - destruct active as [|q r] eqn:EA; [discriminate|]. rewrite <- EA in *. unfold record_batched. cbn [fst snd].
    destruct (qcb S st lt e b ls i active) as [st' m]. exists st', (map (fun q => (q, m q)) active). split.
    + f_equal.
      * f_equal. f_equal. unfold asks. rewrite !map_map. reflexivity.
      * clear. induction active as [|q l IH]; [reflexivity|]. cbn. destruct (m q); cbn; now rewrite IH.
    + cbn [qs_rs]. destruct F as [F1 F2]. rewrite map_map. cbn [fst]. rewrite map_id. repeat split; auto. rewrite EA. discriminate.
Qed.
Lemma filter_sorted (R : Z -> Z -> Prop) (rs : list (Z * bool)) : StronglySorted R (map fst rs) -> StronglySorted R (map fst (filter snd rs)).
Proof.
  induction rs as [|[q b] rs IH]; intros H; [constructor|]. cbn in H. inversion H as [|? ? H1 H2]; subst. cbn [filter snd]. destruct b; cbn [map fst]; [|now apply IH].
  constructor; [now apply IH|]. apply Forall_forall. intros x Hx. rewrite Forall_forall in H2. apply H2. apply in_map_iff in Hx. destruct Hx as (p & <- & Hp).
  apply filter_In in Hp. apply in_map. apply Hp.
Qed.
Lemma stop_record active : stop_due_to_queries Q' active = stop_due_to_queries Q active.
Proof. now destruct Q. Qed.

Definition rec_ok (fuel : nat) : Prop := forall e ls base active st log,
  valid e -> ordered ls -> Forall (below e) ls -> incl ls all -> qs_fine (qs_of active) -> (Z.to_nat (M - s_level e) < fuel)%nat ->
  exists st' act' seg, search_recursion cb' Q' all lt fuel e ls base ((st, log), active) = Ok ((st', log ++ map tag seg), act') /\
    search_ok ls base e (qs_of active) seg.

Lemma children_spec fuel e ls base offs new rs qs : rec_ok fuel ->
  valid e -> ordered ls -> Forall (below e) ls -> ~ In e ls -> ls <> [] -> incl ls all -> (Z.to_nat (M - s_level e) < Datatypes.S fuel)%nat ->
  offsets_ok (anc e ls) (s_num_children e) (zlen ls) offs ->
  qs_fine (next_qs qs rs) -> (forall act, qs_of (update_queries Q' new act) = next_qs qs rs) ->
  forall n k active st log, 0 <= k -> k + Z.of_nat n = s_num_children e ->
  exists st' act' segs, children_loop Q' (search_recursion cb' Q' all lt fuel) e ls base offs new (zseq k n) ((st, log), active) =
      Ok ((st', log ++ map tag (concat segs)), act') /\ length segs = n /\
    forall i seg, nth_error segs i = Some seg -> exists pre por post,
      ls = pre ++ por ++ post /\ Forall (below (s_child e (k + Z.of_nat i))) por /\ Forall (fun x => ~ below (s_child e (k + Z.of_nat i)) x) (pre ++ post) /\
      search_ok por (base + zlen pre) (s_child e (k + Z.of_nat i)) (next_qs qs rs) seg.
Proof.
  intros REC V O B N NE I Hf OK QF QU. induction n as [|n IH]; intros k active st log Hk Hn.
  - exists st, active, []. cbn. rewrite app_nil_r. split; [reflexivity|]. split; [reflexivity|]. intros i seg H. destruct i; discriminate.
  - cbn [zseq children_loop].
    destruct (nth_error offs (Z.to_nat k)) as [a|] eqn:Ea; [|apply nth_error_None in Ea; destruct OK as [OK _]; unfold zlen in OK; lia].
    destruct (nth_error offs (Z.to_nat (k + 1))) as [b|] eqn:Eb; [|apply nth_error_None in Eb; destruct OK as [OK _]; unfold zlen in OK; lia].
    destruct (portion_spec V O B N OK (i := k) ltac:(lia) Ea Eb) as (Ra & Rb & pre & post & E & LP & F1 & F2).
    assert (HL : s_level e < M). { destruct (has_leaf NE B) as (x & Hx & Bx). apply (proper_child LW Bx). intros ->. contradiction. }
    destruct (valid_child LW V HL (i := k) ltac:(lia)) as (Vc & Lc & _).
    set (por := firstn (Z.to_nat (b - a)) (skipn (Z.to_nat a) ls)) in *.
    destruct (Z.ltb_spec a b) as [C|C].
    + destruct (Z.ltb_spec (zlen ls) b) as [C'|C']; [lia|]. cbn [fst snd].
      assert (OP : ordered por) by (apply infix_ordered with (pre := pre) (post := post); now rewrite <- E).
      assert (IP : incl por all) by (intros x Hx; apply I; rewrite E, !in_app_iff; auto).
      destruct (REC (s_child e k) por (a + base) (update_queries Q' new active) st log) as (st1 & act1 & seg & E1 & S1); auto; [now rewrite QU|lia|].
      rewrite E1. cbn [obind]. destruct (IH (k + 1) act1 st1 (log ++ map tag seg) ltac:(lia) ltac:(lia)) as (st2 & act2 & segs & E2 & L2 & P2).
      rewrite E2. exists st2, act2, (seg :: segs). split; [|split].
      * cbn [concat]. now rewrite map_app, app_assoc.
      * cbn [length]. now rewrite L2.
      * intros i sg Hi. destruct i as [|i]; cbn in Hi.
        -- injection Hi as <-. rewrite Z.add_0_r. exists pre, por, post. rewrite QU in S1. rewrite LP, Z.add_comm. auto.
        -- specialize (P2 i sg Hi). replace (k + Z.of_nat (Datatypes.S i)) with (k + 1 + Z.of_nat i) by lia. exact P2.
    + destruct (IH (k + 1) active st log ltac:(lia) ltac:(lia)) as (st2 & act2 & segs & E2 & L2 & P2).
      rewrite E2. exists st2, act2, ([] :: segs). split; [reflexivity|]. split; [cbn [length]; now rewrite L2|].
      intros i sg Hi. destruct i as [|i]; cbn in Hi.
      * injection Hi as <-. rewrite Z.add_0_r. assert (P0 : por = []) by (unfold por; replace (Z.to_nat (b - a)) with 0%nat by lia; reflexivity).
        exists pre, por, post. split; [exact E|]. split; [exact F1|]. split; [exact F2|]. apply empty_ok. now left.
      * specialize (P2 i sg Hi). replace (k + Z.of_nat (Datatypes.S i)) with (k + 1 + Z.of_nat i) by lia. exact P2.
Qed.

Lemma recursion_spec fuel : rec_ok fuel.
Proof.
  induction fuel as [|fuel IH]; intros e ls base active st log V O B I QF Hf; [lia|]. cbn [search_recursion].
  destruct (Z.eqb_spec (zlen ls) 0) as [Z0|Z0].
  { exists st, active, []. cbn [map]. rewrite app_nil_r. split; [reflexivity|]. apply empty_ok. left. unfold zlen in Z0. destruct ls; [reflexivity|cbn in Z0; lia]. }
  assert (NE : ls <> []) by (intros ->; apply Z0; reflexivity).
  rewrite stop_record. destruct (stop_due_to_queries Q active) eqn:ST.
  { exists st, active, []. cbn [map]. rewrite app_nil_r. split; [reflexivity|]. apply empty_ok. right. unfold stop_due_to_queries, qs_of in *.
    destruct Q; [discriminate|destruct active; [reflexivity|discriminate]..]. }
  destruct (check_is_leaf_spec OA V O NE B I) as (b & Eb & Hb & Hb1). rewrite Eb. cbn [obind].
  unfold record_cb at 1. cbn [fst snd]. destruct (cb st lt e b ls base) as [st1 ret]. destruct ret; cbn [negb].
  2:{ exists st1, active, [Called e b ls base false]. split; [reflexivity|]. destruct (check_queries_spec e b ls base st log QF ST) as (_ & rs & _ & QR).
      eapply reject_ok; eauto. }
  destruct (check_queries_spec e b ls base st1 (log ++ [tag (Called e b ls base true)]) QF ST) as (st2 & rs & E2 & QR).
  unfold tag in E2 at 1. rewrite E2.
  destruct b.
  { exists st2, active, (Called e true ls base true :: asks e true ls base rs). split; [now rewrite <- app_assoc|]. apply leaf_ok; auto. }
  assert (NI : ~ In e ls) by (intros Q0; apply Hb in Q0; discriminate).
  destruct (split_array_spec V O B NI) as (offs & Eo & Ho). rewrite Eo. cbn [obind].
  set (new := match Q with QNone => [] | _ => map fst (filter snd rs) end).
  assert (QF' : qs_fine (next_qs (qs_of active) rs)).
  { unfold next_qs, qs_of. destruct (qs_sorted QR) as [Q1 Q2]. destruct Q; cbn [qs_fine]; [exact Logic.I|split..]; try (now apply filter_sorted).
    all: apply Forall_forall; intros x Hx; rewrite Forall_forall in Q2; apply Q2; apply in_map_iff in Hx; destruct Hx as (p & <- & Hp); apply filter_In in Hp; apply in_map, Hp. }
  assert (QU : forall act, qs_of (update_queries Q' new act) = next_qs (qs_of active) rs).
  { intros act. unfold qs_of, next_qs, update_queries, record, new. destruct Q; reflexivity. }
  pose proof (valid_nchild LW V) as NC.
  destruct (@children_spec fuel e ls base offs new rs (qs_of active) IH V O B NI NE I Hf Ho QF' QU (Z.to_nat (s_num_children e)) 0 active st2
    ((log ++ [tag (Called e false ls base true)]) ++ map tag (asks e false ls base rs)) ltac:(lia) ltac:(lia)) as (st3 & act3 & segs & E3 & L3 & P3).
  exists st3, act3, (Called e false ls base true :: asks e false ls base rs ++ concat segs). split.
  - etransitivity; [exact E3|]. cbn [map]. now rewrite map_app, <- !app_assoc.
  - apply node_ok; auto. unfold zlen. lia.
Qed.

Theorem search_tree_spec st log active : all <> [] -> qs_fine (qs_of active) ->
  exists top st' act' seg, search_tree cb' Q' all lt ((st, log), active) = Ok ((st', log ++ map tag seg), act') /\
    smallest_around all top /\ search_ok all 0 top (qs_of active) seg.
Proof.
  intros NE QF. destruct all as [|x al] eqn:EA; [congruence|]. rewrite <- EA in *. set (y := last all x).
  assert (N0 : nth_error all 0 = Some x) by (rewrite EA; reflexivity).
  assert (NY : nth_error all (Z.to_nat (zlen all - 1)) = Some y).
  { unfold y. rewrite EA. unfold zlen. cbn [length]. replace (Z.to_nat (Z.of_nat (Datatypes.S (length al)) - 1)) with (length al) by lia.
    clear. generalize x at 1 2 as z. intros z. revert z x. induction al as [|a al IH]; intros z x; [reflexivity|]. cbn [length nth_error]. rewrite (IH a x). reflexivity. }
  assert (VA := ordered_valid OA). rewrite Forall_forall in VA. assert (Vx : valid x) by (apply VA; eapply nth_error_In; eauto).
  assert (Vy : valid y) by (apply VA; eapply nth_error_In; eauto). destruct (nca_below LW Vx Vy) as (B1 & B2 & _). set (top := s_nca x y) in *.
  assert (Vt : valid top) by apply (below_valid B1).
  assert (BA : Forall (below top) all).
  { apply Forall_forall. intros z Hz. apply In_nth_error in Hz. destruct Hz as (k & Hk). destruct (Nat.eq_dec k 0) as [->|K0]; [rewrite N0 in Hk; now injection Hk as <-|].
    destruct (Nat.eq_dec k (Z.to_nat (zlen all - 1))) as [->|K1]; [rewrite NY in Hk; now injection Hk as <-|].
    assert (k < length all)%nat by (apply nth_error_Some; congruence). unfold zlen in K1, NY.
    apply (SchemeOrderProofs.between LW (e := x) (g := y)); auto; [apply VA; eapply nth_error_In; eauto|apply (sorted_before LW OA N0 Hk); lia|].
    apply (sorted_before LW OA Hk NY). lia. }
  unfold search_tree. rewrite N0, NY. fold top.
  destruct (@recursion_spec (Datatypes.S (Z.to_nat M)) top all 0 active st log Vt OA BA (incl_refl _) QF) as (st' & act' & seg & E & OK).
  { pose proof (valid_level LW Vt). lia. }
  exists top, st', act', seg. split; [exact E|]. split; [|exact OK]. split; [exact BA|]. intros g Hg. rewrite Forall_forall in Hg.
  apply (nca_below LW Vx Vy); apply Hg; eapply nth_error_In; eauto.
Qed.
End one_tree.

(** ** all trees *)
Section forest.
Variable St : Type.
Variable cb : element_callback St.
Variable Q : queries St.
Lemma NoDup_zseq n : NoDup (zseq 0 n).
Proof. pose proof (sorted_zseq 0 n) as H. induction H as [|a l H IH F]; constructor; auto. intros I. rewrite Forall_forall in F. apply F in I. lia. Qed.
Lemma zseq_fine n : StronglySorted Z.lt (zseq 0 n) /\ Forall (fun q => 0 <= q) (zseq 0 n).
Proof. split; [apply sorted_zseq|]. apply Forall_forall. intros x Hx. apply in_zseq in Hx. lia. Qed.
Theorem do_search_spec ts : searchable ts -> forall itree st log active,
  exists st' act' log', do_search (record_cb cb) (record Q) itree ts ((st, log), active) = Ok ((st', log ++ log'), act') /\ trees_searched (all_queries Q) itree ts log'.
Proof.
  induction ts as [|t ts IH]; intros H itree st log active.
  - exists st, active, []. cbn. rewrite app_nil_r. split; [reflexivity|constructor].
  - apply Forall_cons_iff in H as [(LW & O & NE) H]. cbn [do_search fst snd]. set (act := init_queries (record Q) active).
    assert (QA : qs_of Q act = all_queries Q) by (unfold qs_of, act, init_queries, record, all_queries; destruct Q; reflexivity).
    assert (QF : qs_fine (qs_of Q act)) by (rewrite QA; unfold all_queries; destruct Q; cbn; try apply zseq_fine; exact Logic.I).
    destruct (search_tree_spec LW cb O itree st log NE QF) as (top & st1 & act1 & seg & E & SM & OK). rewrite E. cbn [obind].
    destruct (IH H (itree + 1) st1 (log ++ map (@tag _ itree) seg) act1) as (st2 & act2 & log2 & E2 & T2). rewrite E2.
    exists st2, act2, (map (@tag _ itree) seg ++ log2). split; [now rewrite app_assoc|]. rewrite QA in OK. econstructor; eauto.
Qed.
End forest.

(** ** recording does not change the search *)
Section erase.
Variable St : Type.
Variable cb : element_callback St.
Variable Q : queries St.
Notation cb' := (record_cb cb).
Notation Q' := (record Q).
Definition drop_log (s : (St * list entry) * list Z) : St * list Z := (fst (fst s), snd s).
Definition drops (o : outcome (St * list entry * list Z)) (o' : outcome (St * list Z)) : Prop := match o with Ok s => o' = Ok (drop_log s) | _ => True end.
Lemma copy_if_erase {S} lt (e : elt S) b ls i (qcb : query_callback St) active : forall st,
  let r := copy_if (fun st q => record_query qcb st lt e b ls i q) st active in
  copy_if (fun st q => qcb S st lt e b ls i q) (fst st) active = (fst (fst r), snd r).
Proof.
  induction active as [|q active IH]; intros st; [reflexivity|]. cbn [copy_if].
  assert (R : record_query qcb st lt e b ls i q = let (s, r) := qcb S (fst st) lt e b ls i q in ((s, snd st ++ [@Entry lt S (Asked e b ls i q r)]), r)) by reflexivity.
  rewrite R. clear R. destruct (qcb S (fst st) lt e b ls i q) as [s1 r1]. specialize (IH (s1, snd st ++ [@Entry lt S (Asked e b ls i q r1)])). cbn [fst] in IH. rewrite IH.
  clear IH. destruct (copy_if (fun (st0 : St * list entry) q0 => record_query qcb st0 lt e b ls i q0) _ active) as [[s2 l2] r2]. reflexivity.
Qed.
Lemma check_queries_erase {S} st active lt (e : elt S) b ls i : let r := check_queries Q' st active lt e b ls i in
  check_queries Q (fst st) active lt e b ls i = (fst (fst r), snd r).
Proof.
  unfold check_queries, record. destruct Q as [|n qcb|n qcb]; [reflexivity| |]; destruct active as [|q active]; try reflexivity.
  - apply copy_if_erase.
  - unfold record_batched. destruct (qcb S (fst st) lt e b ls i (q :: active)) as [s m]. reflexivity.
Qed.
Lemma erase_recursion {S} (all : list (elt S)) lt fuel : forall e ls first s,
  drops (search_recursion cb' Q' all lt fuel e ls first s) (search_recursion cb Q all lt fuel e ls first (drop_log s)).
Proof.
  induction fuel as [|fuel IH]; intros e ls first [[st log] active]; [exact Logic.I|]. cbn [search_recursion]. unfold drop_log at 1. cbn [fst snd].
  destruct (zlen ls =? 0); [reflexivity|]. rewrite stop_record. destruct (stop_due_to_queries Q active); [reflexivity|].
  destruct (check_is_leaf all e ls) as [b| | |]; try exact Logic.I. cbn [obind]. unfold record_cb at 1. cbn [fst snd].
  destruct (cb st lt e b ls first) as [st1 r1]. destruct r1; cbn [negb]; [|reflexivity].
  assert (K := @check_queries_erase S (st1, log ++ [@Entry lt S (Called e b ls first true)]) active lt e b ls first). cbn [fst] in K. rewrite K. clear K.
  destruct (check_queries Q' _ active lt e b ls first) as [[st2 log2] new]. cbn [fst snd]. destruct b; [reflexivity|].
  destruct (split_array e ls) as [offs| | |]; try exact Logic.I. cbn [obind].
  change (st2, active) with (drop_log (st2, log2, active)). generalize (st2, log2, active) as s.
  induction (zseq 0 (Z.to_nat (s_num_children e))) as [|k ks IHk]; intros s; [reflexivity|]. cbn [children_loop].
  destruct (nth_error offs (Z.to_nat k)); [|exact Logic.I]. destruct (nth_error offs (Z.to_nat (k + 1))); [|exact Logic.I].
  destruct (z <? z0); [|apply IHk]. destruct (zlen ls <? z0); [exact Logic.I|].
  assert (UQ : update_queries Q' new (snd s) = update_queries Q new (snd s)) by (now destruct Q). rewrite UQ.
  assert (K := IH (s_child e k) (firstn (Z.to_nat (z0 - z)) (skipn (Z.to_nat z) ls)) (z + first) (fst s, update_queries Q new (snd s))).
  unfold drop_log in K at 1. cbn [fst snd] in K. unfold drop_log at 1. cbn [fst snd].
  destruct (search_recursion cb' Q' all lt fuel _ _ _ _) as [s'| | |]; try exact Logic.I. cbn [drops obind] in *. change (snd (drop_log s)) with (snd s). rewrite K. cbn [obind]. apply IHk.
Qed.
Theorem erase_search ts : forall itree s s', do_search cb' Q' itree ts s = Ok s' -> do_search cb Q itree ts (drop_log s) = Ok (drop_log s').
Proof.
  induction ts as [|t ts IH]; intros itree s s' H; cbn [do_search] in *; [now injection H as ->|].
  assert (IQ : init_queries Q' (snd s) = init_queries Q (snd s)) by (now destruct Q). rewrite IQ in H. clear IQ.
  unfold search_tree in *. destruct (nth_error (t_elems t) 0) as [x|]; [|discriminate]. destruct (nth_error (t_elems t) _) as [y|]; [|discriminate].
  assert (K := @erase_recursion _ (t_elems t) itree (S (Z.to_nat (s_maxlevel (t_scheme t)))) (s_nca x y) (t_elems t) 0 (fst s, init_queries Q (snd s))).
  unfold drop_log in K at 1. cbn [fst snd] in K. unfold drop_log at 1 2. cbn [fst snd].
  destruct (search_recursion cb' Q' _ _ _ _ _ _ _) as [s1| | |]; try discriminate. cbn [drops obind] in *. rewrite K. cbn [obind]. now apply IH.
Qed.
End erase.

(** ** the C function *)
Section c_search.
Variable St : Type.
Variable cb : element_callback St.
Variable fn : option (c_query_fn St).
Variable Q : queries St.
(** the same queries in the two interfaces *)
Definition same_queries : Prop := match fn, Q with
  | None, QNone => True
  | Some f, QBatched _ qcb => forall S st lt (e : elt S) b ls i act, NoDup act ->
      fst (f S st lt e b ls i act) = fst (qcb S st lt e b ls i act) /\
      forall k q, nth_error act k = Some q -> snd (f S st lt e b ls i act) k = snd (qcb S st lt e b ls i act) q
  | _, _ => False
  end.
Hypothesis SQ : same_queries.
Lemma push_filter m m' act k : (forall j q, nth_error act j = Some q -> m (k + j)%nat = m' q) -> push_matches m k act = filter m' act.
Proof.
  revert k. induction act as [|q act IH]; intros k H; [reflexivity|]. cbn [push_matches filter]. rewrite <- (H 0%nat q eq_refl), Nat.add_0_r.
  rewrite (IH (Datatypes.S k)); [reflexivity|]. intros j q' Hj. rewrite <- (H (Datatypes.S j) q' Hj). f_equal. lia.
Qed.
Definition act_of (s : St * list Z) (active : list Z) : Prop := match fn with None => True | Some _ => snd s = active end.
Lemma c_stop (active : St * list Z) act : act_of active act -> (match fn with None => false | Some _ => zlen act =? 0 end) = stop_due_to_queries Q (snd active).
Proof. unfold act_of, same_queries in *. destruct fn, Q; try contradiction; [|reflexivity]. intros ->. destruct act; [reflexivity|]. cbn [stop_due_to_queries]. apply Z.eqb_neq. unfold zlen. cbn [length]. lia. Qed.
Lemma stopped_children {S} (all : list (elt S)) lt fuel e ls first offs new ks : forall s s',
  stop_due_to_queries Q new = true -> (forall a, update_queries Q new a = new) ->
  children_loop Q (search_recursion cb Q all lt fuel) e ls first offs new ks s = Ok s' -> fst s' = fst s.
Proof.
  induction ks as [|k ks IH]; intros s s' ST U H; cbn [children_loop] in H; [now injection H as <-|].
  destruct (nth_error offs (Z.to_nat k)); [|discriminate]. destruct (nth_error offs (Z.to_nat (k + 1))); [|discriminate].
  destruct (z <? z0); [|now apply IH in H]. destruct (zlen ls <? z0); [discriminate|]. rewrite U in H.
  destruct fuel as [|fuel]; [discriminate|]. cbn [search_recursion] in H. rewrite ST in H. destruct (zlen _ =? 0); cbn [obind] in H; now apply IH in H.
Qed.
Lemma c_recursion {S} (all : list (elt S)) lt fuel : forall e ls first s active s', NoDup active -> act_of s active ->
  search_recursion cb Q all lt fuel e ls first s = Ok s' -> c_search_recursion (@cb S) (query_in fn S) all lt fuel e ls first active (fst s) = Ok (fst s').
Proof.
  induction fuel as [|fuel IH]; intros e ls first [st act] active s' ND AO H; [discriminate|]. cbn [search_recursion c_search_recursion fst] in *.
  assert (QI : forall z, match query_in fn S with None => false | Some _ => z =? 0 end = match fn with None => false | Some _ => z =? 0 end) by (intros z; unfold query_in; now destruct fn).
  destruct (zlen ls =? 0); [now injection H as <-|]. rewrite QI, (c_stop AO). cbn [snd]. destruct (stop_due_to_queries Q act) eqn:ST; [now injection H as <-|].
  destruct (check_is_leaf all e ls) as [b| | |]; try discriminate. cbn [obind] in *. destruct (cb st lt e b ls first) as [st1 r1].
  destruct r1; cbn [negb] in *; [|now injection H as <-].
  destruct (check_queries Q st1 act lt e b ls first) as [st2 new] eqn:EC.
  assert (exists new', match query_in fn S with None => (st1, []) | Some f => let (st, m) := f st1 lt e b ls first active in (st, if b then [] else push_matches m 0 active) end = (st2, new') /\
    (b = false -> NoDup new' /\ (forall t a, act_of (t, update_queries Q new a) new') /\ (fn <> None -> new' = new /\ forall a, update_queries Q new a = new))) as (new' & EC' & HN).
  { unfold query_in, same_queries, act_of, check_queries, update_queries, stop_due_to_queries in *. destruct fn as [f|], Q as [|n qcb|n qcb]; try contradiction.
    - cbn [snd] in AO. subst act. destruct active as [|q0 act0]; [discriminate|]. set (active := q0 :: act0) in *.
      destruct (SQ S st1 lt e b ls first active ND) as [F1 F2]. destruct (f S st1 lt e b ls first active) as [st' m]. destruct (qcb S st1 lt e b ls first active) as [st'' m'].
      cbn [fst snd] in *. injection EC as <- <-. rewrite F1. destruct b; [exists []; split; [reflexivity|discriminate]|].
      exists (filter m' active). split; [f_equal; now apply push_filter|]. intros _. split; [now apply NoDup_filter|]. split; auto.
    - injection EC as <- <-. exists []. split; [reflexivity|]. intros _. split; [constructor|]. split; [auto|congruence]. }
  rewrite EC'. destruct b; [now injection H as <-|]. rewrite QI. destruct (HN eq_refl) as (ND' & AO' & FU).
  destruct (split_array e ls) as [offs| | |]; try discriminate. cbn [obind] in *.
  assert (ST' : match fn with None => false | Some _ => zlen new' =? 0 end = true -> fn <> None /\ stop_due_to_queries Q new = true).
  { intros E0. assert (FN : fn <> None) by (destruct fn; congruence). split; [exact FN|]. destruct (FU FN) as [FU1 FU2]. subst new'.
    change new with (snd (st, new)). rewrite <- (c_stop (active := (st, new)) (act := new)); [exact E0|]. unfold act_of. destruct fn; [reflexivity|exact Logic.I]. }
  destruct (match fn with None => false | Some _ => zlen new' =? 0 end) eqn:E0.
  { destruct (ST' eq_refl) as [FN ST2]. destruct (FU FN) as [_ FU2]. apply stopped_children in H; auto. cbn [fst] in H. now rewrite H. }
  clear ST' E0 FU. change st2 with (fst (st2, act)) at 1. revert H. generalize (st2, act) as s. clear EC EC' AO ST.
  induction (zseq 0 (Z.to_nat (s_num_children e))) as [|k ks IHk]; intros s H; cbn [children_loop c_children_loop] in *; [now injection H as <-|].
  destruct (nth_error offs (Z.to_nat k)); [|discriminate]. destruct (nth_error offs (Z.to_nat (k + 1))); [|discriminate].
  destruct (z <? z0); [|now apply IHk]. destruct (zlen ls <? z0); [discriminate|].
  destruct (search_recursion cb Q all lt fuel _ _ _ _) as [s1| | |] eqn:E1; try discriminate. cbn [obind] in H.
  apply (IH _ _ _ _ new') in E1; auto. cbn [fst] in E1. rewrite E1. cbn [obind]. now apply IHk.
Qed.
Theorem c_search_refines ts : forall n itree s s', (match Q with QNone => True | QSingle n' _ | QBatched n' _ => n' = n end) ->
  do_search cb Q itree ts s = Ok s' -> c_search_trees cb fn (zseq 0 n) itree ts (fst s) = Ok (fst s').
Proof.
  induction ts as [|t ts IH]; intros n itree s s' HQ H; cbn [do_search c_search_trees] in *; [now injection H as <-|].
  destruct (search_tree cb Q (t_elems t) itree (fst s, init_queries Q (snd s))) as [s1| | |] eqn:E; try discriminate. cbn [obind] in H.
  assert (E' : c_search_tree (@cb (t_scheme t)) (query_in fn (t_scheme t)) (t_elems t) itree (zseq 0 n) (fst s) = Ok (fst s1)).
  { unfold search_tree, c_search_tree in *. destruct (nth_error (t_elems t) 0) as [x|]; [|discriminate]. destruct (nth_error (t_elems t) _) as [y|]; [|discriminate].
    eapply c_recursion in E; [exact E| |].
    - apply NoDup_zseq.
    - unfold act_of, init_queries, same_queries in *. destruct fn, Q; try contradiction; cbn [snd]; congruence. }
  rewrite E'. cbn [obind]. eapply IH; eauto.
Qed.
End c_search.

Section c_record.
Variable St : Type.
(** the batched query callback that gives the same answers as a query callback of the C interface *)
Fixpoint position (q : Z) (act : list Z) : nat := match act with [] => 0%nat | a :: r => if a =? q then 0%nat else Datatypes.S (position q r) end.
Definition batched_of (f : c_query_fn St) : batched_callback St := fun S st lt e b ls i act =>
  let (s, m) := f S st lt e b ls i act in (s, fun q => m (position q act)).
Definition queries_of (fn : option (c_query_fn St)) (n : nat) : queries St := match fn with None => QNone | Some f => QBatched n (batched_of f) end.
Lemma position_nth act k q : NoDup act -> nth_error act k = Some q -> position q act = k.
Proof.
  revert k. induction act as [|a act IH]; intros k ND H; [now destruct k|]. inversion ND as [|? ? N1 N2]; subst. cbn [position]. destruct k as [|k]; cbn in H.
  - injection H as ->. now rewrite Z.eqb_refl.
  - destruct (Z.eqb_spec a q) as [->|NE]; [exfalso; apply N1; eapply nth_error_In; eauto|]. f_equal. now apply IH.
Qed.
Lemma recorded_same fn n : same_queries (option_map (@record_c St) fn) (record (queries_of fn n)).
Proof.
  destruct fn as [f|]; cbn; [|exact Logic.I]. intros S st lt e b ls i act ND. unfold record_c, record_batched, batched_of.
  destruct (f S (fst st) lt e b ls i act) as [s m]. cbn [fst snd]. split.
  - f_equal. f_equal. assert (K : forall k, map (fun p : nat * Z => @Entry lt S (Asked e b ls i (snd p) (m (fst p)))) (combine (seq k (length act)) act) =
      map (fun q => @Entry lt S (Asked e b ls i q (m (k + position q act)%nat))) act); [|exact (K 0%nat)].
    clear -ND. induction act as [|a act IH]; intros k; [reflexivity|]. inversion ND as [|? ? N1 N2]; subst. cbn [length seq combine map fst snd position]. rewrite Z.eqb_refl, Nat.add_0_r.
    f_equal. rewrite IH by exact N2. apply map_ext_in. intros q Hq. destruct (Z.eqb_spec a q) as [->|_]; [contradiction|]. now rewrite Nat.add_succ_comm.
  - intros k q Hk. now rewrite (position_nth ND Hk).
Qed.
Theorem c_search_spec cb fn n ts : searchable ts -> forall st,
  exists st' log, c_search (record_cb cb) (option_map (@record_c St) fn) n ts (st, []) = Ok (st', log) /\
    trees_searched (match fn with None => None | Some _ => Some (zseq 0 n) end) 0 ts log.
Proof.
  intros H st. destruct (do_search_spec cb (queries_of fn n) H 0 st [] []) as (st' & act' & log & E & T). exists st', log. split.
  - eapply (c_search_refines (recorded_same fn n)) in E; [exact E|]. destruct fn; cbn; auto.
  - destruct fn; exact T.
Qed.
End c_record.

(** ** the leaves reported by a search that accepts all *)
Lemma sorted_same {A} (R : A -> A -> Prop) (a b : list A) : (forall x y, In x a -> In y a -> R x y -> R y x -> False) ->
  StronglySorted R a -> StronglySorted R b -> (forall x, In x a <-> In x b) -> a = b.
Proof.
  revert b. induction a as [|x a IH]; intros b AS Sa Sb H.
  - destruct b as [|y b]; [reflexivity|]. exfalso. apply (H y). now left.
  - destruct b as [|y b]; [exfalso; apply (H x); now left|]. inversion Sa as [|? ? Sa1 Sa2]; subst. inversion Sb as [|? ? Sb1 Sb2]; subst.
    rewrite Forall_forall in Sa2, Sb2.
    assert (XY : x = y).
    { destruct (proj1 (H x) (or_introl eq_refl)) as [E|Hx]; [now symmetry|]. destruct (proj2 (H y) (or_introl eq_refl)) as [E|Hy]; [exact E|].
      exfalso. apply (AS x y); auto; [now left|now right]. }
    subst y. f_equal. apply IH; auto; [intros u v Hu Hv; apply AS; now right|]. intros z. split; intros Hz.
    + destruct (proj1 (H z) (or_intror Hz)) as [<-|E]; [|exact E]. exfalso. apply (AS x x); auto; now left.
    + destruct (proj2 (H z) (or_intror Hz)) as [<-|E]; [|exact E]. exfalso. apply (AS x x); auto; now left.
Qed.
Section leaves.
Variable S : scheme.
Hypothesis LW : laws S.
Notation elt := (elt S).
Implicit Types e x top : elt.
Implicit Types l : list elt.
Lemma compare_asym e x : valid e -> valid x -> s_compare e x < 0 -> s_compare x e < 0 -> False.
Proof.
  intros (p & Hp & ->) (q & Hq & ->) H1 H2. assert (C1 := law_compare LW Hp Hq). assert (C2 := law_compare LW Hq Hp).
  apply Z.compare_lt_iff in H1, H2. rewrite C1 in H1. rewrite C2 in H2. clear -H1 H2. revert q H1 H2. induction p as [|a p IH]; intros [|b q] H1 H2; cbn in *; try discriminate.
  rewrite Z.compare_antisym in H2. destruct (a ?= b); cbn in *; try discriminate. eauto.
Qed.
Theorem leaves_all l base top log : ordered l -> Forall (below top) l -> search_ok l base top None log ->
  (forall e b ls i r, In (Called e b ls i r) log -> r = true) -> leaves_reported log = l.
Proof.
  intros O B OK ACC. assert (VL := ordered_valid O). rewrite Forall_forall in VL, B.
  assert (IN : forall x, In x (leaves_reported log) <-> exists ls i r, In (Called x true ls i r) log).
  { intros x. unfold leaves_reported. rewrite in_flat_map. split.
    - intros (v & Hv & Hx). destruct v as [e [] ls i r|]; cbn in Hx; try contradiction. destruct Hx as [->|[]]. eauto.
    - intros (ls & i & r & H). exists (Called x true ls i r). split; [exact H|now left]. }
  assert (SR : StronglySorted (fun e x => s_compare e x < 0) (leaves_reported log)).
  { pose proof (so_order OK) as SO. clear -SO. unfold leaves_reported. induction SO as [|v log SO IH F]; [constructor|]. cbn [flat_map].
    destruct v as [e [] ls i r|]; cbn [app]; auto. constructor; [exact IH|]. apply Forall_forall. intros x Hx. apply in_flat_map in Hx. destruct Hx as (w & Hw & Hx).
    rewrite Forall_forall in F. specialize (F w Hw). destruct w as [e' [] ls' i' r'|]; cbn in Hx; try contradiction. destruct Hx as [<-|[]]. destruct F as [F|[_ F]]; [exact F|cbn in F; lia]. }
  assert (SL : StronglySorted (fun e x => s_compare e x < 0) l).
  { apply (ordered_iff LW) in O. destruct O as [V SO]. clear -V SO LW. induction SO as [|x l SO IH F]; [constructor|]. apply Forall_cons_iff in V as [V1 V]. constructor; [now apply IH|].
    apply Forall_forall. intros y Hy. rewrite Forall_forall in F, V. apply (compare_before LW); auto. }
  symmetry. apply (sorted_same (R := fun e x => s_compare e x < 0)); auto.
  - intros x y Hx Hy. apply compare_asym; auto.
  - intros x. rewrite IN. split.
    + intros Hx. assert (ACL : forall n e, (Z.to_nat (s_level e) < n)%nat -> below top e -> below e x -> called log e).
      { induction n as [|n IHn]; intros e Hn B1 B2; [lia|]. apply (so_called OK). split; [exact B1|]. split; [eauto|]. split; [|congruence].
        intros a (A1 & A2 & A3). assert (CA : called log a).
        { apply IHn; auto; [|eapply (below_trans LW); eauto]. destruct (below_level LW A2) as [L1 L2]. pose proof (valid_level LW (proj1 (below_valid A2))).
          assert (s_level a <> s_level e) by (intros Q; now apply A3, L2). lia. }
        destruct CA as (b & ls & i & r & CA). rewrite (ACC _ _ _ _ _ CA) in CA. exists b, ls, i. exact CA. }
      destruct (ACL (Datatypes.S (Z.to_nat (s_level x))) x) as (b & ls & i & r & C); [lia|now apply B|apply below_refl, VL, Hx|].
      destruct (so_called_args OK C) as [_ LB]. apply LB in Hx. subst b. eauto.
    + intros (ls & i & r & H). apply (so_called_args OK H). reflexivity.
Qed.
End leaves.

(** Partition for coarsening: what one process computes from its leaves and the messages it received. *)
From Verif Require Import Prelude PathSpec SchemeModel SchemeSpec SchemeProofs SchemeOrderProofs OffsetModel.
From Verif Require Import PartitionModel PartitionSpec PartitionRangeProofs PartitionProofs.
From Verif Require Import PfcModel PfcSpec PfcProofs PfcForestProofs PfcMainProofs.
#[local] Arguments PfcSpec.family_at {sch} K {cl} lv {t} x s.

Section local.
Variable sch : Z -> scheme.
Variable K : Z.
Variable cl : Z -> Z.
Variable lv : forall t, list (elt (sch (cl t))).
Notation celt := {c : Z & elt (sch c)}.
Notation G := (leaf_sequence K cl lv).
Notation inj t := (existT (fun c => elt (sch c)) (cl t)).
Notation itm t := (@PfcSpec.item sch cl t).
Hypothesis good : leaves_good K lv.
Variables (P N : Z) (o : list Z) (f : Z -> pforest celt).
Hypothesis TO : element_table P N o.
Hypothesis FO : forall p, 0 <= p < P -> local_forest (f p) /\ pf_num (f p) = at_ o (p + 1) - at_ o p.
Hypothesis SEQ : gather P (fun p => tagged (f p)) = G.
Hypothesis HK : K <= 2 ^ 31.
Notation kid := (kid K lv).

Lemma local_kid p t T off es par j : @local_tree sch K cl lv o f p t T off es -> at_ o p <= j < at_ o (p + 1) ->
  kid par j = index_test (kid_of par) es (j - at_ o p - off).
Proof.
  intros LT Hj. unfold PfcForestProofs.kid, index_test. destruct (lt_off LT) as [O1 O2]. destruct (at_index G j) as [y|] eqn:Ey.
  - destruct (Z.eq_dec (fst (fst y)) t) as [Q|Q].
    + assert (R := lt_out LT Hj Ey Q). assert (A := lt_at LT R). replace (at_ o p + off + (j - at_ o p - off)) with j in A by lia. rewrite Ey in A.
      destruct (at_index es (j - at_ o p - off)) as [e|]; [|discriminate]. cbn [option_map] in A. injection A as ->. apply kid_item_item.
    + unfold kid_item. destruct (Z.eqb_spec (fst (fst y)) t); [contradiction|]. cbn [andb]. destruct (at_index es (j - at_ o p - off)) as [e|] eqn:Ee; [|reflexivity].
      destruct (at_index_some Ee) as [R _]. assert (A := lt_at LT R). replace (at_ o p + off + (j - at_ o p - off)) with j in A by lia. rewrite Ey, Ee in A. cbn [option_map] in A. injection A as ->. now destruct Q.
  - destruct (at_index es (j - at_ o p - off)) as [e|] eqn:Ee; [|reflexivity]. destruct (at_index_some Ee) as [R _]. assert (A := lt_at LT R). replace (at_ o p + off + (j - at_ o p - off)) with j in A by lia. rewrite Ey, Ee in A. discriminate.
Qed.

(** the run of siblings around a local leaf *)
Lemma runs p g t T off es x : 0 <= p < P -> @local_tree sch K cl lv o f p t T off es -> at_ o p <= g < at_ o (p + 1) ->
  at_index es (g - at_ o p - off) = Some x -> 0 < s_level x ->
  (exists lo, extreme_local_sibling sch T (g - at_ o p - off) (-1) = Ok (lo - at_ o p - off) /\ at_ o p <= lo <= g /\
     (forall k, lo <= k <= g -> kid (s_parent x) k = true) /\ (lo = at_ o p \/ kid (s_parent x) (lo - 1) = false)) /\
  (exists hi, extreme_local_sibling sch T (g - at_ o p - off) 1 = Ok (hi - at_ o p - off) /\ g <= hi < at_ o (p + 1) /\
     (forall k, g <= k <= hi -> kid (s_parent x) k = true) /\ (hi + 1 = at_ o (p + 1) \/ kid (s_parent x) (hi + 1) = false)).
Proof.
  intros Hp LT Hg Ex Lx. destruct (good (lt_range LT)) as (LW & _). destruct (lt_off LT) as [O1 O2]. set (i := g - at_ o p - off) in *. assert (OE := lt_ordered LT). split.
  - destruct (extreme_spec off LW OE (d := -1) Ex Lx eq_refl) as (r & E & R0 & R1 & A & B). exists (g - r). rewrite (lt_tree LT).
    split; [etransitivity; [exact E|f_equal; unfold i; lia]|]. split; [unfold i in *; lia|]. split.
    + intros k Hk. rewrite (local_kid (s_parent x) LT) by (unfold i in *; lia). rewrite <- (A (g - k)) by lia. f_equal. unfold i. lia.
    + destruct (Z.eq_dec (g - r) (at_ o p)) as [Q|Q]; [left; exact Q|right]. rewrite (local_kid (s_parent x) LT) by (unfold i in *; lia). rewrite <- B. f_equal. unfold i. lia.
  - destruct (extreme_spec off LW OE (d := 1) Ex Lx eq_refl) as (r & E & R0 & R1 & A & B). exists (g + r). rewrite (lt_tree LT).
    split; [etransitivity; [exact E|f_equal; unfold i; lia]|]. split; [unfold i in *; lia|]. split.
    + intros k Hk. rewrite (local_kid (s_parent x) LT) by (unfold i in *; lia). rewrite <- (A (k - g)) by lia. f_equal. unfold i. lia.
    + destruct (Z.eq_dec (g + r + 1) (at_ o (p + 1))) as [Q|Q]; [left; exact Q|right]. rewrite (local_kid (s_parent x) LT) by (unfold i in *; lia). rewrite <- B. f_equal. unfold i. lia.
Qed.

(** the leaf of q next to p *)
Definition closest (q p : Z) : Z := if p <=? q then at_ o q else at_ o (q + 1) - 1.
(** the w leaves of q next to p form the run of siblings *)
Definition side_run (kd : Z -> bool) (q p w : Z) : Prop :=
  if p <? q then exists hi, at_ o q < hi <= at_ o (q + 1) /\ (forall k, at_ o q <= k < hi -> kd k = true) /\ (hi = at_ o (q + 1) \/ kd hi = false) /\ w = hi - at_ o q
  else exists lo, at_ o q <= lo < at_ o (q + 1) /\ (forall k, lo <= k < at_ o (q + 1) -> kd k = true) /\ (lo = at_ o q \/ kd (lo - 1) = false) /\ w = at_ o (q + 1) - lo.
Lemma fill_spec q p : 0 <= q < P -> q <> p -> at_ o q < at_ o (q + 1) -> exists t (x : elt (sch (cl t))) m,
  fill sch (f q) o q p = Ok m /\ at_index G (closest q p) = Some (itm t x) /\ 0 <= t < K /\ In x (lv t) /\
  ((s_level x = 0 /\ m = PMsg t (cl t) x 0) \/ (0 < s_level x /\ exists w, m = PMsg t (cl t) (s_parent x) w /\ side_run (kid (s_parent x)) q p w)).
Proof.
  intros Hq NE HN. unfold fill. change (ent o q) with (at_ o q). change (ent o (q + 1)) with (at_ o (q + 1)). change (if p <=? q then at_ o q else at_ o (q + 1) - 1) with (closest q p).
  assert (Hg : at_ o q <= closest q p < at_ o (q + 1)) by (unfold closest; destruct (p <=? q); lia). set (g := closest q p) in *.
  destruct (index_spec good TO FO SEQ HK Hq Hg) as (t & T & off & es & x & LT & Hi & Ex & EG & EI). exists t, x.
  assert (Ix : In x (lv t)) by (apply (lt_incl LT); now apply at_index_some in Ex). destruct (good (lt_range LT)) as (LW & _ & OL & _). assert (Vx : valid x) by exact (proj1 (Forall_forall _ _) (ordered_valid OL) _ Ix). pose proof (valid_level LW Vx) as Lx.
  unfold PfcModel.celt in *. rewrite EI. cbn [obind]. destruct (lt_first LT) as [[F1 F2] F3]. rewrite (proj2 (Z.leb_le _ _) F2), (proj2 (Z.leb_le _ _) F3). cbn [andb]. rewrite (lt_pos LT). cbn [obind].
  rewrite (lt_tree LT). cbn [pt_class]. rewrite as_class_inj. cbn [obind]. destruct (Z.eqb_spec (s_level x) 0) as [C|C].
  - eexists. split; [reflexivity|]. split; [exact EG|]. split; [exact (lt_range LT)|]. split; [exact Ix|]. left. split; [exact C|reflexivity].
  - assert (LX : 0 < s_level x) by lia. destruct (runs Hq LT Hg Ex LX) as [(lo & El & Rl & Al & Bl) (hi & Eh & Rh & Ah & Bh)]. rewrite (lt_tree LT) in El, Eh. destruct (Z.ltb_spec q p) as [D|D].
    + rewrite El. cbn [obind]. eexists. split; [reflexivity|]. split; [exact EG|]. split; [exact (lt_range LT)|]. split; [exact Ix|]. right. split; [exact LX|]. eexists. split; [reflexivity|].
      unfold side_run. destruct (Z.ltb_spec p q); [lia|]. assert (Gq : g = at_ o (q + 1) - 1) by (unfold g, closest; destruct (Z.leb_spec p q); lia).
      exists lo. split; [lia|]. split; [intros k Hk; apply Al; lia|]. split; [exact Bl|]. lia.
    + destruct (Z.eqb_spec p q) as [Q|Q]; [congruence|]. rewrite Eh. cbn [obind]. eexists. split; [reflexivity|]. split; [exact EG|]. split; [exact (lt_range LT)|]. split; [exact Ix|]. right. split; [exact LX|]. eexists. split; [reflexivity|].
      unfold side_run. destruct (Z.ltb_spec p q); [|lia]. assert (Gq : g = at_ o q) by (unfold g, closest; destruct (Z.leb_spec p q); lia).
      exists (hi + 1). split; [lia|]. split; [intros k Hk; apply Ah; lia|]. split; [exact Bh|]. lia.
Qed.

(** ** the effect of one message *)
Definition effect (kd : Z -> bool) (q p w : Z) : Prop := (w = 0 /\ kd (closest q p) = false) \/ (kd (closest q p) = true /\ side_run kd q p w).
Lemma add_message_spec p q t (par : elt (sch (cl t))) m : 0 <= q < P -> q <> p -> at_ o q < at_ o (q + 1) -> valid par -> 0 <= t < K ->
  fill sch (f q) o q p = Ok m -> exists w, effect (kid par) q p w /\
  forall fb fe, add_message sch p t (cl t) par (fb, fe) (q, m) = Ok (if q <? p then (fb - w, fe) else (fb, fe + w)).
Proof.
  intros Hq NE HN Vp Ht Em. destruct (fill_spec Hq NE HN) as (t' & x & m' & E' & EG & Ht' & Ix & C). rewrite Em in E'. injection E' as <-.
  destruct (good Ht') as (LW' & _ & OL' & _). assert (Vx : valid x) by exact (proj1 (Forall_forall _ _) (ordered_valid OL') _ Ix).
  destruct (Z.eq_dec t' t) as [->|NT].
  - assert (KC : kid par (closest q p) = kid_of par x) by (unfold PfcForestProofs.kid, index_test; rewrite EG; apply kid_item_item).
    destruct C as [[L ->]|(L & w & -> & SR)].
    + exists 0. split; [left; split; [reflexivity|]; rewrite KC; unfold kid_of; rewrite L; reflexivity|]. intros fb fe. unfold add_message. cbn [pm_itree pm_class pm_parent pm_num_siblings]. rewrite Z.eqb_refl, as_class_inj. cbn [obind].
      replace (fb - 0) with fb by lia. replace (fe + 0) with fe by lia. destruct (s_equal par x), (q <? p); reflexivity.
    + destruct (kid_of par x) eqn:KX.
      * assert (PX : s_parent x = par) by (apply (kid_of_spec LW' Vp Vx) in KX; tauto). rewrite PX in *. exists w. split; [right; split; [exact KC|exact SR]|]. intros fb fe. unfold add_message. cbn [pm_itree pm_class pm_parent pm_num_siblings]. rewrite Z.eqb_refl, as_class_inj. cbn [obind].
        assert (s_equal par par = true) as -> by now apply (valid_equal LW' Vp Vp). destruct (q <? p); reflexivity.
      * exists 0. split; [left; split; [reflexivity|exact KC]|]. intros fb fe. unfold add_message. cbn [pm_itree pm_class pm_parent pm_num_siblings]. rewrite Z.eqb_refl, as_class_inj. cbn [obind].
        assert (s_equal par (s_parent x) = false) as ->. { unfold kid_of in KX. rewrite (proj2 (Z.ltb_lt _ _) L) in KX. exact KX. }
        replace (fb - 0) with fb by lia. replace (fe + 0) with fe by lia. destruct (q <? p); reflexivity.
  - exists 0. split; [left; split; [reflexivity|]|].
    { unfold PfcForestProofs.kid, index_test. rewrite EG. unfold kid_item, PfcSpec.item. cbn [fst]. destruct (Z.eqb_spec t' t); [contradiction|reflexivity]. }
    intros fb fe. unfold add_message. assert (pm_itree m = t') as -> by (destruct C as [[_ ->]|(_ & w & -> & _)]; reflexivity). destruct (Z.eqb_spec t' t); [contradiction|].
    replace (fb - 0) with fb by lia. replace (fe + 0) with fe by lia. destruct (q <? p); reflexivity.
Qed.
Lemma effect_le kd q p w : effect kd q p w -> at_ o q < at_ o (q + 1) -> 0 <= w <= cnt kd (at_ o q) (at_ o (q + 1)).
Proof.
  intros [[-> _]|[KC SR]] HN; [pose proof (@cnt_ge0 kd (at_ o q) (at_ o (q + 1))); lia|]. unfold side_run in SR. destruct (p <? q).
  - destruct SR as (hi & H1 & H2 & _ & ->). rewrite (cnt_add kd (b := hi)) by lia. rewrite (@cnt_all kd (at_ o q) hi) by (auto; lia). pose proof (@cnt_ge0 kd hi (at_ o (q + 1))). lia.
  - destruct SR as (lo & H1 & H2 & _ & ->). rewrite (cnt_add kd (b := lo)) by lia. rewrite (@cnt_all kd lo) by (auto; lia). pose proof (@cnt_ge0 kd (at_ o q) lo). lia.
Qed.
(** if the siblings are an interval that reaches p, all siblings on q are counted *)
Lemma effect_full kd q p w s e b : effect kd q p w -> 0 <= q < P -> 0 <= p < P -> q <> p -> at_ o q < at_ o (q + 1) -> (forall k, kd k = true <-> s <= k < e) -> s <= b < e -> at_ o p <= b < at_ o (p + 1) ->
  w = cnt kd (at_ o q) (at_ o (q + 1)).
Proof.
  intros EF Hq Hp NE HN I Hb Bp. rewrite (@cnt_interval kd s e) by (try lia; intros k _; apply I).
  assert (NK : forall k, kd k = false -> ~ (s <= k < e)) by (intros k Hk Q; apply I in Q; congruence).
  unfold effect, closest, side_run in EF. destruct (Z.ltb_spec p q) as [D|D].
  - rewrite (proj2 (Z.leb_le p q)) in EF by lia. assert (Mo := @at_mono _ _ _ TO (p + 1) q ltac:(lia) ltac:(lia) ltac:(lia)). destruct EF as [[-> KC]|(KC & hi & H1 & H2 & H3 & ->)]; [apply NK in KC; lia|]. apply I in KC.
    assert (Q := H2 (hi - 1) ltac:(lia)). apply I in Q. destruct H3 as [->|H3]; [lia|]. apply NK in H3. lia.
  - destruct (Z.leb_spec p q); [lia|]. assert (Mo := @at_mono _ _ _ TO (q + 1) p ltac:(lia) ltac:(lia) ltac:(lia)). destruct EF as [[-> KC]|(KC & lo & H1 & H2 & H3 & ->)]; [apply NK in KC; lia|]. apply I in KC.
    assert (Q := H2 lo ltac:(lia)). apply I in Q. destruct H3 as [->|H3]; [lia|]. apply NK in H3. lia.
Qed.

(** ** all messages *)
Lemma add_messages_app p t c par r (a b : list (Z * pmsg sch)) : add_messages sch p t c par r (a ++ b) = (do r' <- add_messages sch p t c par r a; add_messages sch p t c par r' b).
Proof. revert r. induction a as [|m a IH]; intros r; [reflexivity|]. cbn [app add_messages]. destruct (add_message sch p t c par r m); cbn [obind]; auto. Qed.
Definition usable (p : Z) (m : Z * pmsg sch) : Prop := 0 <= fst m < P /\ fst m <> p /\ at_ o (fst m) < at_ o (fst m + 1) /\ fill sch (f (fst m)) o (fst m) p = Ok (snd m).
Definition total (ws : list (Z * Z)) : Z := fold_right Z.add 0 (map snd ws).
Lemma add_messages_spec p t (par : elt (sch (cl t))) (ms : list (Z * pmsg sch)) (below : bool) : valid par -> 0 <= t < K -> Forall (usable p) ms -> Forall (fun m => (fst m <? p) = below) ms ->
  exists ws, map fst ws = map fst ms /\ Forall (fun w => effect (kid par) (fst w) p (snd w)) ws /\
  forall fb fe, add_messages sch p t (cl t) par (fb, fe) ms = Ok (if below then (fb - total ws, fe) else (fb, fe + total ws)).
Proof.
  intros Vp Ht FU FB. induction ms as [|[q m] ms IH].
  - exists []. split; [reflexivity|]. split; [constructor|]. intros fb fe. cbn [add_messages total map fold_right]. replace (fb - 0) with fb by lia. replace (fe + 0) with fe by lia. destruct below; reflexivity.
  - inversion FU as [|? ? (U1 & U2 & U3 & U4) FU']; subst. inversion FB as [|? ? B1 FB']; subst. cbn [fst snd] in *. destruct (IH FU' FB') as (ws & Ef & Fw & Ew).
    destruct (@add_message_spec p q t par m) as (w & Hw & Em); auto. exists ((q, w) :: ws). cbn [map fst]. rewrite Ef. split; [reflexivity|]. split; [constructor; auto|].
    intros fb fe. cbn [add_messages]. rewrite Em. cbn [obind]. destruct (q <? p); rewrite Ew; unfold total; cbn [map fold_right snd]; f_equal; f_equal; lia.
Qed.
Lemma total_le kd p ws : Forall (fun w => effect kd (fst w) p (snd w)) ws -> Forall (fun w => at_ o (fst w) < at_ o (fst w + 1)) ws ->
  0 <= total ws <= fold_right Z.add 0 (map (fun q => cnt kd (at_ o q) (at_ o (q + 1))) (map fst ws)).
Proof.
  induction 1 as [|w ws H F IH]; intros G2; [cbn; lia|]. inversion G2 as [|? ? H2 G3]; subst. specialize (IH G3). unfold total in *. cbn [map fold_right]. assert (Q := effect_le H H2). lia.
Qed.
Lemma total_full kd p ws s e b : 0 <= p < P -> Forall (fun w => effect kd (fst w) p (snd w)) ws -> Forall (fun w => 0 <= fst w < P /\ fst w <> p /\ at_ o (fst w) < at_ o (fst w + 1)) ws ->
  (forall k, kd k = true <-> s <= k < e) -> s <= b < e -> at_ o p <= b < at_ o (p + 1) ->
  total ws = fold_right Z.add 0 (map (fun q => cnt kd (at_ o q) (at_ o (q + 1))) (map fst ws)).
Proof.
  intros Hp. induction 1 as [|w ws H F IH]; intros G2 I Hb Bp; [reflexivity|]. inversion G2 as [|? ? (H2 & H3 & H4) G3]; subst. specialize (IH G3 I Hb Bp). unfold total in *. cbn [map fold_right]. assert (Q := effect_full H H2 Hp H3 H4 I Hb Bp). lia.
Qed.
Lemma cnt_other kd p b n : 0 <= b -> b + Z.of_nat n <= P -> ~ (b <= p < b + Z.of_nat n) ->
  fold_right Z.add 0 (map (fun q => cnt kd (at_ o q) (at_ o (q + 1))) (filter (other o p) (zseq b n))) = cnt kd (at_ o b) (at_ o (b + Z.of_nat n)).
Proof.
  intros Hb Hn Np. rewrite <- (cnt_ranks kd TO Hb Hn). assert (A : forall q, In q (zseq b n) -> q <> p) by (intros q Hq; apply in_zseq in Hq; lia). clear Hb Hn Np.
  induction (zseq b n) as [|q l IH]; [reflexivity|]. cbn [filter map fold_right]. specialize (IH (fun q H => A q (or_intror H))). unfold other at 1. destruct (Z.eqb_spec q p) as [Q|Q]; [exfalso; apply (A q); auto; now left|]. rewrite orb_false_r.
  destruct (Z.leb_spec (at_ o (q + 1)) (at_ o q)) as [C|C]; cbn [negb map fold_right]; rewrite IH; [|reflexivity]. rewrite cnt_nil by lia. lia.
Qed.

(** ** the range of the family around a leaf *)
Definition received (p : Z) (ms : list (Z * pmsg sch)) : Prop := partner_procs o p P = Ok (map fst ms) /\ Forall (fun m => fill sch (f (fst m)) o (fst m) p = Ok (snd m)) ms.
Lemma border_spec p g ms : 0 <= p < P -> at_ o p <= g < at_ o (p + 1) -> received p ms ->
  exists full fb fe, family_range_around_border sch (f p) o p g ms = Ok (full, fb, fe) /\
  ((full = false /\ forall t (x : elt (sch (cl t))) s, family_at K lv x s -> ~ (s <= g < s + s_num_children x)) \/
   (full = true /\ exists t (x : elt (sch (cl t))), family_at K lv x fb /\ fe = fb + s_num_children x /\ fb <= g < fe /\ fe <= N)).
Proof.
  intros Hp Hg [EP FM]. destruct (index_spec good TO FO SEQ HK Hp Hg) as (t & T & off & es & x & LT & Hi & Ex & EG & EI).
  assert (Ix : In x (lv t)) by (apply (lt_incl LT); now apply at_index_some in Ex). assert (Ht := lt_range LT). destruct (good Ht) as (LW & MC & OL & _). assert (Vx : valid x) by exact (proj1 (Forall_forall _ _) (ordered_valid OL) _ Ix). pose proof (valid_level LW Vx) as Lx.
  (* a family around g is the family of the parent of x *)
  assert (FAM : forall t' (y : elt (sch (cl t'))) s, family_at K lv y s -> s <= g < s + s_num_children y -> 0 < s_level x /\ exists E : t' = t, eq_rect t' (fun t => elt (sch (cl t))) y t E = s_parent x).
  { intros t' y s ((Ht' & Vy & Ly & Iy) & S0 & PA) Hs. destruct (good Ht') as (LW' & _ & OL' & _).
    assert (A : at_index (part G s (s + s_num_children y)) (g - s) = at_index G g) by (rewrite at_index_part by lia; f_equal; lia). rewrite PA, EG, at_index_map in A. destruct (at_index (s_children y) (g - s)) as [z|] eqn:Ez; [|discriminate].
    cbn [option_map] in A. assert (E : t' = t) by (unfold PfcSpec.item in A; congruence). destruct E. injection A as A. assert (z = x) by (apply inj_eq, A). subst z. apply at_index_some in Ez. destruct Ez as [_ Iz].
    destruct (ReplaceProofs.in_children LW' Vy Ly Iz) as (_ & L & PX & _). pose proof (valid_level LW' Vy). split; [lia|]. exists eq_refl. cbn [eq_rect]. symmetry. exact PX. }
  unfold family_range_around_border. change (ent o p) with (at_ o p). unfold PfcModel.celt in *. rewrite EI. cbn [obind]. rewrite (lt_tree LT). cbn [pt_class pt_offset]. rewrite as_class_inj. cbn [obind].
  destruct (Z.eqb_spec (s_level x) 0) as [C|C].
  { eexists _, _, _. split; [reflexivity|]. left. split; [reflexivity|]. intros t' y s FA Hs. destruct (FAM _ _ _ FA Hs). lia. }
  assert (LX : 0 < s_level x) by lia. destruct (runs Hp LT Hg Ex LX) as [(lo & El & Rl & Al & Bl) (hi & Eh & Rh & Ah & Bh)]. rewrite (lt_tree LT) in El, Eh. unfold PfcModel.celt in *. rewrite El. cbn [obind]. rewrite Eh. cbn [obind].
  set (par := s_parent x) in *. destruct (valid_parent LW Vx LX) as (Vp & Lp & _). fold par in Vp, Lp. assert (LPM : s_level par < s_maxlevel (sch (cl t))) by lia.
  assert (HN : at_ o p < at_ o (p + 1)) by lia. destruct (partners_spec TO Hp HN) as (b & e & B1 & B2 & B3 & B4 & EQ & IQ). rewrite EQ in EP. injection EP as EP. symmetry in EP. apply map_eq_app in EP. destruct EP as (m1 & m2 & -> & E1 & E2).
  assert (US : Forall (usable p) (m1 ++ m2)).
  { apply Forall_forall. intros m Hm. assert (I : In (fst m) (map fst (m1 ++ m2))) by now apply in_map. rewrite map_app, E1, E2 in I. apply IQ in I. destruct I as (I1 & I2 & I3 & I4 & _). split; [exact I1|]. split; [exact I2|]. split; [exact I4|]. rewrite Forall_forall in FM. now apply FM. }
  apply Forall_app in US. destruct US as [US1 US2].
  assert (S1 : Forall (fun m : Z * pmsg sch => (fst m <? p) = true) m1).
  { apply Forall_forall. intros m Hm. assert (I : In (fst m) (map fst m1)) by now apply in_map. rewrite E1 in I. apply filter_In in I. destruct I as [I _]. apply in_zseq in I. lia. }
  assert (S2 : Forall (fun m : Z * pmsg sch => (fst m <? p) = false) m2).
  { apply Forall_forall. intros m Hm. assert (I : In (fst m) (map fst m2)) by now apply in_map. rewrite E2 in I. apply filter_In in I. destruct I as [I _]. apply in_zseq in I. lia. }
  destruct (@add_messages_spec p t par m1 true Vp Ht US1 S1) as (w1 & F1 & G1 & A1). destruct (@add_messages_spec p t par m2 false Vp Ht US2 S2) as (w2 & F2 & G2 & A2).
  assert (UW1 : Forall (fun w : Z * Z => 0 <= fst w < P /\ fst w <> p /\ at_ o (fst w) < at_ o (fst w + 1)) w1).
  { apply Forall_forall. intros w Hw. assert (I : In (fst w) (map fst w1)) by now apply in_map. rewrite F1 in I. apply in_map_iff in I. destruct I as (m & Em & Im). rewrite Forall_forall in US1. destruct (US1 m Im) as (X1 & X2 & X3 & _). rewrite <- Em. auto. }
  assert (UW2 : Forall (fun w : Z * Z => 0 <= fst w < P /\ fst w <> p /\ at_ o (fst w) < at_ o (fst w + 1)) w2).
  { apply Forall_forall. intros w Hw. assert (I : In (fst w) (map fst w2)) by now apply in_map. rewrite F2 in I. apply in_map_iff in I. destruct I as (m & Em & Im). rewrite Forall_forall in US2. destruct (US2 m Im) as (X1 & X2 & X3 & _). rewrite <- Em. auto. }
  assert (TL1 := total_le G1 (Forall_impl _ (fun w H => proj2 (proj2 H)) UW1)). assert (TL2 := total_le G2 (Forall_impl _ (fun w H => proj2 (proj2 H)) UW2)).
  assert (C1 := @cnt_other (kid par) p b (Z.to_nat (p - b)) ltac:(lia) ltac:(lia) ltac:(lia)). assert (C2 := @cnt_other (kid par) p (p + 1) (Z.to_nat (e - (p + 1))) ltac:(lia) ltac:(lia) ltac:(lia)).
  replace (b + Z.of_nat (Z.to_nat (p - b))) with p in C1 by lia. replace (p + 1 + Z.of_nat (Z.to_nat (e - (p + 1)))) with e in C2 by lia.
  rewrite F1, E1, C1 in TL1. rewrite F2, E2, C2 in TL2.
  rewrite add_messages_app, A1. cbn [obind]. rewrite A2. cbn [obind].
  set (fb := at_ o p + off + (lo - at_ o p - off) - total w1). set (fe := at_ o p + off + (hi - at_ o p - off) + 1 + total w2).
  assert (Efb : fb = lo - total w1) by (unfold fb; lia). assert (Efe : fe = hi + 1 + total w2) by (unfold fe; lia).
  assert (R0 := @tab_range _ _ _ TO b ltac:(lia)). assert (R1 := @tab_range _ _ _ TO e ltac:(lia)). assert (Rp := @tab_range _ _ _ TO p ltac:(lia)). assert (Rp1 := @tab_range _ _ _ TO (p + 1) ltac:(lia)).
  assert (M1 := @at_mono _ _ _ TO b p ltac:(lia) ltac:(lia) ltac:(lia)). assert (M2 := @at_mono _ _ _ TO (p + 1) e ltac:(lia) ltac:(lia) ltac:(lia)).
  assert (ZG := zlen_G TO FO SEQ).
  assert (KT := kids_total good Ht Vp LPM). rewrite ZG in KT. destruct KT as [KT1 KT2].
  assert (SUM : cnt (kid par) 0 N = cnt (kid par) 0 (at_ o b) + cnt (kid par) (at_ o b) (at_ o p) + (cnt (kid par) (at_ o p) lo + (hi + 1 - lo) + cnt (kid par) (hi + 1) (at_ o (p + 1))) + cnt (kid par) (at_ o (p + 1)) (at_ o e) + cnt (kid par) (at_ o e) N).
  { rewrite (cnt_add (kid par) (a := 0) (b := at_ o b)), (cnt_add (kid par) (a := at_ o b) (b := at_ o p) (c := N)), (cnt_add (kid par) (a := at_ o p) (b := lo) (c := N)), (cnt_add (kid par) (a := lo) (b := hi + 1) (c := N)), (cnt_add (kid par) (a := hi + 1) (b := at_ o (p + 1)) (c := N)), (cnt_add (kid par) (a := at_ o (p + 1)) (b := at_ o e) (c := N)) by lia.
    rewrite (@cnt_all (kid par) lo (hi + 1)); [lia|lia|]. intros k Hk. destruct (Z.le_gt_cases k g); [apply Al|apply Ah]; lia. }
  assert (P1 := @cnt_ge0 (kid par) 0 (at_ o b)). assert (P2 := @cnt_ge0 (kid par) (at_ o p) lo). assert (P3 := @cnt_ge0 (kid par) (hi + 1) (at_ o (p + 1))). assert (P4 := @cnt_ge0 (kid par) (at_ o e) N).
  (* the ends of a full family *)
  assert (ENDS : family K lv par -> exists s, family_at K lv par s /\ s + s_num_children par <= N /\ s <= g < s + s_num_children par /\ fb = s /\ fe = s + s_num_children par).
  { intros FA. destruct (family_place good FA) as (s & PL & SN & IV). rewrite ZG in SN. exists s. split; [exact PL|]. split; [exact SN|].
    assert (HG : kid par g = true) by (apply Al; lia). apply IV in HG. split; [exact HG|].
    assert (NC := valid_nchild LW Vp). assert (S0 : 0 <= s) by apply PL.
    assert (X1 := total_full Hp G1 UW1 IV HG Hg). rewrite F1, E1, C1 in X1. rewrite (@cnt_interval (kid par) s (s + s_num_children par)) in X1 by (try lia; intros k _; apply IV).
    assert (X2 := total_full Hp G2 UW2 IV HG Hg). rewrite F2, E2, C2 in X2. rewrite (@cnt_interval (kid par) s (s + s_num_children par)) in X2 by (try lia; intros k _; apply IV).
    assert (KL : s <= lo) by (assert (Q := Al lo ltac:(lia)); apply IV in Q; lia). assert (KH : hi < s + s_num_children par) by (assert (Q := Ah hi ltac:(lia)); apply IV in Q; lia).
    assert (QL : lo = at_ o p \/ lo = s). { destruct Bl as [Bl|Bl]; [left; exact Bl|right]. destruct (Z.eq_dec lo s); [assumption|]. assert (Q : kid par (lo - 1) = true) by (apply IV; lia). congruence. }
    assert (QH : hi + 1 = at_ o (p + 1) \/ hi + 1 = s + s_num_children par). { destruct Bh as [Bh|Bh]; [left; exact Bh|right]. destruct (Z.eq_dec (hi + 1) (s + s_num_children par)); [assumption|]. assert (Q : kid par (hi + 1) = true) by (apply IV; lia). congruence. }
    clear -X1 X2 KL KH QL QH Efb Efe HG Hg B3 B4 S0 SN NC MC Rl Rh R0 R1 Rp Rp1 M1 M2. split; lia. }
  eexists _, fb, fe. split; [reflexivity|]. destruct (Z.eqb_spec (fe - fb) (s_num_children par)) as [Q|Q].
  - right. split; [reflexivity|]. assert (CN : cnt (kid par) 0 N = s_num_children par) by lia. destruct (ENDS (KT2 CN)) as (s & PL & SN & HG & Es & Ee). exists t, par. rewrite Es. split; [exact PL|]. split; [lia|]. lia.
  - left. split; [reflexivity|]. intros t' y s FA Hs. destruct (FAM _ _ _ FA Hs) as (_ & E & EY). destruct E. cbn [eq_rect] in EY. subst y. destruct FA as (FA & _). destruct (ENDS FA) as (s' & _ & _ & _ & Es & Ee). lia.
Qed.
End local.

(** The loop that adds the attributes of all trees and ghosts. *)
From Coq Require Import Permutation Sorted.
From Verif Require Import Prelude EclassModel CmeshModel CmeshLib CmeshBlockProofs CmeshFinishProofs.

Lemma num_filter_imp {A} (p q : A -> bool) l : (forall x, In x l -> p x = true -> q x = true) -> num p (filter q l) = num p l.
Proof.
  intros H. induction l as [|x l IH]; [reflexivity|]. cbn [filter]. rewrite num_cons. assert (IH' : num p (filter q l) = num p l) by (apply IH; intros; apply H; [now right|assumption]).
  destruct (q x) eqn:E; [rewrite num_cons; lia|]. destruct (p x) eqn:E2; [|lia]. rewrite H in E; [discriminate|now left|assumption].
Qed.
Lemma num_update (p q : Z -> bool) x l : NoDup l -> In x l -> (forall y, y <> x -> p y = q y) -> q x = true -> num q l = num p l + (if p x then 0 else 1).
Proof.
  intros N H E Q. induction l as [|y l IH]; [destruct H|]. inversion N; subst. rewrite !num_cons. destruct (Z.eq_dec y x) as [->|D].
  - rewrite Q. rewrite (@num_ext _ q p l); [destruct (p x); lia|]. intros z Hz. symmetry. apply E. intros ->. tauto.
  - rewrite (E y D). destruct H as [->|H]; [lia|]. rewrite IH by assumption. lia.
Qed.
Lemma num_snoc {A} (p : A -> bool) l x : num p (l ++ [x]) = num p l + (if p x then 1 else 0).
Proof. rewrite num_app, num_cons. unfold num at 2. cbn. lia. Qed.
Lemma filter_snoc {A} (p : A -> bool) l x : filter p (l ++ [x]) = filter p l ++ (if p x then [x] else []).
Proof. rewrite filter_app. reflexivity. Qed.
Lemma sorted_filter {A} (R : A -> A -> Prop) p l : StronglySorted R l -> StronglySorted R (filter p l).
Proof. intros H. induction H as [|x l H IH F]; cbn; [constructor|]. destruct (p x); [|assumption]. constructor; [assumption|]. rewrite Forall_forall in *. intros y Hy. apply filter_In in Hy. apply F. tauto. Qed.
Lemma attr_lt_le l : StronglySorted (fun a b => attr_lt a b = true) l -> StronglySorted (fun a b => a_id a <= a_id b) l.
Proof. intros H. induction H as [|x l H IH F]; constructor; [assumption|]. rewrite Forall_forall in *. intros y Hy. specialize (F _ Hy). unfold attr_lt in F. destruct (Z.eqb_spec (a_id x) (a_id y)); lia. Qed.

Section loop.
Variables first n g : Z.
Variables T G : Z -> ctree.
Variable ids : list Z.
Variable S : list sattr.
Variable gids : option (list Z).
Definition isT (a : sattr) : bool := (first <=? a_id a) && (a_id a <? first + n).
Definition isG (a : sattr) : bool := negb (isT a) && match index_of (a_id a) ids with Some _ => true | None => false end.
Definition BT := filter isT S.
Definition BG := filter isG S.
Variable IT : Z.
Definition IG := IT + 24 * zlen BT + sumf asize BT.
Hypothesis n_pos : 0 <= n.
Hypothesis g_len : g = zlen ids.
Hypothesis ids_nodup : NoDup ids.
Hypothesis ids_other : forall id, In id ids -> ~ (first <= id < first + n).
Hypothesis gids_eq : gids = Some ids \/ forall a, In a S -> isT a = true.
Hypothesis S_sorted : StronglySorted (fun a b => attr_lt a b = true) S.
Hypothesis S_ids : forall a, In a S -> 0 <= a_id a.
Hypothesis T_natt : forall i, 0 <= i < n -> t_natt (T i) = num (same (first + i)) S.
Hypothesis T_att : forall i, 0 <= i < n -> i * 32 + t_att (T i) = IT + 24 * num (below (first + i)) BT.
Hypothesis G_natt : forall i, 0 <= i < g -> t_natt (G i) = num (same (znth 0 ids i)) S.
Hypothesis G_att : forall i, 0 <= i < g -> n * 32 + i * 40 + t_att (G i) = IG + 24 * num (below (znth 0 ids i)) BG.
Hypothesis fitsT : 24 * zlen BT + sumf asize BT < 2 ^ 64.
Hypothesis fitsG : 24 * zlen BG + sumf asize BG < 2 ^ 64.
Hypothesis denseT : BT = [] \/ exists a, In a S /\ a_id a = first + n - 1.
Hypothesis denseG : BG = [] \/ forall id, In id ids -> exists a, In a S /\ a_id a = id.

Record state (s : adding) (P Q : list sattr) : Prop := {
  st_t : in_block IT BT (ad_mem s);
  st_g : in_block IG BG (ad_mem s);
  st_T : Inv IT BT (ad_mem s) (filter isT P) (filter isT Q);
  st_G : Inv IG BG (ad_mem s) (filter isG P) (filter isG Q);
  st_le : forall a, In a P -> a_id a <= ad_ltree s;
  st_last : (P = [] /\ ad_ltree s = -1) \/ exists a, In a P /\ a_id a = ad_ltree s;
  st_sj : ad_sj s = num (same (ad_ltree s)) P;
  st_counters : ad_counters s = tab (fun i => num (same (znth 0 ids i)) P) g;
  st_inserted : ad_inserted s = num (fun id => 0 <? num (same id) P) ids
}.

Lemma index_facts id i : index_of id ids = Some i -> 0 <= i < g /\ znth 0 ids i = id /\ In id ids.
Proof. intros H. assert (K := H). apply index_of_some in H as [H1 H2]. rewrite g_len. repeat split; try lia; auto. rewrite <- H2. unfold znth, zlen in *. apply nth_In. lia. Qed.
Lemma lastT P a Q : S = P ++ a :: Q -> isT a = true -> ((num (same (a_id a)) P =? num (same (a_id a)) S - 1) && (n =? a_id a - first + 1)) = true <-> filter isT Q = [].
Proof.
  intros E Ha. destruct (sorted_split (attr_lt_le S_sorted) E) as [S1 S2].
  assert (EC : num (same (a_id a)) S = num (same (a_id a)) P + 1 + num (same (a_id a)) Q) by (rewrite E, num_app, num_cons; unfold same at 2; rewrite Z.eqb_refl; lia). rewrite EC. unfold isT in Ha. split.
  - intros H. apply andb_true_iff in H as [H1 H2]. destruct (filter isT Q) as [|x l] eqn:F; [reflexivity|exfalso]. assert (In x (filter isT Q)) as Hx by (rewrite F; now left). apply filter_In in Hx as [Hx1 Hx2]. unfold isT in Hx2.
    specialize (S2 _ Hx1). assert (0 < num (same (a_id a)) Q); [|lia]. apply num_pos. exists x. split; [assumption|]. apply Z.eqb_eq. lia.
  - intros F. assert (NQ : forall x, In x Q -> isT x = true -> False). { intros x H1 H2. assert (In x (filter isT Q)) by now apply filter_In. rewrite F in H. destruct H. }
    assert (Z0 : num (same (a_id a)) Q = 0). { apply num_0. intros x Hx. apply Z.eqb_neq. intros E2. apply (NQ x Hx). unfold isT. rewrite E2. exact Ha. }
    rewrite Z0. destruct denseT as [D|(b & Hb & Eb)].
    + exfalso. assert (In a BT) as K by (apply filter_In; split; [rewrite E; apply in_or_app; right; now left|exact Ha]). rewrite D in K. destruct K.
    + assert (a_id a = first + n - 1); [|lia]. rewrite E in Hb. apply in_app_iff in Hb as [Hb|[->|Hb]]; [specialize (S1 _ Hb); lia|assumption|]. exfalso. apply (NQ b Hb). unfold isT. lia.
Qed.
Lemma lastG P a Q : S = P ++ a :: Q -> isG a = true -> ((num (same (a_id a)) P =? num (same (a_id a)) S - 1) && (g =? num (fun id => 0 <? num (same id) (P ++ [a])) ids)) = true <-> filter isG Q = [].
Proof.
  intros E Ha. destruct (sorted_split (attr_lt_le S_sorted) E) as [S1 S2].
  assert (EC : num (same (a_id a)) S = num (same (a_id a)) P + 1 + num (same (a_id a)) Q) by (rewrite E, num_app, num_cons; unfold same at 2; rewrite Z.eqb_refl; lia). rewrite EC. split.
  - intros H. apply andb_true_iff in H as [H1 H2]. destruct (filter isG Q) as [|x l] eqn:F; [reflexivity|exfalso]. assert (In x (filter isG Q)) as Hx by (rewrite F; now left). apply filter_In in Hx as [Hx1 Hx2]. unfold isG in Hx2.
    destruct (index_of (a_id x) ids) as [i|] eqn:Ei; [|now rewrite andb_false_r in Hx2]. destruct (index_facts Ei) as (_ & _ & Ii).
    apply Z.eqb_eq in H2. rewrite g_len in H2. symmetry in H2. assert (K := proj1 (num_all _ _) H2 _ Ii). cbv beta in K. apply Z.ltb_lt, num_pos in K as (y & Hy & Ey). apply Z.eqb_eq in Ey.
    specialize (S2 _ Hx1). assert (a_id y <= a_id a) by (apply in_app_iff in Hy as [Hy|[<-|[]]]; [auto|lia]). assert (0 < num (same (a_id a)) Q); [|lia]. apply num_pos. exists x. split; [assumption|]. apply Z.eqb_eq. lia.
  - intros F. assert (NQ : forall x, In x Q -> isG x = true -> False). { intros x H1 H2. assert (In x (filter isG Q)) by now apply filter_In. rewrite F in H. destruct H. }
    assert (SG : forall x, a_id x = a_id a -> isG x = true) by (intros x Ex; unfold isG, isT; rewrite Ex; exact Ha).
    assert (Z0 : num (same (a_id a)) Q = 0). { apply num_0. intros x Hx. apply Z.eqb_neq. intros E2. apply (NQ x Hx). auto. }
    rewrite Z0. apply andb_true_iff. split; [lia|]. apply Z.eqb_eq. rewrite g_len. symmetry. apply num_all. intros id Hid. apply Z.ltb_lt, num_pos. destruct denseG as [D|D].
    + exfalso. assert (In a BG) as K by (apply filter_In; split; [rewrite E; apply in_or_app; right; now left|exact Ha]). rewrite D in K. destruct K.
    + destruct (D id Hid) as (b & Hb & Eb). exists b. split; [|now apply Z.eqb_eq]. rewrite E in Hb. apply in_app_iff in Hb as [Hb|[->|Hb]]; [apply in_or_app; now left|apply in_or_app; right; now left|]. exfalso. apply (NQ b Hb).
      unfold isG, isT. rewrite Eb. destruct (index_of id ids) eqn:Ei; [|apply index_of_none in Ei; tauto]. assert (K := ids_other Hid). destruct (Z.leb_spec first id), (Z.ltb_spec id (first + n)); cbn; auto; lia.
Qed.

Lemma in_block_mem I0 B m m' : m_lo m' = m_lo m -> m_hi m' = m_hi m -> in_block I0 B m -> in_block I0 B m'.
Proof. intros L U [H1 H2]. split; [now rewrite L|now rewrite U]. Qed.
Lemma Inv_frame I0 B m m' P Q R : B = P ++ Q -> R = Q -> (forall x, I0 <= x < D0 I0 B + sumf asize B -> m_at m' x = m_at m x) -> Inv I0 B m P Q -> Inv I0 B m' P R.
Proof.
  intros E -> F [V1 V2]. assert (EB : forall P1 a P2, B = P1 ++ a :: P2 -> 0 <= zlen P1 /\ zlen P1 + 1 <= zlen B /\ 0 <= sumf asize P1 /\ sumf asize P1 + asize a <= sumf asize B /\ 0 <= asize a).
  { intros P1 a P2 ->. rewrite zlen_app, zlen_cons, sumf_app. cbn. assert (N1 := asize_nonneg P1). assert (N2 := asize_nonneg P2). assert (L1 := zlen_pos P1). assert (L2 := zlen_pos P2). assert (LA := zlen_pos (a_data a)). fold (asize a) in LA. unfold sumf in *. lia. }
  split.
  - intros P1 a P2 E1. destruct (EB P1 a (P2 ++ Q)) as (Q1 & Q2 & Q3 & Q4 & Q5); [rewrite E, E1, <- app_assoc; reflexivity|]. destruct (V1 _ _ _ E1) as (G1 & G2 & G3 & G4 & G5).
    unfold info_ok. repeat split; (eapply bytes_at_frame; [exact F| |eassumption]); intros i Hi; rewrite ?zlen_le in Hi; fold (asize a) in *; unfold pos, dat, D0 in *; lia.
  - destruct Q as [|a Q]; [exact I|]. destruct (EB P a Q E) as (Q1 & Q2 & Q3 & Q4 & Q5). eapply bytes_at_frame; [exact F| |eassumption]. intros i Hi. rewrite zlen_le in Hi. unfold pos, D0. lia.
Qed.

Lemma step_ok s P a Q : S = P ++ a :: Q -> state s P (a :: Q) -> exists s', add_attributes_step first (tab T n) (tab G g) gids s a = Ok s' /\ state s' (P ++ [a]) Q.
Proof.
  intros E [It Ig VT VG LE LAST SJ CT INS]. destruct (sorted_split (attr_lt_le S_sorted) E) as [S1 S2]. assert (IA : In a S) by (rewrite E; apply in_or_app; right; now left). assert (A0 := S_ids IA).
  unfold add_attributes_step.
  assert (NX : (if ad_ltree s <? a_id a then (0, a_id a) else (ad_sj s, ad_ltree s)) = (num (same (a_id a)) P, a_id a)).
  { destruct (Z.ltb_spec (ad_ltree s) (a_id a)).
    - f_equal. symmetry. apply num_0. intros x Hx. apply Z.eqb_neq. specialize (LE _ Hx). lia.
    - destruct LAST as [[-> L]|(b & Hb & Eb)]; [lia|]. specialize (S1 _ Hb). assert (ad_ltree s = a_id a) as EQ by lia. rewrite SJ, EQ. reflexivity. }
  rewrite NX. clear NX. rewrite zlen_tab by assumption. fold (isT a).
  assert (CNT : num (same (a_id a)) (P ++ [a]) = num (same (a_id a)) P + 1) by (rewrite num_snoc; unfold same at 2; rewrite Z.eqb_refl; lia).
  assert (LE' : forall x, In x (P ++ [a]) -> a_id x <= a_id a) by (intros x Hx; apply in_app_iff in Hx as [Hx|[<-|[]]]; [auto|lia]).
  assert (LAST' : (P ++ [a] = [] /\ a_id a = -1) \/ exists b, In b (P ++ [a]) /\ a_id b = a_id a) by (right; exists a; split; [apply in_or_app; right; now left|reflexivity]).
  assert (OTHER : forall id, id <> a_id a -> num (same id) (P ++ [a]) = num (same id) P). { intros id D. rewrite num_snoc. unfold same at 2. destruct (Z.eqb_spec (a_id a) id); [congruence|lia]. }
  assert (SPT : BT = filter isT P ++ filter isT (a :: Q)) by (unfold BT; rewrite E, filter_app; reflexivity).
  assert (SPG : BG = filter isG P ++ filter isG (a :: Q)) by (unfold BG; rewrite E, filter_app; reflexivity).
  assert (NBT := asize_nonneg BT). assert (ZBT := zlen_pos BT). assert (NBG := asize_nonneg BG). assert (ZBG := zlen_pos BG).
  assert (KEEP : isG a = false -> isT a = true \/ index_of (a_id a) ids = None) by (unfold isG; destruct (isT a), (index_of (a_id a) ids); auto; discriminate).
  destruct (isT a) eqn:Ta.
  - (* local *)
    assert (Ga : isG a = false) by (unfold isG; now rewrite Ta). assert (R : first <= a_id a < first + n) by (unfold isT in Ta; lia).
    unfold add_tree_attr. rewrite lget_tab by lia. cbn [obind]. unfold TREE_BYTES. rewrite T_att, T_natt, zlen_tab by lia. replace (first + (a_id a - first)) with (a_id a) by lia.
    cbn [filter] in SPT, SPG, VT, VG. rewrite Ta in SPT, VT. rewrite Ga in SPG, VG.
    assert (F1 : num (same (a_id a)) (filter isT P) = num (same (a_id a)) P). { apply num_filter_imp. intros x _ Hx. apply Z.eqb_eq in Hx. unfold isT. rewrite Hx. exact Ta. }
    assert (F2 : num (same (a_id a)) BT = num (same (a_id a)) S). { apply num_filter_imp. intros x _ Hx. apply Z.eqb_eq in Hx. unfold isT. rewrite Hx. exact Ta. }
    destruct (@add_attr_step IT BT) with (m := ad_mem s) (P := filter isT P) (a := a) (Q := filter isT Q) (last := (num (same (a_id a)) P =? num (same (a_id a)) S - 1) && (n =? a_id a - first + 1)) as (m' & K & L & U & V & F);
      [apply attr_lt_le, sorted_filter, S_sorted|assumption|assumption|assumption|assumption|exact (lastT E Ta)|].
    rewrite F1, F2 in K. rewrite K. cbn [obind]. eexists. split; [reflexivity|]. constructor; cbn [ad_mem ad_sj ad_ltree ad_inserted ad_counters]; auto.
    + now apply (in_block_mem L U).
    + now apply (in_block_mem L U).
    + rewrite filter_snoc, Ta. exact V.
    + rewrite filter_snoc, Ga, app_nil_r. eapply Inv_frame; [exact SPG|reflexivity| |exact VG]. intros x Hx. apply F. right. unfold D0, IG in *. lia.
    + rewrite CT. apply tab_ext. intros i Hi. symmetry. apply OTHER. intros E2. apply (@ids_other (znth 0 ids i)); [rewrite g_len in Hi; unfold znth, zlen in *; apply nth_In; lia|lia].
    + rewrite INS. apply num_ext. intros id Hid. rewrite OTHER; [reflexivity|]. intros ->. now apply (ids_other Hid).
  - destruct gids_eq as [EG|ALL]; [rewrite EG|rewrite (ALL a IA) in Ta; discriminate]. destruct (index_of (a_id a) ids) as [i|] eqn:Ei.
    + (* ghost *)
      destruct (index_facts Ei) as (Hi & Ez & Iid). assert (Ga : isG a = true) by (unfold isG; now rewrite Ta, Ei).
      rewrite CT, lget_tab by lia. cbn [obind]. rewrite Ez, Z.eqb_refl. unfold add_ghost_attr. rewrite lget_tab by lia. cbn [obind]. unfold TREE_BYTES, GHOST_BYTES. rewrite G_att, G_natt, zlen_tab by lia. rewrite Ez.
      cbn [filter] in SPT, SPG, VT, VG. rewrite Ta in SPT, VT. rewrite Ga in SPG, VG.
      assert (II : (if num (same (a_id a)) P =? 0 then ad_inserted s + 1 else ad_inserted s) = num (fun id => 0 <? num (same id) (P ++ [a])) ids).
      { rewrite (@num_update (fun id => 0 <? num (same id) P) _ (a_id a)) with (l := ids); auto.
        - rewrite INS. assert (N := @num_nonneg _ (same (a_id a)) P). destruct (Z.eqb_spec (num (same (a_id a)) P) 0), (Z.ltb_spec 0 (num (same (a_id a)) P)); lia.
        - intros y D. now rewrite OTHER.
        - rewrite CNT. assert (N := @num_nonneg _ (same (a_id a)) P). apply Z.ltb_lt. lia. }
      rewrite II. clear II.
      assert (SG : forall x, a_id x = a_id a -> isG x = true) by (intros x Ex; unfold isG, isT in *; rewrite Ex; exact Ga).
      assert (F1 : num (same (a_id a)) (filter isG P) = num (same (a_id a)) P). { apply num_filter_imp. intros x _ Hx. apply Z.eqb_eq in Hx. auto. }
      assert (F2 : num (same (a_id a)) BG = num (same (a_id a)) S). { apply num_filter_imp. intros x _ Hx. apply Z.eqb_eq in Hx. auto. }
      destruct (@add_attr_step IG BG) with (m := ad_mem s) (P := filter isG P) (a := a) (Q := filter isG Q)
        (last := (num (same (a_id a)) P =? num (same (a_id a)) S - 1) && (g =? num (fun id => 0 <? num (same id) (P ++ [a])) ids)) as (m' & K & L & U & V & F);
        [apply attr_lt_le, sorted_filter, S_sorted|assumption|assumption|assumption|assumption|exact (lastG E Ga)|].
      rewrite F1, F2 in K. rewrite K. cbn [obind]. rewrite lset_tab by lia. cbn [obind]. eexists. split; [reflexivity|]. constructor; cbn [ad_mem ad_sj ad_ltree ad_inserted ad_counters]; auto.
      * now apply (in_block_mem L U).
      * now apply (in_block_mem L U).
      * rewrite filter_snoc, Ta, app_nil_r. eapply Inv_frame; [exact SPT|reflexivity| |exact VT]. intros x Hx. apply F. left. unfold D0, IG in *. lia.
      * rewrite filter_snoc, Ga. exact V.
      * apply tab_ext. intros j Hj. unfold upd. destruct (Z.eqb_spec j i) as [->|D]; [rewrite Ez; lia|]. symmetry. apply OTHER. intros E2. apply D. assert (K1 := index_of_nth ids_nodup (i := j)). rewrite g_len in Hj. specialize (K1 Hj). rewrite E2, Ei in K1. congruence.
    + (* another tree *)
      assert (Ga : isG a = false) by (unfold isG; now rewrite Ta, Ei). cbn [filter] in SPT, SPG, VT, VG. rewrite Ta in SPT, VT. rewrite Ga in SPG, VG.
      apply index_of_none in Ei. eexists. split; [reflexivity|]. constructor; cbn [ad_mem ad_sj ad_ltree ad_inserted ad_counters]; auto.
      * rewrite filter_snoc, Ta, app_nil_r. exact VT.
      * rewrite filter_snoc, Ga, app_nil_r. exact VG.
      * rewrite CT. apply tab_ext. intros i Hi. symmetry. apply OTHER. intros E2. apply Ei. rewrite <- E2. rewrite g_len in Hi. unfold znth, zlen in *. apply nth_In. lia.
      * rewrite INS. apply num_ext. intros id Hid. rewrite OTHER; [reflexivity|]. intros ->. tauto.
Qed.
Lemma loop_ok : forall Q P s, S = P ++ Q -> state s P Q -> exists s', add_attributes_loop first (tab T n) (tab G g) gids s Q = Ok s' /\ state s' S [].
Proof.
  intros Q. induction Q as [|a Q IH]; intros P s E H.
  - rewrite app_nil_r in E. subst P. exists s. split; [reflexivity|assumption].
  - destruct (step_ok E H) as (s' & K & H'). cbn [add_attributes_loop]. rewrite K. cbn [obind]. apply IH with (P ++ [a]); [|assumption]. now rewrite <- app_assoc.
Qed.
Lemma add_attributes_ok m : m_lo m <= IT -> IG + 24 * zlen BG + sumf asize BG <= m_hi m ->
  (0 < zlen BT -> bytes_at m (IT + 8) (le 8 (24 * zlen BT))) -> (0 < zlen BG -> bytes_at m (IG + 8) (le 8 (24 * zlen BG))) ->
  exists m', add_attributes first (tab T n) (tab G g) gids m S = Ok m' /\ in_block IT BT m' /\ in_block IG BG m' /\ Inv IT BT m' BT [] /\ Inv IG BG m' BG [].
Proof.
  intros H1 H2 H3 H4. unfold add_attributes. assert (NBT := asize_nonneg BT). assert (ZBT := zlen_pos BT). assert (NBG := asize_nonneg BG). assert (ZBG := zlen_pos BG).
  destruct (@loop_ok S [] (mkAdding m 0 (-1) 0 (map (fun _ => 0) (tab G g)))) as (s' & -> & H); [reflexivity| |].
  { constructor; cbn [ad_mem ad_sj ad_ltree ad_inserted ad_counters].
    - split; unfold D0, IG in *; lia.
    - split; unfold D0, IG in *; lia.
    - split; [intros P1 a P2 E; destruct P1; discriminate|]. cbn [filter]. fold BT. destruct BT as [|a l] eqn:EB; [exact I|]. unfold pos, boff, dat, D0. cbn [num sumf fold_right]. change (zlen (@nil sattr)) with 0. change (num (below (a_id a)) []) with 0.
      rewrite zlen_cons in *. assert (Z0 := zlen_pos l). replace (IT + 24 * 0 + 8) with (IT + 8) by lia. replace (IT + 24 * (zlen l + 1) + 0 - (IT + 24 * 0)) with (24 * (zlen l + 1)) by lia. apply H3. lia.
    - split; [intros P1 a P2 E; destruct P1; discriminate|]. cbn [filter]. fold BG. destruct BG as [|a l] eqn:EB; [exact I|]. unfold pos, boff, dat, D0. cbn [num sumf fold_right]. change (zlen (@nil sattr)) with 0. change (num (below (a_id a)) []) with 0.
      rewrite zlen_cons in *. assert (Z0 := zlen_pos l). replace (IG + 24 * 0 + 8) with (IG + 8) by lia. replace (IG + 24 * (zlen l + 1) + 0 - (IG + 24 * 0)) with (24 * (zlen l + 1)) by lia. apply H4. lia.
    - intros a [].
    - left. auto.
    - reflexivity.
    - rewrite map_tab. reflexivity.
    - symmetry. apply num_0. intros x _. reflexivity. }
  destruct H as [It Ig VT VG _ _ _ _ _]. cbn [obind]. exists (ad_mem s'). cbn [filter] in VT, VG. fold BT BG in VT, VG. auto.
Qed.
End loop.

(** The leaves of a distributed forest in order, and the owners of the elements at a face. *)
From Coq Require Import Sorting.Sorted.
From Verif Require Import Prelude PathSpec SchemeModel SchemeSpec SchemeProofs SchemeOrderProofs LeafProofs SearchProofs PartitionModel PartitionSpec.
From Verif Require Import OwnerModel OwnerSpec OwnerProofs OwnerMainProofs FaceModel FaceSpec FaceProofs GhostModel.

Section forest.
Variable cls : Z -> scheme.
Notation leaf := {t : Z & elt (cls t)}.
Notation el t e := (existT (fun t => elt (cls t)) t e).
Variables (P K ml : Z) (lv : forall t, list (elt (cls t))) (loc : Z -> list leaf).
Hypothesis D : distributed P K ml lv loc.
Notation g := (all_leaves K lv).

(** the order of the leaves of the forest *)
Definition gbefore (x y : leaf) : Prop := projT1 x < projT1 y \/ exists t (e f : elt (cls t)), x = el t e /\ y = el t f /\ before e f.
Lemma gbefore_same t (e f : elt (cls t)) : gbefore (el t e) (el t f) <-> before e f.
Proof.
  split; [|intros H; right; exists t, e, f; auto]. intros [H|(u & a & b & E1 & E2 & B)]; [cbn in H; lia|]. assert (t = u) by exact (f_equal (@projT1 Z _) E1). subst u.
  apply (Eqdep_dec.inj_pair2_eq_dec Z Z.eq_dec) in E1, E2. now subst.
Qed.
Lemma gbefore_tree x y : gbefore x y -> projT1 x <= projT1 y.
Proof. intros [H|(t & e & f & -> & -> & _)]; [lia|]. cbn. lia. Qed.
Lemma leaves_sorted : StronglySorted gbefore g.
Proof.
  unfold all_leaves. assert (Q : forall n a, 0 <= a -> a + Z.of_nat n <= K -> StronglySorted gbefore (flat_map (fun t => map (fun e => el t e) (lv t)) (zseq a n))).
  { induction n as [|n IH]; intros a Ha Hn; cbn [zseq flat_map]; [constructor|]. apply sorted_app_gen. split; [|split; [apply IH; lia|]].
    - destruct (F_tree D (t := a) ltac:(lia)) as (LW & _ & C & _). assert (O := covers_ordered LW C). apply (ordered_iff LW) in O. destruct O as [_ SS].
      apply (sorted_map (R := @before (cls a))); [|exact SS]. intros e f _ _ B. now apply gbefore_same.
    - apply Forall_forall. intros x Hx. apply Forall_forall. intros y Hy. left. apply in_map_iff in Hx. destruct Hx as (e & <- & _). apply in_flat_map in Hy. destruct Hy as (u & Hu & Hy).
      apply in_zseq in Hu. apply in_map_iff in Hy. destruct Hy as (f & <- & _). cbn. lia. }
  assert (HK : 1 <= K) by apply D. apply Q; lia.
Qed.
Lemma in_loc_all p x : 0 <= p < P -> In x (loc p) -> In x g.
Proof. intros Hp H. rewrite <- (gather_loc D). unfold gather. apply in_flat_map. exists p. split; [apply in_zseq; lia|exact H]. Qed.
Lemma in_all_loc x : In x g -> exists p, 0 <= p < P /\ In x (loc p).
Proof. rewrite <- (gather_loc D). unfold gather. intros H. apply in_flat_map in H. destruct H as (p & Hp & H). apply in_zseq in Hp. exists p. split; [lia|exact H]. Qed.
Lemma leaf_ok t (e : elt (cls t)) : In (el t e) g -> 0 <= t < K /\ In e (lv t) /\ valid e /\ s_level e <= ml.
Proof.
  intros H. apply in_all in H. destruct H as [Ht I]. destruct (F_tree D Ht) as (LW & HM & [V _] & L). rewrite Forall_forall in V, L. auto.
Qed.
Lemma loc_sorted : (forall p, 0 <= p < P -> StronglySorted gbefore (loc p)) /\ forall p q x y, 0 <= p -> p < q -> q < P -> In x (loc p) -> In y (loc q) -> gbefore x y.
Proof.
  assert (SS := leaves_sorted). rewrite <- (gather_loc D) in SS. unfold gather in SS. assert (HP := HP1 D).
  assert (Q : forall n a, StronglySorted gbefore (flat_map loc (zseq a n)) -> (forall p, a <= p < a + Z.of_nat n -> StronglySorted gbefore (loc p)) /\
    forall p q x y, a <= p -> p < q -> q < a + Z.of_nat n -> In x (loc p) -> In y (loc q) -> gbefore x y).
  { induction n as [|n IH]; intros a H; cbn [zseq flat_map] in H; [split; intros; lia|]. apply sorted_app_gen in H. destruct H as (S1 & S2 & FB). destruct (IH _ S2) as [I1 I2]. split.
    - intros p Hp. destruct (Z.eq_dec p a) as [->|N]; [exact S1|apply I1; lia].
    - intros p q x y H1 H2 H3 Hx Hy. destruct (Z.eq_dec p a) as [->|N]; [|apply (I2 p q); auto; lia]. rewrite Forall_forall in FB. specialize (FB x Hx). rewrite Forall_forall in FB. apply FB.
      apply in_flat_map. exists q. split; [apply in_zseq; lia|exact Hy]. }
  specialize (Q _ _ SS). rewrite Z2Nat.id in Q by lia. destruct Q as [Q1 Q2]. split; [intros; apply Q1; lia|intros; apply (Q2 p q); auto; lia].
Qed.
Lemma gbefore_irrefl x : In x g -> ~ gbefore x x.
Proof.
  intros I H. destruct x as [t e]. destruct (leaf_ok I) as (Ht & _ & V & _). destruct (F_tree D Ht) as (LW & _). apply gbefore_same in H. pose proof (lo_hi LW V). unfold before in H. lia.
Qed.
Lemma gbefore_disjoint x y z : In x g -> gbefore x y -> in_leaf x z -> in_leaf y z -> False.
Proof.
  intros I B Hx Hy. destruct x as [t e], z as [u d], y as [s f]. destruct (in_leaf_iff Hx) as (<- & Bx). destruct (in_leaf_iff Hy) as (-> & By). cbn [eq_rect] in *.
  destruct (leaf_ok I) as (Ht & _ & V & _). destruct (F_tree D Ht) as (LW & _). apply gbefore_same in B. pose proof (below_nested LW Bx). pose proof (below_nested LW By).
  destruct (below_valid Bx) as [_ Vd]. pose proof (lo_hi LW Vd). unfold before in B. lia.
Qed.
Lemma loc_disjoint p q x y : 0 <= p < P -> 0 <= q < P -> In x (loc p) -> In y (loc q) -> p <> q -> gbefore x y \/ gbefore y x.
Proof.
  intros Hp Hq Hx Hy N. destruct loc_sorted as [_ S]. destruct (Z.lt_trichotomy p q) as [C|[C|C]]; [left; apply (S p q); auto; lia|lia|right; apply (S q p); auto; lia].
Qed.

Lemma stores_tree p t (x : elt (cls t)) : 0 <= p < P -> stores loc p t x -> 0 <= t < K.
Proof. intros Hp (e & I & _). apply (leaf_ok (in_loc_all Hp I)). Qed.
Lemma stores_leaf p t (x : elt (cls t)) : stores loc p t x <-> exists l, In l (loc p) /\ in_leaf l (el t x).
Proof.
  split.
  - intros (e & I & B). exists (el t e). split; [exact I|now apply in_leaf_same].
  - intros ([u e] & I & H). destruct (in_leaf_iff H) as (-> & B). exists e. auto.
Qed.
Lemma stores_mono p q t (x y : elt (cls t)) : 0 <= p < P -> 0 <= q < P -> stores loc p t x -> stores loc q t y -> x = y \/ before x y -> p <= q.
Proof.
  intros Hp Hq (e & Ie & Be) (f & If & Bf) C. destruct (Z.le_gt_cases p q) as [L|L]; [exact L|exfalso]. destruct loc_sorted as [_ S]. assert (G := S q p _ _ ltac:(lia) ltac:(lia) ltac:(lia) If Ie).
  apply gbefore_same in G. destruct (leaf_ok (in_loc_all Hp Ie)) as (Ht & _). destruct (F_tree D Ht) as (LW & _). pose proof (below_nested LW Be). pose proof (below_nested LW Bf).
  destruct (below_valid Be) as [_ Vx]. destruct (below_valid Bf) as [_ Vy]. pose proof (lo_hi LW Vx). pose proof (lo_hi LW Vy). unfold before in *. destruct C as [<-|C]; lia.
Qed.
Lemma stores_unique p q t (x : elt (cls t)) : 0 <= p < P -> 0 <= q < P -> stores loc p t x -> stores loc q t x -> p = q.
Proof. intros Hp Hq Sp Sq. pose proof (stores_mono Hp Hq Sp Sq (or_introl eq_refl)). pose proof (stores_mono Hq Hp Sq Sp (or_introl eq_refl)). lia. Qed.

(** ** owners at a face *)
Variable fc : forall t, faces (cls t).
Variable nb : leaf -> Z -> option (leaf * Z).
Hypothesis HM : mesh_ok fc nb K ml.
Variable dbg : bool.
Variable to : list Z.
Hypothesis ET : create_tree_offsets P K ml loc = Ok to.
Variable x0 : Z.
Notation eo := (element_offsets P loc).
Notation fd := (create_first_desc P ml loc ++ [x0]).
Notation own := (@owner_of_desc cls dbg P ml eo to fd).

Lemma owner_desc_ok t (x : elt (cls t)) p lower upper guess : 0 <= p < P -> valid x -> s_level x = ml -> stores loc p t x -> 0 <= lower -> lower <= p <= upper -> upper < P -> lower <= guess <= upper ->
  own x lower upper guess = Ok p.
Proof.
  intros Hp V L St H1 H2 H3 H4. unfold owner_of_desc.
  exact (proj2 (owner_main D [x0] (is_desc := true) ET V (Z.eq_le_incl _ _ L) (fun _ => L) eq_refl Hp St) lower upper guess dbg ltac:(discriminate) H1 H2 H3 H4).
Qed.
Lemma check_desc_ok t (x : elt (cls t)) p : 0 <= p < P -> valid x -> s_level x = ml -> stores loc p t x -> check_owner P ml to fd x p true = Ok true.
Proof.
  intros Hp V L St. rewrite (proj1 (owner_main D [x0] (is_desc := true) ET V (Z.eq_le_incl _ _ L) (fun _ => L) eq_refl Hp St) p Hp). now rewrite Z.eqb_refl.
Qed.
Lemma owner_in t (x : elt (cls t)) lower upper guess : 0 <= t < K -> valid x -> s_level x = ml -> 0 <= lower -> upper < P -> lower <= guess <= upper ->
  (forall q, 0 <= q < P -> stores loc q t x -> lower <= q <= upper) -> exists p, 0 <= p < P /\ stores loc p t x /\ own x lower upper guess = Ok p.
Proof.
  intros Ht V L H1 H2 H3 HB. destruct (stores_exists D Ht V L) as (p & Hp & St). exists p. split; [exact Hp|]. split; [exact St|]. apply owner_desc_ok; auto.
Qed.

(** q stores a part of an element of level ml at the face of e *)
Definition face_owner (t : Z) (e : elt (cls t)) (f q : Z) : Prop := 0 <= q < P /\
  exists y h, In (y, h) (face_descend (fc t) (Z.to_nat (ml - s_level e)) e f) /\ stores loc q t y.
(** q stores a part of e *)
Definition elem_owner (t : Z) (e : elt (cls t)) (q : Z) : Prop := 0 <= q < P /\ exists y, below e y /\ s_level y = ml /\ stores loc q t y.

Lemma first_face t (e : elt (cls t)) f : 0 <= t < K -> valid e -> s_level e <= ml -> is_face (fc t) e f -> valid (f_first (fc t) e f ml) /\ s_level (f_first (fc t) e f ml) = ml /\
  (forall q, 0 <= q < P -> stores loc q t (f_first (fc t) e f ml) -> face_owner e f q) /\
  forall p q, 0 <= p < P -> stores loc p t (f_first (fc t) e f ml) -> face_owner e f q -> p <= q.
Proof.
  intros Ht V L Hf. destruct (class_ok HM Ht) as (LW & FL & ML). destruct (face_first_ok LW FL V (L := ml) ltac:(lia) Hf) as (h & I & Q).
  destruct (face_descend_in LW FL (n := Z.to_nat (ml - s_level e)) V ltac:(lia) Hf I) as (V1 & L1 & _ & _). split; [exact V1|]. split; [lia|]. split.
  - intros q Hq St. split; [exact Hq|]. eauto.
  - intros p q Hp St (Hq & y & h' & Iy & Sy). destruct (Q _ _ Iy) as [E|B]; [apply (stores_mono Hp Hq St Sy); auto|apply (stores_mono Hp Hq St Sy); auto].
Qed.
Lemma last_face t (e : elt (cls t)) f : 0 <= t < K -> valid e -> s_level e <= ml -> is_face (fc t) e f -> valid (f_last (fc t) e f ml) /\ s_level (f_last (fc t) e f ml) = ml /\
  (forall q, 0 <= q < P -> stores loc q t (f_last (fc t) e f ml) -> face_owner e f q) /\
  forall p q, 0 <= p < P -> stores loc p t (f_last (fc t) e f ml) -> face_owner e f q -> q <= p.
Proof.
  intros Ht V L Hf. destruct (class_ok HM Ht) as (LW & FL & ML). destruct (face_last_ok LW FL V (L := ml) ltac:(lia) Hf) as (h & I & Q).
  destruct (face_descend_in LW FL (n := Z.to_nat (ml - s_level e)) V ltac:(lia) Hf I) as (V1 & L1 & _ & _). split; [exact V1|]. split; [lia|]. split.
  - intros q Hq St. split; [exact Hq|]. eauto.
  - intros p q Hp St (Hq & y & h' & Iy & Sy). destruct (Q _ _ Iy) as [E|B]; [apply (stores_mono Hq Hp Sy St); auto|apply (stores_mono Hq Hp Sy St); auto].
Qed.
Lemma face_owner_exists t (e : elt (cls t)) f : 0 <= t < K -> valid e -> s_level e <= ml -> is_face (fc t) e f -> exists q, face_owner e f q.
Proof.
  intros Ht V L Hf. destruct (first_face Ht V L Hf) as (V1 & L1 & Q & _). destruct (stores_exists D Ht V1 L1) as (p & Hp & St). exists p. auto.
Qed.
Lemma face_owner_step t (e : elt (cls t)) f q : 0 <= t < K -> valid e -> s_level e < ml -> is_face (fc t) e f ->
  (face_owner e f q <-> exists c h, In (c, h) (face_children (fc t) e f) /\ face_owner c h q).
Proof.
  intros Ht V L Hf. destruct (class_ok HM Ht) as (LW & FL & ML). unfold face_owner. replace (Z.to_nat (ml - s_level e)) with (Datatypes.S (Z.to_nat (ml - s_level e - 1))) by lia. cbn [face_descend]. split.
  - intros (Hq & y & h & I & St). apply in_flat_map in I. destruct I as ([c k] & Ic & I). cbn [fst snd] in I. exists c, k. split; [exact Ic|]. split; [exact Hq|]. exists y, h. split; [|exact St].
    destruct (face_child LW FL V ltac:(lia) Hf Ic) as (_ & -> & _). replace (ml - (s_level e + 1)) with (ml - s_level e - 1) by lia. exact I.
  - intros (c & k & Ic & Hq & y & h & I & St). split; [exact Hq|]. exists y, h. split; [|exact St]. apply in_flat_map. exists (c, k). split; [exact Ic|]. cbn [fst snd].
    destruct (face_child LW FL V ltac:(lia) Hf Ic) as (_ & E & _). rewrite E in I. replace (ml - (s_level e + 1)) with (ml - s_level e - 1) in I by lia. exact I.
Qed.
Lemma face_owner_elem t (e : elt (cls t)) f q : 0 <= t < K -> valid e -> s_level e <= ml -> is_face (fc t) e f -> face_owner e f q -> elem_owner e q.
Proof.
  intros Ht V L Hf (Hq & y & h & I & St). destruct (class_ok HM Ht) as (LW & FL & ML). destruct (face_descend_in LW FL (n := Z.to_nat (ml - s_level e)) V ltac:(lia) Hf I) as (V1 & L1 & B & _).
  split; [exact Hq|]. exists y. split; [exact B|]. split; [lia|exact St].
Qed.

Lemma sorted_snoc (l : list Z) a : StronglySorted Z.lt l -> (forall b, In b l -> b < a) -> StronglySorted Z.lt (l ++ [a]).
Proof.
  intros SS H. apply sorted_app. split; [exact SS|]. split; [repeat constructor|]. intros x y Hx [<-|[]]. auto.
Qed.
Lemma last_in (l : list Z) : l <> [] -> In (last l (-1)) l.
Proof. intros H. destruct (exists_last H) as (a & b & ->). rewrite last_last. apply in_or_app. right. now left. Qed.
Lemma last_max (l : list Z) b : StronglySorted Z.lt l -> In b l -> b <= last l (-1).
Proof.
  intros SS H. destruct (exists_last (l := l)) as (a & x & ->); [intros ->; destruct H|]. rewrite last_last. apply sorted_app in SS. destruct SS as (_ & _ & Q). apply in_app_or in H. destruct H as [H|[->|[]]]; [|lia].
  specialize (Q b x H (or_introl eq_refl)). lia.
Qed.

(** the result of the recursion *)
Definition adds (owners : list Z) (Q : Z -> Prop) (r : outcome (list Z)) : Prop := exists l, r = Ok l /\ StronglySorted Z.lt l /\ forall q, In q l <-> In q owners \/ Q q.
Lemma owners_rec_ok fuel : forall lower upper t (e : elt (cls t)) face fo la owners, 0 <= t < K -> valid e -> s_level e <= ml -> is_face (fc t) e face -> ml - s_level e < Z.of_nat fuel ->
  0 <= lower -> upper < P -> (forall q, face_owner e face q -> lower <= q <= upper) ->
  (fo = None \/ fo = Some (f_first (fc t) e face ml)) -> (la = None \/ la = Some (f_last (fc t) e face ml)) ->
  StronglySorted Z.lt owners -> (forall a q, In a owners -> face_owner e face q -> 0 <= a <= q) ->
  adds owners (face_owner e face) (owners_at_face_rec fc dbg P ml eo to fd fuel lower upper e face fo la owners).
Proof.
  induction fuel as [|fuel IH]; intros lower upper t e face fo la owners Ht V L Hf Fu H1 H2 HB HF HLa SO HO; [lia|]. cbn [owners_at_face_rec].
  destruct (class_ok HM Ht) as (LW & FL & ML).
  replace (match fo with Some x => x | None => f_first (fc t) e face ml end) with (f_first (fc t) e face ml) by (destruct HF as [->| ->]; reflexivity).
  replace (match la with Some x => x | None => f_last (fc t) e face ml end) with (f_last (fc t) e face ml) by (destruct HLa as [->| ->]; reflexivity).
  destruct (first_face Ht V L Hf) as (V1 & L1 & O1 & M1). destruct (last_face Ht V L Hf) as (V2 & L2 & O2 & M2).
  rewrite (proj2 (valid_equal LW V1 V1) eq_refl), (proj2 (valid_equal LW V2 V2) eq_refl). cbn [andb negb]. rewrite andb_false_r.
  destruct (stores_exists D Ht V1 L1) as (p1 & Hp1 & S1). destruct (stores_exists D Ht V2 L2) as (p2 & Hp2 & S2).
  assert (B1 := HB _ (O1 _ Hp1 S1)). assert (B2 := HB _ (O2 _ Hp2 S2)).
  rewrite (@owner_desc_ok t _ p1 lower upper lower) by (auto; lia). cbn [obind]. rewrite (@owner_desc_ok t _ p2 lower upper upper) by (auto; lia). cbn [obind].
  assert (P12 := M1 p1 p2 Hp1 S1 (O2 _ Hp2 S2)). destruct (Z.ltb_spec p2 p1) as [?|_]; [lia|]. destruct (Z.eqb_spec p1 p2) as [E|N].
  - subst p2. assert (FO : forall q, face_owner e face q <-> q = p1). { intros q. split; [|intros ->; auto]. intros Hq. specialize (M1 _ _ Hp1 S1 Hq). specialize (M2 _ _ Hp1 S2 Hq). lia. }
    assert (R : exists l, (if last owners (-1) <? p1 then owners ++ [p1] else owners) = l /\ StronglySorted Z.lt l /\ forall q, In q l <-> In q owners \/ face_owner e face q).
    { destruct (Z.ltb_spec (last owners (-1)) p1) as [C|C].
      - exists (owners ++ [p1]). split; [reflexivity|]. split.
        + apply sorted_snoc; [exact SO|]. intros b Hb. assert (Q := last_max SO Hb). lia.
        + intros q. rewrite in_app_iff, FO. cbn [In]. intuition.
      - exists owners. split; [reflexivity|]. split; [exact SO|]. intros q. rewrite FO. split; [auto|]. intros [?| ->]; [auto|]. destruct owners as [|a r] eqn:EO; [cbn in C; lia|]. rewrite <- EO in *.
        assert (Il := last_in (l := owners) ltac:(rewrite EO; discriminate)). assert (Q := HO _ p1 Il (O1 _ Hp1 S1)). replace p1 with (last owners (-1)) by lia. exact Il. }
    destruct R as (l & -> & R1 & R2). destruct dbg; [|exists l; auto]. rewrite (check_desc_ok Hp1 V1 L1 S1). cbn [obind]. rewrite (check_desc_ok Hp1 V2 L2 S2). cbn [obind andb]. exists l. auto.
  - destruct (Z.ltb_spec (s_level e) ml) as [LT|GE].
    2:{ exfalso. assert (Q : f_first (fc t) e face ml = f_last (fc t) e face ml); [|rewrite Q in S1; apply N, (stores_unique Hp1 Hp2 S1 S2)].
        destruct (fl_first FL V (L := ml) ltac:(lia) Hf) as (g1 & r1 & E1). destruct (fl_last FL V (L := ml) ltac:(lia) Hf) as (r2 & g2 & E2).
        replace (Z.to_nat (ml - s_level e)) with O in * by lia. cbn [face_descend] in *. injection E1 as <- _ _. destruct r2 as [|? [|? ?]]; [now injection E2|discriminate|discriminate]. }
    cbn [negb].
    (* the loop over the face children *)
    assert (FCH : forall c h, In (c, h) (face_children (fc t) e face) -> valid c /\ s_level c <= ml /\ is_face (fc t) c h /\ ml - s_level c < Z.of_nat fuel /\ forall q, face_owner c h q -> face_owner e face q).
    { intros c h Hc. destruct (face_child LW FL V ltac:(lia) Hf Hc) as (Vc & Lc & _ & Hh & _). split; [exact Vc|]. split; [lia|]. split; [exact Hh|]. split; [lia|]. intros q Hq. apply (face_owner_step q Ht V LT Hf). eauto. }
    assert (SSC := face_children_sorted LW FL V (ltac:(lia) : s_level e < s_maxlevel (cls t)) Hf).
    assert (EFC : face_children (fc t) e face = combine (f_children (fc t) e face) (map (f_child_face (fc t) e face) (zseq 0 (length (f_children (fc t) e face))))).
    { unfold face_children. clear. set (cs := f_children (fc t) e face). set (cf := f_child_face (fc t) e face).
      assert (Q : forall (l : list (elt (cls t))) pre a, a = Z.of_nat (length pre) -> map (fun k => (nth k (pre ++ l) e, cf (Z.of_nat k))) (seq (length pre) (length l)) = combine l (map cf (zseq a (length l)))).
      { induction l as [|c l IHl]; intros pre a Ea; cbn [length seq map zseq combine]; [reflexivity|]. f_equal; [f_equal; [rewrite app_nth2, Nat.sub_diag by lia; reflexivity|now rewrite Ea]|].
        assert (Q := IHl (pre ++ [c]) (a + 1)). rewrite app_length in Q. cbn [length] in Q. replace (length pre + 1)%nat with (Datatypes.S (length pre)) in Q by lia. rewrite <- app_assoc in Q. apply Q. lia. }
      exact (Q cs [] 0 eq_refl). }
    assert (LP : forall cs k owners, let l := combine cs (map (f_child_face (fc t) e face) (zseq k (length cs))) in 0 <= k ->
      (forall c h, In (c, h) l -> In (c, h) (face_children (fc t) e face)) -> StronglySorted (@before (cls t)) (map fst l) ->
      (k = 0 -> face_children (fc t) e face = l) -> (forall pre c h, l = pre ++ [(c, h)] -> exists pre', face_children (fc t) e face = pre' ++ [(c, h)]) ->
      StronglySorted Z.lt owners -> (forall a c h q, In a owners -> In (c, h) l -> face_owner c h q -> 0 <= a <= q) ->
      adds owners (fun q => exists c h, In (c, h) l /\ face_owner c h q)
        (face_children_loop (owners_at_face_rec fc dbg P ml eo to fd fuel lower upper (t := t)) (f_child_face (fc t) e face) (f_first (fc t) e face ml) (f_last (fc t) e face ml) k cs owners)).
    { induction cs as [|c cs IHc]; intros k ow l Hk Inc SB K0 KL SOw HOw; cbn [face_children_loop].
      - exists ow. split; [reflexivity|]. split; [exact SOw|]. intros q. split; [auto|]. intros [?|(c & h & [] & _)]; auto.
      - cbn [length zseq map combine] in l. set (h := f_child_face (fc t) e face k) in *. set (l' := combine cs (map (f_child_face (fc t) e face) (zseq (k + 1) (length cs)))) in *.
        assert (Ic := Inc c h (or_introl eq_refl)). destruct (FCH c h Ic) as (Vc & Lc & Hh & Fc & Oc).
        assert (HFst : (if k =? 0 then Some (f_first (fc t) e face ml) else None) = None \/ (if k =? 0 then Some (f_first (fc t) e face ml) else None) = Some (f_first (fc t) c h ml)).
        { destruct (Z.eqb_spec k 0) as [E0|_]; [right|now left]. f_equal. symmetry. apply (face_first_child LW FL V (L := ml) ltac:(lia) Hf (K0 E0)). }
        assert (HLst : (match cs with [] => Some (f_last (fc t) e face ml) | _ => None end) = None \/ (match cs with [] => Some (f_last (fc t) e face ml) | _ => None end) = Some (f_last (fc t) c h ml)).
        { destruct cs as [|c2 cs2]; [right|now left]. f_equal. symmetry. destruct (KL [] c h eq_refl) as (pre' & E'). apply (face_last_child LW FL V (L := ml) ltac:(lia) Hf E'). }
        assert (HB' : forall q, face_owner c h q -> lower <= q <= upper) by (intros q Hq; apply HB, Oc; exact Hq).
        assert (HO' : forall a q, In a ow -> face_owner c h q -> 0 <= a <= q) by (intros a q Ha Hq; apply (HOw a c h q); auto; now left).
        destruct (IH lower upper t c h _ _ ow Ht Vc Lc Hh Fc H1 H2 HB' HFst HLst SOw HO') as (ow1 & E1 & S1' & I1). rewrite E1. cbn [obind].
        cbn [map fst] in SB. inversion SB as [|? ? SB' FB]; subst.
        destruct (IHc (k + 1) ow1) as (ow2 & E2 & S2' & I2).
        + lia.
        + intros; apply Inc; now right.
        + exact SB'.
        + lia.
        + intros pre c' h' E. apply (KL ((c, h) :: pre)). unfold l. cbn [app]. f_equal. exact E.
        + exact S1'.
        + intros a c' h' q Ha Hc' Hq. apply I1 in Ha. destruct Ha as [Ha|Ha]; [apply (HOw a c' h' q); auto; now right|]. assert (Ha0 : 0 <= a) by apply Ha. split; [exact Ha0|].
          destruct Ha as (Hap & y & gy & Iy & Sy). destruct Hq as (Hqp & z & gz & Iz & Sz). apply (stores_mono Hap Hqp Sy Sz). right.
          assert (Bcc : before c c') by (rewrite Forall_forall in FB; apply FB; exact (in_map fst _ (c', h') Hc')).
          destruct (FCH c' h' (Inc _ _ (or_intror Hc'))) as (Vc' & Lc' & Hh' & _).
          destruct (face_descend_in LW FL (n := Z.to_nat (ml - s_level c)) Vc ltac:(lia) Hh Iy) as (_ & _ & By & _). destruct (face_descend_in LW FL (n := Z.to_nat (ml - s_level c')) Vc' ltac:(lia) Hh' Iz) as (_ & _ & Bz & _).
          pose proof (below_nested LW By). pose proof (below_nested LW Bz). unfold before in *. lia.
        + exists ow2. split; [exact E2|]. split; [exact S2'|]. intros q. rewrite I2, I1. split.
          * intros [[?|?]|(c' & h' & Hc' & Hq)]; [auto|right; exists c, h; split; [now left|assumption]|right; exists c', h'; split; [now right|assumption]].
          * intros [?|(c' & h' & [Hc'|Hc'] & Hq)]; [auto|left; right; injection Hc' as <- <-; exact Hq|right; exists c', h'; auto]. }
    destruct (LP (f_children (fc t) e face) 0 owners) as (l & El & Sl & Il).
    + lia.
    + intros c h. rewrite <- EFC. auto.
    + rewrite <- EFC. exact SSC.
    + intros _. exact EFC.
    + intros pre c h E. exists pre. rewrite EFC. exact E.
    + exact SO.
    + intros a c h q Ha Hc Hq. rewrite <- EFC in Hc. apply (HO a q Ha). apply (FCH c h Hc). exact Hq.
    + exists l. split; [exact El|]. split; [exact Sl|]. intros q. rewrite Il, (face_owner_step q Ht V LT Hf). rewrite <- EFC. reflexivity.
Qed.

(** a pair of bounds for the ranks with Q *)
Definition good (b : Z * Z) (Q : Z -> Prop) : Prop := 0 <= fst b /\ snd b < P /\ forall q, Q q -> fst b <= q <= snd b.
Lemma good_sub b (Q R : Z -> Prop) : (forall q, R q -> Q q) -> good b Q -> good b R.
Proof. intros H (A & B & C). split; [exact A|]. split; [exact B|]. auto. Qed.
(** q stores a part of an element of level ml on the other side of the face *)
Definition nface_owner (t : Z) (e : elt (cls t)) (f q : Z) : Prop := exists t' (e' : elt (cls t')) f', nb (el t e) f = Some (el t' e', f') /\ face_owner e' f' q.

Lemma owners_at_face_ok t (e : elt (cls t)) face b : 0 <= t < K -> valid e -> s_level e <= ml -> is_face (fc t) e face -> good b (face_owner e face) ->
  adds [] (face_owner e face) (owners_at_face fc dbg P ml eo to fd e face [fst b; snd b]).
Proof.
  intros Ht V L Hf (H1 & H2 & HB). unfold owners_at_face. cbn [obind]. rewrite (proj2 (Z.leb_le _ _) H1), (proj2 (Z.ltb_lt _ _) H2). cbn [andb negb].
  destruct (face_owner_exists Ht V L Hf) as (q0 & Hq0). assert (Q0 := HB _ Hq0). destruct (Z.eqb_spec (fst b) (snd b)) as [E|N].
  - destruct (Z.ltb_spec (fst b) P); [|lia]. exists [fst b]. split; [reflexivity|]. split; [repeat constructor|]. intros q. cbn [In]. split.
    + intros [<-|[]]. right. replace (fst b) with q0 by lia. exact Hq0.
    + intros [[]|Hq]. left. specialize (HB q Hq). lia.
  - destruct (Z.ltb_spec (snd b) (fst b)); [lia|]. apply owners_rec_ok; auto; [lia|constructor|]. intros a q [].
Qed.
Lemma owners_at_neigh_face_ok t (e : elt (cls t)) face b : 0 <= t < K -> valid e -> s_level e <= ml -> is_face (fc t) e face -> good b (nface_owner e face) ->
  adds [] (nface_owner e face) (owners_at_neigh_face fc nb dbg P ml eo to fd e face [fst b; snd b]).
Proof.
  intros Ht V L Hf G. unfold owners_at_neigh_face. destruct (nb (el t e) face) as [[[t' e'] f']|] eqn:N.
  - destruct (mo_neighbor HM Ht V L Hf N) as (Ht' & V' & L' & Hf' & _).
    assert (EQ : forall q, nface_owner e face q <-> face_owner e' f' q).
    { intros q. split; [|intros H; exists t', e', f'; auto]. intros (t1 & e1 & f1 & N1 & H). rewrite N in N1. assert (t' = t1) by congruence. subst t1. injection N1 as E1 <-. apply el_inj in E1. now subst. }
    destruct (@owners_at_face_ok t' e' f' b Ht' V' ltac:(lia) Hf') as (l & E & S & I); [eapply good_sub; [|exact G]; intros; now apply EQ|].
    exists l. split; [exact E|]. split; [exact S|]. intros q. rewrite I, EQ. reflexivity.
  - exists []. split; [reflexivity|]. split; [constructor|]. intros q. split; [intros []|]. intros [[]|(t1 & e1 & f1 & N1 & _)]. congruence.
Qed.
Lemma first_elem t (e : elt (cls t)) : 0 <= t < K -> valid e -> s_level e <= ml -> let x := s_first_desc e ml in valid x /\ s_level x = ml /\ below e x /\ forall y, below e y -> s_level y = ml -> x = y \/ before x y.
Proof.
  intros Ht V L x. destruct (class_ok HM Ht) as (LW & FL & ML). destruct (first_desc_lo LW (e := e) (L := ml) V ltac:(lia)) as (V1 & L1 & E1 & B1). fold x in V1, L1, E1, B1. split; [exact V1|]. split; [exact L1|]. split; [exact B1|].
  intros y By Ly. destruct (below_valid By) as [_ Vy]. pose proof (below_nested LW By) as [N1 _]. destruct (laminar LW V1 Vy) as [B|[B|[B|B]]].
  - left. apply (below_level LW B). lia.
  - left. symmetry. apply (below_level LW B). lia.
  - now right.
  - exfalso. pose proof (lo_hi LW Vy). unfold before in B. lia.
Qed.
Lemma last_elem t (e : elt (cls t)) : 0 <= t < K -> valid e -> s_level e <= ml -> let x := s_last_desc e ml in valid x /\ s_level x = ml /\ below e x /\ forall y, below e y -> s_level y = ml -> x = y \/ before y x.
Proof.
  intros Ht V L x. destruct (class_ok HM Ht) as (LW & FL & ML). destruct V as (p & Hp & ->). rewrite (law_level LW Hp) in *. destruct (law_last_desc LW Hp (L := ml) ltac:(lia)) as (pre & E). fold x in E.
  assert (O := descend_ordered LW (n := Z.to_nat (ml - zlen p)) (valid_walk Hp) ltac:(rewrite (law_level LW Hp); lia)). rewrite E in O.
  assert (Ix : In x (descend (Z.to_nat (ml - zlen p)) (gwalk (cls t) p))) by (rewrite E; apply in_or_app; right; now left).
  destruct (descend_in_inv Hp (n := Z.to_nat (ml - zlen p)) (c := x) ltac:(lia) Ix) as (r & Hr & Er & Lr).
  assert (Bx : below (gwalk (cls t) p) x) by (exists p, r; auto). destruct (below_valid Bx) as [_ Vx]. split; [exact Vx|].
  split; [rewrite Lr, (law_level LW Hr), zlen_app; unfold zlen in *; lia|]. split; [exact Bx|]. intros y (p' & s & Hs & E1 & ->) Ly. apply (gwalk_inj LW Hp (gpath_app Hs)) in E1. subst p'.
  rewrite (law_level LW Hs), zlen_app in Ly. assert (Iy := descend_in Hs (n := Z.to_nat (ml - zlen p)) ltac:(unfold zlen in *; lia)). rewrite E in Iy. apply in_app_or in Iy.
  destruct Iy as [Iy|[->|[]]]; [right|now left]. apply (ordered_app LW) in O. destruct O as (_ & _ & FB). rewrite Forall_forall in FB. specialize (FB _ Iy). now inversion FB.
Qed.
Lemma owners_bounds_ok t (e : elt (cls t)) b : 0 <= t < K -> valid e -> s_level e <= ml -> good b (elem_owner e) ->
  exists b', owners_bounds dbg P ml eo to fd e (fst b) (snd b) = Ok b' /\ good b' (elem_owner e).
Proof.
  intros Ht V L (H1 & H2 & HB). unfold owners_bounds. destruct (Z.leb_spec (snd b) (fst b)) as [C|C]; [exists (fst b, snd b); split; [reflexivity|]; now split|].
  destruct (first_elem Ht V L) as (V1 & L1 & B1 & Q1). destruct (last_elem Ht V L) as (V2 & L2 & B2 & Q2). cbn zeta in *. set (x := s_first_desc e ml) in *. set (y := s_last_desc e ml) in *.
  destruct (stores_exists D Ht V1 L1) as (p1 & Hp1 & S1). destruct (stores_exists D Ht V2 L2) as (p2 & Hp2 & S2).
  assert (O1 : elem_owner e p1) by (split; [exact Hp1|]; exists x; auto). assert (O2 : elem_owner e p2) by (split; [exact Hp2|]; exists y; auto). assert (R1 := HB _ O1). assert (R2 := HB _ O2).
  assert (MM : forall q, elem_owner e q -> p1 <= q <= p2).
  { intros q (Hq & z & Bz & Lz & Sz). split; [apply (stores_mono Hp1 Hq S1 Sz); auto|]. apply (stores_mono Hq Hp2 Sz S2). destruct (Q2 z Bz Lz); auto. }
  assert (R3 := MM _ O2). rewrite (@owner_desc_ok t x p1) by (auto; lia). cbn [obind]. rewrite (@owner_desc_ok t y p2) by (auto; lia). cbn [obind]. exists (p1, p2). split; [reflexivity|]. split; [cbn; lia|]. split; [cbn; lia|exact MM].
Qed.
Lemma face_bounds_ok t (e : elt (cls t)) f b : 0 <= t < K -> valid e -> s_level e <= ml -> is_face (fc t) e f -> good b (face_owner e f) ->
  exists b', owners_at_face_bounds fc dbg P ml eo to fd e f (fst b) (snd b) = Ok b' /\ good b' (face_owner e f).
Proof.
  intros Ht V L Hf (H1 & H2 & HB). unfold owners_at_face_bounds. destruct (Z.leb_spec (snd b) (fst b)) as [C|C]; [exists (fst b, snd b); split; [reflexivity|]; now split|].
  destruct (first_face Ht V L Hf) as (V1 & L1 & Q1 & M1). destruct (last_face Ht V L Hf) as (V2 & L2 & Q2 & M2).
  destruct (stores_exists D Ht V1 L1) as (p1 & Hp1 & S1). destruct (stores_exists D Ht V2 L2) as (p2 & Hp2 & S2). assert (R1 := HB _ (Q1 _ Hp1 S1)). assert (R2 := HB _ (Q2 _ Hp2 S2)).
  assert (R3 := M1 _ _ Hp1 S1 (Q2 _ Hp2 S2)). rewrite (@owner_desc_ok t _ p1) by (auto; lia). cbn [obind]. rewrite (@owner_desc_ok t _ p2) by (auto; lia). cbn [obind].
  exists (p1, p2). split; [reflexivity|]. split; [cbn; lia|]. split; [cbn; lia|]. intros q Hq. cbn [fst snd]. eauto.
Qed.
Lemma neigh_face_bounds_ok t (e : elt (cls t)) f b : 0 <= t < K -> valid e -> s_level e <= ml -> is_face (fc t) e f -> good b (nface_owner e f) ->
  exists b', owners_at_neigh_face_bounds fc nb dbg P ml eo to fd e f (fst b) (snd b) = Ok b' /\ good b' (nface_owner e f).
Proof.
  intros Ht V L Hf G. unfold owners_at_neigh_face_bounds. destruct (nb (el t e) f) as [[[t' e'] f']|] eqn:N.
  - destruct (mo_neighbor HM Ht V L Hf N) as (Ht' & V' & L' & Hf' & _).
    assert (EQ : forall q, nface_owner e f q <-> face_owner e' f' q).
    { intros q. split; [|intros H; exists t', e', f'; auto]. intros (t1 & e1 & f1 & N1 & H). rewrite N in N1. assert (t' = t1) by congruence. subst t1. injection N1 as E1 <-. apply el_inj in E1. now subst. }
    destruct (Z.leb_spec (snd b) (fst b)) as [C|C]; [exists (fst b, snd b); split; [reflexivity|]; destruct b; exact G|].
    destruct (@face_bounds_ok t' e' f' b Ht' V' ltac:(lia) Hf') as (b' & E & G'); [eapply good_sub; [|exact G]; intros; now apply EQ|].
    exists b'. split; [exact E|]. eapply good_sub; [|exact G']. intros; now apply EQ.
  - exists (1, 0). split; [reflexivity|]. assert (HP := HP1 D). split; [cbn; lia|]. split; [cbn; lia|]. intros q (t1 & e1 & f1 & N1 & _). congruence.
Qed.

(** ** from an element to its parts *)
Lemma elem_owner_up t (e x : elt (cls t)) q : 0 <= t < K -> below e x -> elem_owner x q -> elem_owner e q.
Proof. intros Ht B (Hq & y & By & Ly & Sy). destruct (class_ok HM Ht) as (LW & _). split; [exact Hq|]. exists y. split; [exact (below_trans LW B By)|auto]. Qed.
Lemma nface_child t (e : elt (cls t)) i g q : 0 <= t < K -> valid e -> s_level e < ml -> 0 <= i < s_num_children e -> is_face (fc t) (s_child e i) g -> nface_owner (s_child e i) g q ->
  if 0 <=? f_parent_face (fc t) (s_child e i) g then is_face (fc t) e (f_parent_face (fc t) (s_child e i) g) /\ nface_owner e (f_parent_face (fc t) (s_child e i) g) q else elem_owner e q.
Proof.
  intros Ht V L Hi Hg (t' & c' & g' & N & FO). destruct (class_ok HM Ht) as (LW & FL & ML). destruct (valid_child LW V (i := i) ltac:(lia) Hi) as (Vc & Lc & _).
  destruct (fl_parent_face FL V (i := i) ltac:(lia) Hi Hg) as [[C|C] Q].
  - rewrite C. cbn. destruct (mo_inner HM Ht V L Hi Hg C) as (j & h & Hj & Nj). rewrite N in Nj. assert (t' = t) by congruence. subst t'. injection Nj as E1 ->. apply el_inj in E1. subst c'.
    destruct (mo_neighbor HM Ht Vc ltac:(lia) Hg N) as (_ & Vd & Ld & Hh & _). apply (elem_owner_up Ht (below_child LW V (i := j) ltac:(lia) Hj)). apply (@face_owner_elem t _ h); auto; lia.
  - rewrite (proj2 (Z.leb_le 0 _) (proj1 C)). set (pf := f_parent_face (fc t) (s_child e i) g) in *. split; [exact C|]. assert (Ic : In (s_child e i, g) (face_children (fc t) e pf)) by (now apply Q).
    destruct (nb (el t e) pf) as [[[t1 e1] f1]|] eqn:N1.
    + destruct (mo_refine HM Ht V L C N1 Ic) as (c1 & g1 & I1 & Nc). rewrite N in Nc. assert (t' = t1) by congruence. subst t1. injection Nc as E1 <-. apply el_inj in E1. subst c1.
      destruct (mo_neighbor HM Ht V ltac:(lia) C N1) as (Ht' & V1 & L1 & Hf1 & _). exists t', e1, f1. split; [exact N1|]. apply (face_owner_step q Ht' V1 ltac:(lia) Hf1). eauto.
    + rewrite (mo_boundary HM Ht V L C N1 Ic) in N. discriminate.
Qed.
Lemma nface_up t (e x : elt (cls t)) g q : 0 <= t < K -> below e x -> s_level x <= ml -> is_face (fc t) x g -> nface_owner x g q ->
  (exists f, is_face (fc t) e f /\ nface_owner e f q) \/ elem_owner e q.
Proof.
  intros Ht B L Hg (t' & x' & g' & N & FO). destruct (class_ok HM Ht) as (LW & FL & ML). destruct (below_valid B) as [V Vx]. assert (LE := proj1 (below_level LW B)).
  destruct (nb_cases HM Ht B L Hg) as [(f & Hf & I)|(y & h & N1 & B1)].
  - left. exists f. split; [exact Hf|]. destruct (nb (el t e) f) as [[[t1 e1] f1]|] eqn:N1.
    + destruct (nb_descend HM (n := Z.to_nat (s_level x - s_level e)) Ht V ltac:(lia) Hf N1 I) as (y & h & Iy & Ny). rewrite N in Ny. assert (t' = t1) by congruence. subst t1. injection Ny as E1 <-. apply el_inj in E1. subst y.
      exists t', e1, f1. split; [exact N1|]. destruct (mo_neighbor HM Ht V ltac:(lia) Hf N1) as (Ht' & V1 & L1 & Hf1 & _). destruct (mo_neighbor HM Ht Vx ltac:(lia) Hg N) as (_ & Vx' & Lx' & _).
      destruct FO as (Hq & z & k & Iz & Sz). split; [exact Hq|]. exists z, k. split; [|exact Sz].
      replace (Z.to_nat (ml - s_level e1)) with (Z.to_nat (s_level x - s_level e) + Z.to_nat (ml - s_level x'))%nat by lia. rewrite face_descend_add. apply in_flat_map. exists (x', g'). auto.
    + rewrite (nb_descend_none HM (n := Z.to_nat (s_level x - s_level e)) Ht V ltac:(lia) Hf N1 I) in N. discriminate.
  - right. rewrite N in N1. assert (t' = t) by congruence. subst t'. injection N1 as E1 ->. apply el_inj in E1. subst x'. destruct (mo_neighbor HM Ht Vx L Hg N) as (_ & Vy & Ly & Hh & _).
    apply (elem_owner_up Ht B1). apply (@face_owner_elem t _ h); auto; lia.
Qed.

(** ** leaves of different processes that share a part of a face *)
Definition touches (l : leaf) (q : Z) : Prop := exists m, In m (loc q) /\ adjacent fc nb ml l m.
Lemma touches_iff t (e : elt (cls t)) p q : 0 <= p < P -> 0 <= q < P -> q <> p -> In (el t e) (loc p) -> (touches (el t e) q <-> exists f, is_face (fc t) e f /\ nface_owner e f q).
Proof.
  intros Hp Hq N I. destruct (leaf_ok (in_loc_all Hp I)) as (Ht & _ & V & L).
  assert (DJ : forall m, In m (loc q) -> (forall x, in_leaf (el t e) x -> in_leaf m x -> False) /\ forall u (x d : elt (cls u)), in_leaf m (el u x) -> below x d -> in_leaf m (el u d)).
  { intros m Im. split.
    - intros x Hx Hm. destruct (loc_disjoint Hp Hq I Im) as [G|G]; [congruence| |]; [apply (gbefore_disjoint (in_loc_all Hp I) G Hx Hm)|apply (gbefore_disjoint (in_loc_all Hq Im) G Hm Hx)].
    - intros u x d Hx Bd. destruct m as [s a]. destruct (in_leaf_iff Hx) as (-> & B). cbn [eq_rect] in B. destruct (leaf_ok (in_loc_all Hq Im)) as (Hu & _). destruct (class_ok HM Hu) as (LW & _). apply in_leaf_same. exact (below_trans LW B Bd). }
  unfold touches. split.
  - intros (m & Im & A). destruct (DJ m Im) as [D1 D2]. apply (adjacent_face HM (m := m) Ht V L D1 D2) in A. destruct A as (f & t' & e' & f' & y & g' & Hf & Nf & Iy & Hm). exists f. split; [exact Hf|].
    exists t', e', f'. split; [exact Nf|]. destruct (mo_neighbor HM Ht V L Hf Nf) as (_ & _ & L' & _). split; [exact Hq|]. exists y, g'. rewrite L'. split; [exact Iy|]. apply stores_leaf. eauto.
  - intros (f & Hf & t' & e' & f' & Nf & _ & y & g' & Iy & Sy). apply stores_leaf in Sy. destruct Sy as (m & Im & Hm). exists m. split; [exact Im|]. destruct (DJ m Im) as [D1 D2].
    apply (adjacent_face HM (m := m) Ht V L D1 D2). exists f, t', e', f', y, g'. destruct (mo_neighbor HM Ht V L Hf Nf) as (_ & _ & L' & _). rewrite L' in Iy. auto.
Qed.
End forest.

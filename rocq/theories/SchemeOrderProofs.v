(** Elements as intervals of cells: descendants are nested, all others disjoint. *)
From Verif Require Import Prelude PathSpec SchemeModel SchemeSpec SchemeProofs.
From Coq Require Import Sorting.Sorted.

Lemma sorted_app (R : Z -> Z -> Prop) a b : StronglySorted R (a ++ b) <-> StronglySorted R a /\ StronglySorted R b /\ forall x y, In x a -> In y b -> R x y.
Proof.
  induction a as [|x a IH]; cbn [app].
  - split; [intros H; repeat split; auto; [constructor|intros ? ? []]|tauto].
  - split.
    + intros H. inversion H as [|? ? H1 H2]; subst. apply IH in H1. destruct H1 as (Ha & Hb & Hab). rewrite Forall_app in H2. destruct H2 as [F1 F2].
      repeat split; auto; [constructor; auto|]. intros u v [<-|Hu] Hv; [rewrite Forall_forall in F2; auto|auto].
    + intros (Ha & Hb & Hab). inversion Ha as [|? ? H1 H2]; subst. constructor.
      * apply IH. repeat split; auto. intros u v Hu Hv. apply Hab; auto. now right.
      * apply Forall_app. split; auto. apply Forall_forall. intros v Hv. apply Hab; auto. now left.
Qed.
Lemma sorted_app_gen {A} (R : A -> A -> Prop) a b :
  StronglySorted R (a ++ b) <-> StronglySorted R a /\ StronglySorted R b /\ Forall (fun x => Forall (R x) b) a.
Proof.
  induction a as [|x a IH]; cbn [app].
  - split; [intros H; repeat split; auto; constructor|tauto].
  - split.
    + intros H. inversion H as [|? ? H1 H2]; subst. apply IH in H1. destruct H1 as (Ha & Hb & Hab). rewrite Forall_app in H2. destruct H2 as [F1 F2].
      repeat split; auto; constructor; auto.
    + intros (Ha & Hb & Hab). inversion Ha as [|? ? H1 H2]; subst. inversion Hab; subst. constructor.
      * apply IH. auto.
      * apply Forall_app. split; auto.
Qed.
Lemma sorted_zseq lo n : StronglySorted Z.lt (zseq lo n).
Proof.
  revert lo. induction n as [|n IH]; intros lo; [constructor|]. cbn [zseq]. constructor; auto. apply Forall_forall. intros x Hx. apply in_zseq in Hx. lia.
Qed.
Lemma sorted_nth (l : list Z) : StronglySorted Z.lt l <-> forall i j d, (i < j < length l)%nat -> nth i l d < nth j l d.
Proof.
  split.
  - intros H. induction H as [|x l H IH F]; intros i j d Hij; cbn [length] in Hij; [lia|]. destruct j as [|j]; [lia|]. destruct i as [|i]; cbn [nth].
    + rewrite Forall_forall in F. apply F. apply nth_In. lia.
    + apply IH. lia.
  - induction l as [|x l IH]; intros H; [constructor|]. constructor.
    + apply IH. intros i j d Hij. apply (H (S i) (S j) d). cbn [length]. lia.
    + apply Forall_forall. intros y Hy. apply (In_nth _ _ 0) in Hy. destruct Hy as (k & Hk & <-). apply (H 0%nat (S k) 0). cbn [length]. lia.
Qed.

Section order.
Variable S : scheme.
Hypothesis LW : laws S.
Notation elt := (elt S).
Notation M := (s_maxlevel S).
Notation walk := (gwalk S).
Notation path := (gpath S).
Implicit Types e f g : elt.
Implicit Types l a m b fam : list elt.

Definition lo (e : elt) : Z := cell_id e.
Definition hi (e : elt) : Z := cell_id e + Z.of_nat (length (cells e)).
Definition before (e f : elt) : Prop := hi e <= lo f.

Lemma lo_hi e : valid e -> lo e < hi e.
Proof. intros V. unfold lo, hi. pose proof (cells_nonempty LW V). lia. Qed.
Lemma lo_nonneg e : valid e -> 0 <= lo e.
Proof.
  intros (p & Hp & ->). unfold lo, cell_id. destruct (@descend_infix S p (Z.to_nat (M - zlen p)) Hp) as (u & v & E).
  { pose proof (gpath_len LW Hp). lia. }
  pose proof (gpath_len LW Hp). pose proof (zlen_ge0 p).
  assert (EL := @law_linear_id S LW M ltac:(pose proof (law_max LW); lia)).
  assert (EM : (length p + Z.to_nat (M - zlen p))%nat = Z.to_nat M) by (unfold zlen in *; lia). rewrite EM in E.
  assert (I := @cells_hd S LW _ (valid_walk Hp)). destruct I as (r & I). unfold cells, cell_id in I. rewrite (law_level LW Hp) in I.
  rewrite E, !map_app, I in EL.
  assert (In (s_linear_id (walk p) M) (zseq 0 (length (u ++ descend (Z.to_nat (M - zlen p)) (walk p) ++ v)))) as IN.
  { rewrite <- EL. apply in_app_iff. right. now left. }
  apply in_zseq in IN. lia.
Qed.
Lemma cells_in e c : valid e -> In c (map (@cell_id S) (cells e)) <-> lo e <= c < hi e.
Proof. intros V. rewrite (cells_ids LW V), in_zseq. reflexivity. Qed.

Lemma children_contig e : valid e -> s_level e < M -> contiguous (s_children e).
Proof.
  intros V HL. split; [now apply children_valid|]. exists (cell_id e). rewrite cells_children by auto. now apply cells_ids.
Qed.
Lemma child_nested e i : valid e -> s_level e < M -> 0 <= i < s_num_children e -> lo e <= lo (s_child e i) /\ hi (s_child e i) <= hi e.
Proof.
  intros V HL Hi. destruct (valid_child LW V HL Hi) as (Vc & _).
  assert (I : forall c, In c (map (@cell_id S) (cells (s_child e i))) -> In c (map (@cell_id S) (cells e))).
  { intros c Hc. rewrite in_map_iff in *. destruct Hc as (x & Ex & Hx). exists x. split; auto. rewrite <- (cells_children LW V HL).
    unfold region. apply in_flat_map. exists (s_child e i). split; auto. apply in_children. eauto. }
  pose proof (lo_hi Vc). assert (I1 := I (lo (s_child e i))). assert (I2 := I (hi (s_child e i) - 1)). 
  rewrite (cells_in _ Vc), (cells_in _ V) in I1. rewrite (cells_in _ Vc), (cells_in _ V) in I2. lia.
Qed.
Lemma walk_nested p r : path (p ++ r) -> lo (walk p) <= lo (walk (p ++ r)) /\ hi (walk (p ++ r)) <= hi (walk p).
Proof.
  induction r as [|i r IH] using rev_ind; intros H; [rewrite app_nil_r in *; lia|]. rewrite app_assoc in *.
  apply gpath_snoc_inv in H. destruct H as (H & HL & Hi). specialize (IH H). rewrite gwalk_snoc.
  assert (V := valid_walk H). destruct (@child_nested (walk (p ++ r)) i V); [rewrite (law_level LW H); auto|auto|lia].
Qed.
Lemma ordered_iff l : ordered l <-> Forall valid l /\ StronglySorted before l.
Proof.
  assert (E : forall l, (forall i j d, (i < j < length (region l))%nat -> cell_id (nth i (region l) d) < cell_id (nth j (region l) d)) <->
    StronglySorted Z.lt (map (@cell_id S) (region l))).
  { intros m. rewrite sorted_nth, map_length. split; intros H i j d Hij.
    - rewrite !(nth_indep _ d (cell_id (s_root S))) by (rewrite map_length; lia). rewrite !map_nth. auto.
    - specialize (H i j (cell_id d) Hij). now rewrite !map_nth in H. }
  unfold ordered. rewrite E. split; intros [V H]; split; auto.
  - induction l as [|e l IH]; [constructor|]. inversion V as [|? ? Ve Vl]; subst. rewrite region_cons, map_app, sorted_app in H. destruct H as (_ & H & Hx).
    constructor; [apply IH; auto|]. apply Forall_forall. intros f Hf. rewrite Forall_forall in Vl. pose proof (lo_hi (Vl f Hf)). pose proof (lo_hi Ve).
    assert (hi e - 1 < lo f); [|unfold before; lia]. apply Hx; [apply cells_in; auto; lia|].
    unfold region. rewrite in_map_iff. assert (X : In (lo f) (map (@cell_id S) (cells f))) by (apply cells_in; auto; lia).
    rewrite in_map_iff in X. destruct X as (c & Ec & Hc). exists c. split; auto. apply in_flat_map. eauto.
  - induction l as [|e l IH]; [constructor|]. inversion V as [|? ? Ve Vl]; subst. inversion H as [|? ? H1 H2]; subst. rewrite region_cons, map_app, sorted_app.
    split; [rewrite (cells_ids LW Ve); apply sorted_zseq|]. split; [apply IH; auto|]. intros x y Hx Hy. rewrite cells_in in Hx by auto.
    rewrite in_map_iff in Hy. destruct Hy as (c & <- & Hc). apply in_flat_map in Hc. destruct Hc as (f & Hf & Hc). rewrite Forall_forall in H2, Vl.
    specialize (H2 f Hf). unfold before in H2. assert (X : In (cell_id c) (map (@cell_id S) (cells f))) by (now apply in_map). apply cells_in in X; auto. lia.
Qed.
Lemma sibling_before e i j : valid e -> s_level e < M -> 0 <= i < j -> j < s_num_children e -> before (s_child e i) (s_child e j).
Proof.
  intros V HL Hi Hj. assert (C := contiguous_ordered (children_contig V HL)). apply ordered_iff in C. destruct C as [_ C].
  unfold s_children in C. replace (Z.to_nat (s_num_children e)) with (Z.to_nat i + (1 + (Z.to_nat (j - i - 1) + (1 + Z.to_nat (s_num_children e - j - 1)))))%nat in C by lia.
  rewrite zseq_app, map_app, sorted_app_gen in C. destruct C as (_ & C & _). rewrite zseq_app, map_app in C. cbn [zseq map app] in C.
  inversion C as [|? ? _ F]; subst. rewrite Forall_forall in F. rewrite Z2Nat.id in F by lia. apply F.
  apply in_map, in_zseq. lia.
Qed.
Lemma diverge_before c i j p q : path (c ++ i :: p) -> path (c ++ j :: q) -> i < j -> before (walk (c ++ i :: p)) (walk (c ++ j :: q)).
Proof.
  intros Hp Hq Hij. replace (c ++ i :: p) with ((c ++ [i]) ++ p) in * by (now rewrite <- app_assoc).
  replace (c ++ j :: q) with ((c ++ [j]) ++ q) in * by (now rewrite <- app_assoc).
  destruct (walk_nested Hp) as [_ H1]. destruct (walk_nested Hq) as [H2 _]. apply gpath_app in Hp, Hq.
  apply gpath_snoc_inv in Hp, Hq. destruct Hp as (Hc & HL & Hi), Hq as (_ & _ & Hj). rewrite !gwalk_snoc in *.
  assert (B : before (s_child (walk c) i) (s_child (walk c) j)); [|unfold before in *; lia].
  apply sibling_before; [now apply valid_walk|rewrite (law_level LW Hc); auto|lia|lia].
Qed.
Lemma paths_cases (p q : list Z) : prefix p q \/ prefix q p \/ exists c i j p' q', p = c ++ i :: p' /\ q = c ++ j :: q' /\ i <> j.
Proof.
  revert q. induction p as [|i p IH]; intros q; [left; now exists q|]. destruct q as [|j q]; [right; left; now exists (i :: p)|].
  destruct (Z.eq_dec i j) as [->|N].
  - destruct (IH q) as [(r & ->)|[(r & ->)|(c & a & b & p' & q' & -> & -> & N)]].
    + left. now exists r.
    + right; left. now exists r.
    + right; right. now exists (j :: c), a, b, p', q'.
  - right; right. now exists [], i, j, p, q.
Qed.

(** f is e or one of its descendants *)
Lemma below_nested e f : below e f -> lo e <= lo f /\ hi f <= hi e.
Proof. intros (p & r & H & -> & ->). now apply walk_nested. Qed.
Lemma below_valid e f : below e f -> valid e /\ valid f.
Proof. intros (p & r & H & -> & ->). split; apply valid_walk; auto. now apply gpath_app in H. Qed.
Lemma laminar e f : valid e -> valid f -> below e f \/ below f e \/ before e f \/ before f e.
Proof.
  intros (p & Hp & ->) (q & Hq & ->). destruct (paths_cases p q) as [(r & ->)|[(r & ->)|(c & i & j & p' & q' & -> & -> & N)]].
  - left. now exists p, r.
  - right; left. now exists q, r.
  - right; right. destruct (Z.lt_trichotomy i j) as [H|[H|H]]; [left|lia|right]; now apply diverge_before.
Qed.
Lemma below_refl e : valid e -> below e e.
Proof. intros (p & Hp & ->). exists p, []. rewrite app_nil_r. auto. Qed.
Lemma below_trans e f g : below e f -> below f g -> below e g.
Proof.
  intros (p & r & H & -> & ->) (q & s & H' & E & ->). apply gwalk_inj in E; auto; [|now apply gpath_app in H']. subst q.
  exists p, (r ++ s). rewrite app_assoc. auto.
Qed.
Lemma below_child e i : valid e -> s_level e < M -> 0 <= i < s_num_children e -> below e (s_child e i).
Proof.
  intros (p & Hp & ->) HL Hi. exists p, [i]. rewrite gwalk_snoc. split; auto. constructor; auto. now rewrite (law_level LW Hp) in HL.
Qed.
Lemma below_parent e : valid e -> 0 < s_level e -> below (s_parent e) e.
Proof.
  intros V HL. destruct (valid_parent LW V HL) as (Vp & El & Hi & Ec & _). rewrite <- Ec at 2. pose proof (valid_level LW V). apply below_child; auto. lia.
Qed.
Lemma below_level e f : below e f -> s_level e <= s_level f /\ (s_level e = s_level f -> e = f).
Proof.
  intros (p & r & H & -> & ->). assert (Hp := gpath_app H). rewrite (law_level LW Hp), (law_level LW H), zlen_app. pose proof (zlen_ge0 r). split; [lia|].
  intros E. destruct r; [now rewrite app_nil_r|]. rewrite zlen_cons in E. pose proof (zlen_ge0 r). lia.
Qed.
Lemma below_not_before e f : below e f -> ~ before e f /\ ~ before f e.
Proof. intros H. destruct (below_valid H) as [Ve Vf]. pose proof (below_nested H). pose proof (lo_hi Ve). pose proof (lo_hi Vf). unfold before. lia. Qed.
Lemma below_linear e f g : below e g -> below f g -> below e f \/ below f e.
Proof.
  intros He Hf. destruct (below_valid He) as [Ve Vg]. destruct (below_valid Hf) as [Vf _]. destruct (laminar Ve Vf) as [H|[H|H]]; auto.
  pose proof (below_nested He). pose proof (below_nested Hf). pose proof (lo_hi Vg). unfold before in H. lia.
Qed.
Lemma below_parent_of e f : below e f -> e <> f -> 0 < s_level f /\ below e (s_parent f).
Proof.
  intros (p & r & H & -> & ->) N. induction r as [|i r _] using rev_ind; [now rewrite app_nil_r in N|].
  rewrite app_assoc in H |- *. rewrite (law_level LW H), (law_parent LW H), zlen_snoc. pose proof (zlen_ge0 (p ++ r)). split; [lia|].
  exists p, r. apply gpath_app in H. auto.
Qed.
Lemma is_ancestor_below e f : valid e -> valid f -> (s_is_ancestor e f = true <-> below e f).
Proof.
  intros (p & Hp & ->) (q & Hq & ->). rewrite (law_is_ancestor LW Hp Hq). split.
  - intros (r & ->). now exists p, r.
  - intros (p' & r & H & E1 & E2). apply gwalk_inj in E1; auto; [|now apply gpath_app in H]. apply gwalk_inj in E2; auto. subst. now exists r.
Qed.
Lemma nca_below e f : valid e -> valid f -> below (s_nca e f) e /\ below (s_nca e f) f /\ forall g, below g e -> below g f -> below g (s_nca e f).
Proof.
  intros (p & Hp & ->) (q & Hq & ->). rewrite (law_nca LW Hp Hq).
  assert (P1 : prefix (lcp p q) p).
  { clear. revert q. induction p as [|i p IH]; intros q; [now exists []|]. destruct q as [|j q]; [now exists (i :: p)|]. cbn [lcp].
    destruct (i =? j); [|now exists (i :: p)]. destruct (IH q) as (r & E). exists r. cbn [app]. now rewrite <- E. }
  assert (P2 : prefix (lcp p q) q).
  { clear. revert q. induction p as [|i p IH]; intros q; [now exists q|]. destruct q as [|j q]; [now exists []|]. cbn [lcp].
    destruct (Z.eqb_spec i j) as [->|]; [|now exists (j :: q)]. destruct (IH q) as (r & E). exists r. cbn [app]. now rewrite <- E. }
  assert (P3 : forall g : list Z, prefix g p -> prefix g q -> prefix g (lcp p q)).
  { clear. intros g (r & ->) (s & ->). induction g as [|i g IH]; [now exists (lcp ([] ++ r) ([] ++ s))|]. cbn [app lcp]. rewrite Z.eqb_refl.
    destruct IH as (t & E). exists t. cbn [app]. now rewrite <- E. }
  assert (PL : path (lcp p q)) by (destruct P1 as (r & E); rewrite E in Hp; now apply gpath_app in Hp).
  split; [|split].
  - destruct P1 as (r & E). exists (lcp p q), r. rewrite <- E. auto.
  - destruct P2 as (r & E). exists (lcp p q), r. rewrite <- E. auto.
  - intros g B1 B2. destruct (below_valid B1) as [(u & Hu & ->) _]. apply is_ancestor_below in B1, B2; try (now apply valid_walk).
    apply (law_is_ancestor LW) in B1, B2; auto. destruct (P3 _ B1 B2) as (r & E). exists u, r. rewrite <- E. auto.
Qed.

(** first and last child, elements between descendants, complete families *)
Lemma child_first_lo e : valid e -> s_level e < M -> lo (s_child e 0) = lo e.
Proof.
  intros V HL. pose proof (valid_nchild LW V) as N. destruct (@child_nested e 0 V HL) as [H _]; [lia|].
  destruct (children_cons LW V) as (l & El). assert (R := cells_children LW V HL). rewrite El, region_cons in R.
  assert (Vc : valid (s_child e 0)) by (apply valid_child; auto; lia).
  destruct (cells_hd LW V) as (r & E1). destruct (cells_hd LW Vc) as (r' & E2). rewrite <- R, map_app, E2 in E1. cbn [app] in E1. unfold lo. congruence.
Qed.
Lemma child_last_hi e : valid e -> s_level e < M -> hi (s_child e (s_num_children e - 1)) = hi e.
Proof.
  intros V HL. pose proof (valid_nchild LW V) as N. set (n := s_num_children e) in *. destruct (@child_nested e (n - 1) V HL) as [_ H]; [unfold n; lia|].
  pose proof (lo_hi V). assert (I : In (hi e - 1) (map (@cell_id S) (cells e))) by (apply cells_in; auto; lia).
  rewrite <- (cells_children LW V HL) in I. rewrite in_map_iff in I. destruct I as (c & Ec & I). apply in_flat_map in I. destruct I as (f & If & Ic).
  apply in_children in If. destruct If as (i & Hi & ->). assert (Vc : valid (s_child e i)) by (apply valid_child; auto).
  assert (X : In (cell_id c) (map (@cell_id S) (cells (s_child e i)))) by (now apply in_map). rewrite Ec in X. apply cells_in in X; auto.
  destruct (Z.eq_dec i (n - 1)) as [->|Ni]; [lia|]. assert (B : before (s_child e i) (s_child e (n - 1))) by (apply sibling_before; auto; unfold n in *; lia).
  unfold before in B. pose proof (@lo_hi (s_child e (n - 1)) ltac:(apply valid_child; auto; unfold n in *; lia)). lia.
Qed.
Lemma before_trans e f g : valid f -> before e f -> before f g -> before e g.
Proof. intros V. pose proof (lo_hi V). unfold before. lia. Qed.
Lemma between p e f g : valid f -> below p e -> below p g -> before e f -> before f g -> below p f.
Proof.
  intros Vf B1 B2 H1 H2. destruct (below_valid B1) as [Vp Ve]. destruct (below_valid B2) as [_ Vg].
  pose proof (below_nested B1). pose proof (below_nested B2). pose proof (lo_hi Ve). pose proof (lo_hi Vf). pose proof (lo_hi Vg). unfold before in *.
  destruct (laminar Vp Vf) as [H'|[H'|[H'|H']]]; auto; [|unfold before in H'; lia|unfold before in H'; lia].
  pose proof (below_nested H'). lia.
Qed.
(** an element that is disjoint from a descendant of p and not below p is disjoint from p *)
Lemma before_up p e f : valid e -> below p f -> before e f -> ~ below p e -> before e p.
Proof.
  intros Ve B H N. destruct (below_valid B) as [Vp Vf]. pose proof (below_nested B). pose proof (lo_hi Ve). pose proof (lo_hi Vf). unfold before in *.
  destruct (laminar Vp Ve) as [H'|[H'|[H'|H']]]; [tauto| |unfold before in H'; lia|exact H'].
  pose proof (below_nested H'). lia.
Qed.
Lemma after_up p e f : valid e -> below p f -> before f e -> ~ below p e -> before p e.
Proof.
  intros Ve B H N. destruct (below_valid B) as [Vp Vf]. pose proof (below_nested B). pose proof (lo_hi Ve). pose proof (lo_hi Vf). unfold before in *.
  destruct (laminar Vp Ve) as [H'|[H'|[H'|H']]]; [tauto| |exact H'|unfold before in H'; lia].
  pose proof (below_nested H'). lia.
Qed.
Lemma ordered_app a b : ordered (a ++ b) <-> ordered a /\ ordered b /\ Forall (fun x => Forall (before x) b) a.
Proof. rewrite !ordered_iff, Forall_app, sorted_app_gen. tauto. Qed.
Lemma ordered_one e : valid e -> ordered [e].
Proof. intros V. apply ordered_iff. repeat constructor; auto. Qed.
Lemma ordered_cons e l : ordered (e :: l) <-> valid e /\ ordered l /\ Forall (before e) l.
Proof.
  change (e :: l) with ([e] ++ l). rewrite ordered_app. split.
  - intros (H1 & H2 & H3). inversion H3; subst. destruct H1 as [H1 _]. inversion H1; subst. auto.
  - intros (H1 & H2 & H3). split; [now apply ordered_one|auto].
Qed.
Lemma ordered_valid l : ordered l -> Forall valid l. Proof. intros [H _]. exact H. Qed.
(** replacing an element by an ordered list of its descendants *)
Lemma ordered_replace a e l b : ordered (a ++ e :: b) -> ordered l -> Forall (below e) l -> ordered (a ++ l ++ b).
Proof.
  rewrite !ordered_app, ordered_cons. intros (Ha & (Ve & Hb & Heb) & Hab) Hl Bl.
  rewrite Forall_forall in Hab, Heb, Bl. split; [exact Ha|split; [split; [exact Hl|split; [exact Hb|]]|]].
  - apply Forall_forall. intros x Hx. apply Forall_forall. intros y Hy. specialize (Heb y Hy). pose proof (below_nested (Bl x Hx)). unfold before in *. lia.
  - apply Forall_forall. intros x Hx. specialize (Hab x Hx). inversion Hab as [|? ? H1 H2]; subst. apply Forall_app. split; auto.
    apply Forall_forall. intros y Hy. pose proof (below_nested (Bl y Hy)). unfold before in *. lia.
Qed.
Lemma children_below e : valid e -> s_level e < M -> Forall (below e) (s_children e).
Proof. intros V HL. apply Forall_forall. intros c Hc. apply in_children in Hc. destruct Hc as (i & Hi & ->). now apply below_child. Qed.
Lemma ordered_refine a e b : ordered (a ++ e :: b) -> s_level e < M -> ordered (a ++ s_children e ++ b).
Proof.
  intros H HL. assert (V : valid e). { apply ordered_valid, Forall_app in H. destruct H as [_ H]. now inversion H. }
  eapply ordered_replace; eauto; [now apply contiguous_ordered, children_contig|now apply children_below].
Qed.
Lemma ordered_drop a m b : ordered (a ++ m ++ b) -> ordered (a ++ b).
Proof.
  rewrite !ordered_app. intros (Ha & (Hm & Hb & Hmb) & H). split; [exact Ha|split; [exact Hb|]]. eapply Forall_impl; [|exact H]. intros x Hx. now apply Forall_app in Hx.
Qed.
(** replacing the elements below p by p *)
Lemma ordered_coarsen a p fam b : ordered (a ++ fam ++ b) -> fam <> [] -> Forall (below p) fam -> Forall (fun x => ~ below p x) (a ++ b) -> ordered (a ++ p :: b).
Proof.
  intros H N B F. destruct fam as [|f fam]; [congruence|]. inversion B as [|? ? Bf _]; subst. assert (Vp : valid p) by apply (below_valid Bf).
  assert (H' := ordered_drop H). rewrite Forall_app, !Forall_forall in F. destruct F as [Fa Fb]. assert (V := ordered_valid H'). rewrite Forall_app, !Forall_forall in V.
  apply ordered_app in H'. destruct H' as (Ha & Hb & Hab). cbn [app] in H. apply ordered_app in H. destruct H as (_ & H & Haf).
  rewrite ordered_cons in H. destruct H as (_ & _ & Hfb). rewrite Forall_app, !Forall_forall in Hfb. rewrite Forall_forall in Haf.
  rewrite ordered_app, ordered_cons. split; [exact Ha|split; [split; [exact Vp|split; [exact Hb|]]|]].
  - apply Forall_forall. intros x Hx. apply (@after_up p x f); auto; [now apply (proj2 V)|now apply (proj2 Hfb)].
  - apply Forall_forall. intros x Hx. rewrite Forall_forall in Hab. constructor; [|auto]. specialize (Haf x Hx). inversion Haf; subst.
    apply (@before_up p x f); auto. now apply (proj1 V).
Qed.

Lemma sorted_full (l : list Z) (a : Z) n : StronglySorted Z.lt l -> Forall (fun x => a <= x < a + Z.of_nat n) l -> length l = n -> l = zseq a n.
Proof.
  revert a n. induction l as [|x l IH]; intros a n H F L; cbn [length] in L; subst n; [reflexivity|]. inversion H as [|? ? H1 H2]; subst. inversion F as [|? ? Fx Fl]; subst.
  assert (F' : Forall (fun y => x + 1 <= y < a + Z.of_nat (Datatypes.S (length l))) l).
  { rewrite Forall_forall in *. intros y Hy. specialize (H2 y Hy). specialize (Fl y Hy). lia. }
  assert (B : forall (m : list Z) u v, StronglySorted Z.lt m -> Forall (fun y => u <= y < v) m -> Z.of_nat (length m) <= Z.max 0 (v - u)).
  { induction m as [|y m IHm]; intros u v Hs Hf; cbn [length]; [lia|]. inversion Hs as [|? ? Hs1 Hs2]; subst. inversion Hf as [|? ? Hy Hm]; subst.
    assert (Z.of_nat (length m) <= Z.max 0 (v - (y + 1))); [|lia]. apply IHm; auto. rewrite Forall_forall in *. intros z Hz. specialize (Hs2 z Hz). specialize (Hm z Hz). lia. }
  assert (X := B l _ _ H1 F'). assert (x = a) by lia. subst x. cbn [zseq]. f_equal. apply IH; auto. eapply Forall_impl; [|exact F']. cbn. intros; lia.
Qed.
Lemma full_family p fam : valid p -> s_level p < M -> ordered fam -> Forall (fun f => In f (s_children p)) fam -> length fam = Z.to_nat (s_num_children p) ->
  fam = s_children p.
Proof.
  intros V HL HO F L. rewrite ordered_iff in HO. destruct HO as [_ HS].
  assert (FC : forall f, In f fam -> 0 <= s_child_id f < s_num_children p /\ f = s_child p (s_child_id f)).
  { intros f Hf. rewrite Forall_forall in F. specialize (F f Hf). apply in_children in F. destruct F as (i & Hi & ->).
    destruct (valid_child LW V HL Hi) as (_ & _ & _ & -> & _). auto. }
  assert (E : map s_child_id fam = zseq 0 (Z.to_nat (s_num_children p))).
  { apply sorted_full; [| |now rewrite map_length].
    - clear L. induction HS as [|f fam HS IH HF]; [constructor|]. cbn [map]. inversion F; subst. constructor; [apply IH; auto; intros g Hg; apply FC; now right|].
      apply Forall_forall. intros i Hi. apply in_map_iff in Hi. destruct Hi as (g & <- & Hg). rewrite Forall_forall in HF. specialize (HF g Hg).
      destruct (FC f (or_introl eq_refl)) as [R1 E1]. destruct (FC g (or_intror Hg)) as [R2 E2].
      destruct (Z.lt_trichotomy (s_child_id f) (s_child_id g)) as [H'|[H'|H']]; auto; exfalso.
      + rewrite E1, E2, H' in HF. destruct (valid_child LW V HL R2) as (Vg & _). pose proof (lo_hi Vg). unfold before in HF. lia.
      + assert (B := @sibling_before p (s_child_id g) (s_child_id f) V HL ltac:(lia) ltac:(lia)). rewrite <- E1, <- E2 in B.
        destruct (valid_child LW V HL R2) as (Vg & _). destruct (valid_child LW V HL R1) as (Vf & _). rewrite <- E1 in Vf. rewrite <- E2 in Vg.
        pose proof (lo_hi Vf). pose proof (lo_hi Vg). unfold before in *. lia.
    - apply Forall_forall. intros i Hi. apply in_map_iff in Hi. destruct Hi as (f & <- & Hf). destruct (FC f Hf). lia. }
  unfold s_children. rewrite <- E, map_map. rewrite <- (map_id fam) at 1. apply map_ext_in. intros f Hf. apply FC; auto.
Qed.
End order.
Arguments lo {S} e.
Arguments hi {S} e.
Arguments before {S} e f.

(** Two classes of elements whose functions agree on the elements of the tree satisfy the same laws. *)
From Coq Require Import Sorting.Sorted.
From Verif Require Import Prelude PathSpec SchemeModel SchemeSpec SchemeProofs SchemeUniformProofs FaceModel FaceSpec NeighborModel NeighborProofs EclassModel.

Section transfer.
Variable S : scheme.
Variable N : Z.
Hypothesis U : ulaws S N.
Notation M := (s_maxlevel S).
(** the functions that are replaced: child, number of siblings, child id, ancestry, the number of leaves and the ids of the ancestors *)
Variable ch : elt S -> Z -> elt S.
Variables ns cid : elt S -> Z.
Variable anc : elt S -> elt S -> bool.
Variable cnt : Z -> Z.
Variable aid : elt S -> Z -> Z.
Definition replaced : scheme := @Scheme (elt S) (s_root S) (@s_level S) (s_maxlevel S) (s_max_children S) (@s_num_children S) ns ch (@s_parent S) cid (@s_is_family S) (@s_equal S)
  (@s_compare S) (@s_nca S) anc (@s_linear_id S) (s_set_linear_id S) (@s_successor S) (@s_first_desc S) (@s_last_desc S) cnt aid.
Notation S' := replaced.
Hypothesis Hch : forall e i, valid (S := S) e -> s_level e < M -> 0 <= i < N -> ch e i = s_child e i.
Hypothesis Hns : forall e, ns e = N.
Hypothesis Hcid : forall e, valid (S := S) e -> 0 < s_level e -> cid e = s_child_id e.
Hypothesis Hanc : forall a b, valid (S := S) a -> valid (S := S) b -> (anc a b = true <-> s_is_ancestor a b = true).
Hypothesis Hcnt : forall L, 0 <= L <= M -> cnt L = s_count_root S L.
Hypothesis Haid : forall e L, valid (S := S) e -> 1 <= L <= s_level e -> aid e L = s_ancestor_id e L.
Hypothesis Hfam : forall (l : list (elt S)) e, hd_error l = Some e -> s_is_family l = true -> 0 < s_level e.

Lemma rp_path p : gpath S p -> gpath S' p /\ gwalk S' p = gwalk S p.
Proof.
  intros H. induction H as [|p i H [IH1 IH2] HL Hi]; [split; [constructor|reflexivity]|]. rewrite (u_num_children U) in Hi.
  split; [constructor; [exact IH1|exact HL|]; change (0 <= i < s_num_children (s := S) (gwalk S' p)); now rewrite (u_num_children U)|].
  unfold gwalk in *. rewrite !fold_left_app. cbn [fold_left]. rewrite IH2. apply Hch; [now exists p| |exact Hi]. fold (gwalk S p). now rewrite (u_level U H).
Qed.
Lemma rp_path_inv p : gpath S' p -> gpath S p.
Proof.
  intros H. induction H as [|p i H IH HL Hi]; [constructor|]. constructor; [exact IH|exact HL|]. destruct (rp_path IH) as [_ E]. change (0 <= i < s_num_children (s := S) (gwalk S' p)) in Hi. now rewrite E in Hi.
Qed.
Lemma rp_walk p : gpath S' p -> gwalk S' p = gwalk S p. Proof. intros H. apply rp_path. now apply rp_path_inv. Qed.
Lemma rp_valid (e : elt S) : valid (S := S') e <-> valid (S := S) e.
Proof.
  split; intros (p & Hp & E).
  - exists p. split; [now apply rp_path_inv|]. now rewrite E, rp_walk.
  - destruct (rp_path Hp) as [H1 H2]. exists p. split; [exact H1|]. now rewrite H2.
Qed.
Lemma rp_children (e : elt S) : valid (S := S) e -> s_level e < M -> s_children (S := S') e = s_children (S := S) e.
Proof.
  intros V HL. unfold s_children. change (s_num_children (s := S') e) with (s_num_children (s := S) e). apply map_ext_in. intros i Hi. apply in_zseq in Hi.
  change (ch e i = s_child e i). apply Hch; auto. rewrite (u_num_children U) in Hi. pose proof (u_N U). lia.
Qed.
Theorem rp_ulaws : ulaws S' N.
Proof.
  pose proof (u_N U) as NP. pose proof (u_max U) as MP.
  assert (W : forall p, gpath S' p -> gpath S p /\ gwalk S' p = gwalk S p) by (intros p H; split; [now apply rp_path_inv|now apply rp_walk]).
  assert (PU : forall p, gpath S' p <-> valid_path N p /\ zlen p <= M) by (intros p; rewrite <- (u_gpath U); split; [apply rp_path_inv|apply rp_path]).
  constructor.
  - exact NP.
  - exact MP.
  - exact (u_max_children U).
  - exact (u_num_children U).
  - intros e _. apply Hns.
  - change (1 <= ns (s_root S)). rewrite Hns. exact NP.
  - intros p H. destruct (W p H) as [H1 H2]. rewrite H2. exact (u_level U H1).
  - intros p i H. destruct (W _ H) as [H1 H2]. rewrite H2. change (s_parent (s := S) (gwalk S (p ++ [i])) = gwalk S' p). rewrite (u_parent U H1). symmetry. apply rp_path. eapply gpath_app. exact H1.
  - intros p i H. destruct (W _ H) as [H1 H2]. rewrite H2. change (cid (gwalk S (p ++ [i])) = i). rewrite Hcid; [exact (u_child_id U H1)|now exists (p ++ [i])|]. rewrite (u_level U H1), zlen_snoc. pose proof (zlen_ge0 p). lia.
  - intros p q Hp Hq. destruct (W _ Hp) as [P1 P2]. destruct (W _ Hq) as [Q1 Q2]. rewrite P2, Q2. exact (u_equal U P1 Q1).
  - intros p q Hp Hq. destruct (W _ Hp) as [P1 P2]. destruct (W _ Hq) as [Q1 Q2]. rewrite P2, Q2. exact (u_compare U P1 Q1).
  - intros p q Hp Hq. destruct (W _ Hp) as [P1 P2]. destruct (W _ Hq) as [Q1 Q2]. rewrite P2, Q2. change (s_nca (s := S) (gwalk S p) (gwalk S q) = gwalk S' (lcp p q)). rewrite (u_nca U P1 Q1). symmetry. apply rp_path.
    destruct (lcp_prefix_l p q) as (r & E). rewrite E in P1. eapply gpath_app. exact P1.
  - intros p q Hp Hq. destruct (W _ Hp) as [P1 P2]. destruct (W _ Hq) as [Q1 Q2]. rewrite P2, Q2. change (anc (gwalk S p) (gwalk S q) = true <-> prefix p q). rewrite (Hanc (ex_intro _ p (conj P1 eq_refl)) (ex_intro _ q (conj Q1 eq_refl))). exact (u_is_ancestor U P1 Q1).
  - intros p L Hp HL. destruct (W _ Hp) as [P1 P2]. rewrite P2. change (s_first_desc (s := S) (gwalk S p) L = gwalk S' (p ++ repeat 0 (Z.to_nat (L - zlen p)))). rewrite (u_first_desc U P1 HL). symmetry. apply rp_path.
    apply (u_gpath U). apply (u_gpath U) in P1. destruct P1 as [P1 P3]. split; [apply valid_app; split; [exact P1|apply Forall_forall; intros x Hx; apply repeat_spec in Hx; lia]|]. change (M) with (s_maxlevel S') in *. unfold zlen in *. rewrite app_length, repeat_length. lia.
  - intros p L Hp HL. destruct (W _ Hp) as [P1 P2]. rewrite P2. change (s_last_desc (s := S) (gwalk S p) L = gwalk S' (p ++ repeat (N - 1) (Z.to_nat (L - zlen p)))). rewrite (u_last_desc U P1 HL). symmetry. apply rp_path.
    apply (u_gpath U). apply (u_gpath U) in P1. destruct P1 as [P1 P3]. split; [apply valid_app; split; [exact P1|apply Forall_forall; intros x Hx; apply repeat_spec in Hx; lia]|]. change (M) with (s_maxlevel S') in *. unfold zlen in *. rewrite app_length, repeat_length. lia.
  - intros p L Hp HL. destruct (W _ Hp) as [P1 P2]. rewrite P2. exact (u_linear_id_coarse U P1 HL).
  - intros p L Hp HL. destruct (W _ Hp) as [P1 P2]. rewrite P2. exact (u_linear_id_fine U P1 HL).
  - intros p Hp. destruct (W _ Hp) as [P1 P2]. rewrite P2. exact (u_set_linear_id U P1).
  - intros p q Hp Hq HL HN. destruct (W _ Hp) as [P1 P2]. destruct (W _ Hq) as [Q1 Q2]. rewrite P2, Q2. exact (u_successor U P1 Q1 HL HN).
  - intros p Hp HL. destruct (W _ Hp) as [P1 P2]. rewrite P2. rewrite rp_children; [exact (u_family U P1 HL)|now exists p|]. rewrite (u_level U P1). exact HL.
  - intros l e HV HE HL HF. assert (L0 := Hfam HE HF). apply (u_family_levels U) with (l := l); [|exact HE| |exact HF].
    + eapply Forall_impl; [|exact HV]. cbv beta. intros a. apply rp_valid.
    + change (length l = Z.to_nat (ns e)) in HL. rewrite (u_num_siblings U) by exact L0. now rewrite Hns in HL.
  - intros L id HL Hid Hb l HF. assert (EL : l = map (fun k => gwalk S (digits N (Z.to_nat L) (id + k))) (zseq 0 (Z.to_nat N))).
    { apply map_ext. intros k. apply rp_path. apply (u_gpath U). split; [apply digits_valid; lia|]. unfold zlen. rewrite digits_length. change (s_maxlevel S') with M in HL. lia. }
    change (s_is_family (s := S) l = true) in HF. rewrite EL in HF. destruct (u_family_consecutive U HL Hid Hb HF) as (p & Hp & HM & E). destruct (rp_path Hp) as [H1 H2].
    exists p. split; [exact H1|]. split; [exact HM|]. rewrite H2, EL, E. symmetry. apply rp_children; [now exists p|]. rewrite (u_level U Hp). change (s_maxlevel S') with M in HL. lia.
  - intros L HL. change (cnt L = i64 (N ^ L)). rewrite Hcnt by exact HL. exact (u_count_root U HL).
  - intros p L Hp HL. destruct (W _ Hp) as [P1 P2]. rewrite P2. change (aid (gwalk S p) L = nth (Z.to_nat (L - 1)) p 0). rewrite Haid; [exact (u_ancestor_id U P1 HL)|now exists p|now rewrite (u_level U P1)].
Qed.
Lemma rp_laws : laws S'. Proof. exact (ulaws_laws rp_ulaws). Qed.
Lemma rp_below (e f : elt S) : below (S := S') e f <-> below (S := S) e f.
Proof.
  split; intros (p & r & H & E1 & E2); exists p, r.
  - assert (H1 := rp_path_inv H). assert (H2 := gpath_app H1). rewrite E1, E2. split; [exact H1|]. split; apply rp_path; assumption.
  - assert (H2 := gpath_app H). rewrite E1, E2. split; [now apply rp_path|]. split; symmetry; apply rp_path; assumption.
Qed.

(** ** faces *)
Variable F : faces S.
Variable F' : faces S'.
Hypothesis FL : flaws F.
Hypothesis Hnum : forall e, f_num F' e = f_num F e.
Hypothesis Hmax : forall e, f_max F' e = f_max F e.
Hypothesis Hids : forall e f, valid (S := S) e -> s_level e < M -> is_face F e f -> f_child_ids F' e f = f_child_ids F e f.
Hypothesis Hcf : forall e f k, valid (S := S) e -> s_level e < M -> is_face F e f -> f_child_face F' e f k = f_child_face F e f k.
Hypothesis Hpf : forall e f, valid (S := S) e -> is_face F e f -> 0 < s_level e -> f_parent_face F' e f = f_parent_face F e f.
Hypothesis Hpf0 : forall f, is_face F (s_root S) f -> -1 <= f_parent_face F' (s_root S) f <= f_max F (s_root S).
Hypothesis Hfst : forall e f L, valid (S := S) e -> s_level e <= L <= M -> is_face F e f -> f_first F' e f L = f_first F e f L.
Hypothesis Hlst : forall e f L, valid (S := S) e -> s_level e <= L <= M -> is_face F e f -> f_last F' e f L = f_last F e f L.
Notation LW := (ulaws_laws U).
Lemma rp_face (e : elt S) f : is_face F' e f <-> is_face F e f. Proof. unfold is_face. now rewrite Hnum. Qed.
Lemma rp_face_children (e : elt S) f : valid (S := S) e -> s_level e < M -> is_face F e f -> face_children F' e f = face_children F e f.
Proof.
  intros V HL Hf. unfold face_children, f_children. rewrite (Hids V HL Hf). assert (E : map (@s_child S' e) (f_child_ids F e f) = map (s_child e) (f_child_ids F e f)).
  { apply map_ext_in. intros i Hi. destruct (fl_ids FL V HL Hf) as (_ & _ & R). rewrite Forall_forall in R. specialize (R i Hi). change (ch e i = s_child e i). apply Hch; auto. now rewrite (u_num_children U) in R. }
  rewrite E. apply map_ext. intros k. now rewrite (Hcf (Z.of_nat k) V HL Hf).
Qed.
Lemma face_child_valid (e : elt S) f c g : valid (S := S) e -> s_level e < M -> is_face F e f -> In (c, g) (face_children F e f) -> valid (S := S) c /\ s_level c = s_level e + 1 /\ is_face F c g.
Proof.
  intros V HL Hf I. assert (G := fl_child_face FL V HL Hf I). unfold face_children in I. apply in_map_iff in I. destruct I as (k & E & Ik). apply in_seq in Ik. injection E as <- _.
  assert (Q : In (nth k (f_children F e f) e) (f_children F e f)) by (apply nth_In; lia). unfold f_children in Q at 2. apply in_map_iff in Q. destruct Q as (i & EQ & Hi). rewrite <- EQ in *.
  destruct (fl_ids FL V HL Hf) as (_ & _ & R). rewrite Forall_forall in R. destruct (valid_child LW V HL (R i Hi)) as (V1 & V2 & _). split; [exact V1|]. split; [exact V2|exact G].
Qed.
Lemma rp_face_descend n (e : elt S) f : valid (S := S) e -> s_level e + Z.of_nat n <= M -> is_face F e f -> face_descend F' n e f = face_descend F n e f.
Proof.
  revert e f. induction n as [|n IH]; intros e f V HL Hf; [reflexivity|]. cbn [face_descend]. rewrite rp_face_children by (auto; lia). apply flat_map_ext_in. intros [c g] I.
  destruct (face_child_valid V ltac:(lia) Hf I) as (V1 & V2 & V3). cbn [fst snd]. apply IH; auto. lia.
Qed.
Theorem rp_flaws : flaws F'.
Proof.
  constructor.
  - intros a e B. apply rp_below in B. rewrite Hnum, Hmax. exact (fl_max FL B).
  - intros e f V HL Hf. apply rp_valid in V. apply rp_face in Hf. rewrite Hids by assumption. exact (fl_ids FL V HL Hf).
  - intros e f c g V HL Hf I. apply rp_valid in V. apply rp_face in Hf. rewrite rp_face_children in I by assumption. apply rp_face. exact (fl_child_face FL V HL Hf I).
  - intros e i g V HL Hi Hg. apply rp_valid in V. change (0 <= i < s_num_children (s := S) e) in Hi. change (s_level (s := S) e < M) in HL. assert (Hi' := Hi). rewrite (u_num_children U) in Hi'. change (@s_child S' e i) with (ch e i) in *. rewrite (Hch V HL Hi') in *. apply rp_face in Hg.
    destruct (valid_child LW V HL Hi) as (V1 & V2 & _). destruct (valid_level LW V). rewrite Hpf by (auto; lia). destruct (fl_parent_face FL V HL Hi Hg) as [H1 H2]. split.
    + destruct H1 as [H1|H1]; [left; exact H1|right; now apply rp_face].
    + intros f Hf. apply rp_face in Hf. rewrite rp_face_children by assumption. now apply H2.
  - intros e g V Hg. apply rp_valid in V. apply rp_face in Hg. rewrite Hmax. destruct (valid_level LW V). destruct (Z.eq_dec (s_level (s := S) e) 0) as [E|E].
    + assert (ER := valid_level0 LW V E). subst e. now apply Hpf0.
    + rewrite Hpf by (auto; lia). exact (fl_up FL V Hg).
  - intros e f L V HL Hf. apply rp_valid in V. apply rp_face in Hf. change (s_level (s := S) e <= L <= M) in HL. change (s_level (s := S') e) with (s_level (s := S) e). rewrite rp_face_descend by (auto; lia). rewrite Hfst by assumption. exact (fl_first FL V HL Hf).
  - intros e f L V HL Hf. apply rp_valid in V. apply rp_face in Hf. change (s_level (s := S) e <= L <= M) in HL. change (s_level (s := S') e) with (s_level (s := S) e). rewrite rp_face_descend by (auto; lia). rewrite Hlst by assumption. exact (fl_last FL V HL Hf).
Qed.

(** ** crossing the boundary of a tree; cv gives the element of the first class of faces that a face element of the second one is *)
Variable X : crossing S.
Variable X' : crossing S'.
Variables NF NO : Z.
Variables rb rb' : elt S -> Z -> bool.
Variable bvalid : x_bd X -> Z -> Prop.
Variable bchild : x_bd X -> Z -> x_bd X.
Variable NC : Z.
Hypothesis XO : @crossing_ok S F X NF NO rb bvalid bchild NC.
Variable cv : x_bd X' -> x_bd X.
Variable bvalid' : x_bd X' -> Z -> Prop.
Variable bchild' : x_bd X' -> Z -> x_bd X'.
Hypothesis Hcv : forall b L, bvalid' b L -> bvalid (cv b) L.
Hypothesis Hcv' : forall b L, bvalid b L -> exists b', cv b' = b /\ bvalid' b' L.
Hypothesis Hinj : forall b c L, bvalid' b L -> cv b = cv c -> c = b.
Hypothesis Hbc : forall b L j, bvalid' b L -> L < M -> 0 <= j < NC -> cv (bchild' b j) = bchild (cv b) j /\ bvalid' (bchild' b j) (L + 1).
Hypothesis Hrb : forall e f, valid (S := S) e -> is_face F e f -> rb' e f = rb e f.
Hypothesis Hnb : forall e f, valid (S := S) e -> is_face F e f -> x_neighbor X' e f = x_neighbor X e f.
Hypothesis Hin : forall e, valid (S := S) e -> x_inside X' e = true.
Hypothesis Hin' : forall e f, valid (S := S) e -> is_face F e f -> x_inside X' (fst (x_neighbor X e f)) = x_inside X (fst (x_neighbor X e f)).
Hypothesis Htf : forall e f, valid (S := S) e -> is_face F e f -> x_tree_face X' e f = x_tree_face X e f.
Hypothesis Hec : x_eclass X' = x_eclass X.
Hypothesis Hbd : forall e f, valid (S := S) e -> is_face F e f -> rb e f = true -> exists b, x_boundary X' e f = Ok b /\ x_boundary X e f = Ok (cv b) /\ bvalid' b (s_level e).
Hypothesis Htr : forall b L o s m, bvalid' b L -> 0 <= o < NO -> cv (x_transform X' b o s m) = x_transform X (cv b) o s m.
Hypothesis Hex : forall b L rf, bvalid' b L -> 0 <= L <= M -> 0 <= rf < NF -> x_extrude X' b rf = x_extrude X (cv b) rf.
Lemma rp_bd_eq e f b c L : x_boundary X' e f = Ok b -> bvalid' c L -> valid (S := S) e -> is_face F e f -> rb e f = true -> x_boundary X e f = Ok (cv c) -> b = c.
Proof. intros H1 H2 V Hf R H3. destruct (Hbd V Hf R) as (b0 & B1 & B2 & B3). assert (b = b0) by congruence. subst b0. apply (Hinj H2). congruence. Qed.
Theorem rp_crossing : @crossing_ok S' F' X' NF NO rb' bvalid' bchild' NC.
Proof.
  assert (FC : forall e f c g, valid (S := S) e -> s_level (s := S) e < M -> is_face F e f -> In (c, g) (face_children F' e f) -> In (c, g) (face_children F e f) /\ valid (S := S) c /\ is_face F c g /\ s_level (s := S) c = s_level (s := S) e + 1).
  { intros e f c g V HL Hf I. rewrite rp_face_children in I by assumption. destruct (face_child_valid V HL Hf I) as (A & B & C). auto. }
  assert (TR : forall b L o f f', bvalid' b L -> 0 <= o < NO -> cv (tr (X := X') b o f f') = tr (X := X) (cv b) o f f') by (intros b L o f f' B Ho; unfold tr; rewrite Hec; apply (Htr _ _ B Ho)).
  constructor.
  - intros e V. apply rp_valid in V. now apply Hin.
  - intros e f V Hf. apply rp_valid in V. apply rp_face in Hf. rewrite Hrb, Hnb, Hin' by assumption. exact (xo_outside XO V Hf).
  - intros e f V Hf R. apply rp_valid in V. apply rp_face in Hf. rewrite Hrb in R by assumption. rewrite Hnb by assumption. assert (H := xo_inside XO V Hf R). destruct (x_neighbor X e f) as [n g]. destruct H as (H1 & H2 & H3 & H4).
    split; [now apply rp_valid|]. split; [exact H2|]. split; [now apply rp_face|]. now rewrite Hnb.
  - intros e f c g V HL Hf R I. apply rp_valid in V. apply rp_face in Hf. change (s_level (s := S) e < M) in HL. rewrite Hrb in R by assumption. destruct (FC e f c g V HL Hf I) as (I' & Vc & Hg & Lc). rewrite !Hnb by assumption.
    assert (H := xo_inside XO V Hf R). assert (Q := xo_refine XO V HL Hf R I'). destruct (x_neighbor X e f) as [n h]. destruct H as (H1 & H2 & H3 & _). cbn [fst snd] in *. rewrite rp_face_children; [exact Q|exact H1| |exact H3]. lia.
  - intros e f c g V HL Hf R I. apply rp_valid in V. apply rp_face in Hf. change (s_level (s := S) e < M) in HL. rewrite Hrb in R by assumption. destruct (FC e f c g V HL Hf I) as (I' & Vc & Hg & Lc). rewrite Hrb, !Htf by assumption. exact (xo_rb_child XO V HL Hf R I').
  - intros e i g V HL Hi Hg P. apply rp_valid in V. change (s_level (s := S) e < M) in HL. change (0 <= i < s_num_children (s := S) e) in Hi. assert (Hi' := Hi). rewrite (u_num_children U) in Hi'. change (@s_child S' e i) with (ch e i) in *. rewrite (Hch V HL Hi') in *. apply rp_face in Hg.
    destruct (valid_child LW V HL Hi) as (V1 & V2 & _). destruct (valid_level LW V). rewrite Hpf in P by (auto; lia). destruct (xo_inner XO V HL Hi Hg P) as (j & g' & Hj & E). exists j, g'. split; [exact Hj|]. rewrite Hnb by assumption. rewrite E. change (@s_child S' e j) with (ch e j). rewrite Hch; auto. now rewrite (u_num_children U) in Hj.
  - intros e f V Hf R. apply rp_valid in V. apply rp_face in Hf. rewrite Hrb in R by assumption. rewrite Htf by assumption. destruct (xo_boundary XO V Hf R) as (H1 & b & B1 & B2 & B3). split; [exact H1|]. destruct (Hbd V Hf R) as (b' & C1 & C2 & C3). exists b'. split; [exact C1|]. split; [exact C3|].
    rewrite (Hex C3 (valid_level LW V) H1). rewrite C2 in B1. injection B1 as <-. exact B3.
  - intros b L rf B HL Hr. rewrite (Hex B HL Hr). assert (H := xo_extrude XO (Hcv B) HL Hr). destruct (x_extrude X (cv b) rf) as [e f]. destruct H as (H1 & H2 & H3 & H4 & H5 & H6). split; [now apply rp_valid|]. split; [exact H2|]. split; [now apply rp_face|]. rewrite Hrb by assumption. split; [exact H4|]. rewrite Htf by assumption. split; [exact H5|].
    destruct (Hbd H1 H3 H4) as (b' & C1 & C2 & C3). rewrite C1. f_equal. exact (rp_bd_eq C1 B H1 H3 H4 H6).
  - intros e f c g b V HL Hf R I B. apply rp_valid in V. apply rp_face in Hf. change (s_level (s := S) e < M) in HL. rewrite Hrb in R by assumption. destruct (FC e f c g V HL Hf I) as (I' & Vc & Hg & Lc). destruct (Hbd V Hf R) as (b' & C1 & C2 & C3). assert (b' = b) by congruence. subst b'.
    destruct (xo_bchild XO V HL Hf R I' C2) as (j & Hj & E). exists j. split; [exact Hj|]. destruct (xo_rb_child XO V HL Hf R I') as [Rc _]. destruct (Hbd Vc Hg Rc) as (d & D1 & D2 & D3). rewrite D1. f_equal.
    destruct (Hbc C3 HL Hj) as [E1 E2]. apply (rp_bd_eq D1 E2 Vc Hg Rc). now rewrite E1.
  - intros e f b j V HL Hf R B Hj. apply rp_valid in V. apply rp_face in Hf. change (s_level (s := S) e < M) in HL. rewrite Hrb in R by assumption. destruct (Hbd V Hf R) as (b' & C1 & C2 & C3). assert (b' = b) by congruence. subst b'.
    destruct (xo_bchild_onto XO V HL Hf R C2 Hj) as (c & g & I & E). exists c, g. split; [now rewrite rp_face_children|]. destruct (face_child_valid V HL Hf I) as (Vc & Lc & Hg). destruct (xo_rb_child XO V HL Hf R I) as [Rc _]. destruct (Hbd Vc Hg Rc) as (d & D1 & D2 & D3). rewrite D1. f_equal.
    destruct (Hbc C3 HL Hj) as [E1 E2]. apply (rp_bd_eq D1 E2 Vc Hg Rc). now rewrite E1.
  - intros b L o f f' B Ho Hf Hf'. destruct (xo_tr XO (Hcv B) Ho Hf Hf') as [T1 T2]. assert (E : cv (tr b o f f') = tr (cv b) o f f') by (apply (TR _ _ _ _ _ B Ho)).
    rewrite <- E in T1. destruct (Hcv' T1) as (c & C1 & C2). assert (Q : tr b o f f' = c) by (apply (Hinj C2); exact C1). rewrite <- Q in C2. split; [exact C2|].
    assert (E2 : cv (tr (tr b o f f') o f' f) = tr (cv (tr b o f f')) o f' f) by (apply (TR _ _ _ _ _ C2 Ho)). apply (Hinj B). rewrite E2, E, T2. reflexivity.
  - intros b L o f f' j B HL Ho Hf Hf' Hj. destruct (xo_tr_child XO (Hcv B) HL Ho Hf Hf' Hj) as (j' & Hj' & E). exists j'. split; [exact Hj'|]. change (L < M) in HL. destruct (Hbc B HL Hj) as [C1 C2].
    assert (T : cv (tr b o f f') = tr (cv b) o f f') by (apply (TR _ _ _ _ _ B Ho)). destruct (xo_tr XO (Hcv B) Ho Hf Hf') as [T1 _]. rewrite <- T in T1. destruct (Hcv' T1) as (c & D1 & D2). assert (Q : tr b o f f' = c) by (apply (Hinj D2); exact D1). rewrite <- Q in D2.
    destruct (Hbc D2 HL Hj') as [G1 G2]. apply (Hinj G2). rewrite G1, T, <- E, <- C1. symmetry. apply (TR _ _ _ _ _ C2 Ho).
Qed.
End transfer.

(** Consequences of the laws of a scheme. *)
From Verif Require Import Prelude PathSpec SchemeModel SchemeSpec.

Lemma zlen_nil {A} : zlen (@nil A) = 0. Proof. reflexivity. Qed.
Lemma zlen_cons {A} (a : A) l : zlen (a :: l) = zlen l + 1.
Proof. unfold zlen. cbn [length]. lia. Qed.
Lemma zlen_ge0 {A} (l : list A) : 0 <= zlen l. Proof. unfold zlen. lia. Qed.
Arguments zlen_ge0 {A} l.
Lemma zlen_snoc {A} (l : list A) a : zlen (l ++ [a]) = zlen l + 1.
Proof. rewrite zlen_app. unfold zlen at 2. cbn. lia. Qed.
Lemma flat_map_flat_map {A B C} (f : A -> list B) (g : B -> list C) l : flat_map g (flat_map f l) = flat_map (fun x => flat_map g (f x)) l.
Proof. induction l as [|a l IH]; [reflexivity|]. cbn [flat_map]. now rewrite flat_map_app, IH. Qed.
Lemma flat_map_ext_in {A B} (f g : A -> list B) l : (forall x, In x l -> f x = g x) -> flat_map f l = flat_map g l.
Proof. induction l as [|a l IH]; intros H; [reflexivity|]. cbn [flat_map]. rewrite H by (now left). f_equal. apply IH. intros x Hx. apply H. now right. Qed.
Lemma zseq_infix a n b c u : u ++ b ++ c = zseq a n -> b = zseq (a + zlen u) (length b).
Proof.
  intros E. assert (L := f_equal (@length Z) E). rewrite zseq_length, !app_length in L.
  replace n with (length u + (length b + length c))%nat in E by lia. rewrite !zseq_app in E.
  apply (f_equal (skipn (length u))) in E. rewrite skipn_app, skipn_all, Nat.sub_diag in E. cbn [app skipn] in E.
  rewrite skipn_app, zseq_length, Nat.sub_diag, skipn_all2 in E by (rewrite zseq_length; lia). cbn [app skipn] in E.
  apply (f_equal (firstn (length b))) in E. rewrite firstn_app, Nat.sub_diag, firstn_all in E. cbn [firstn] in E. rewrite app_nil_r in E.
  rewrite E at 1. rewrite firstn_app, zseq_length, Nat.sub_diag. cbn [firstn]. rewrite app_nil_r.
  rewrite <- (zseq_length (a + Z.of_nat (length u)) (length b)) at 1. apply firstn_all.
Qed.
Lemma zseq_inj_start a b n m : (0 < n)%nat -> zseq a n = zseq b m -> a = b.
Proof. intros H E. destruct n; [lia|]. destruct m; [discriminate|]. cbn in E. congruence. Qed.

Section theory.
Variable S : scheme.
Hypothesis LW : laws S.
Notation walk := (gwalk S).
Notation path := (gpath S).
Notation M := (s_maxlevel S).

Lemma gwalk_snoc p i : walk (p ++ [i]) = s_child (walk p) i.
Proof. unfold gwalk. now rewrite fold_left_app. Qed.
Lemma gpath_snoc_inv p i : path (p ++ [i]) -> path p /\ zlen p < M /\ 0 <= i < s_num_children (walk p).
Proof.
  intros H. inversion H as [E|q j Hq Hl Hi E].
  - destruct p; discriminate.
  - apply app_inj_tail in E. destruct E as [-> ->]. auto.
Qed.
Lemma gpath_len p : path p -> zlen p <= M.
Proof. intros H. induction H; [unfold zlen; cbn; apply (law_max LW)|]. rewrite zlen_snoc. lia. Qed.
Lemma gpath_app p q : path (p ++ q) -> path p.
Proof.
  induction q as [|i q IH] using rev_ind; [now rewrite app_nil_r|]. rewrite app_assoc. intros H. apply gpath_snoc_inv in H. apply IH, H.
Qed.
Lemma gpath_firstn p n : path p -> path (firstn n p).
Proof. intros H. apply (@gpath_app _ (skipn n p)). now rewrite firstn_skipn. Qed.
Lemma gpath_nonneg p : path p -> Forall (fun i => 0 <= i) p.
Proof. intros H. induction H; [constructor|]. apply Forall_app. split; auto. constructor; [lia|constructor]. Qed.

Lemma gwalk_inj p q : path p -> path q -> walk p = walk q -> p = q.
Proof. intros Hp Hq E. apply (law_equal LW Hp Hq). rewrite E. now apply (law_equal LW Hq Hq). Qed.

(** ** in terms of elements *)
Lemma valid_root : valid (s_root S). Proof. exists []. split; [constructor|reflexivity]. Qed.
Lemma valid_walk p : path p -> valid (walk p). Proof. intros H. now exists p. Qed.
Lemma valid_level (e : elt S) : valid e -> 0 <= s_level e <= M.
Proof. intros (p & Hp & ->). rewrite (law_level LW Hp). split; [apply zlen_ge0|now apply gpath_len]. Qed.
Lemma valid_nchild (e : elt S) : valid e -> 1 <= s_num_children e <= s_max_children S.
Proof. intros (p & Hp & ->). apply (law_num_children LW Hp). Qed.
Lemma valid_child (e : elt S) i : valid e -> s_level e < M -> 0 <= i < s_num_children e ->
  valid (s_child e i) /\ s_level (s_child e i) = s_level e + 1 /\ s_parent (s_child e i) = e /\ s_child_id (s_child e i) = i /\
  s_num_siblings (s_child e i) = s_num_children e.
Proof.
  intros (p & Hp & ->) HL Hi. rewrite (law_level LW Hp) in *. rewrite <- !gwalk_snoc.
  assert (H : path (p ++ [i])) by (constructor; auto).
  split; [now apply valid_walk|]. rewrite (law_level LW H), zlen_snoc. split; [reflexivity|].
  split; [now apply (law_parent LW)|]. split; [now apply (law_child_id LW)|]. now apply (law_num_siblings LW).
Qed.
Lemma valid_parent (e : elt S) : valid e -> 0 < s_level e ->
  valid (s_parent e) /\ s_level (s_parent e) = s_level e - 1 /\ 0 <= s_child_id e < s_num_children (s_parent e) /\
  s_child (s_parent e) (s_child_id e) = e /\ s_num_siblings e = s_num_children (s_parent e).
Proof.
  intros (p & Hp & ->) HL. rewrite (law_level LW Hp) in *.
  destruct p as [|i p _] using rev_ind; [unfold zlen in HL; cbn in HL; lia|].
  destruct (gpath_snoc_inv Hp) as (H1 & H2 & H3). rewrite (law_parent LW Hp), (law_child_id LW Hp), (law_num_siblings LW Hp).
  split; [now apply valid_walk|]. rewrite (law_level LW H1), zlen_snoc. split; [lia|]. rewrite gwalk_snoc. auto.
Qed.
Lemma valid_level0 (e : elt S) : valid e -> s_level e = 0 -> e = s_root S.
Proof. intros (p & Hp & ->) HL. rewrite (law_level LW Hp) in HL. destruct p; [reflexivity|]. rewrite zlen_cons in HL. pose proof (zlen_ge0 p). lia. Qed.
Lemma nsib_pos (e : elt S) : valid e -> 1 <= s_num_siblings e.
Proof.
  intros V. destruct (Z.eq_dec (s_level e) 0) as [E|E].
  - rewrite (valid_level0 V E). apply (law_num_siblings_root LW).
  - pose proof (valid_level V). destruct (@valid_parent e V ltac:(lia)) as (H1 & _ & _ & _ & ->). pose proof (valid_nchild H1). lia.
Qed.
Lemma valid_equal (e f : elt S) : valid e -> valid f -> (s_equal e f = true <-> e = f).
Proof. intros (p & Hp & ->) (q & Hq & ->). rewrite (law_equal LW Hp Hq). split; [congruence|now apply gwalk_inj]. Qed.

Lemma in_children (e c : elt S) : In c (s_children e) <-> exists i, 0 <= i < s_num_children e /\ c = s_child e i.
Proof.
  unfold s_children. rewrite in_map_iff. split.
  - intros (i & <- & Hi). apply in_zseq in Hi. exists i. split; [lia|reflexivity].
  - intros (i & Hi & ->). exists i. split; [reflexivity|]. apply in_zseq. lia.
Qed.
Lemma children_length (e : elt S) : length (s_children e) = Z.to_nat (s_num_children e).
Proof. unfold s_children. now rewrite map_length, zseq_length. Qed.
Lemma children_nth (e : elt S) i d : 0 <= i < s_num_children e -> nth (Z.to_nat i) (s_children e) d = s_child e i.
Proof.
  intros Hi. unfold s_children. rewrite nth_indep with (d' := s_child e 0) by (rewrite map_length, zseq_length; lia).
  rewrite map_nth, nth_zseq by lia. f_equal. lia.
Qed.
Lemma children_valid (e : elt S) : valid e -> s_level e < M -> Forall valid (s_children e).
Proof. intros V HL. apply Forall_forall. intros c Hc. apply in_children in Hc. destruct Hc as (i & Hi & ->). now apply valid_child. Qed.
Lemma children_cons (e : elt S) : valid e -> exists l, s_children e = s_child e 0 :: l.
Proof. intros V. unfold s_children. pose proof (valid_nchild V). destruct (Z.to_nat (s_num_children e)) eqn:E; [lia|]. cbn [zseq map]. eauto. Qed.

(** ** descendants *)
Lemma descend_add a b (e : elt S) : descend (a + b) e = flat_map (descend b) (descend a e).
Proof.
  revert e. induction a as [|a IH]; intros e; cbn [descend Nat.add flat_map]; [now rewrite app_nil_r|].
  rewrite flat_map_flat_map. apply flat_map_ext_in. intros c _. apply IH.
Qed.
Lemma descend_valid n (e : elt S) : valid e -> s_level e + Z.of_nat n <= M ->
  Forall (fun c => valid c /\ s_level c = s_level e + Z.of_nat n) (descend n e).
Proof.
  revert e. induction n as [|n IH]; intros e V HL; cbn [descend].
  - constructor; [|constructor]. split; auto. lia.
  - apply Forall_flat_map. apply Forall_forall. intros c Hc. apply in_children in Hc. destruct Hc as (i & Hi & ->).
    destruct (@valid_child e i V ltac:(lia) Hi) as (V' & L' & _). specialize (IH _ V' ltac:(lia)).
    eapply Forall_impl; [|exact IH]. intros d [H1 H2]. split; auto. lia.
Qed.
Lemma descend_in n (p r : list Z) : path (p ++ r) -> length r = n -> In (walk (p ++ r)) (descend n (walk p)).
Proof.
  revert p r. induction n as [|n IH]; intros p r H HL.
  - destruct r; [|discriminate]. rewrite app_nil_r. now left.
  - destruct r as [|i r]; [discriminate|]. cbn [descend]. apply in_flat_map. exists (walk (p ++ [i])).
    change (i :: r) with ([i] ++ r) in *. rewrite app_assoc in *. split.
    + rewrite gwalk_snoc. apply in_children. exists i. split; auto. apply gpath_app in H. apply (gpath_snoc_inv H).
    + apply IH; auto.
Qed.
Lemma descend_in_inv n (p : list Z) c : path p -> zlen p + Z.of_nat n <= M -> In c (descend n (walk p)) ->
  exists r, path (p ++ r) /\ length r = n /\ c = walk (p ++ r).
Proof.
  revert p. induction n as [|n IH]; intros p H HL HI; cbn [descend] in HI.
  - destruct HI as [<-|[]]. exists []. rewrite app_nil_r. auto.
  - apply in_flat_map in HI. destruct HI as (d & Hd & HI). apply in_children in Hd. destruct Hd as (i & Hi & ->).
    rewrite <- gwalk_snoc in HI. assert (P : path (p ++ [i])) by (constructor; auto; lia).
    destruct (IH _ P ltac:(rewrite zlen_snoc; lia) HI) as (r & Hr & HLr & ->). exists (i :: r).
    change (i :: r) with ([i] ++ r). rewrite app_assoc. split; auto. split; [cbn; lia|reflexivity].
Qed.
Lemma cells_children (e : elt S) : valid e -> s_level e < M -> region (s_children e) = cells e.
Proof.
  intros V HL. unfold cells at 1. pose proof (valid_level V).
  replace (Z.to_nat (M - s_level e)) with (Datatypes.S (Z.to_nat (M - s_level e - 1))) by lia. cbn [descend]. unfold region.
  apply flat_map_ext_in. intros c Hc. apply in_children in Hc. destruct Hc as (i & Hi & ->).
  destruct (@valid_child e i V ltac:(lia) Hi) as (V' & L' & _). unfold cells. rewrite L'. do 2 f_equal. lia.
Qed.
Lemma region_app (l m : list (elt S)) : region (l ++ m) = region l ++ region m.
Proof. apply flat_map_app. Qed.
Lemma region_one (e : elt S) : region [e] = cells e.
Proof. cbn. apply app_nil_r. Qed.
Lemma region_cons (e : elt S) l : region (e :: l) = cells e ++ region l.
Proof. reflexivity. Qed.
Lemma cells_first (p : list Z) n : path p -> zlen p + Z.of_nat n <= M -> exists l, descend n (walk p) = walk (p ++ repeat 0 n) :: l.
Proof.
  revert p. induction n as [|n IH]; intros p Hp HL; cbn [descend repeat].
  - rewrite app_nil_r. eauto.
  - destruct (children_cons (valid_walk Hp)) as (l & ->). cbn [flat_map]. rewrite <- gwalk_snoc.
    assert (P : path (p ++ [0])). { constructor; auto; [lia|]. pose proof (law_num_children LW Hp). lia. }
    destruct (IH _ P ltac:(rewrite zlen_snoc; lia)) as (l' & ->). rewrite <- app_assoc. cbn [app]. eauto.
Qed.
Lemma path_pad0 p n : path p -> zlen p + Z.of_nat n <= M -> path (p ++ repeat 0 n).
Proof.
  revert p. induction n as [|n IH]; intros p Hp HL; cbn [repeat]; [now rewrite app_nil_r|].
  replace (p ++ 0 :: repeat 0 n) with ((p ++ [0]) ++ repeat 0 n) by now rewrite <- app_assoc.
  apply IH; [|rewrite zlen_snoc; lia]. constructor; auto; [lia|]. pose proof (law_num_children LW Hp). lia.
Qed.

(** the cells of an element of the tree are a section of the cells of the root *)
Lemma descend_infix p n : path p -> zlen p + Z.of_nat n <= M ->
  exists u v, descend (length p + n) (s_root S) = u ++ descend n (walk p) ++ v.
Proof.
  intros Hp HL. rewrite descend_add. assert (I : In (walk p) (descend (length p) (s_root S))).
  { change (s_root S) with (walk []). change p with ([] ++ p) at 1. now apply descend_in. }
  apply in_split in I. destruct I as (l1 & l2 & ->). rewrite flat_map_app. cbn [flat_map]. eauto.
Qed.
(** their numbers are consecutive *)
Lemma descend_ids p L : path p -> zlen p <= L <= M ->
  let l := descend (Z.to_nat (L - zlen p)) (walk p) in
  map (fun e => s_linear_id e L) l = zseq (s_linear_id (walk p) L) (length l).
Proof.
  intros Hp HL l. assert (Z0 := zlen_ge0 p). destruct (@descend_infix p (Z.to_nat (L - zlen p)) Hp ltac:(lia)) as (u & v & E).
  replace (length p + Z.to_nat (L - zlen p))%nat with (Z.to_nat L) in E by (unfold zlen in *; lia).
  assert (I := law_linear_id LW (L := L) ltac:(lia)). rewrite E, !map_app in I. apply zseq_infix in I. rewrite map_length in I.
  fold l in I. rewrite I. f_equal.
  destruct (@cells_first p (Z.to_nat (L - zlen p)) Hp ltac:(lia)) as (r & Er). fold l in Er. rewrite Er in I. cbn [map length zseq] in I.
  assert (I1 := f_equal (hd 0) I). cbn [hd] in I1. rewrite <- I1. rewrite (law_linear_id_fine LW Hp HL). now rewrite (law_first_desc LW Hp HL).
Qed.
Lemma cells_ids (e : elt S) : valid e -> map (@cell_id S) (cells e) = zseq (cell_id e) (length (cells e)).
Proof.
  intros (p & Hp & ->). unfold cells, cell_id. rewrite (law_level LW Hp). apply (descend_ids Hp). split; [now apply gpath_len|lia].
Qed.
Lemma cells_nonempty (e : elt S) : valid e -> (0 < length (cells e))%nat.
Proof.
  intros (p & Hp & ->). unfold cells. rewrite (law_level LW Hp). pose proof (gpath_len Hp).
  destruct (@cells_first p (Z.to_nat (M - zlen p)) Hp ltac:(lia)) as (r & ->). cbn. lia.
Qed.
Lemma cells_hd (e : elt S) : valid e -> exists r, map (@cell_id S) (cells e) = cell_id e :: r.
Proof.
  intros V. rewrite (cells_ids V). pose proof (cells_nonempty V). destruct (length (cells e)); [lia|]. cbn. eauto.
Qed.

(** contiguity of parts *)
Lemma contiguous_app_l l m : contiguous (S := S) (l ++ m) -> contiguous l.
Proof.
  intros [V (a & E)]. apply Forall_app in V. split; [apply V|]. rewrite region_app, map_app in E. exists (a + zlen (@nil Z)).
  rewrite <- (map_length (@cell_id S) (region l)). apply (@zseq_infix a (length (region l ++ region m)) _ (map (@cell_id S) (region m)) []). exact E.
Qed.
Lemma contiguous_app_r l m : contiguous (S := S) (l ++ m) -> contiguous m.
Proof.
  intros [V (a & E)]. apply Forall_app in V. split; [apply V|]. rewrite region_app, map_app in E. exists (a + zlen (map (@cell_id S) (region l))).
  rewrite <- (map_length (@cell_id S) (region m)). apply (@zseq_infix a (length (region l ++ region m)) _ [] _). now rewrite app_nil_r.
Qed.
Lemma contiguous_region l m : contiguous (S := S) l -> Forall valid m -> region m = region l -> contiguous m.
Proof. intros [_ (a & E)] V R. split; auto. exists a. now rewrite R. Qed.
Lemma contiguous_ordered l : contiguous (S := S) l -> ordered l.
Proof.
  intros [V (a & E)]. split; auto. intros i j d Hij.
  assert (N : forall k, (k < length (region l))%nat -> cell_id (nth k (region l) d) = a + Z.of_nat k).
  { intros k Hk. rewrite <- (map_nth (@cell_id S)), E. now rewrite nth_zseq. }
  rewrite !N by lia. lia.
Qed.
(** successive members of a contiguous list *)
Lemma contiguous_next l e f m : contiguous (S := S) (l ++ e :: f :: m) -> cell_id f = cell_id e + Z.of_nat (length (cells e)).
Proof.
  intros H. apply contiguous_app_r in H. destruct H as [V (a & E)]. inversion V as [|? ? Ve V']; subst. inversion V' as [|? ? Vf _]; subst.
  rewrite !region_cons in E. rewrite !map_app, !app_length in E. rewrite !zseq_app in E.
  rewrite (cells_ids Ve), (cells_ids Vf) in E.
  pose proof (cells_nonempty Ve) as Pe. pose proof (cells_nonempty Vf) as Pf.
  assert (Ea : cell_id e = a).
  { destruct (length (cells e)); [lia|]. cbn [zseq app] in E. congruence. }
  subst a. apply app_inv_head in E. destruct (length (cells f)); [lia|]. cbn [zseq app] in E. congruence.
Qed.
End theory.

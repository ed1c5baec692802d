(** Linear ids in pyramid trees. *)
From Verif Require Import Prelude PathSpec BitLemmas SimplexModel SimplexSpec SimplexProofs SimplexPathProofs SimplexOrderProofs SimplexAncProofs.
From Verif Require Import PyramidModel PyramidSpec PyramidProofs PyramidAncProofs.

(** the number of descendants k levels below an element of type t *)
Definition ysz (t k : Z) : Z := if t <? 6 then 8 ^ k else 2 * 8 ^ k - 6 ^ k.
(** the number of those below its first i children *)
Definition np (t i : Z) : Z := if t <? 6 then 0 else y_pyra_w_lower_id (t - 6) i.
Definition off (t i k : Z) : Z := np t i * (2 * 8 ^ k - 6 ^ k) + (i - np t i) * 8 ^ k.
(** the number of the path p below an element of type t, counted k levels below *)
Fixpoint ynum (t : Z) (p : list Z) (k : Z) : Z := match p with [] => 0 | i :: q => off t i (zlen q + k) + ynum (YT t i) q k end.
(** the type reached *)
Definition tend (t : Z) (p : list Z) : Z := fold_left YT p t.
Fixpoint vpath (t : Z) (p : list Z) : Prop := match p with [] => True | i :: q => 0 <= i < nch t /\ vpath (YT t i) q end.

Lemma pow68 k : 0 <= k -> 0 < 6 ^ k <= 8 ^ k.
Proof. intros H. split; [apply Z.pow_pos_nonneg; lia|apply Z.pow_le_mono_l; lia]. Qed.
Lemma ysz_pos t k : 0 <= k -> 0 < ysz t k.
Proof. intros H. pose proof (pow68 H). unfold ysz. destruct (t <? 6); lia. Qed.
Lemma ysz_0 t : ysz t 0 = 1. Proof. unfold ysz. destruct (t <? 6); reflexivity. Qed.
Lemma off_0 t k : 0 <= t < 8 -> off t 0 k = 0.
Proof.
  intros Ht. assert (A : forallb (fun t => np t 0 =? 0) (zseq 0 8) = true) by (vm_compute; reflexivity).
  rewrite forallb_forall in A. specialize (A t ltac:(apply in_zseq; lia)). apply Z.eqb_eq in A. unfold off. rewrite A. lia.
Qed.
Lemma off_S t i k : 0 <= t < 8 -> 0 <= i -> i + 1 < nch t -> off t (i + 1) k = off t i k + ysz (YT t i) k.
Proof.
  intros Ht Hi Hi'. assert (A : all_ti (fun t i => if i + 1 <? nch t then np t (i + 1) =? np t i + (if YT t i <? 6 then 0 else 1) else true) = true) by (vm_compute; reflexivity).
  assert (B := @all_ti_spec _ A t i Ht ltac:(lia)). cbv beta in B. assert (E : (i + 1 <? nch t) = true) by lia. rewrite E in B. apply Z.eqb_eq in B.
  unfold off, ysz. rewrite B. destruct (YT t i <? 6); ring.
Qed.
Lemma off_last t k : 0 <= t < 8 -> 0 <= k -> off t (nch t - 1) k + ysz t k = ysz t (k + 1).
Proof.
  intros Ht Hk. assert (A : forallb (fun t => np t (nch t - 1) =? (if t <? 6 then 0 else 5)) (zseq 0 8) = true) by (vm_compute; reflexivity).
  rewrite forallb_forall in A. specialize (A t ltac:(apply in_zseq; lia)). apply Z.eqb_eq in A. unfold off, ysz, nch in *. rewrite A.
  rewrite !Z.pow_add_r by lia. destruct (t <? 6); ring.
Qed.
Lemma off_mono t i j k : 0 <= t < 8 -> 0 <= k -> 0 <= i -> i < j < nch t -> off t i k + ysz (YT t i) k <= off t j k.
Proof.
  intros Ht Hk Hi Hj. replace j with (i + 1 + Z.of_nat (Z.to_nat (j - i - 1))) in * by lia. generalize dependent (Z.to_nat (j - i - 1)). intros n Hn.
  induction n as [|n IH].
  - rewrite Z.add_0_r in *. rewrite off_S by lia. lia.
  - specialize (IH ltac:(lia)). replace (i + 1 + Z.of_nat (S n)) with (i + 1 + Z.of_nat n + 1) in * by lia. rewrite off_S by lia. pose proof (@ysz_pos (YT t (i + 1 + Z.of_nat n)) k Hk). lia.
Qed.
Lemma off_bound t i k : 0 <= t < 8 -> 0 <= k -> 0 <= i < nch t -> 0 <= off t i k /\ off t i k + ysz (YT t i) k <= ysz t (k + 1).
Proof.
  intros Ht Hk Hi. assert (N : nch t = 8 \/ nch t = 10) by (unfold nch; destruct (t <? 6); auto). split.
  - destruct (Z.eq_dec i 0) as [->|Hne]; [rewrite off_0; lia|]. pose proof (@off_mono t 0 i k Ht Hk ltac:(lia) ltac:(lia)). rewrite off_0 in H by lia.
    pose proof (@ysz_pos (YT t 0) k Hk). lia.
  - rewrite <- off_last by lia. destruct (tab_first Ht) as (_ & _ & T & _). destruct (Z.eq_dec i (nch t - 1)) as [->|Hne]; [rewrite T; lia|].
    pose proof (@off_mono t i (nch t - 1) k Ht Hk ltac:(lia) ltac:(lia)). pose proof (@ysz_pos t k Hk). lia.
Qed.

Lemma tend_type t p : 0 <= t < 8 -> vpath t p -> 0 <= tend t p < 8.
Proof.
  revert t. induction p as [|i p IH]; intros t Ht H; [exact Ht|]. destruct H as [Hi H]. apply IH; [apply (tabT Ht Hi)|exact H].
Qed.
Lemma ynum_bound t p k : 0 <= t < 8 -> 0 <= k -> vpath t p -> 0 <= ynum t p k /\ ynum t p k + ysz (tend t p) k <= ysz t (zlen p + k).
Proof.
  revert t. induction p as [|i p IH]; intros t Ht Hk H; [cbn [ynum]; change (tend t []) with t; change (zlen (@nil Z) + k) with k; lia|].
  destruct H as [Hi H]. destruct (tabT Ht Hi) as (T & _). destruct (IH _ T Hk H) as [I1 I2]. cbn [ynum]. change (tend t (i :: p)) with (tend (YT t i) p).
  assert (Z0 : 0 <= zlen p) by (unfold zlen; lia). destruct (@off_bound t i (zlen p + k) Ht ltac:(lia) Hi) as [O1 O2].
  replace (zlen (i :: p) + k) with (zlen p + k + 1) by (unfold zlen; cbn [length]; lia). lia.
Qed.
Lemma ynum_app t p q k : ynum t (p ++ q) k = ynum t p (zlen q + k) + ynum (tend t p) q k.
Proof.
  revert t. induction p as [|i p IH]; intros t; [reflexivity|]. cbn [app ynum]. rewrite IH, zlen_app. change (tend t (i :: p)) with (tend (YT t i) p).
  rewrite !Z.add_assoc. reflexivity.
Qed.
Lemma vpath_app t p q : vpath t (p ++ q) <-> vpath t p /\ vpath (tend t p) q.
Proof. revert t. induction p as [|i p IH]; intros t; cbn [app vpath]; [tauto|]. rewrite IH. change (tend t (i :: p)) with (tend (YT t i) p). tauto. Qed.
Lemma tend_app t p q : tend t (p ++ q) = tend (tend t p) q.
Proof. apply fold_left_app. Qed.
Lemma zeros_facts t n k : 0 <= t < 8 -> vpath t (repeat 0 n) /\ tend t (repeat 0 n) = t /\ ynum t (repeat 0 n) k = 0.
Proof.
  intros Ht. destruct (tab_first Ht) as (T & _). assert (N : nch t = 8 \/ nch t = 10) by (unfold nch; destruct (t <? 6); auto).
  induction n as [|n (I1 & I2 & I3)]; [split; [exact Logic.I|split; reflexivity]|]. cbn [repeat vpath ynum]. change (tend t (0 :: repeat 0 n)) with (tend (YT t 0) (repeat 0 n)).
  rewrite T, off_0 by exact Ht. split; [split; [lia|exact I1]|]. split; [exact I2|lia].
Qed.
Definition lastc (t : Z) : Z := nch t - 1.
Lemma lasts_facts t n k : 0 <= t < 8 -> 0 <= k -> vpath t (repeat (lastc t) n) /\ tend t (repeat (lastc t) n) = t /\ ynum t (repeat (lastc t) n) k + ysz t k = ysz t (Z.of_nat n + k).
Proof.
  intros Ht Hk. unfold lastc. destruct (tab_first Ht) as (_ & _ & T & _). assert (N : nch t = 8 \/ nch t = 10) by (unfold nch; destruct (t <? 6); auto).
  induction n as [|n (I1 & I2 & I3)]; [split; [exact Logic.I|split; [reflexivity|cbn; lia]]|]. cbn [repeat vpath ynum]. change (tend t (nch t - 1 :: repeat (nch t - 1) n)) with (tend (YT t (nch t - 1)) (repeat (nch t - 1) n)).
  rewrite T. split; [split; [lia|exact I1]|]. split; [exact I2|]. rewrite zlen_repeat. replace (Z.of_nat (S n) + k) with (Z.of_nat n + k + 1) by lia. rewrite <- off_last by lia. lia.
Qed.

(** paths and types *)
Lemma y_walk_tend p : y_path p -> yty (y_walk p) = tend 6 p.
Proof.
  induction p as [|i p IH] using rev_ind; intros H; [reflexivity|]. apply y_path_snoc in H. destruct H as (H & Hl & Hi). destruct (y_walk_wf H) as [Wp L].
  rewrite y_walk_snoc, tend_app, <- IH by exact H. destruct (@ywf_child _ i Wp ltac:(lia) Hi) as (_ & _ & T). exact T.
Qed.
Lemma y_path_iff p : y_path p <-> vpath 6 p /\ zlen p <= 21.
Proof.
  induction p as [|i p IH] using rev_ind; [split; [intros _; split; [exact Logic.I|vm_compute; discriminate]|constructor]|].
  rewrite y_path_snoc, vpath_app, IH, zlen_app. change (zlen [i]) with 1. cbn [vpath]. split.
  - intros ((V & L) & Hl & Hi). rewrite nch_num, y_walk_tend in Hi by (apply IH; auto; lia). split; [split; [exact V|split; [exact Hi|exact Logic.I]]|lia].
  - intros ((V & Hi & _) & L). split; [split; [exact V|lia]|]. split; [lia|]. rewrite nch_num, y_walk_tend by (apply IH; split; [exact V|lia]). exact Hi.
Qed.

(** ** linear ids *)
Lemma y_id_loop_yt e e' n s1 s2 id : yt e = yt e' -> is_pyra e = true -> y_id_loop e n s1 s2 id = y_id_loop e' n s1 s2 id.
Proof.
  intros E P. destruct n as [|n]; [reflexivity|]. cbn [y_id_loop]. assert (P' : is_pyra e' = true) by (unfold is_pyra, yty in *; now rewrite <- E).
  assert (EP : y_parent e = y_parent e') by (unfold y_parent; rewrite P, P'; unfold ylv, yty, y_cubeid, yx, yy, yz; now rewrite E).
  assert (EC : y_child_id e = y_child_id e') by (unfold y_child_id; rewrite P, P'; unfold ylv, yty, y_cubeid, yx, yy, yz; now rewrite E).
  now rewrite EP, EC.
Qed.
Lemma y_id_loop_walk p m id : y_path p -> 0 <= m -> y_id_loop (y_walk p) (length p) (8 ^ m) (6 ^ m) id = id + ynum 6 p m.
Proof.
  revert m id. induction p as [|i p IH] using rev_ind; intros m id H Hm; [cbn; lia|]. assert (H' := H). apply y_path_snoc in H'. destruct H' as (Hp & Hl & Hi).
  destruct (y_walk_wf Hp) as [Wp L]. rewrite app_length, Nat.add_comm. cbn [length Nat.add y_id_loop].
  rewrite y_walk_snoc, y_parent_child by (auto; lia). destruct (y_child_id_child Wp ltac:(lia) Hi) as [-> _].
  rewrite !Z.shiftl_mul_pow2 by lia. change (2 ^ 3) with 8. change (2 ^ 1) with 2.
  replace (8 ^ m * 8) with (8 ^ (m + 1)) by (rewrite Z.pow_add_r by lia; reflexivity). replace (6 ^ m * 6) with (6 ^ (m + 1)) by (rewrite Z.pow_add_r by lia; reflexivity).
  rewrite IH by (auto; lia). rewrite ynum_app. change (zlen [i]) with 1. cbn [ynum]. change (zlen (@nil Z)) with 0. rewrite Z.add_0_l, <- y_walk_tend by exact Hp.
  rewrite (Z.add_comm 1 m). unfold off, np, is_pyra. change FIRST_TYPE with 6. destruct (yty (y_walk p) <? 6); cbn [negb]; ring.
Qed.
Lemma y_path_zeros p n : y_path p -> zlen p + Z.of_nat n <= 21 -> y_path (p ++ repeat 0 n).
Proof.
  intros H Hn. apply y_path_iff in H. apply y_path_iff. rewrite vpath_app, zlen_app, zlen_repeat. split; [split; [apply H|]|lia].
  apply (@zeros_facts _ n 0). apply tend_type; [lia|apply H].
Qed.
Lemma y_walk_zeros p n : y_path p -> zlen p + Z.of_nat n <= 21 -> y_walk (p ++ repeat 0 n) = set_lv (y_walk p) (zlen p + Z.of_nat n).
Proof.
  intros H. induction n as [|n IH]; intros Hn.
  - cbn [repeat]. rewrite app_nil_r, Z.add_0_r. destruct (y_walk_wf H) as [_ L]. rewrite <- L. unfold set_lv, ylv, yty, yx, yy, yz. destruct (y_walk p) as [[? ? ? ? ?] ?]. reflexivity.
  - replace (repeat 0 (S n)) with (repeat 0 n ++ [0]) by (rewrite <- repeat_cons; reflexivity). rewrite app_assoc, y_walk_snoc, IH by lia.
    destruct (y_walk_wf H) as [Wp L]. assert (Ht := yw_ty Wp). set (e := set_lv (y_walk p) (zlen p + Z.of_nat n)).
    assert (NC : 0 <= 0 < y_num_children e) by (rewrite nch_num; unfold nch; destruct (yty e <? 6); lia).
    rewrite y_child_step; [|exact Ht|change (ylv e) with (zlen p + Z.of_nat n); lia|exact NC]. change (yty e) with (yty (y_walk p)).
    destruct (tab_first Ht) as (-> & -> & _). unfold step. change (Z.testbit 0 0) with false. change (Z.testbit 0 1) with false. change (Z.testbit 0 2) with false.
    cbn [Z.b2z]. rewrite !Z.mul_0_l, !Z.add_0_r. unfold set_lv. change (yt e) with (Simp (zlen p + Z.of_nat n) (yty (y_walk p)) (yx (y_walk p)) (yy (y_walk p)) (yz (y_walk p))).
    cbn [lv sx sy sz]. f_equal; [f_equal; lia|]. unfold child_sw. assert (SW := yw_sw Wp). change (is_pyra e) with (is_pyra (y_walk p)). change (ysw e) with (ysw (y_walk p)).
    destruct (is_pyra (y_walk p)) eqn:P; [|reflexivity]. apply is_pyra_iff in P. destruct (Z.ltb_spec (yty (y_walk p)) 6); [lia|]. now rewrite SW.
Qed.
Lemma y_linear_id_coarse p L : y_path p -> (L <= length p)%nat -> y_linear_id (y_walk p) (Z.of_nat L) = ynum 6 (firstn L p) 0.
Proof.
  intros H HL. unfold y_linear_id. rewrite y_type_at_level_walk by auto. change YMAX with 21. rewrite Nat2Z.id.
  set (e := y_cut _ _). assert (LP := y_path_len H). unfold zlen in LP.
  assert (EY : yt e = yt (y_walk (firstn L p))).
  { destruct (y_walk_wf (y_path_firstn L H)) as [_ V]. rewrite zlen_firstn_le in V by lia. unfold e, y_cut. cbn [yt].
    change (yx (set_lv (set_ty (y_walk p) (yty (y_walk (firstn L p)))) (Z.of_nat L))) with (yx (y_walk p)). change (yy (set_lv (set_ty (y_walk p) (yty (y_walk (firstn L p)))) (Z.of_nat L))) with (yy (y_walk p)).
    change (yz (set_lv (set_ty (y_walk p) (yty (y_walk (firstn L p)))) (Z.of_nat L))) with (yz (y_walk p)).
    rewrite !y_cut_firstn by (unfold ycoord; auto; lia). change (ylv (set_lv (set_ty (y_walk p) (yty (y_walk (firstn L p)))) (Z.of_nat L))) with (Z.of_nat L).
    change (yty (set_lv (set_ty (y_walk p) (yty (y_walk (firstn L p)))) (Z.of_nat L))) with (yty (y_walk (firstn L p))). rewrite <- V.
    unfold ylv, yty, yx, yy, yz. now destruct (yt (y_walk (firstn L p))). }
  assert (LE : length (firstn L p) = L) by (rewrite firstn_length; lia).
  assert (G : y_id_loop (y_walk (firstn L p)) L 1 1 0 = ynum 6 (firstn L p) 0).
  { rewrite <- LE at 2. assert (G := @y_id_loop_walk (firstn L p) 0 0). change (8 ^ 0) with 1 in G. change (6 ^ 0) with 1 in G. rewrite G; [lia|now apply y_path_firstn|lia]. }
  rewrite <- G. destruct (is_pyra (y_walk (firstn L p))) eqn:P.
  - apply y_id_loop_yt; [exact EY|]. unfold is_pyra, yty in *. now rewrite EY.
  - f_equal. assert (PP : is_pyra (y_walk p) = false) by (rewrite <- (firstn_all p); apply (@y_tet_later p L); auto; lia).
    destruct (y_sw_spec H PP) as [_ S]. destruct (S L HL) as [S1 S2]. rewrite P in S1. symmetry in S1. apply Z.ltb_ge in S1.
    destruct e as [te se] eqn:Ee. assert (se = ysw (y_walk p)) as -> by (change se with (ysw (Pyr te se)); rewrite <- Ee; reflexivity). cbn [yt] in EY. rewrite EY, <- S2 by exact S1. now destruct (y_walk (firstn L p)).
Qed.
Lemma y_linear_id_own p : y_path p -> y_linear_id (y_walk p) (zlen p) = ynum 6 p 0.
Proof. intros H. unfold zlen. rewrite y_linear_id_coarse by auto. now rewrite firstn_all. Qed.
Lemma y_linear_id_fine p L : y_path p -> zlen p <= L <= 21 -> y_linear_id (y_walk p) L = ynum 6 p (L - zlen p).
Proof.
  intros H HL. set (n := Z.to_nat (L - zlen p)). assert (HZ := @y_path_zeros p n H ltac:(lia)). assert (EW := @y_walk_zeros p n H ltac:(lia)).
  assert (E : y_linear_id (y_walk p) L = y_linear_id (y_walk (p ++ repeat 0 n)) L).
  { unfold y_linear_id. f_equal. rewrite EW. replace (zlen p + Z.of_nat n) with L by lia. destruct (y_walk_wf H) as [_ V].
    assert (T1 : y_type_at_level (y_walk p) L = yty (y_walk p)).
    { unfold y_type_at_level. cbn [y_type_at_level_n]. rewrite V. destruct (Z.leb_spec (zlen p) L); [reflexivity|lia]. }
    assert (T2 : y_type_at_level (set_lv (y_walk p) L) L = yty (y_walk p)).
    { unfold y_type_at_level. cbn [y_type_at_level_n]. change (ylv (set_lv (y_walk p) L)) with L. rewrite Z.leb_refl. reflexivity. }
    rewrite T1, T2. reflexivity. }
  rewrite E. replace L with (zlen (p ++ repeat 0 n)) at 1 by (rewrite zlen_app, zlen_repeat; lia). rewrite y_linear_id_own by exact HZ.
  rewrite ynum_app, zlen_repeat, Z.add_0_r. destruct (@zeros_facts (tend 6 p) n 0) as (_ & _ & ->); [apply tend_type; [lia|now apply y_path_iff in H]|].
  rewrite Z.add_0_r. f_equal. lia.
Qed.
(** ids of the descendants in depth-first order *)
Lemma y_children_walk p : y_path p -> y_children_of (y_walk p) = map (fun i => y_walk (p ++ [i])) (zseq 0 (Z.to_nat (nch (tend 6 p)))).
Proof. intros H. unfold y_children_of. rewrite nch_num, y_walk_tend by exact H. apply map_ext. intros i. now rewrite y_walk_snoc. Qed.
Lemma y_descend_ids p n L : y_path p -> zlen p + Z.of_nat n = L -> L <= 21 ->
  map (fun e => y_linear_id e L) (y_descend n (y_walk p)) = zseq (ynum 6 p (Z.of_nat n)) (Z.to_nat (ysz (tend 6 p) (Z.of_nat n))).
Proof.
  revert p. induction n as [|n IH]; intros p H HL HL'.
  - cbn [y_descend map]. rewrite ysz_0. change (Z.to_nat 1) with 1%nat. cbn [zseq]. f_equal. replace L with (zlen p) by lia. now rewrite y_linear_id_own.
  - cbn [y_descend]. rewrite y_children_walk by exact H. assert (Ht : 0 <= tend 6 p < 8) by (apply tend_type; [lia|now apply y_path_iff in H]).
    set (t := tend 6 p) in *. set (k := Z.of_nat n) in *. replace (Z.of_nat (S n)) with (k + 1) by lia.
    assert (G : forall m a, 0 <= a -> a + Z.of_nat m = nch t -> (m > 0)%nat ->
      map (fun e => y_linear_id e L) (flat_map (y_descend n) (map (fun i => y_walk (p ++ [i])) (zseq a m))) =
      zseq (ynum 6 p (k + 1) + off t a k) (Z.to_nat (ysz t (k + 1) - off t a k))).
    { assert (C : forall a, 0 <= a < nch t -> map (fun e => y_linear_id e L) (y_descend n (y_walk (p ++ [a]))) = zseq (ynum 6 p (k + 1) + off t a k) (Z.to_nat (ysz (YT t a) k))).
      { intros a Ha. assert (Hp : y_path (p ++ [a])) by (apply y_path_snoc; split; [exact H|]; split; [lia|]; rewrite nch_num, y_walk_tend; auto).
        rewrite IH by (auto; rewrite zlen_app; change (zlen [a]) with 1; lia). rewrite ynum_app, tend_app. cbn [ynum]. change (zlen [a]) with 1. change (zlen (@nil Z)) with 0. fold t k. f_equal.
        rewrite Z.add_0_l. replace (1 + k) with (k + 1) by lia. lia. }
      induction m as [|m IHm]; intros a Ha Hm Hm0; [lia|]. cbn [zseq map flat_map]. rewrite map_app, C by lia. destruct m as [|m].
      - cbn [zseq map flat_map]. rewrite app_nil_r. f_equal. replace a with (nch t - 1) by lia. destruct (tab_first Ht) as (_ & _ & -> & _). rewrite <- off_last by (auto; unfold k; lia). lia.
      - rewrite IHm by lia. rewrite off_S by lia. pose proof (@ysz_pos (YT t a) k ltac:(unfold k; lia)).
        destruct (@off_bound t (a + 1) k Ht ltac:(unfold k; lia) ltac:(lia)) as [O1 O2]. rewrite off_S in O2 by lia. pose proof (@ysz_pos (YT t (a + 1)) k ltac:(unfold k; lia)).
        replace (Z.to_nat (ysz t (k + 1) - off t a k)) with (Z.to_nat (ysz (YT t a) k) + Z.to_nat (ysz t (k + 1) - (off t a k + ysz (YT t a) k)))%nat by lia.
        rewrite zseq_app. f_equal. f_equal. lia. }
    rewrite (G (Z.to_nat (nch t)) 0) by (unfold nch; destruct (t <? 6); lia). rewrite off_0, Z.add_0_r, Z.sub_0_r by exact Ht. reflexivity.
Qed.
(** ids are increasing *)
Lemma ynum_lt t i j p q k l : 0 <= t < 8 -> 0 <= k -> 0 <= l -> vpath t (i :: p) -> vpath t (j :: q) -> zlen p + k = zlen q + l -> i < j ->
  ynum t (i :: p) k + ysz (tend t (i :: p)) k <= ynum t (j :: q) l.
Proof.
  intros Ht Hk Hl [Hi Hp] [Hj Hq] E Hij. cbn [ynum]. change (tend t (i :: p)) with (tend (YT t i) p). destruct (tabT Ht Hi) as (T & _). destruct (tabT Ht Hj) as (T' & _).
  destruct (ynum_bound T Hk Hp) as [_ B]. destruct (ynum_bound T' Hl Hq) as [B' _]. rewrite <- E. assert (0 <= zlen p) by (unfold zlen; lia).
  pose proof (@off_mono t i j (zlen p + k) Ht ltac:(lia) ltac:(lia) ltac:(lia)). lia.
Qed.
Lemma ynum_cmp t p q k l : 0 <= t < 8 -> 0 <= k -> 0 <= l -> vpath t p -> vpath t q -> zlen p + k = zlen q + l ->
  (ynum t p k = ynum t q l -> path_cmp p q = (zlen p ?= zlen q)) /\ (ynum t p k < ynum t q l -> path_cmp p q = Lt) /\ (ynum t q l < ynum t p k -> path_cmp p q = Gt).
Proof.
  revert t q. induction p as [|i p IH]; intros t [|j q] Ht Hk Hl Hp Hq E.
  - repeat split; auto; intros C; cbn [ynum] in C; lia.
  - destruct (ynum_bound Ht Hl Hq) as [B _]. split; [reflexivity|]. split; [reflexivity|]. cbn [ynum] in *. lia.
  - destruct (ynum_bound Ht Hk Hp) as [B _]. split; [reflexivity|]. split; [|reflexivity]. cbn [ynum] in *. lia.
  - assert (E' : zlen p + k = zlen q + l) by (unfold zlen in *; cbn [length] in E; lia). cbn [path_cmp]. destruct (Z.compare_spec i j) as [C|C|C].
    + subst j. destruct Hp as [Hi Hp]. destruct Hq as [_ Hq]. destruct (tabT Ht Hi) as (T & _). cbn [ynum]. rewrite E'. destruct (IH _ _ T Hk Hl Hp Hq E') as (I1 & I2 & I3).
      split; [intros F; rewrite I1 by lia; unfold zlen; cbn [length]; rewrite !Nat2Z.inj_succ; symmetry; destruct (Z.compare_spec (Z.of_nat (length p)) (Z.of_nat (length q))); [apply Z.compare_eq_iff|apply Z.compare_lt_iff|apply Z.compare_gt_iff]; lia|]. split; intros F; [apply I2|apply I3]; lia.
    + pose proof (@ynum_lt t i j p q k l Ht Hk Hl Hp Hq E' C). pose proof (@ysz_pos (tend t (i :: p)) k Hk). split; [lia|]. split; [reflexivity|lia].
    + pose proof (@ynum_lt t j i q p l k Ht Hl Hk Hq Hp ltac:(lia) C). pose proof (@ysz_pos (tend t (j :: q)) l Hl). split; [lia|]. split; [lia|reflexivity].
Qed.
Lemma ynum_inj t p q k : 0 <= t < 8 -> 0 <= k -> vpath t p -> vpath t q -> zlen p = zlen q -> ynum t p k = ynum t q k -> p = q.
Proof.
  intros Ht Hk Hp Hq E N. destruct (@ynum_cmp t p q k k Ht Hk Hk Hp Hq ltac:(lia)) as [C _]. specialize (C N). rewrite E, Z.compare_refl in C. now apply path_cmp_eq.
Qed.
Lemma y_compare_walk p q : y_path p -> y_path q -> (y_compare (y_walk p) (y_walk q) ?= 0) = path_cmp p q.
Proof.
  intros Hp Hq. destruct (y_walk_wf Hp) as [_ Lp]. destruct (y_walk_wf Hq) as [_ Lq]. assert (A := y_path_len Hp). assert (B := y_path_len Hq).
  assert (Vp := Hp). assert (Vq := Hq). apply y_path_iff in Vp. apply y_path_iff in Vq.
  unfold y_compare. rewrite Lp, Lq. set (m := Z.max (zlen p) (zlen q)). rewrite !y_linear_id_fine by (auto; lia).
  destruct (@ynum_cmp 6 p q (m - zlen p) (m - zlen q) ltac:(lia) ltac:(lia) ltac:(lia) (proj1 Vp) (proj1 Vq) ltac:(lia)) as (C1 & C2 & C3).
  destruct (Z.eqb_spec (ynum 6 p (m - zlen p)) (ynum 6 q (m - zlen q))) as [E|E].
  - rewrite C1 by exact E. destruct (Z.eqb_spec (zlen p) (zlen q)) as [E'|E'].
    + rewrite E'. now rewrite !Z.compare_refl.
    + rewrite (Z.compare_sub (zlen p) (zlen q)). reflexivity.
  - destruct (Z.ltb_spec (ynum 6 p (m - zlen p)) (ynum 6 q (m - zlen q))); [rewrite C2 by assumption; reflexivity|rewrite C3 by lia; reflexivity].
Qed.
Lemma y_is_ancestor_walk p q : y_path p -> y_path q -> (y_is_ancestor (y_walk p) (y_walk q) = true <-> prefix p q).
Proof.
  intros Hp Hq. destruct (y_walk_wf Hp) as [_ Lp]. destruct (y_walk_wf Hq) as [_ Lq]. assert (Vp := Hp). assert (Vq := Hq). apply y_path_iff in Vp. apply y_path_iff in Vq.
  unfold y_is_ancestor. rewrite Lp, Lq. destruct (Z.ltb_spec (zlen q) (zlen p)) as [C|C].
  - split; [discriminate|]. intros (r & ->). rewrite zlen_app in C. unfold zlen in C. lia.
  - rewrite y_linear_id_own by exact Hp. unfold zlen in C. unfold zlen at 1. rewrite y_linear_id_coarse by (auto; lia). rewrite Z.eqb_eq. split.
    + intros E. apply ynum_inj in E; try lia; [|apply Vp|apply (proj1 (y_path_iff _)), y_path_firstn, Hq|rewrite zlen_firstn_le by lia; reflexivity].
      exists (skipn (length p) q). rewrite E at 1. now rewrite firstn_skipn.
    + intros (r & ->). now rewrite firstn_app, firstn_all, Nat.sub_diag, app_nil_r.
Qed.
Lemma y_equal_walk p q : y_path p -> y_path q -> (y_equal (y_walk p) (y_walk q) = true <-> p = q).
Proof.
  intros Hp Hq. split; [|intros ->; unfold y_equal; rewrite Z.eqb_refl, andb_true_r; unfold equal; now rewrite !Z.eqb_refl].
  intros E. apply y_walk_inj; auto. unfold y_equal in E. apply andb_prop in E. destruct E as [E1 E2]. apply Z.eqb_eq in E2.
  assert (E3 : yt (y_walk p) = yt (y_walk q)).
  { unfold equal in E1. destruct (yt (y_walk p)), (yt (y_walk q)). cbn in E1. f_equal; lia. }
  destruct (y_walk p), (y_walk q). cbn in *. now subst.
Qed.

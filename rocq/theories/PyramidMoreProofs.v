(** Further proofs for pyramids: the last element has no successor, every id is the id of an element, ids of descendants, counts, corners. *)
From Verif Require Import Prelude PathSpec BitLemmas SimplexModel SimplexSpec SimplexProofs SimplexPathProofs SimplexOrderProofs SimplexAncProofs SimplexRefuteProofs.
From Verif Require Import PyramidModel PyramidSpec PyramidProofs PyramidAncProofs PyramidIdProofs PyramidOrderProofs.

(** ** the last element of a level *)
Lemma y_next_or_last p : y_path p -> (exists v, ynext p v) \/ p = repeat 9 (length p).
Proof.
  induction p as [|i p IH] using rev_ind; intros H; [right; reflexivity|]. assert (H' := H). apply y_path_snoc in H'. destruct H' as (HP & HL & Hi).
  rewrite nch_num, y_walk_tend in Hi by exact HP.
  destruct (Z.lt_ge_cases (i + 1) (nch (tend 6 p))) as [C|C]; [left; eexists; apply yn_here; lia|]. assert (i = lastc (tend 6 p)) as -> by (unfold lastc; lia).
  destruct (IH HP) as [(v & Hv)|A]; [left; eexists; apply yn_up; exact Hv|]. right.
  assert (T : tend 6 p = 6) by (rewrite A; destruct (@lasts_facts 6 (length p) 0 ltac:(lia) ltac:(lia)) as (_ & T & _); exact T).
  rewrite T. change (lastc 6) with 9. rewrite A at 1. rewrite app_length. cbn [length]. rewrite Nat.add_1_r. cbn [repeat]. now rewrite repeat_cons.
Qed.
Lemma y_succ_rec_last n : (n <= 21)%nat -> forall gx gy gz, let k := 21 - Z.of_nat n in 0 <= gx < 2 ^ k -> 0 <= gy < 2 ^ k -> 0 <= gz < 2 ^ k ->
  y_succ_rec true (addg (y_walk (repeat 9 n)) gx gy gz) n = AssertFail.
Proof.
  induction n as [|n IH]; intros Hn gx gy gz k Hx Hy Hz; [reflexivity|].
  assert (Hw : y_path (repeat 9 n)) by (apply (@y_path_lasts [] n yp_nil); change (zlen (@nil Z)) with 0; lia).
  assert (HP : y_path (repeat 9 n ++ [9])) by (rewrite <- repeat_cons; apply (@y_path_lasts [] (S n) yp_nil); change (zlen (@nil Z)) with 0; lia).
  assert (TW : tend 6 (repeat 9 n) = 6) by (destruct (@lasts_facts 6 n 0 ltac:(lia) ltac:(lia)) as (_ & T & _); exact T).
  assert (ZW : zlen (repeat 9 n) = Z.of_nat n) by apply zlen_repeat.
  assert (ZE : zlen (repeat 9 n ++ [9]) = Z.of_nat (S n)) by (rewrite zlen_app, ZW; change (zlen [9]) with 1; lia).
  change (repeat 9 (S n)) with (9 :: repeat 9 n). rewrite repeat_cons. cbn [y_succ_rec].
  destruct (@y_parent_garbage (repeat 9 n) 9 gx gy gz HP) as (E1 & E2 & E3); try (rewrite ZE; assumption).
  destruct (y_walk_wf HP) as [We Le]. rewrite ZE in Le. assert (LS := @y_walk_lasts (repeat 9 n) 1 Hw ltac:(change (Z.of_nat 1) with 1; lia)). cbv zeta in LS. change (Z.of_nat 1) with 1 in LS.
  rewrite TW in LS, E3. change (repeat (lastc 6) 1) with [9] in LS.
  set (w := y_walk (repeat 9 n)) in *. set (e := y_walk (repeat 9 n ++ [9])) in *. rewrite <- Le.
  assert (ES : set_lv (addg e gx gy gz) (ylv e) = addg e gx gy gz) by reflexivity. rewrite ES.
  assert (SW : (ylv e <? ysw (addg e gx gy gz)) = false).
  { change (ysw (addg e gx gy gz)) with (ysw e). assert (A := yw_sw We). assert (B := ywf_lv We). destruct (is_pyra e); lia. }
  rewrite SW, E2, E3. change (9 =? nch 6 - 1) with true. cbv iota.
  set (o := 2 ^ (21 - zlen (repeat 9 n)) - 2 ^ (21 - zlen (repeat 9 n) - 1)) in LS.
  assert (P2 : 2 ^ (21 - zlen (repeat 9 n)) = 2 * 2 ^ k) by (rewrite ZW; unfold k; rewrite <- pow2_S by lia; f_equal; lia).
  assert (OE : o = 2 ^ k) by (unfold o; rewrite P2; replace (21 - zlen (repeat 9 n) - 1) with k by (rewrite ZW; unfold k; lia); lia).
  assert (EG : y_succ_rec true (addg e gx gy gz) n = y_succ_rec true (addg w (o + gx) (o + gy) (o + gz)) n).
  { destruct n as [|n']; [reflexivity|]. rewrite LS. cbn [y_succ_rec]. unfold addg, set_lv, ylv, yty, yx, yy, yz. cbn [yt lv ty sx sy sz ysw]. rewrite !Z.add_assoc. reflexivity. }
  rewrite EG, OE. rewrite ZW in P2. rewrite IH by lia. reflexivity.
Qed.
Lemma y_successor_last p : y_path p -> (forall q, ~ ynext p q) -> y_successor (y_walk p) (zlen p) = AssertFail.
Proof.
  intros H HN. assert (LP := y_path_len H). destruct (y_next_or_last H) as [(v & Hv)|E]; [destruct (HN v Hv)|]. set (n := length p) in *.
  assert (EZ : zlen p = Z.of_nat n) by reflexivity. rewrite EZ in *. rewrite E in *. unfold y_successor. rewrite Nat2Z.id.
  pose proof (@pow2_pos (21 - Z.of_nat n) ltac:(lia)). assert (A := @y_succ_rec_last n ltac:(lia) 0 0 0 ltac:(lia) ltac:(lia) ltac:(lia)). rewrite addg_0 in A.
  destruct n as [|n']; [reflexivity|]. destruct (y_walk_wf H) as [We Le]. rewrite zlen_repeat in Le. rewrite <- A. cbn [y_succ_rec]. rewrite <- Le.
  set (e := y_walk (repeat 9 (S n'))) in *.
  assert (ES : set_lv e (ylv e) = e) by (unfold set_lv, ylv, yty, yx, yy, yz; destruct e as [[? ? ? ? ?] ?]; reflexivity). rewrite ES.
  assert (SW : (ylv e <? ysw e) = false). { assert (B := yw_sw We). assert (C := ywf_lv We). destruct (is_pyra e); lia. }
  rewrite SW. reflexivity.
Qed.

(** ** ids *)
Lemma y_descend_in p n e : y_path p -> zlen p + Z.of_nat n <= 21 -> In e (y_descend n (y_walk p)) <-> exists r, y_path (p ++ r) /\ length r = n /\ e = y_walk (p ++ r).
Proof.
  revert p e. induction n as [|n IH]; intros p e H HL.
  - cbn [y_descend In]. split; [intros [<-|[]]; exists []; rewrite app_nil_r; auto|]. intros (r & _ & E & ->). apply length_zero_iff_nil in E. subst r. rewrite app_nil_r. auto.
  - cbn [y_descend]. rewrite in_flat_map, y_children_walk by exact H. split.
    + intros (c & Hc & He). apply in_map_iff in Hc. destruct Hc as (i & <- & Hi). apply in_zseq in Hi.
      assert (Hp : y_path (p ++ [i])) by (apply y_path_snoc; rewrite nch_num, y_walk_tend by exact H; repeat split; auto; unfold nch in *; destruct (_ <? _); lia).
      apply IH in He; [|exact Hp|rewrite zlen_app; change (zlen [i]) with 1; lia]. destruct He as (r & Hr & L & ->). exists (i :: r). rewrite <- app_assoc in *. cbn [app length] in *. split; [exact Hr|split; [lia|reflexivity]].
    + intros ([|i r] & Hr & L & ->); [discriminate L|]. change (i :: r) with ([i] ++ r) in Hr |- *. rewrite app_assoc in *. assert (Hp := y_path_app Hr). exists (y_walk (p ++ [i])). split.
      * apply in_map_iff. exists i. split; [reflexivity|]. apply y_path_snoc in Hp. destruct Hp as (_ & _ & Hi). rewrite nch_num, y_walk_tend in Hi by exact H. apply in_zseq. lia.
      * apply IH; [exact Hp|rewrite zlen_app; change (zlen [i]) with 1; lia|]. exists r. cbn [length] in L. auto.
Qed.
Lemma y_level_ids L : 0 <= L <= 21 -> map (fun e => y_linear_id e L) (y_descend (Z.to_nat L) y_root) = zseq 0 (Z.to_nat (2 * 8 ^ L - 6 ^ L)).
Proof.
  intros HL. change y_root with (y_walk []). rewrite (@y_descend_ids [] (Z.to_nat L) L yp_nil) by (change (zlen (@nil Z)) with 0; lia). cbn [ynum]. change (tend 6 []) with 6. rewrite Z2Nat.id by lia. reflexivity.
Qed.
Lemma y_element_of_id L id : 0 <= L <= 21 -> 0 <= id < 2 * 8 ^ L - 6 ^ L ->
  exists p, y_path p /\ zlen p = L /\ y_init_linear_id L id = Ok (y_walk p) /\ y_linear_id (y_walk p) L = id.
Proof.
  intros HL Hid. assert (E := y_level_ids HL). assert (I : In id (zseq 0 (Z.to_nat (2 * 8 ^ L - 6 ^ L)))) by (apply in_zseq; lia). rewrite <- E in I.
  apply in_map_iff in I. destruct I as (e & EI & Hin). change y_root with (y_walk []) in Hin. apply y_descend_in in Hin; [|constructor|change (zlen (@nil Z)) with 0; lia].
  destruct Hin as (p & Hp & LP & ->). cbn [app] in *. exists p. assert (ZP : zlen p = L) by (unfold zlen; lia). split; [exact Hp|]. split; [exact ZP|]. split; [|exact EI].
  rewrite <- ZP in EI |- *. rewrite y_linear_id_own in EI by exact Hp. subst id. now apply y_init_linear_id_walk.
Qed.
Lemma y_id_range p : y_path p -> 0 <= y_linear_id (y_walk p) (zlen p) < 2 * 8 ^ zlen p - 6 ^ zlen p.
Proof.
  intros H. rewrite y_linear_id_own by exact H. assert (V := H). apply y_path_iff in V. destruct (@ynum_bound 6 p 0 ltac:(lia) ltac:(lia) (proj1 V)) as [A B]. rewrite ysz_0, Z.add_0_r in B. unfold ysz in B. cbn [Z.ltb Z.compare Pos.compare Pos.compare_cont] in B. lia.
Qed.
Lemma y_id_inj p q : y_path p -> y_path q -> zlen p = zlen q -> y_linear_id (y_walk p) (zlen p) = y_linear_id (y_walk q) (zlen p) -> p = q.
Proof.
  intros Hp Hq E N. rewrite y_linear_id_own in N by exact Hp. rewrite E, y_linear_id_own in N by exact Hq. apply y_path_iff in Hp. apply y_path_iff in Hq. eapply (@ynum_inj 6 p q 0); try lia; try apply Hp; try apply Hq; auto.
Qed.
Lemma y_successor_spec p : y_path p -> y_linear_id (y_walk p) (zlen p) + 1 < 2 * 8 ^ zlen p - 6 ^ zlen p ->
  exists q, y_path q /\ zlen q = zlen p /\ y_successor (y_walk p) (zlen p) = Ok (y_walk q) /\ y_linear_id (y_walk q) (zlen p) = y_linear_id (y_walk p) (zlen p) + 1.
Proof.
  intros H HN. destruct (ynext_exists H) as [(v & Hv)|A].
  - exists v. assert (Pv := ynext_path Hv H). assert (ZV : zlen v = zlen p) by (unfold zlen; now rewrite (ynext_len Hv)). destruct (y_walk_wf H) as [_ L]. split; [exact Pv|]. split; [exact ZV|]. split.
    + rewrite <- L. now apply y_successor_walk.
    + rewrite <- ZV at 1. rewrite !y_linear_id_own by auto. rewrite (@ynext_num p v 0 Hv H) by lia. now rewrite ysz_0.
  - exfalso. rewrite y_linear_id_own in HN by exact H. specialize (A 0 ltac:(lia)). rewrite ysz_0, Z.add_0_r in A. unfold ysz in A. cbn [Z.ltb Z.compare Pos.compare Pos.compare_cont] in A. lia.
Qed.
Lemma y_successor_none p : y_path p -> y_linear_id (y_walk p) (zlen p) + 1 = 2 * 8 ^ zlen p - 6 ^ zlen p -> y_successor (y_walk p) (zlen p) = AssertFail.
Proof.
  intros H HN. apply y_successor_last; [exact H|]. intros q Hq. assert (Pq := ynext_path Hq H). assert (ZV : zlen q = zlen p) by (unfold zlen; now rewrite (ynext_len Hq)).
  assert (R := y_id_range Pq). rewrite ZV in R. rewrite <- ZV in R at 2. rewrite y_linear_id_own in HN by exact H. rewrite <- ZV in R. rewrite y_linear_id_own in R by exact Pq. rewrite (@ynext_num p q 0 Hq H), ysz_0 in R by lia. rewrite ZV in R. lia.
Qed.
(** the ids of the descendants of an element are one interval, bounded by the ids of its first and last descendant *)
Lemma y_descendant_ids p q : y_path p -> y_path q -> zlen p <= zlen q ->
  exists f l, y_first_descendant (y_walk p) (zlen q) = Ok f /\ y_last_descendant (y_walk p) (zlen q) = Ok l /\
  (y_linear_id f (zlen q) <= y_linear_id (y_walk q) (zlen q) <= y_linear_id l (zlen q) <-> prefix p q).
Proof.
  intros Hp Hq HL. assert (LQ := y_path_len Hq). eexists. eexists. split; [apply y_first_descendant_walk; auto; lia|]. split; [apply y_last_descendant_walk; auto; lia|].
  set (n := Z.to_nat (zlen q - zlen p)). assert (HZ := @y_path_zeros p n Hp ltac:(unfold n; lia)). assert (HZ' := @y_path_lasts p n Hp ltac:(unfold n; lia)).
  assert (Z1 : zlen (p ++ repeat 0 n) = zlen q) by (rewrite zlen_app, zlen_repeat; unfold n; lia).
  assert (Z2 : zlen (p ++ repeat (lastc (tend 6 p)) n) = zlen q) by (rewrite zlen_app, zlen_repeat; unfold n; lia).
  assert (Ht : 0 <= tend 6 p < 8) by (apply tend_type; [lia|now apply y_path_iff in Hp]).
  assert (I1 := y_linear_id_own HZ). assert (I2 := y_linear_id_own HZ'). rewrite Z1 in I1. rewrite Z2 in I2. fold n. rewrite I1, I2, y_linear_id_own by exact Hq.
  rewrite !ynum_app, !zlen_repeat, Z.add_0_r. destruct (@zeros_facts (tend 6 p) n 0 Ht) as (_ & _ & ->). destruct (@lasts_facts (tend 6 p) n 0 Ht ltac:(lia)) as (_ & _ & E).
  rewrite ysz_0, Z.add_0_r in E. rewrite Z.add_0_r.
  assert (Vp := Hp). assert (Vq := Hq). apply y_path_iff in Vp. apply y_path_iff in Vq. split.
  - intros [A B]. set (u := firstn (length p) q). set (r := skipn (length p) q). assert (EQ : q = u ++ r) by (symmetry; apply firstn_skipn).
    assert (LU : length u = length p) by (unfold u; rewrite firstn_length; unfold zlen in *; lia). assert (LR : zlen r = Z.of_nat n) by (unfold r, zlen; rewrite skipn_length; unfold n, zlen in *; lia).
    destruct Vq as [Vq _]. rewrite EQ in Vq. apply vpath_app in Vq. destruct Vq as [Vu Vr]. exists r. rewrite EQ. f_equal.
    rewrite EQ, ynum_app, Z.add_0_r, LR in A, B. assert (Tu : 0 <= tend 6 u < 8) by (apply tend_type; [lia|exact Vu]). destruct (@ynum_bound (tend 6 u) r 0 Tu ltac:(lia) Vr) as [N0 N1]. rewrite ysz_0, LR, Z.add_0_r in N1.
    destruct (@ynum_cmp 6 u p (Z.of_nat n) (Z.of_nat n) ltac:(lia) ltac:(lia) ltac:(lia) Vu (proj1 Vp)) as (C1 & C2 & C3); [unfold zlen; lia|].
    assert (EN : forall a b, vpath 6 a -> vpath 6 b -> length a = length b -> ynum 6 a (Z.of_nat n) < ynum 6 b (Z.of_nat n) -> ynum 6 a (Z.of_nat n) + ysz (tend 6 a) (Z.of_nat n) <= ynum 6 b (Z.of_nat n)).
    { clear. intros a b. assert (H6 : 0 <= 6 < 8) by lia. revert H6. generalize 6. revert b. induction a as [|i a IH]; intros [|j b] t Ht Va Vb L LT; try discriminate L; [cbn [ynum] in LT; lia|].
      cbn [length] in L. injection L as L. destruct (Z.lt_trichotomy i j) as [C|[C|C]].
      - apply ynum_lt; auto; try lia. unfold zlen. lia.
      - subst j. destruct Va as [Ia Va]. destruct Vb as [_ Vb]. cbn [ynum] in *. change (tend t (i :: a)) with (tend (YT t i) a). destruct (tabT Ht Ia) as (T & _).
        assert (ZA : zlen a = zlen b) by (unfold zlen; lia). rewrite ZA in *. pose proof (IH b (YT t i) T Va Vb L ltac:(lia)). lia.
      - pose proof (@ynum_lt t j i b a (Z.of_nat n) (Z.of_nat n) Ht ltac:(lia) ltac:(lia) Vb Va ltac:(unfold zlen; lia) C). pose proof (@ysz_pos (tend t (j :: b)) (Z.of_nat n) ltac:(lia)). lia. }
    apply (@ynum_inj 6 u p (Z.of_nat n)); auto; try lia; [apply Vp|unfold zlen; lia|].
    destruct (Z.lt_trichotomy (ynum 6 u (Z.of_nat n)) (ynum 6 p (Z.of_nat n))) as [C|[C|C]]; [|exact C|].
    + pose proof (EN u p Vu (proj1 Vp) LU C). lia.
    + pose proof (EN p u (proj1 Vp) Vu (eq_sym LU) C). lia.
  - intros (r & EQ). assert (LR : zlen r = Z.of_nat n) by (unfold n; rewrite EQ, zlen_app; unfold zlen; lia). destruct Vq as [Vq _]. rewrite EQ in Vq |- *. apply vpath_app in Vq. destruct Vq as [_ Vr].
    rewrite ynum_app, Z.add_0_r, LR. destruct (@ynum_bound (tend 6 p) r 0 Ht ltac:(lia) Vr) as [N0 N1]. rewrite ysz_0, LR, Z.add_0_r in N1. lia.
Qed.

(** ** counts *)
Lemma y_descend_length p n : y_path p -> zlen p + Z.of_nat n <= 21 -> Z.of_nat (length (y_descend n (y_walk p))) = ysz (tend 6 p) (Z.of_nat n).
Proof.
  intros H HL. rewrite <- (map_length (fun e => y_linear_id e (zlen p + Z.of_nat n))). rewrite (@y_descend_ids p n _ H eq_refl HL), zseq_length. pose proof (@ysz_pos (tend 6 p) (Z.of_nat n) ltac:(lia)). lia.
Qed.
Lemma y_count_leaves_num p L : y_path p -> zlen p <= L <= 21 -> L - zlen p < 21 -> y_count_leaves (y_walk p) L = Z.of_nat (length (y_descend (Z.to_nat (L - zlen p)) (y_walk p))).
Proof.
  intros H HL HD. rewrite y_descend_length by (auto; lia). rewrite Z2Nat.id by lia. destruct (y_walk_wf H) as [_ V]. unfold y_count_leaves. rewrite V.
  set (d := L - zlen p) in *. unfold ysz. assert (P68 := @pow68 d ltac:(unfold d; lia)).
  assert (B : 8 ^ d <= 8 ^ 20) by (apply Z.pow_le_mono_r; lia). change (8 ^ 20) with 1152921504606846976 in B. destruct (is_pyra (y_walk p)) eqn:P.
  - apply is_pyra_iff in P. rewrite y_walk_tend in P by exact H. destruct (Z.ltb_spec (tend 6 p) 6); [lia|]. destruct (Z.ltb_spec L (zlen p)); [lia|].
    apply i64_small. change (2 ^ 63) with 9223372036854775808. lia.
  - apply is_tet_iff in P. rewrite y_walk_tend in P by exact H. destruct (Z.ltb_spec (tend 6 p) 6); [|lia]. unfold count_leaves_from_level. fold d. destruct (Z.ltb_spec L (zlen p)); [lia|].
    rewrite ?shiftl1_pow by lia. rewrite Z.pow_mul_r by lia. change (2 ^ 3) with 8. try (apply i64_small; change (2 ^ 63) with 9223372036854775808; lia); reflexivity.
Qed.

(** ** descendants at the corners of tetrahedra *)
Lemma y_chain_walk n p i : y_child_chain n (y_walk p) i = y_walk (p ++ repeat i n).
Proof. revert p. induction n as [|n IH]; intros p; cbn [y_child_chain repeat]; [now rewrite app_nil_r|]. rewrite <- y_walk_snoc, IH, <- app_assoc. reflexivity. Qed.
Lemma tab_ends t : 0 <= t < 6 -> parenttype_beyid_to_Iloc true t 0 = 0 /\ parenttype_beyid_to_Iloc true t 3 = 7.
Proof. intros Ht. assert (A : forallb (fun t => (parenttype_beyid_to_Iloc true t 0 =? 0) && (parenttype_beyid_to_Iloc true t 3 =? 7)) (zseq 0 6) = true) by (vm_compute; reflexivity). rewrite forallb_forall in A. specialize (A t ltac:(apply in_zseq; lia)). lia. Qed.
Lemma y_tet_child p i : y_path p -> is_pyra (y_walk p) = false -> zlen p < 21 -> 0 <= i < 8 -> y_path (p ++ [i]) /\ is_pyra (y_walk (p ++ [i])) = false /\ yt (y_walk (p ++ [i])) = child true (yt (y_walk p)) i.
Proof.
  intros H P HL Hi. assert (Hp : y_path (p ++ [i])) by (apply y_path_snoc; unfold y_num_children; rewrite P; auto). split; [exact Hp|].
  assert (E := @y_walk_tet p [i] P Hp). split; [|rewrite E; reflexivity]. apply is_tet_iff. rewrite y_walk_tend by exact Hp. rewrite tend_app. change (tend (tend 6 p) [i]) with (YT (tend 6 p) i). rewrite <- y_walk_tend by exact H.
  apply is_tet_iff in P. destruct (y_walk_wf H) as [W _]. destruct (@tabT (yty (y_walk p)) i (yw_ty W)) as (_ & T & _); [unfold nch; destruct (Z.ltb_spec (yty (y_walk p)) 6); lia|]. auto.
Qed.
Lemma y_corner_path p c n : y_path p -> is_pyra (y_walk p) = false -> zlen p + Z.of_nat n <= 21 -> 0 <= c < 4 -> let i := parenttype_beyid_to_Iloc true (yty (y_walk p)) c in
  y_path (p ++ repeat i n) /\ is_pyra (y_walk (p ++ repeat i n)) = false /\ yty (y_walk (p ++ repeat i n)) = yty (y_walk p) /\
  y_integer_coords (y_walk (p ++ repeat i n)) c = y_integer_coords (y_walk p) c.
Proof.
  intros H P HL Hc i. induction n as [|n IH]; [cbn [repeat]; rewrite app_nil_r; auto|]. destruct IH as (I1 & I2 & I3 & I4); [lia|].
  assert (E : p ++ repeat i (S n) = (p ++ repeat i n) ++ [i]) by (rewrite <- app_assoc; f_equal; cbn [repeat]; apply repeat_cons). rewrite E.
  destruct (y_walk_wf I1) as [W L]. assert (WT := ywf_tet W I2). rewrite zlen_app, zlen_repeat in L.
  destruct (@corner_child true (yt (y_walk (p ++ repeat i n))) c WT) as (D1 & D2 & D3); [change (lv (yt (y_walk (p ++ repeat i n)))) with (ylv (y_walk (p ++ repeat i n))); change (MAXLEVEL true) with 21; lia|exact Hc|].
  change (ty (yt (y_walk (p ++ repeat i n)))) with (yty (y_walk (p ++ repeat i n))) in *. rewrite I3 in D1, D2, D3. fold i in D1, D2, D3. change (CHILDREN true) with 8 in D1.
  destruct (@y_tet_child (p ++ repeat i n) i I1 I2) as (J1 & J2 & J3); [rewrite zlen_app, zlen_repeat; lia|exact D1|]. split; [exact J1|]. split; [exact J2|]. split.
  - unfold yty at 1. rewrite J3. exact D2.
  - rewrite <- I4. unfold y_integer_coords. rewrite J2, I2, J3. exact D3.
Qed.
Lemma y_corner_descendant_walk p c L : y_path p -> is_pyra (y_walk p) = false -> zlen p < L <= 21 -> 0 <= c < 4 -> let i := parenttype_beyid_to_Iloc true (yty (y_walk p)) c in
  y_corner_descendant (y_walk p) c L = Ok (Some (y_walk (p ++ repeat i (Z.to_nat (L - zlen p))))).
Proof.
  intros H P HL Hc i. destruct (y_walk_wf H) as [W LV]. assert (Ht := yw_ty W). assert (T6 := P). apply is_tet_iff in T6. destruct (@tab_ends (yty (y_walk p)) ltac:(lia)) as [T0 T3].
  unfold y_corner_descendant. destruct (Z.eqb_spec c 0) as [->|N0]; [|destruct (Z.eqb_spec c 1) as [->|N1]; [|destruct (Z.eqb_spec c 2) as [->|N2]; [|assert (c = 3) as -> by lia]]]; cbn [orb].
  - rewrite y_first_descendant_walk by (auto; lia). unfold i. rewrite T0. reflexivity.
  - rewrite LV, y_chain_walk. fold i. destruct (Z.to_nat (L - zlen p)) eqn:EN; [lia|reflexivity].
  - rewrite LV, y_chain_walk. fold i. destruct (Z.to_nat (L - zlen p)) eqn:EN; [lia|reflexivity].
  - rewrite y_last_descendant_walk by (auto; lia). unfold i. rewrite T3. unfold lastc. rewrite <- y_walk_tend by exact H. unfold nch. destruct (Z.ltb_spec (yty (y_walk p)) 6); [reflexivity|lia].
Qed.
Lemma y_id_other_levels p L : y_path p ->
  (0 <= L <= zlen p -> y_linear_id (y_walk p) L = y_linear_id (y_walk (firstn (Z.to_nat L) p)) L) /\
  (zlen p <= L <= 21 -> exists f, y_first_descendant (y_walk p) L = Ok f /\ y_linear_id (y_walk p) L = y_linear_id f L).
Proof.
  intros H. split; intros HL.
  - assert (LL : (Z.to_nat L <= length p)%nat) by (unfold zlen in HL; lia). assert (E := y_linear_id_coarse H LL). rewrite Z2Nat.id in E by lia. rewrite E.
    assert (HF := @y_path_firstn p (Z.to_nat L) H). assert (ZF : zlen (firstn (Z.to_nat L) p) = L) by (rewrite zlen_firstn_le by exact LL; lia). rewrite <- ZF at 3. rewrite y_linear_id_own by exact HF. reflexivity.
  - eexists. split; [apply y_first_descendant_walk; auto|]. set (n := Z.to_nat (L - zlen p)). assert (HZ := @y_path_zeros p n H ltac:(unfold n; lia)).
    assert (Z1 : zlen (p ++ repeat 0 n) = L) by (rewrite zlen_app, zlen_repeat; unfold n; lia). assert (I1 := y_linear_id_own HZ). rewrite Z1 in I1. rewrite I1, y_linear_id_fine by auto.
    rewrite ynum_app, zlen_repeat, Z.add_0_r. destruct (@zeros_facts (tend 6 p) n 0) as (_ & _ & ->); [apply tend_type; [lia|now apply y_path_iff in H]|]. rewrite Z.add_0_r. f_equal. unfold n. lia.
Qed.

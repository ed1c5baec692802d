(** Elements from ids, descendants, successors and nearest common ancestors in pyramid trees. *)
From Verif Require Import Prelude PathSpec BitLemmas SimplexModel SimplexSpec SimplexProofs SimplexPathProofs SimplexOrderProofs SimplexGeoProofs SimplexAncProofs.
From Verif Require Import PyramidModel PyramidSpec PyramidProofs PyramidAncProofs PyramidIdProofs.

(** ** descendants of a tetrahedron *)
Lemma y_walk_tet u r : is_pyra (y_walk u) = false -> y_path (u ++ r) -> y_walk (u ++ r) = Pyr (fold_left (child true) r (yt (y_walk u))) (ysw (y_walk u)).
Proof.
  intros P. induction r as [|i r IH] using rev_ind; intros H; [rewrite app_nil_r; now destruct (y_walk u)|].
  rewrite app_assoc in *. rewrite y_walk_snoc, fold_left_app. cbn [fold_left].
  assert (PT : is_pyra (y_walk (u ++ r)) = false).
  { assert (A := @y_tet_later ((u ++ r) ++ [i]) (length u) (length (u ++ r)) H). rewrite !firstn_app, !app_length, firstn_all in A. cbn [length] in A.
    replace (length u - length u)%nat with 0%nat in A by lia. replace (length u - (length u + length r))%nat with 0%nat in A by lia.
    replace (length u + length r - (length u + length r))%nat with 0%nat in A by lia. replace (length u + length r - length u)%nat with (length r) in A by lia. cbn [firstn] in A.
    rewrite !app_nil_r, firstn_all2, firstn_all in A by lia. apply A; [lia|exact P]. }
  unfold y_child. rewrite PT. rewrite (IH (y_path_app H)). reflexivity.
Qed.
Lemma vpath_tet t r : 0 <= t < 6 -> vpath t r <-> valid_path 8 r.
Proof.
  revert t. induction r as [|i r IH]; intros t Ht; [split; [constructor|intros; exact Logic.I]|]. cbn [vpath]. assert (N : nch t = 8) by (unfold nch; destruct (Z.ltb_spec t 6); lia). rewrite N.
  split.
  - intros [Hi Hr]. constructor; [exact Hi|]. apply IH in Hr; [exact Hr|]. destruct (@tabT t i ltac:(lia) ltac:(lia)) as (A & B & _). specialize (B ltac:(lia)). lia.
  - intros H. inversion H as [|? ? Hi Hr]; subst. split; [exact Hi|]. apply IH; [|exact Hr]. destruct (@tabT t i ltac:(lia) ltac:(lia)) as (A & B & _). specialize (B ltac:(lia)). lia.
Qed.
Lemma ynum_tet t r k : 0 <= t < 6 -> vpath t r -> 0 <= k -> ynum t r k = num 8 r * 8 ^ k.
Proof.
  revert t. induction r as [|i r IH]; intros t Ht H Hk; [reflexivity|]. destruct H as [Hi H]. cbn [ynum]. rewrite num_cons.
  assert (N : nch t = 8) by (unfold nch; destruct (Z.ltb_spec t 6); lia). destruct (@tabT t i ltac:(lia) Hi) as (A & B & _). rewrite IH by (auto; lia).
  unfold off, np. destruct (Z.ltb_spec t 6); [|lia]. rewrite Z.pow_add_r by (unfold zlen; lia). ring.
Qed.
Lemma init_loop_from e r hi L : wf true e -> lv e + zlen r = L -> L <= 21 -> valid_path 8 r -> 0 <= hi ->
  init_loop true (hi * 8 ^ zlen r + num 8 r) L (length r) (lv e + 1) (ty e) (sx e) (sy e) (sz e) = fold_left (child true) r e.
Proof.
  revert e hi. induction r as [|i r IH]; intros e hi We HL HM V Hh.
  - cbn [length init_loop fold_left]. change (zlen (@nil Z)) with 0 in HL. rewrite Z.add_0_r in HL. subst L. now destruct e.
  - cbn [length init_loop fold_left]. inversion V as [|? ? Hi Vr]; subst. assert (Z0 : 0 <= zlen r) by (unfold zlen; lia).
    set (L := lv e + zlen (i :: r)) in *. assert (EL : L = lv e + zlen r + 1) by (unfold L, zlen; cbn [length]; lia).
    set (id := hi * 8 ^ zlen (i :: r) + num 8 (i :: r)).
    assert (Eid : id = (hi * 8 + i) * 8 ^ zlen r + num 8 r).
    { unfold id. rewrite num_cons. replace (zlen (i :: r)) with (zlen r + 1) by (unfold zlen; cbn [length]; lia). rewrite Z.pow_add_r by lia. ring. }
    pose proof (@num_range 8 r ltac:(lia) Vr) as NR.
    assert (EI : Z.land (Z.shiftr id (DIM true * (L - (lv e + 1)))) (CHILDREN true - 1) = i).
    { rewrite land_children, Z.shiftr_div_pow2 by (change (DIM true) with 3; lia). change (DIM true) with 3. change (CHILDREN true) with 8.
      replace (L - (lv e + 1)) with (zlen r) by lia. rewrite Z.pow_mul_r by lia. change (2 ^ 3) with 8. rewrite Eid, Z.div_add_l, Z.div_small, Z.add_0_r by lia.
      rewrite Z.add_comm, Z.mod_add, Z.mod_small by lia. reflexivity. }
    rewrite EI. assert (We' := We). destruct We' as [Hlv Ht Ax Ay Az _ _ _ _]. change (MAXLEVEL true) with 21 in *. change (NUM_TYPES true) with 6 in *.
    assert (HK : 0 <= 21 - lv e - 1) by lia. replace (21 - lv e) with (21 - lv e - 1 + 1) in Ax, Ay, Az by lia.
    change (parenttype_Iloc_to_cid true (ty e) i) with (Tc true (ty e) i). change (parenttype_Iloc_to_type true (ty e) i) with (Tt true (ty e) i).
    destruct (cid_mask (Tc true (ty e) i)) as (M0 & M1 & M2). replace (21 - (lv e + 1)) with (21 - lv e - 1) by lia.
    rewrite (or_bit_add HK Ax M0), (or_bit_add HK Ay M1), (or_bit_add HK Az M2). rewrite Eid.
    assert (CS := @child_step true e i ltac:(exact Ht) ltac:(change (CHILDREN true) with 8; lia) ltac:(change (MAXLEVEL true) with 21; lia)).
    assert (WC : wf true (child true e i)).
    { rewrite CS. apply wf_step; [exact We|change (MAXLEVEL true) with 21; lia|]. destruct (@tab_tet (ty e) i Ht ltac:(lia)) as [<- _].
      destruct (@tabT (ty e) i ltac:(lia) ltac:(unfold nch; destruct (Z.ltb_spec (ty e) 6); lia)) as (A & B & _). specialize (B ltac:(lia)). change (NUM_TYPES true) with 6. lia. }
    assert (LC : lv (child true e i) = lv e + 1) by (rewrite CS; reflexivity).
    specialize (IH (child true e i) (hi * 8 + i) WC ltac:(lia) HM Vr ltac:(lia)). rewrite LC in IH. rewrite <- IH.
    rewrite CS. reflexivity.
Qed.
(** ** elements from ids *)
Lemma lor_bit_add v k (b : bool) : 0 <= k -> al (k + 1) v -> Z.lor v (if b then Z.shiftl 1 k else 0) = v + Z.b2z b * 2 ^ k.
Proof.
  intros Hk Hv. assert (E := @or_bit_add v (Z.b2z b) 1 k b Hk Hv ltac:(now destruct b)). unfold or_bit in E. rewrite <- E. destruct b; reflexivity.
Qed.
Lemma y_update_loop_spec n t k id i j : 6 <= t < 8 -> 0 <= k -> 0 <= j <= i -> i < 10 -> (Z.to_nat (i - j) < n)%nat -> off t i k <= id < off t i k + ysz (YT t i) k ->
  y_update_loop n t (2 * 8 ^ k - 6 ^ k) (8 ^ k) id (j - 1) (off t j k) = Ok (i, id - off t i k).
Proof.
  intros Ht Hk. revert j. induction n as [|n IH]; intros j Hj Hi Hn Hid; [lia|]. cbn [y_update_loop]. replace (j - 1 + 1) with j by lia. change FIRST_TYPE with 6.
  assert (N : nch t = 10) by (unfold nch; destruct (Z.ltb_spec t 6); lia).
  assert (E : (if 6 <=? y_Iloc_to_type t j then 2 * 8 ^ k - 6 ^ k else 8 ^ k) = ysz (YT t j) k) by (unfold ysz; destruct (Z.leb_spec 6 (YT t j)); destruct (Z.ltb_spec (YT t j) 6); lia).
  rewrite E. destruct (Z.leb_spec (off t j k + ysz (YT t j) k) id) as [C|C].
  - assert (j < i) by (destruct (Z.eq_dec j i) as [->|]; lia). rewrite <- off_S by lia. replace j with (j + 1 - 1) at 1 by lia. apply IH; auto; lia.
  - destruct (Z.eq_dec j i) as [->|Hne]; [reflexivity|]. pose proof (@off_mono t j i k ltac:(lia) Hk ltac:(lia) ltac:(lia)). lia.
Qed.
Lemma shiftr_pow8 n : 0 <= n -> Z.shiftr (8 ^ (n + 1)) 3 = 8 ^ n.
Proof. intros H. rewrite Z.shiftr_div_pow2 by lia. change (2 ^ 3) with 8. rewrite Z.pow_add_r by lia. apply Z.div_mul. lia. Qed.
Lemma div_pow6 n : 0 <= n -> 6 ^ (n + 1) / 6 = 6 ^ n.
Proof. intros H. rewrite Z.pow_add_r by lia. apply Z.div_mul. lia. Qed.
(** the children of pyramids *)
Lemma cid_conds c : 0 <= c < 8 -> (c mod 2 =? 1) = Z.testbit c 0 /\ ((c =? 2) || (c =? 3) || (c =? 6) || (c =? 7)) = Z.testbit c 1 /\ (3 <? c) = Z.testbit c 2.
Proof. intros H. split_range H; repeat split; reflexivity. Qed.
Lemma y_init_loop_walk u r L : y_path (u ++ r) -> L = zlen (u ++ r) -> (is_pyra (y_walk u) = false -> (yty (y_walk u) = 0 \/ yty (y_walk u) = 3) /\ ysw (y_walk u) = zlen u) ->
  let e := y_walk u in
  y_init_loop L (length r) (zlen u + 1) (yty e) (yx e) (yy e) (yz e) (8 ^ zlen r) (6 ^ zlen r) (ynum (yty e) r 0) = Ok (y_walk (u ++ r)).
Proof.
  revert u. induction r as [|i r IH]; intros u H HL HT e.
  - rewrite app_nil_r in *. cbn [length y_init_loop ynum]. destruct (y_walk_wf H) as [Wu Lu]. assert (SW := yw_sw Wu). change (0 =? 0) with true. cbv iota. f_equal. fold e in Wu, Lu, SW, HT |- *.
    change FIRST_TYPE with 6. assert (EY : Simp L (yty e) (yx e) (yy e) (yz e) = yt e).
    { rewrite HL, <- Lu. unfold ylv, yty, yx, yy, yz. now destruct (yt e). }
    rewrite EY. destruct (is_pyra e) eqn:P.
    + apply is_pyra_iff in P. destruct (Z.ltb_spec (yty e) 6); [lia|]. destruct e as [te se]. cbn [ysw yt] in *. now subst.
    + destruct (HT eq_refl) as [_ HS]. apply is_tet_iff in P. destruct (Z.ltb_spec (yty e) 6); [|lia]. rewrite HL, <- HS. now destruct e.
  - assert (Hu := y_path_app H). destruct (y_walk_wf Hu) as [Wu Lu]. fold e in Wu, Lu, HT. assert (LT := y_path_len H).
    replace (zlen (i :: r)) with (zlen r + 1) by (unfold zlen; cbn [length]; lia). assert (Z0 : 0 <= zlen r) by (unfold zlen; lia).
    assert (VT : vpath (yty e) (i :: r)) by (apply y_path_iff in H; rewrite vpath_app in H; unfold e; rewrite y_walk_tend by exact Hu; apply H).
    assert (LR : zlen (u ++ i :: r) = zlen u + zlen r + 1) by (rewrite zlen_app; unfold zlen; cbn [length]; lia).
    cbn [length y_init_loop]. rewrite shiftr_pow8, div_pow6 by lia. destruct (is_pyra e) eqn:P.
    + assert (PP := P). apply is_pyra_iff in P. assert (T6 := yw_ty Wu). assert (E03 : (yty e =? 0) || (yty e =? 3) = false) by lia. rewrite E03.
      destruct VT as [Hi Vr]. assert (N : nch (yty e) = 10) by (unfold nch; destruct (Z.ltb_spec (yty e) 6); lia).
      destruct (tabT T6 Hi) as (T1 & _ & T3). destruct (@ynum_bound (YT (yty e) i) r 0 T1 ltac:(lia) Vr) as [B1 B2]. rewrite Z.add_0_r, ysz_0 in B2.
      cbn [ynum]. rewrite Z.add_0_r. unfold y_update_index. assert (U := @y_update_loop_spec 10 (yty e) (zlen r) (off (yty e) i (zlen r) + ynum (YT (yty e) i) r 0) i 0 ltac:(lia) Z0 ltac:(lia) ltac:(lia) ltac:(lia) ltac:(lia)).
      rewrite off_0 in U by lia. change (0 - 1) with (-1) in U. rewrite U. cbn [obind fst snd]. replace (off (yty e) i (zlen r) + ynum (YT (yty e) i) r 0 - off (yty e) i (zlen r)) with (ynum (YT (yty e) i) r 0) by lia.
      destruct (cid_conds T3) as (-> & -> & ->). change YMAX with 21. destruct (yw_cb Wu) as [_ _ Ax Ay Az _ _ _ _]. cbn [cb lv sx sy sz] in Ax, Ay, Az. change (MAXLEVEL true) with 21 in *.
      rewrite Lu in Ax, Ay, Az. replace (21 - zlen u) with (21 - (zlen u + 1) + 1) in Ax, Ay, Az by lia.
      rewrite !lor_bit_add by (auto; lia).
      replace (u ++ i :: r) with ((u ++ [i]) ++ r) in * by (rewrite <- app_assoc; reflexivity).
      assert (Hui := y_path_app H). assert (Hui' := Hui). apply y_path_snoc in Hui'. destruct Hui' as (_ & Hlu & Hiu). fold e in Hiu.
      assert (ES : y_walk (u ++ [i]) = Pyr (step true (yt e) (YT (yty e) i) (YC (yty e) i)) (child_sw e (YT (yty e) i))) by (rewrite y_walk_snoc; apply y_child_step; auto; lia).
      specialize (IH (u ++ [i]) H HL).
      assert (E1 : yty (y_walk (u ++ [i])) = YT (yty e) i) by (rewrite ES; reflexivity).
      assert (E2 : yx (y_walk (u ++ [i])) = yx e + Z.b2z (Z.testbit (YC (yty e) i) 0) * 2 ^ (21 - (zlen u + 1))) by (rewrite ES; replace (21 - (zlen u + 1)) with (21 - ylv e - 1) by lia; reflexivity).
      assert (E3 : yy (y_walk (u ++ [i])) = yy e + Z.b2z (Z.testbit (YC (yty e) i) 1) * 2 ^ (21 - (zlen u + 1))) by (rewrite ES; replace (21 - (zlen u + 1)) with (21 - ylv e - 1) by lia; reflexivity).
      assert (E4 : yz (y_walk (u ++ [i])) = yz e + Z.b2z (Z.testbit (YC (yty e) i) 2) * 2 ^ (21 - (zlen u + 1))) by (rewrite ES; replace (21 - (zlen u + 1)) with (21 - ylv e - 1) by lia; reflexivity).
      cbv zeta in IH. rewrite E2, E3, E4 in IH. replace (zlen (u ++ [i]) + 1) with (zlen u + 1 + 1) in IH by (rewrite zlen_app; reflexivity). rewrite E1 in IH.
      apply IH. intros PT. assert (PT' : YT (yty e) i < 6) by (apply is_tet_iff in PT; rewrite E1 in PT; exact PT).
      rewrite ES. cbn [ysw]. destruct (tab_parent T6 Hi) as (_ & _ & P3 & _). destruct (P3 P PT') as [_ C]. split; [exact C|].
      unfold child_sw. rewrite PP. destruct (Z.ltb_spec (YT (yty e) i) 6); [|lia]. rewrite Lu. rewrite zlen_app. reflexivity.
    + destruct (HT eq_refl) as [T03 HS]. assert (E03 : (yty e =? 0) || (yty e =? 3) = true) by lia. rewrite E03. f_equal.
      rewrite y_walk_tet by (auto; exact P). fold e. rewrite HS. replace (zlen u + 1 - 1) with (zlen u) by lia. f_equal.
      unfold init_linear_id_with_level. cbn [sx sy sz]. assert (We := ywf_tet Wu P). assert (V8 : valid_path 8 (i :: r)) by (apply (@vpath_tet (yty e)); [lia|exact VT]).
      rewrite ynum_tet by (auto; lia). rewrite Z.pow_0_r, Z.mul_1_r. rewrite HL, LR.
      replace (Z.to_nat (zlen u + zlen r + 1 - (zlen u + 1) + 1)) with (length (i :: r)) by (unfold zlen; cbn [length]; lia).
      rewrite <- Lu. rewrite <- (@init_loop_from (yt e) (i :: r) 0 (zlen u + zlen r + 1)) by (auto; try (change (lv (yt e)) with (ylv e); unfold zlen; cbn [length]; unfold zlen in *; lia); lia).
      rewrite Z.mul_0_l, Z.add_0_l, Lu. change (lv (yt e)) with (ylv e). rewrite Lu. reflexivity.
Qed.
Lemma y_init_linear_id_walk p : y_path p -> y_init_linear_id (zlen p) (ynum 6 p 0) = Ok (y_walk p).
Proof.
  intros H. unfold y_init_linear_id. assert (E := @y_init_loop_walk [] p (zlen p) H eq_refl ltac:(discriminate)). cbn [app] in E.
  change (zlen (@nil Z) + 1) with 1 in E. change (yx (y_walk [])) with 0 in E. change (yy (y_walk [])) with 0 in E. change (yz (y_walk [])) with 0 in E.
  change (yty (y_walk [])) with ROOT_TYPE in E. change ROOT_TYPE with 6 in *. rewrite shiftl1_pow by (unfold zlen; lia).
  rewrite Z.pow_mul_r by (unfold zlen; lia). change (2 ^ 3) with 8. unfold zlen at 2. rewrite Nat2Z.id. exact E.
Qed.
(** ** descendants *)
Lemma y_path_lasts p n : y_path p -> zlen p + Z.of_nat n <= 21 -> y_path (p ++ repeat (lastc (tend 6 p)) n).
Proof.
  intros H Hn. apply y_path_iff in H. apply y_path_iff. rewrite vpath_app, zlen_app, zlen_repeat. split; [split; [apply H|]|lia].
  apply (@lasts_facts _ n 0); [|lia]. apply tend_type; [lia|apply H].
Qed.
Lemma y_first_descendant_walk p L : y_path p -> zlen p <= L <= 21 -> y_first_descendant (y_walk p) L = Ok (y_walk (p ++ repeat 0 (Z.to_nat (L - zlen p)))).
Proof.
  intros H HL. set (n := Z.to_nat (L - zlen p)). assert (HZ := @y_path_zeros p n H ltac:(lia)). assert (EW := @y_walk_zeros p n H ltac:(lia)).
  unfold y_first_descendant. destruct (y_walk_wf H) as [Wp V]. assert (SW := yw_sw Wp). destruct (is_pyra (y_walk p)) eqn:P.
  - rewrite EW. replace (zlen p + Z.of_nat n) with L by lia. f_equal. unfold set_sw, set_lv. cbn [yt ysw]. now rewrite SW.
  - rewrite y_linear_id_fine by auto. replace L with (zlen (p ++ repeat 0 n)) at 1 by (rewrite zlen_app, zlen_repeat; lia).
    replace (ynum 6 p (L - zlen p)) with (ynum 6 (p ++ repeat 0 n) 0); [now apply y_init_linear_id_walk|].
    rewrite ynum_app, zlen_repeat, Z.add_0_r. destruct (@zeros_facts (tend 6 p) n 0) as (_ & _ & ->); [apply tend_type; [lia|now apply y_path_iff in H]|].
    rewrite Z.add_0_r. f_equal. lia.
Qed.
(** the last descendant: all coordinates at their maximum *)
Lemma y_walk_lasts p n : y_path p -> zlen p + Z.of_nat n <= 21 -> let e := y_walk p in let o := 2 ^ (21 - zlen p) - 2 ^ (21 - zlen p - Z.of_nat n) in
  y_walk (p ++ repeat (lastc (tend 6 p)) n) = Pyr (Simp (zlen p + Z.of_nat n) (yty e) (yx e + o) (yy e + o) (yz e + o)) (ysw e).
Proof.
  intros H. cbv zeta. induction n as [|n IH]; intros Hn.
  - cbn [repeat]. change (Z.of_nat 0) with 0. rewrite app_nil_r, Z.add_0_r, Z.sub_0_r, Z.sub_diag, !Z.add_0_r. destruct (y_walk_wf H) as [_ L]. rewrite <- L.
    unfold ylv, yty, yx, yy, yz. destruct (y_walk p) as [[? ? ? ? ?] ?]. reflexivity.
  - set (c := lastc (tend 6 p)) in *. replace (repeat c (S n)) with (repeat c n ++ [c]) by (rewrite <- repeat_cons; reflexivity). rewrite app_assoc, y_walk_snoc, IH by lia.
    destruct (y_walk_wf H) as [Wp L]. assert (Ht := yw_ty Wp). assert (Et := y_walk_tend H). set (e := Pyr _ _).
    assert (NC : 0 <= c < y_num_children e) by (rewrite nch_num; change (yty e) with (yty (y_walk p)); rewrite Et; unfold c, lastc, nch; destruct (tend 6 p <? 6); lia).
    rewrite y_child_step; [|exact Ht|change (ylv e) with (zlen p + Z.of_nat n); lia|exact NC]. change (yty e) with (yty (y_walk p)). rewrite Et in *.
    destruct (tab_first Ht) as (_ & _ & T1 & T2). unfold c, lastc. rewrite T1, T2. unfold step. change (Z.testbit 7 0) with true. change (Z.testbit 7 1) with true. change (Z.testbit 7 2) with true.
    cbn [Z.b2z]. rewrite !Z.mul_1_l. unfold e. cbn [yt lv sx sy sz ysw]. change (MAXLEVEL true) with 21. replace (21 - (zlen p + Z.of_nat n) - 1) with (21 - zlen p - Z.of_nat (S n)) by lia.
    assert (P2 : 2 ^ (21 - zlen p - Z.of_nat n) = 2 * 2 ^ (21 - zlen p - Z.of_nat (S n))) by (rewrite <- pow2_S by lia; f_equal; lia).
    f_equal; [f_equal; lia|]. unfold child_sw. change (is_pyra (Pyr _ _)) with (is_pyra (y_walk p)). assert (SW := yw_sw Wp). 
    destruct (is_pyra (y_walk p)) eqn:P; [|reflexivity]. apply is_pyra_iff in P. rewrite Et in P. destruct (Z.ltb_spec (tend 6 p) 6); [lia|]. now rewrite SW.
Qed.
Lemma y_last_descendant_walk p L : y_path p -> zlen p <= L <= 21 -> y_last_descendant (y_walk p) L = Ok (y_walk (p ++ repeat (lastc (tend 6 p)) (Z.to_nat (L - zlen p)))).
Proof.
  intros H HL. set (n := Z.to_nat (L - zlen p)). assert (HZ := @y_path_lasts p n H ltac:(lia)). assert (EW := @y_walk_lasts p n H ltac:(lia)).
  assert (Ht : 0 <= tend 6 p < 8) by (apply tend_type; [lia|now apply y_path_iff in H]).
  unfold y_last_descendant. destruct (y_walk_wf H) as [Wp V]. destruct (is_pyra (y_walk p)) eqn:P.
  - rewrite EW. replace (zlen p + Z.of_nat n) with L by lia. f_equal. f_equal. rewrite V, !YLEN_pow by lia. replace (21 - zlen p - Z.of_nat n) with (21 - L) by lia.
    assert (P1 : 2 ^ (21 - L) <= 2 ^ (21 - zlen p)) by (apply Z.pow_le_mono_r; lia). pose proof (@pow2_pos (21 - L) ltac:(lia)).
    destruct (yw_cb Wp) as [_ _ Ax Ay Az _ _ _ _]. cbn [cb lv sx sy sz] in Ax, Ay, Az. change (MAXLEVEL true) with 21 in *. rewrite V in Ax, Ay, Az.
    rewrite !(@lor_high_low _ _ (21 - zlen p)) by (auto; lia). reflexivity.
  - rewrite y_linear_id_fine by auto. rewrite shiftl1_pow by lia. rewrite V. rewrite Z.pow_mul_r by lia. change (2 ^ 3) with 8.
    replace L with (zlen (p ++ repeat (lastc (tend 6 p)) n)) at 1 by (rewrite zlen_app, zlen_repeat; lia).
    replace (8 ^ (L - zlen p) - 1 + ynum 6 p (L - zlen p)) with (ynum 6 (p ++ repeat (lastc (tend 6 p)) n) 0); [now apply y_init_linear_id_walk|].
    rewrite ynum_app, zlen_repeat, Z.add_0_r. destruct (@lasts_facts (tend 6 p) n 0 Ht ltac:(lia)) as (_ & _ & E). rewrite ysz_0, Z.add_0_r in E.
    apply is_tet_iff in P. rewrite y_walk_tend in P by exact H. unfold ysz in E. destruct (Z.ltb_spec (tend 6 p) 6); [|lia]. replace (Z.of_nat n) with (L - zlen p) in * by lia. lia.
Qed.

(** ** successor *)
Inductive ynext : list Z -> list Z -> Prop :=
| yn_here w i : 0 <= i -> i + 1 < nch (tend 6 w) -> ynext (w ++ [i]) (w ++ [i + 1])
| yn_up w v : ynext w v -> ynext (w ++ [lastc (tend 6 w)]) (v ++ [0]).
Lemma ynext_len p q : ynext p q -> length p = length q.
Proof. intros H. induction H; rewrite !app_length; cbn [length]; lia. Qed.
Lemma ynext_path p q : ynext p q -> y_path p -> y_path q.
Proof.
  intros H. induction H as [w i Hi Hi'|w v H IH]; intros HP.
  - apply y_path_snoc in HP. apply y_path_snoc. destruct HP as (HP & HL & _). split; [exact HP|]. split; [exact HL|]. rewrite nch_num, y_walk_tend by exact HP. lia.
  - apply y_path_snoc in HP. destruct HP as (HP & HL & _). specialize (IH HP). apply y_path_snoc. split; [exact IH|]. split; [unfold zlen in *; rewrite <- (ynext_len H); exact HL|].
    rewrite nch_num. unfold nch. destruct (yty (y_walk v) <? 6); lia.
Qed.
Lemma ynext_num p q k : ynext p q -> y_path p -> 0 <= k -> ynum 6 q k = ynum 6 p k + ysz (tend 6 p) k.
Proof.
  intros H. revert k. induction H as [w i Hi Hi'|w v H IH]; intros k HP Hk.
  - apply y_path_snoc in HP. destruct HP as (HP & _). rewrite !ynum_app, tend_app. cbn [ynum]. change (zlen [i]) with 1. change (zlen [i + 1]) with 1. change (zlen (@nil Z)) with 0.
    rewrite Z.add_0_l. assert (Ht : 0 <= tend 6 w < 8) by (apply tend_type; [lia|now apply y_path_iff in HP]). rewrite off_S by lia. change (tend (tend 6 w) [i]) with (YT (tend 6 w) i). lia.
  - assert (HQ := ynext_path (yn_up H) HP). apply y_path_snoc in HP. destruct HP as (HP & _). apply y_path_snoc in HQ. destruct HQ as (HQ & _). rewrite !ynum_app, tend_app. cbn [ynum]. set (l := lastc (tend 6 w)). change (zlen [l]) with 1. change (zlen [0]) with 1. change (zlen (@nil Z)) with 0.
    rewrite Z.add_0_l. assert (Ht : 0 <= tend 6 w < 8) by (apply tend_type; [lia|now apply y_path_iff in HP]). assert (Hv : 0 <= tend 6 v < 8) by (apply tend_type; [lia|now apply y_path_iff in HQ]).
    rewrite IH by (auto; lia). rewrite off_0 by exact Hv. change (tend (tend 6 w) [l]) with (YT (tend 6 w) l). unfold l, lastc. destruct (tab_first Ht) as (_ & _ & -> & _).
    rewrite (Z.add_comm 1 k). pose proof (@off_last (tend 6 w) k Ht Hk). lia.
Qed.
Lemma ynext_exists p : y_path p -> (exists v, ynext p v) \/ (forall k, 0 <= k -> ynum 6 p k + ysz (tend 6 p) k = ysz 6 (zlen p + k)).
Proof.
  induction p as [|i p IH] using rev_ind; intros H; [right; intros k Hk; reflexivity|]. assert (H' := H). apply y_path_snoc in H'. destruct H' as (HP & HL & Hi).
  rewrite nch_num, y_walk_tend in Hi by exact HP. assert (Ht : 0 <= tend 6 p < 8) by (apply tend_type; [lia|now apply y_path_iff in HP]).
  destruct (Z.lt_ge_cases (i + 1) (nch (tend 6 p))) as [C|C]; [left; eexists; apply yn_here; lia|]. assert (i = lastc (tend 6 p)) as -> by (unfold lastc; lia).
  destruct (IH HP) as [(v & Hv)|A]; [left; eexists; apply yn_up; exact Hv|]. right. intros k Hk. rewrite ynum_app, tend_app, zlen_app. cbn [ynum]. set (l := lastc (tend 6 p)). change (zlen [l]) with 1. change (zlen (@nil Z)) with 0.
  rewrite Z.add_0_l. change (tend (tend 6 p) [l]) with (YT (tend 6 p) l). unfold l, lastc. destruct (tab_first Ht) as (_ & _ & -> & _). specialize (A (1 + k) ltac:(lia)).
  replace (zlen p + 1 + k) with (zlen p + (1 + k)) by lia. rewrite <- A. rewrite (Z.add_comm 1 k). pose proof (@off_last (tend 6 p) k Ht Hk). lia.
Qed.
Lemma ynext_of_num p q k : y_path p -> y_path q -> zlen p = zlen q -> 0 <= k -> ynum 6 q k = ynum 6 p k + ysz (tend 6 p) k -> ynext p q.
Proof.
  intros Hp Hq HL Hk E. assert (Vq := Hq). apply y_path_iff in Vq. destruct (ynext_exists Hp) as [(v & Hv)|A].
  - assert (Hvp := ynext_path Hv Hp). assert (Vv := Hvp). apply y_path_iff in Vv. assert (EV := ynext_num Hv Hp Hk). replace q with v; [exact Hv|].
    apply (@ynum_inj 6 v q k); try lia; [apply Vv|apply Vq|rewrite <- HL; unfold zlen; rewrite (ynext_len Hv); reflexivity].
  - exfalso. destruct (@ynum_bound 6 q k ltac:(lia) Hk (proj1 Vq)) as [_ B]. rewrite <- HL in B. rewrite <- (A k Hk) in B. pose proof (@ysz_pos (tend 6 q) k Hk). lia.
Qed.

(** coordinates with garbage in the low bits *)
Definition addg (e : pyr) (gx gy gz : Z) : pyr := Pyr (Simp (ylv e) (yty e) (yx e + gx) (yy e + gy) (yz e + gz)) (ysw e).
Lemma addg_0 e : addg e 0 0 0 = e.
Proof. unfold addg. rewrite !Z.add_0_r. unfold ylv, yty, yx, yy, yz. destruct e as [[? ? ? ? ?] ?]. reflexivity. Qed.
Lemma tb_garbage v g k n : 0 <= k <= n -> al k v -> 0 <= g < 2 ^ k -> Z.testbit (v + g) n = Z.testbit v n.
Proof.
  intros Hk (q & ->) Hg. rewrite !testbit_div by lia. f_equal.
  assert (P : 0 < 2 ^ k) by (apply pow2_pos; lia). assert (P' : 0 < 2 ^ (n - k)) by (apply pow2_pos; lia).
  replace (2 ^ n) with (2 ^ k * 2 ^ (n - k)) by (rewrite <- Z.pow_add_r by lia; f_equal; lia). rewrite <- !Z.div_div by lia. f_equal.
  rewrite Z.div_add_l, Z.div_mul, (Z.div_small g) by lia. lia.
Qed.
Lemma clear_garbage v g k (b : bool) : 0 <= k -> al (k + 1) v -> 0 <= g < 2 ^ k -> clear (v + Z.b2z b * 2 ^ k + g) (2 ^ k) = v + g.
Proof.
  intros Hk Hv Hg. assert (AK : al k v) by (apply (@BitLemmas.al_weaken k (k + 1)); auto; lia).
  assert (AB : al k (v + Z.b2z b * 2 ^ k)) by (apply al_add; [exact AK|exists (Z.b2z b); lia]).
  apply Z.bits_inj'. intros n Hn. rewrite clear_pow_bits by lia. destruct (Z.eqb_spec n k) as [->|Hne]; cbn [negb].
  - rewrite andb_false_r. rewrite (@tb_garbage v g k k) by (auto; lia). symmetry. apply (@tb_al_low (k + 1)); auto. lia.
  - rewrite andb_true_r. destruct (Z_lt_dec n k).
    + assert (EM : forall w, al k w -> Z.testbit (w + g) n = Z.testbit g n).
      { intros w (q & ->). rewrite <- (Z.mod_pow2_bits_low (q * 2 ^ k + g) k n) by lia. rewrite Z.add_comm, Z.mod_add by (pose proof (pow2_pos Hk); lia). now apply Z.mod_pow2_bits_low. }
      now rewrite !EM.
    + rewrite !(@tb_garbage _ g k n) by (auto; lia). apply tb_add_hi; auto. lia.
Qed.
Lemma y_cubeid_garbage e gx gy gz : ywf e -> 0 <= gx < 2 ^ (21 - ylv e) -> 0 <= gy < 2 ^ (21 - ylv e) -> 0 <= gz < 2 ^ (21 - ylv e) ->
  y_cubeid (addg e gx gy gz) (ylv e) = y_cubeid e (ylv e).
Proof.
  intros We Hx Hy Hz. assert (L := ywf_lv We). unfold y_cubeid. destruct (ylv e =? 0); [reflexivity|]. rewrite YLEN_pow by lia. rewrite !bit_or0_pow by lia.
  change (yx (addg e gx gy gz)) with (yx e + gx). change (yy (addg e gx gy gz)) with (yy e + gy). change (yz (addg e gx gy gz)) with (yz e + gz).
  destruct (yw_cb We) as [_ _ Ax Ay Az _ _ _ _]. cbn [cb lv sx sy sz] in Ax, Ay, Az. change (MAXLEVEL true) with 21 in *. rewrite !(@tb_garbage _ _ (21 - ylv e) (21 - ylv e)) by (auto; lia). reflexivity.
Qed.
Lemma y_parent_garbage w i gx gy gz : let k := 21 - zlen (w ++ [i]) in y_path (w ++ [i]) -> 0 <= gx < 2 ^ k -> 0 <= gy < 2 ^ k -> 0 <= gz < 2 ^ k ->
  y_parent (addg (y_walk (w ++ [i])) gx gy gz) = addg (y_walk w) gx gy gz /\
  y_child_id (addg (y_walk (w ++ [i])) gx gy gz) = i /\ y_num_siblings (addg (y_walk (w ++ [i])) gx gy gz) = nch (tend 6 w).
Proof.
  intros k H Hx Hy Hz. destruct (y_walk_wf H) as [We Le]. set (e := y_walk (w ++ [i])) in *. assert (H' := H). apply y_path_snoc in H'. destruct H' as (HP & HL & Hi).
  destruct (y_walk_wf HP) as [Ww Lw]. assert (EC : y_cubeid (addg e gx gy gz) (ylv e) = y_cubeid e (ylv e)) by (apply y_cubeid_garbage; auto; rewrite Le; assumption).
  assert (EK : 21 - ylv e = k) by (rewrite Le; reflexivity). assert (EP := y_parent_child Ww ltac:(lia) Hi). rewrite <- y_walk_snoc in EP. fold e in EP.
  destruct (y_child_id_child Ww ltac:(lia) Hi) as [EI ES]. rewrite <- y_walk_snoc in EI, ES. fold e in EI, ES.
  assert (ST : e = Pyr (step true (yt (y_walk w)) (YT (yty (y_walk w)) i) (YC (yty (y_walk w)) i)) (child_sw (y_walk w) (YT (yty (y_walk w)) i))) by (unfold e; rewrite y_walk_snoc; apply y_child_step; [apply Ww|lia|exact Hi]).
  assert (KK : 21 - ylv (y_walk w) - 1 = k) by (unfold k; rewrite Lw, zlen_app; change (zlen [i]) with 1; lia).
  assert (K0 : 0 <= k) by lia.
  assert (CG : forall f g, ycoord f -> 0 <= g < 2 ^ k -> clear (f e + g) (YLEN (ylv e)) = f (y_walk w) + g).
  { intros f g F Hg. destruct (ycoord_step F ST) as (b & ->). rewrite YLEN_pow by (rewrite Le; lia). rewrite EK, KK. apply clear_garbage; auto.
    destruct (ywf_coord F Ww) as [A _]. replace (k + 1) with (21 - ylv (y_walk w)) by lia. exact A. }
  split; [|split].
  - assert (G : forall t s, Pyr (Simp (ylv e - 1) t (clear (yx e + gx) (YLEN (ylv e))) (clear (yy e + gy) (YLEN (ylv e))) (clear (yz e + gz) (YLEN (ylv e)))) s =
       addg (Pyr (Simp (ylv e - 1) t (yx (y_walk w)) (yy (y_walk w)) (yz (y_walk w))) s) gx gy gz).
    { intros t s. rewrite !CG by (unfold ycoord; auto). reflexivity. }
    assert (EW : forall t s, t = yty (y_walk w) -> s = ysw (y_walk w) -> Pyr (Simp (ylv e - 1) t (yx (y_walk w)) (yy (y_walk w)) (yz (y_walk w))) s = y_walk w).
    { intros t s -> ->. replace (ylv e - 1) with (ylv (y_walk w)) by (rewrite Le, Lw, zlen_app; change (zlen [i]) with 1; lia). unfold ylv, yty, yx, yy, yz. destruct (y_walk w) as [[? ? ? ? ?] ?]. reflexivity. }
    unfold y_parent in *. change (is_pyra (addg e gx gy gz)) with (is_pyra e). change (ylv (addg e gx gy gz)) with (ylv e). change (yty (addg e gx gy gz)) with (yty e). change (ysw (addg e gx gy gz)) with (ysw e).
    change (yx (addg e gx gy gz)) with (yx e + gx). change (yy (addg e gx gy gz)) with (yy e + gy). change (yz (addg e gx gy gz)) with (yz e + gz). rewrite EC.
    destruct (is_pyra e) eqn:PE.
    + rewrite G. f_equal. apply EW; [now rewrite <- EP|now rewrite <- EP].
    + destruct (ysw e =? ylv e) eqn:SE.
      * rewrite G. f_equal. apply EW; [|now rewrite <- EP]. rewrite <- EP. change (yty (Pyr (Simp (ylv e - 1) (y_tetparent_type e) (clear (yx e) (YLEN (ylv e))) (clear (yy e) (YLEN (ylv e))) (clear (yz e) (YLEN (ylv e)))) (-1))) with (y_tetparent_type e).
        unfold y_tetparent_type. change (ylv (addg e gx gy gz)) with (ylv e). change (yz (addg e gx gy gz)) with (yz e + gz). change YMAX with 21. rewrite EK. rewrite !Z.shiftr_div_pow2 by exact K0.
        assert (ED : (yz e + gz) / 2 ^ k = yz e / 2 ^ k).
        { destruct (@ywf_coord yz e ltac:(unfold ycoord; auto) We) as [(qz & Eq) _]. rewrite EK in Eq. rewrite Eq. pose proof (pow2_pos K0).
          rewrite Z.div_add_l, Z.div_mul, (Z.div_small gz) by lia. lia. }
        now rewrite ED.
      * assert (PF : forall a, parent true (yt a) = Simp (ylv a - 1) (cid_type_to_parenttype true (y_cubeid a (ylv a)) (yty a)) (clear (yx a) (YLEN (ylv a))) (clear (yy a) (YLEN (ylv a))) (clear (yz a) (YLEN (ylv a)))) by reflexivity.
        rewrite PF in EP. rewrite PF. change (ylv (addg e gx gy gz)) with (ylv e). change (yty (addg e gx gy gz)) with (yty e).
        change (yx (addg e gx gy gz)) with (yx e + gx). change (yy (addg e gx gy gz)) with (yy e + gy). change (yz (addg e gx gy gz)) with (yz e + gz). rewrite EC, G. f_equal.
        apply EW; [now rewrite <- EP|now rewrite <- EP].
  - rewrite <- EI. unfold y_child_id. change (is_pyra (addg e gx gy gz)) with (is_pyra e). change (ysw (addg e gx gy gz)) with (ysw e). change (ylv (addg e gx gy gz)) with (ylv e). change (yty (addg e gx gy gz)) with (yty e).
    rewrite EC. destruct (is_pyra e || (ysw e =? ylv e)); [reflexivity|]. unfold child_id. f_equal. exact EC.
  - rewrite <- y_walk_tend, <- nch_num, <- ES by exact HP. reflexivity.
Qed.
Lemma y_child_garbage e i gx gy gz : 0 <= yty e < 8 -> ylv e < 21 -> 0 <= i < y_num_children e -> y_child (addg e gx gy gz) i = addg (y_child e i) gx gy gz.
Proof.
  intros Ht Hl Hi. rewrite !y_child_step by auto. change (yty (addg e gx gy gz)) with (yty e). change (child_sw (addg e gx gy gz)) with (child_sw e).
  unfold addg, step, ylv, yty, yx, yy, yz. cbn [yt lv ty sx sy sz ysw]. f_equal. f_equal; ring.
Qed.
Lemma y_cut_addg e gx gy gz : ywf e -> 0 <= gx < 2 ^ (21 - ylv e) -> 0 <= gy < 2 ^ (21 - ylv e) -> 0 <= gz < 2 ^ (21 - ylv e) -> forall l,
  y_cut (set_lv (addg e gx gy gz) l) (21 - ylv e) = set_lv e l.
Proof.
  intros We Hx Hy Hz l. assert (L := ywf_lv We). unfold y_cut. 
  change (yx (set_lv (addg e gx gy gz) l)) with (yx e + gx). change (yy (set_lv (addg e gx gy gz) l)) with (yy e + gy). change (yz (set_lv (addg e gx gy gz) l)) with (yz e + gz).
  destruct (yw_cb We) as [_ _ Ax Ay Az _ _ _ _]. cbn [cb lv sx sy sz] in Ax, Ay, Az. change (MAXLEVEL true) with 21 in *. rewrite !cutc_al by (auto; lia). reflexivity.
Qed.
Lemma y_succ_rec_walk u v : ynext u v -> y_path u -> forall gx gy gz, let k := 21 - zlen u in 0 <= gx < 2 ^ k -> 0 <= gy < 2 ^ k -> 0 <= gz < 2 ^ k ->
  exists hx hy hz, y_succ_rec true (addg (y_walk u) gx gy gz) (length u) = Ok (addg (y_walk v) hx hy hz) /\ 0 <= hx < 2 ^ k /\ 0 <= hy < 2 ^ k /\ 0 <= hz < 2 ^ k /\
    (gx = 0 -> gy = 0 -> gz = 0 -> hx = 0 /\ hy = 0 /\ hz = 0).
Proof.
  intros H. induction H as [w i Hi Hi'|w v H IH]; intros HP gx gy gz k Hx Hy Hz.
  - destruct (y_parent_garbage HP Hx Hy Hz) as (E1 & E2 & E3). destruct (y_walk_wf HP) as [We Le]. assert (HP' := HP). apply y_path_snoc in HP'. destruct HP' as (Hw & HL & Hiw).
    destruct (y_walk_wf Hw) as [Ww Lw]. exists gx, gy, gz. split; [|split; [exact Hx|split; [exact Hy|split; [exact Hz|auto]]]]. rewrite app_length, Nat.add_comm. cbn [length Nat.add y_succ_rec].
    set (e := y_walk (w ++ [i])) in *. rewrite zlen_app in Le. change (zlen [i]) with 1 in Le.
    assert (EL : Z.of_nat (S (length w)) = ylv e) by (rewrite Le; unfold zlen; lia). rewrite EL.
    assert (ES : set_lv (addg e gx gy gz) (ylv e) = addg e gx gy gz) by reflexivity. rewrite ES.
    assert (SW : (ylv e <? ysw (addg e gx gy gz)) = false).
    { change (ysw (addg e gx gy gz)) with (ysw e). assert (A := yw_sw We). assert (B := ywf_lv We). destruct (is_pyra e); lia. }
    rewrite SW, E2, E3. destruct (Z.eqb_spec i (nch (tend 6 w) - 1)); [lia|]. rewrite E1.
    assert (Hi1 : 0 <= i + 1 < y_num_children (y_walk w)) by (rewrite nch_num, y_walk_tend by exact Hw; lia).
    rewrite y_child_garbage; [|apply Ww|lia|exact Hi1]. rewrite <- y_walk_snoc. f_equal.
    assert (LV : ylv e = ylv (y_walk (w ++ [i + 1]))). { rewrite y_walk_snoc. destruct (@ywf_child _ (i + 1) Ww ltac:(lia) Hi1) as (_ & -> & _). lia. }
    rewrite LV. reflexivity.
  - destruct (y_parent_garbage HP Hx Hy Hz) as (E1 & E2 & E3). destruct (y_walk_wf HP) as [We Le]. assert (HV := ynext_path (yn_up H) HP). set (l := lastc (tend 6 w)) in *.
    assert (HP' := HP). apply y_path_snoc in HP'. destruct HP' as (Hw & HL & Hiw). apply y_path_snoc in HV. destruct HV as (Hv & HLv & _).
    destruct (y_walk_wf Hw) as [Ww Lw]. destruct (y_walk_wf Hv) as [Wv Lv]. assert (LWV : zlen w = zlen v) by (unfold zlen; rewrite (ynext_len H); reflexivity).
    exists 0, 0, 0. pose proof (@pow2_pos k ltac:(unfold k; rewrite zlen_app; change (zlen [l]) with 1; lia)).
    split; [|split; [lia|split; [lia|split; [lia|auto]]]]. rewrite app_length, Nat.add_comm. cbn [length Nat.add y_succ_rec]. rewrite addg_0.
    set (e := y_walk (w ++ [l])) in *. rewrite zlen_app in Le. change (zlen [l]) with 1 in Le.
    assert (EL : Z.of_nat (S (length w)) = ylv e) by (rewrite Le; unfold zlen; lia). rewrite EL.
    assert (ES : set_lv (addg e gx gy gz) (ylv e) = addg e gx gy gz) by reflexivity. rewrite ES.
    assert (SW : (ylv e <? ysw (addg e gx gy gz)) = false).
    { change (ysw (addg e gx gy gz)) with (ysw e). assert (A := yw_sw We). assert (B := ywf_lv We). destruct (is_pyra e); lia. }
    rewrite SW, E2, E3. unfold l at 1, lastc. rewrite Z.eqb_refl.
    (* the element one level up, with the last child's offset as garbage *)
    destruct w as [|w0 w']; [inversion H; destruct w; discriminate|]. set (w := w0 :: w') in *.
    assert (LS := @y_walk_lasts w 1 Hw ltac:(change (Z.of_nat 1) with 1; lia)). cbv zeta in LS. change (Z.of_nat 1) with 1 in LS. change (repeat (lastc (tend 6 w)) 1) with [lastc (tend 6 w)] in LS. fold l in LS. fold e in LS.
    set (o := 2 ^ (21 - zlen w) - 2 ^ (21 - zlen w - 1)) in LS.
    assert (KE : 21 - zlen w - 1 = k) by (unfold k; rewrite zlen_app; change (zlen [l]) with 1; lia). assert (P2 : 2 ^ (21 - zlen w) = 2 * 2 ^ k) by (rewrite <- KE, <- pow2_S by lia; f_equal; lia).
    assert (EG : y_succ_rec true (addg e gx gy gz) (length w) = y_succ_rec true (addg (y_walk w) (o + gx) (o + gy) (o + gz)) (length w)).
    { rewrite LS. cbn [length y_succ_rec w]. set (W0 := y_walk (w0 :: w')). unfold addg, set_lv, ylv, yty, yx, yy, yz. cbn [yt lv ty sx sy sz ysw]. rewrite !Z.add_assoc. reflexivity. }
    rewrite EG. rewrite <- KE in *. assert (OE : o = 2 ^ (21 - zlen w - 1)) by (unfold o; lia).
    destruct (IH Hw (o + gx) (o + gy) (o + gz) ltac:(lia) ltac:(lia) ltac:(lia)) as (hx & hy & hz & EI & B1 & B2 & B3 & _). rewrite EI. cbn [obind]. f_equal.
    change YMAX with 21. replace (21 - ylv e + 1) with (21 - ylv (y_walk v)) by lia. rewrite y_cut_addg by (auto; rewrite Lv, <- LWV; assumption).
    change [0] with (repeat 0 1). rewrite y_walk_zeros by (auto; change (Z.of_nat 1) with 1; lia). f_equal. change (Z.of_nat 1) with 1. lia.
Qed.
Lemma y_successor_walk u v : ynext u v -> y_path u -> y_successor (y_walk u) (ylv (y_walk u)) = Ok (y_walk v).
Proof.
  intros H HP. destruct (y_walk_wf HP) as [We Le]. unfold y_successor. rewrite Le. unfold zlen. rewrite Nat2Z.id.
  pose proof (@pow2_pos (21 - zlen u) ltac:(assert (A := y_path_len HP); lia)) as P.
  destruct (@y_succ_rec_walk u v H HP 0 0 0 ltac:(lia) ltac:(lia) ltac:(lia)) as (hx & hy & hz & E & _ & _ & _ & Z0). destruct (Z0 eq_refl eq_refl eq_refl) as (-> & -> & ->).
  rewrite !addg_0 in E. rewrite <- E. destruct u as [|u0 u']; [inversion H; destruct w; discriminate|]. cbn [length y_succ_rec].
  assert (EL : Z.of_nat (S (length u')) = ylv (y_walk (u0 :: u'))) by (rewrite Le; unfold zlen; reflexivity). rewrite EL.
  assert (ES : set_lv (y_walk (u0 :: u')) (ylv (y_walk (u0 :: u'))) = y_walk (u0 :: u')) by (unfold set_lv, ylv, yty, yx, yy, yz; destruct (y_walk (u0 :: u')) as [[? ? ? ? ?] ?]; reflexivity).
  rewrite ES. assert (SW : (ylv (y_walk (u0 :: u')) <? ysw (y_walk (u0 :: u'))) = false).
  { assert (A := yw_sw We). assert (B := ywf_lv We). destruct (is_pyra (y_walk (u0 :: u'))); lia. }
  rewrite SW. reflexivity.
Qed.

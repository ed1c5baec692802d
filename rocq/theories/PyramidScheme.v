(** The pyramid scheme as a value of type [scheme] and the proof of its laws. *)
From Verif Require Import Prelude PathSpec SchemeModel SchemeSpec SchemeProofs SchemeUniformProofs.
From Verif Require Import BitLemmas SimplexModel SimplexSpec SimplexProofs SimplexPathProofs SimplexOrderProofs SimplexAncProofs SimplexFamilyProofs.
From Verif Require Import PyramidModel PyramidSpec PyramidProofs PyramidAncProofs PyramidIdProofs PyramidOrderProofs PyramidNcaProofs.

(** t8_default_pyramid.cxx.  The value of operations that fail outside of their domain is irrelevant there. *)
Definition pyramid_scheme : scheme := {|
  elt := pyr; s_root := y_root; s_level := ylv; s_maxlevel := YMAX; s_max_children := 10;
  s_num_children := y_num_children; s_num_siblings := y_num_siblings;
  s_child := y_child; s_parent := y_parent; s_child_id := y_child_id; s_is_family := y_is_family;
  s_equal := y_equal; s_compare := y_compare;
  s_nca := fun a b => match y_nca a b with Ok e => e | _ => a end;
  s_is_ancestor := y_is_ancestor; s_linear_id := y_linear_id;
  s_set_linear_id := fun l id => match y_init_linear_id l id with Ok e => e | _ => y_root end;
  s_successor := fun e => match y_successor e (ylv e) with Ok s => s | _ => e end;
  s_first_desc := fun e l => match y_first_descendant e l with Ok d => d | _ => e end;
  s_last_desc := fun e l => match y_last_descendant e l with Ok d => d | _ => e end;
  s_count_root := y_count_root;
  s_ancestor_id := y_ancestor_id |}.

Lemma pyramid_path p : gpath pyramid_scheme p <-> y_path p.
Proof.
  split; intros H; induction H as [|p i H IH HL Hi]; try constructor; auto.
Qed.
Lemma pyramid_descend n (e : pyr) : descend (S := pyramid_scheme) n e = y_descend n e.
Proof. revert e. induction n as [|n IH]; intros e; [reflexivity|]. cbn [descend y_descend]. change (s_children (S := pyramid_scheme) e) with (y_children_of e). apply flat_map_ext. exact IH. Qed.

(** ** the last descendant *)
Lemma y_descend_last p n : y_path p -> zlen p + Z.of_nat n <= 21 -> exists pre, y_descend n (y_walk p) = pre ++ [y_walk (p ++ repeat (lastc (tend 6 p)) n)].
Proof.
  revert p. induction n as [|n IH]; intros p H HL; [exists []; cbn [repeat y_descend app]; now rewrite app_nil_r|]. cbn [y_descend]. rewrite y_children_walk by exact H.
  assert (Ht : 0 <= tend 6 p < 8) by (apply tend_type; [lia|now apply y_path_iff in H]). set (t := tend 6 p) in *.
  assert (N : nch t = 8 \/ nch t = 10) by (unfold nch; destruct (t <? 6); auto).
  replace (Z.to_nat (nch t)) with (Z.to_nat (lastc t) + 1)%nat by (unfold lastc; lia). rewrite zseq_app, map_app, flat_map_app. cbn [zseq map flat_map]. rewrite app_nil_r.
  replace (0 + Z.of_nat (Z.to_nat (lastc t))) with (lastc t) by (unfold lastc; lia).
  assert (HP : y_path (p ++ [lastc t])) by (apply (@y_path_lasts p 1); auto; change (Z.of_nat 1) with 1; lia).
  assert (T' : tend 6 (p ++ [lastc t]) = t). { rewrite tend_app. fold t. change (tend t [lastc t]) with (YT t (lastc t)). unfold lastc. now destruct (tab_first Ht) as (_ & _ & -> & _). }
  destruct (IH (p ++ [lastc t]) HP ltac:(rewrite zlen_app; change (zlen [lastc t]) with 1; lia)) as (pre & E). rewrite T' in E. rewrite E.
  rewrite app_assoc. eexists. do 3 f_equal. cbn [repeat]. rewrite <- app_assoc. reflexivity.
Qed.
Lemma y_descend_root_length L : 0 <= L <= 21 -> Z.of_nat (length (y_descend (Z.to_nat L) y_root)) = ysz 6 L.
Proof.
  intros HL. rewrite <- (map_length (fun e => y_linear_id e L)). assert (HR := yp_nil). change y_root with (y_walk []). rewrite (@y_descend_ids [] (Z.to_nat L) L HR) by (try change (zlen (@nil Z)) with 0; lia).
  rewrite zseq_length. change (tend 6 []) with 6. rewrite (Z2Nat.id L) by lia. pose proof (@ysz_pos 6 L ltac:(lia)). lia.
Qed.

(** ** families *)
Lemma y_cells_ids p : y_path p -> map (@cell_id pyramid_scheme) (cells (S := pyramid_scheme) (y_walk p)) = zseq (ynum 6 p (21 - zlen p)) (Z.to_nat (ysz (tend 6 p) (21 - zlen p))).
Proof.
  intros H. unfold cells. rewrite pyramid_descend. change (s_maxlevel pyramid_scheme) with 21. change (s_level (s := pyramid_scheme)) with ylv. destruct (y_walk_wf H) as [_ L]. assert (LP := y_path_len H). rewrite L.
  assert (E := @y_descend_ids p (Z.to_nat (21 - zlen p)) 21 H ltac:(lia) ltac:(lia)). rewrite Z2Nat.id in E by lia. exact E.
Qed.
Lemma y_contiguous_tail (e : pyr) l : contiguous (S := pyramid_scheme) (e :: l) -> contiguous (S := pyramid_scheme) l.
Proof. intros H. exact (@contiguous_app_r pyramid_scheme [e] l H). Qed.
Lemma y_contiguous_next p q l : y_path p -> y_path q -> contiguous (S := pyramid_scheme) (y_walk p :: y_walk q :: l) -> zlen p = zlen q -> ynext p q.
Proof.
  intros Hp Hq [_ (a & E)] HL. assert (LP := y_path_len Hp). apply (@ynext_of_num p q (21 - zlen p)); auto; try lia.
  change (region (S := pyramid_scheme) (y_walk p :: y_walk q :: l)) with (cells (S := pyramid_scheme) (y_walk p) ++ (cells (S := pyramid_scheme) (y_walk q) ++ region (S := pyramid_scheme) l)) in E.
  rewrite !map_app in E. rewrite (y_cells_ids Hp), (y_cells_ids Hq) in E. rewrite !app_length in E.
  assert (LE : forall r, y_path r -> length (cells (S := pyramid_scheme) (y_walk r)) = Z.to_nat (ysz (tend 6 r) (21 - zlen r))).
  { intros r Hr. rewrite <- (map_length (@cell_id pyramid_scheme)), (y_cells_ids Hr), zseq_length. reflexivity. }
  rewrite (LE p Hp), (LE q Hq) in E. rewrite !zseq_app in E.
  pose proof (@ysz_pos (tend 6 p) (21 - zlen p) ltac:(lia)). pose proof (@ysz_pos (tend 6 q) (21 - zlen q) ltac:(lia)).
  assert (Ea : ynum 6 p (21 - zlen p) = a).
  { destruct (Z.to_nat (ysz (tend 6 p) (21 - zlen p))) eqn:EZ; [lia|]. cbn [zseq app] in E. congruence. }
  rewrite <- Ea in E. apply app_inv_head in E. destruct (Z.to_nat (ysz (tend 6 q) (21 - zlen q))) eqn:EZ; [lia|]. cbn [zseq app] in E. assert (E' := f_equal (hd 0) E). cbn [hd] in E'. rewrite <- HL in E'. lia.
Qed.
(** the k-th element from child d of the element q on, k < 8 *)
Definition kth (q q' : list Z) (d k : Z) : list Z := let n := nch (tend 6 q) in if d + k <? n then q ++ [d + k] else q' ++ [d + k - n].
Lemma nch_ge t : 8 <= nch t <= 10. Proof. unfold nch. destruct (t <? 6); lia. Qed.
(** consecutive elements of one level: the k-th one *)
Lemma y_kth n q d (l : list (list Z)) : (n <= 8)%nat -> y_path (q ++ [d]) -> length l = n -> Forall y_path l ->
  (forall k, (k + 1 < n)%nat -> ynext (nth k l []) (nth (k + 1) l [])) -> (0 < n)%nat -> nth 0 l [] = q ++ [d] ->
  exists q', (ynext q q' \/ q' = q) /\ y_path q' /\ forall k, (k < n)%nat -> nth k l [] = kth q q' d (Z.of_nat k) /\ (d + Z.of_nat k < nch (tend 6 q) \/ ynext q q').
Proof.
  intros Hn HP HL HF HC. assert (HP' := HP). apply y_path_snoc in HP'. destruct HP' as (Hq & Hql & Hd). rewrite nch_num, y_walk_tend in Hd by exact Hq.
  revert l HL HF HC. induction n as [|n IH]; intros l HL HF HC N0 E0; [lia|]. destruct (Nat.eq_dec n 0) as [->|Nn].
  - exists q. split; [auto|]. split; [exact Hq|]. intros k Hk. assert (k = 0)%nat by lia. subst k. rewrite E0. unfold kth. change (Z.of_nat 0) with 0. rewrite Z.add_0_r.
    destruct (Z.ltb_spec d (nch (tend 6 q))); [split; [reflexivity|left; lia]|lia].
  - assert (EN : l = firstn n l ++ [nth n l []]). { rewrite <- (firstn_skipn n l) at 1. f_equal. destruct (skipn n l) as [|x s] eqn:ES; [apply (f_equal (@length _)) in ES; rewrite skipn_length in ES; cbn in ES; lia|].
      assert (LS := f_equal (@length _) ES). rewrite skipn_length in LS. cbn [length] in LS. destruct s; [|cbn [length] in LS; lia]. f_equal. rewrite <- (firstn_skipn n l), app_nth2, firstn_length, ES by (rewrite firstn_length; lia).
      replace (n - Nat.min n (length l))%nat with 0%nat by lia. reflexivity. }
    assert (NF : forall k, (k < n)%nat -> nth k (firstn n l) [] = nth k l []) by (intros k Hk; rewrite EN at 2; rewrite app_nth1 by (rewrite firstn_length; lia); reflexivity).
    destruct (IH ltac:(lia) (firstn n l)) as (q' & Q1 & Q2 & Q3).
    + rewrite firstn_length. lia.
    + rewrite EN in HF. apply Forall_app in HF. apply HF.
    + intros k Hk. rewrite !NF by lia. apply HC. lia.
    + lia.
    + rewrite NF by lia. exact E0.
    + assert (HM := HC (n - 1)%nat ltac:(lia)). replace (n - 1 + 1)%nat with n in HM by lia. destruct (Q3 (n - 1)%nat ltac:(lia)) as [E1 D1]. rewrite NF in E1 by lia. rewrite E1 in HM.
      assert (NG := nch_ge (tend 6 q)). unfold kth in HM. replace (Z.of_nat (n - 1)) with (Z.of_nat n - 1) in * by lia.
      assert (INV : forall u i v, ynext (u ++ [i]) v -> (i + 1 < nch (tend 6 u) /\ v = u ++ [i + 1]) \/ (i = lastc (tend 6 u) /\ exists w, ynext u w /\ v = w ++ [0])).
      { intros u i v Hv. inversion Hv as [w j J1 J2 E2 E3|w w' W E2 E3]; subst; apply app_inj_tail in E2; destruct E2 as [-> ->]; [left|right]; eauto. }
      destruct (Z.ltb_spec (d + (Z.of_nat n - 1)) (nch (tend 6 q))) as [C|C].
      * apply INV in HM. destruct HM as [[H1 H2]|[H1 (w & Hw & H2)]].
        -- exists q'. split; [exact Q1|]. split; [exact Q2|]. intros k Hk. destruct (Nat.eq_dec k n) as [->|]; [|rewrite <- NF by lia; apply Q3; lia].
           rewrite H2. unfold kth. destruct (Z.ltb_spec (d + Z.of_nat n) (nch (tend 6 q))); [|lia]. split; [do 2 f_equal; lia|left; lia].
        -- exists w. assert (Pw := ynext_path Hw Hq). split; [auto|]. split; [exact Pw|]. unfold lastc in H1. intros k Hk. destruct (Nat.eq_dec k n) as [->|].
           ++ rewrite H2. unfold kth. destruct (Z.ltb_spec (d + Z.of_nat n) (nch (tend 6 q))); [lia|]. split; [do 2 f_equal; lia|auto].
           ++ rewrite <- NF by lia. destruct (Q3 k ltac:(lia)) as [E2 _]. rewrite E2. unfold kth. destruct (Z.ltb_spec (d + Z.of_nat k) (nch (tend 6 q))); [auto|lia].
      * assert (NX : ynext q q') by (destruct D1 as [D1|D1]; [lia|exact D1]). exists q'. split; [auto|]. split; [exact Q2|]. intros k Hk. destruct (Nat.eq_dec k n) as [->|]; [|rewrite <- NF by lia; apply Q3; lia].
        assert (NG' := nch_ge (tend 6 q')). apply INV in HM. destruct HM as [[H1 H2]|[H1 _]]; [|unfold lastc in H1; lia].
        rewrite H2. unfold kth. destruct (Z.ltb_spec (d + Z.of_nat n) (nch (tend 6 q))); [lia|]. split; [do 2 f_equal; lia|auto].
Qed.
(** the types and cubes of eight consecutive elements of one level *)
Definition tyk (t t' d k : Z) : Z := if d + k <? nch t then YT t (d + k) else YT t' (d + k - nch t).
Definition cik (t t' d k : Z) : Z := if d + k <? nch t then YC t (d + k) else YC t' (d + k - nch t).
Definition pyr_test (t t' d : Z) : bool := forallb (fun k => YT (YT t d) k =? tyk t t' d k) [1;2;3;4;5;6;7].
Definition tet_test (t t' d : Z) : bool :=
  forallb (fun k => tyk t t' d k =? type_of_child_morton true (YT t d) k) [1;2;3;4;5;6]
  && (cik t t' d 1 =? cik t t' d 2) && (cik t t' d 1 =? cik t t' d 3) && (cik t t' d 4 =? cik t t' d 5) && (cik t t' d 4 =? cik t t' d 6).
Lemma test_first t t' d : 0 <= t < 8 -> 0 <= t' < 8 -> 0 <= d < nch t -> (if YT t d <? 6 then tet_test t t' d else pyr_test t t' d) = true -> d = 0.
Proof.
  intros Ht Ht' Hd H. assert (A : all2 8 8 (fun t t' => forallb (fun d => negb (if YT t d <? 6 then tet_test t t' d else pyr_test t t' d) || (d =? 0)) (zseq 0 (Z.to_nat (nch t)))) = true) by (vm_compute; reflexivity).
  assert (B := all2_spec A Ht Ht'). rewrite forallb_forall in B. specialize (B d ltac:(apply in_zseq; lia)). rewrite H in B. cbn [negb orb] in B. lia.
Qed.
Lemma y_child_last_facts q i : y_path (q ++ [i]) -> yty (y_walk (q ++ [i])) = YT (tend 6 q) i /\ y_cubeid (y_walk (q ++ [i])) (ylv (y_walk (q ++ [i]))) = YC (tend 6 q) i.
Proof.
  intros H. assert (H' := H). apply y_path_snoc in H'. destruct H' as (Hq & Hl & Hi). destruct (y_walk_wf H) as [_ L]. assert (Et := y_walk_tend Hq). rewrite <- Et. split.
  - rewrite y_walk_snoc, y_child_step; [reflexivity| |destruct (y_walk_wf Hq) as [_ ->]; exact Hl|exact Hi]. destruct (y_walk_wf Hq) as [W _]. apply W.
  - rewrite L, zlen_app. change (zlen [i]) with 1. assert (C := @y_cubeid_walk (q ++ [i]) (length q) H ltac:(rewrite app_length; cbn [length]; lia)).
    rewrite firstn_app, firstn_all, Nat.sub_diag, app_nth2, Nat.sub_diag in C by lia. cbn [firstn nth] in C. rewrite app_nil_r in C. unfold zlen. replace (Z.of_nat (length q) + 1) with (Z.of_nat (S (length q))) by lia. exact C.
Qed.
Lemma y_cubeid_same a b l : yx a = yx b -> yy a = yy b -> yz a = yz b -> y_cubeid a l = y_cubeid b l.
Proof. intros X Y Zz. unfold y_cubeid. now rewrite X, Y, Zz. Qed.

(** what the family test checks of the first eight elements *)
Lemma y_is_family_inv (l : list pyr) : (8 <= length l)%nat -> y_is_family l = true -> let g k := nth k l dpyr in
  ylv (g 0%nat) <> 0 /\ (forall k, (k < 8)%nat -> ylv (g k) = ylv (g 0%nat)) /\
  (if is_pyra (g 0%nat) then forall k, (0 < k < 8)%nat -> YT (yty (g 0%nat)) (Z.of_nat k) = yty (g k)
   else (forall k, (0 < k < 7)%nat -> yty (g k) = type_of_child_morton true (yty (g 0%nat)) (Z.of_nat k)) /\
     forall i j, In (i, j) [(1,2);(1,3);(4,5);(4,6)]%nat -> yx (g i) = yx (g j) /\ yy (g i) = yy (g j) /\ yz (g i) = yz (g j)).
Proof.
  intros HL HF g. assert (ZN : forall k, znth dpyr l k = g (Z.to_nat k)) by reflexivity. unfold y_is_family in HF. rewrite ZN in HF. change (Z.to_nat 0) with 0%nat in HF.
  destruct (is_pyra (g 0%nat)) eqn:P.
  - destruct (Z.eqb_spec (ylv (g 0%nat)) 0) as [|NZ]; [discriminate|]. split; [exact NZ|]. destruct (negb _) eqn:EF in HF; [discriminate|]. clear HF. apply negb_false_iff in EF. rewrite forallb_forall in EF.
    assert (A : forall k, (0 < k < 10)%nat -> ylv (g k) = ylv (g 0%nat) /\ YT (yty (g 0%nat)) (Z.of_nat k) = yty (g k)).
    { intros k Hk. specialize (EF (Z.of_nat k)). rewrite ZN, Nat2Z.id in EF. assert (IN : In (Z.of_nat k) [1;2;3;4;5;6;7;8;9]) by (change [1;2;3;4;5;6;7;8;9] with (zseq 1 9); apply in_zseq; lia).
      specialize (EF IN). apply andb_prop in EF. destruct EF as [E1 E2]. lia. }
    split; [|intros k Hk; apply A; lia]. intros k Hk. destruct k as [|k]; [reflexivity|]. apply A. lia.
  - unfold tet_is_familypv in HF. cbn [map] in HF. rewrite !ZN in HF. set (f := [yt _; _; _; _; _; _; _; _]) in HF.
    assert (F : forall k, (k < 8)%nat -> znth dsimp f (Z.of_nat k) = yt (g k)).
    { intros k Hk. do 8 (destruct k as [|k]; [reflexivity|]). lia. }
    change (znth dsimp f 0) with (yt (g 0%nat)) in HF. destruct (_ || existsb _ _) eqn:E1 in HF; [discriminate|]. destruct (existsb _ _) eqn:E2 in HF; [discriminate|].
    destruct (existsb _ _) eqn:E3 in HF; [discriminate|]. clear HF. apply orb_false_iff in E1. destruct E1 as [E0 E1].
    assert (EX : forall (A : Type) (h : A -> bool) s, existsb h s = false -> forall x, In x s -> h x = false).
    { intros A h s ES x Hx. destruct (h x) eqn:EH; [|reflexivity]. assert (existsb h s = true) by (apply existsb_exists; eauto). congruence. }
    change (lv (yt (g 0%nat))) with (ylv (g 0%nat)) in *. split; [lia|]. split; [|split].
    + intros k Hk. destruct k as [|k]; [reflexivity|]. assert (IN : In (Z.of_nat (S k)) [1;2;3;4;5;6;7]) by (change [1;2;3;4;5;6;7] with (zseq 1 7); apply in_zseq; lia).
      specialize (EX _ _ _ E1 _ IN). cbn beta in EX. rewrite F in EX by lia. change (lv (yt (g (S k)))) with (ylv (g (S k))) in EX. lia.
    + intros k Hk. assert (IN : In (Z.of_nat k) [1;2;3;4;5;6]) by (change [1;2;3;4;5;6] with (zseq 1 6); apply in_zseq; lia).
      specialize (EX _ _ _ E2 _ IN). cbn beta in EX. rewrite F in EX by lia. change (ty (yt (g k))) with (yty (g k)) in EX. change (ty (yt (g 0%nat))) with (yty (g 0%nat)) in EX. lia.
    + intros i j IN. assert (IN' : In (Z.of_nat i, Z.of_nat j) [(1,2);(1,3);(4,5);(4,6)]).
      { apply (in_map (fun x => (Z.of_nat (fst x), Z.of_nat (snd x)))) in IN. exact IN. }
      assert (HI : (i < 8)%nat /\ (j < 8)%nat) by (clear -IN; cbn [In] in IN; destruct IN as [IN|[IN|[IN|[IN|IN]]]]; [injection IN as <- <-; lia|injection IN as <- <-; lia|injection IN as <- <-; lia|injection IN as <- <-; lia|contradiction]).
      specialize (EX _ _ _ E3 _ IN'). cbn beta iota in EX. rewrite !F in EX by lia.
      change (sx (yt (g i))) with (yx (g i)) in EX. change (sx (yt (g j))) with (yx (g j)) in EX. change (sy (yt (g i))) with (yy (g i)) in EX. change (sy (yt (g j))) with (yy (g j)) in EX.
      change (sz (yt (g i))) with (yz (g i)) in EX. change (sz (yt (g j))) with (yz (g j)) in EX. clear -EX. lia.
Qed.
Lemma y_paths_of (l : list pyr) : Forall (valid (S := pyramid_scheme)) l -> exists ps, l = map y_walk ps /\ Forall y_path ps.
Proof.
  induction l as [|e l IH]; intros H; [exists []; split; [reflexivity|constructor]|]. inversion H as [|? ? (p & Hp & E) Hl]; subst. apply pyramid_path in Hp. destruct (IH Hl) as (ps & E2 & F). exists (p :: ps). split; [cbn [map]; now rewrite <- E2|now constructor].
Qed.
Lemma y_contiguous_chain (ps : list (list Z)) : Forall y_path ps -> contiguous (S := pyramid_scheme) (map y_walk ps) ->
  forall k, (k + 1 < length ps)%nat -> zlen (nth k ps []) = zlen (nth (k + 1) ps []) -> ynext (nth k ps []) (nth (k + 1) ps []).
Proof.
  induction ps as [|p ps IH]; intros HF HC k Hk HL; [cbn in Hk; lia|]. inversion HF as [|? ? Hp HF']; subst. cbn [map] in HC. destruct k as [|k].
  - destruct ps as [|q ps]; [cbn in Hk; lia|]. inversion HF' as [|? ? Hq _]; subst. cbn [map] in HC. change (0 + 1)%nat with 1%nat in *. cbn [nth] in *. exact (y_contiguous_next Hp Hq HC HL).
  - change (S k + 1)%nat with (S (k + 1)) in *. cbn [nth length] in *. apply IH; auto; [exact (y_contiguous_tail HC)|lia].
Qed.
Lemma nth_firstn_lt (k n : nat) (ps : list (list Z)) : (k < n)%nat -> nth k (firstn n ps) [] = nth k ps [].
Proof. revert k ps. induction n as [|n IH]; intros k ps H; [lia|]. destruct ps as [|p ps]; [now destruct k|]. destruct k as [|k]; [reflexivity|]. cbn [firstn nth]. apply IH. lia. Qed.
(** children from a chain of consecutive elements starting at child 0 *)
Lemma y_chain_children q n (ps : list (list Z)) : length ps = n -> nth 0 ps [] = q ++ [0] -> (0 < n)%nat -> Z.of_nat n <= nch (tend 6 q) ->
  (forall k, (k + 1 < n)%nat -> ynext (nth k ps []) (nth (k + 1) ps [])) -> forall k, (k < n)%nat -> nth k ps [] = q ++ [Z.of_nat k].
Proof.
  intros HL H0 Hn HN HC. induction k as [|k IH]; intros Hk; [exact H0|]. assert (HX := HC k ltac:(lia)). rewrite IH in HX by lia. replace (k + 1)%nat with (S k) in HX by lia.
  inversion HX as [w j J1 J2 E2 E3|w w' W E2 E3]; apply app_inj_tail in E2; destruct E2 as [-> E2].
  - subst j. do 2 f_equal. lia.
  - exfalso. unfold lastc in E2. lia.
Qed.
Lemma y_family_only (l : list pyr) (e : pyr) : contiguous (S := pyramid_scheme) l -> hd_error l = Some e -> length l = Z.to_nat (y_num_siblings e) -> y_is_family l = true ->
  0 < ylv e /\ l = y_children_of (y_parent e).
Proof.
  intros HC HE HL HF. assert (N8 : (8 <= length l)%nat) by (rewrite HL; unfold y_num_siblings; destruct (_ || _); lia).
  destruct (y_paths_of (proj1 HC)) as (ps & -> & FP). rewrite map_length in *. assert (FI := @y_is_family_inv (map y_walk ps)).
  rewrite map_length in FI. specialize (FI N8 HF). cbv zeta in FI. destruct FI as (NZ & LV & TS).
  assert (G : forall k, (k < length ps)%nat -> nth k (map y_walk ps) dpyr = y_walk (nth k ps [])).
  { intros k Hk. rewrite (nth_indep _ dpyr (y_walk [])) by (rewrite map_length; lia). apply map_nth. }
  assert (PK : forall k, (k < length ps)%nat -> y_path (nth k ps [])) by (intros k Hk; rewrite Forall_forall in FP; apply FP, nth_In, Hk).
  assert (EE : e = y_walk (nth 0 ps [])) by (destruct ps as [|p0 ps']; [discriminate|]; injection HE as <-; reflexivity).
  assert (P0 := PK 0%nat ltac:(lia)). rewrite G in NZ by lia. destruct (y_walk_wf P0) as [W0 L0]. rewrite L0 in NZ.
  assert (ZL : forall k, (k < 8)%nat -> zlen (nth k ps []) = zlen (nth 0 ps [])).
  { intros k Hk. specialize (LV k Hk). rewrite !G in LV by lia. destruct (y_walk_wf (PK k ltac:(lia))) as [_ Lk]. rewrite Lk, L0 in LV. exact LV. }
  destruct (exists_last (l := nth 0 ps [])) as (q & d & E0); [intros E; rewrite E in NZ; now apply NZ|].
  rewrite E0 in P0. assert (P0' := P0). apply y_path_snoc in P0'. destruct P0' as (Hq & Hql & Hd). rewrite nch_num, y_walk_tend in Hd by exact Hq.
  assert (CH := y_contiguous_chain FP HC).
  destruct (@y_kth 8 q d (firstn 8 ps)) as (q' & _ & Hq' & KTH); auto; try lia.
  { rewrite firstn_length. lia. }
  { rewrite Forall_forall in *. intros x Hx. apply FP. rewrite <- (firstn_skipn 8 ps). apply in_or_app. now left. }
  { intros k Hk. rewrite !nth_firstn_lt by lia. apply CH; [lia|]. rewrite (ZL k), (ZL (k + 1)%nat) by lia. reflexivity. }
  { rewrite <- E0. destruct ps; [cbn in N8; lia|reflexivity]. }
  assert (KT : forall k, (k < 8)%nat -> nth k ps [] = kth q q' d (Z.of_nat k)).
  { intros k Hk. destruct (KTH k Hk) as [E _]. rewrite <- E. now rewrite nth_firstn_lt by lia. }
  assert (Ht : 0 <= tend 6 q < 8) by (apply tend_type; [lia|now apply y_path_iff in Hq]). assert (Ht' : 0 <= tend 6 q' < 8) by (apply tend_type; [lia|now apply y_path_iff in Hq']).
  assert (TK : forall k, (k < 8)%nat -> yty (y_walk (nth k ps [])) = tyk (tend 6 q) (tend 6 q') d (Z.of_nat k) /\ y_cubeid (y_walk (nth k ps [])) (zlen (nth 0 ps [])) = cik (tend 6 q) (tend 6 q') d (Z.of_nat k)).
  { intros k Hk. assert (Pk := PK k ltac:(lia)). destruct (y_walk_wf Pk) as [_ Lk]. rewrite <- (ZL k Hk), <- Lk. rewrite KT in * by exact Hk. unfold kth, tyk, cik in *. destruct (d + Z.of_nat k <? nch (tend 6 q)); now apply y_child_last_facts. }
  assert (T0 : yty (y_walk (nth 0 ps [])) = YT (tend 6 q) d) by (rewrite E0; now apply y_child_last_facts).
  assert (D0 : d = 0).
  { apply (test_first Ht Ht' Hd). rewrite G in TS by lia. destruct (is_pyra (y_walk (nth 0 ps []))) eqn:P.
    - apply is_pyra_iff in P. rewrite T0 in P. destruct (Z.ltb_spec (YT (tend 6 q) d) 6); [lia|]. apply forallb_forall. intros k Hk. apply Z.eqb_eq. change [1;2;3;4;5;6;7] with (zseq 1 7) in Hk. apply in_zseq in Hk.
      specialize (TS (Z.to_nat k) ltac:(lia)). rewrite G in TS by lia. destruct (TK (Z.to_nat k) ltac:(lia)) as [E1 _]. rewrite Z2Nat.id in * by lia. rewrite <- E1, <- TS, T0. reflexivity.
    - apply is_tet_iff in P. rewrite T0 in P. destruct (Z.ltb_spec (YT (tend 6 q) d) 6); [|lia]. destruct TS as [TS CS]. unfold tet_test. rewrite !andb_true_iff. assert (CC : forall i j, In (i, j) [(1,2);(1,3);(4,5);(4,6)]%nat -> cik (tend 6 q) (tend 6 q') d (Z.of_nat i) = cik (tend 6 q) (tend 6 q') d (Z.of_nat j)).
      { intros i j IN. assert (HI : (i < 8)%nat /\ (j < 8)%nat) by (clear -IN; cbn [In] in IN; destruct IN as [IN|[IN|[IN|[IN|IN]]]]; [injection IN as <- <-; lia|injection IN as <- <-; lia|injection IN as <- <-; lia|injection IN as <- <-; lia|contradiction]).
        destruct (CS i j IN) as (X & Y & Zz). rewrite !G in X, Y, Zz by lia. destruct (TK i ltac:(lia)) as [_ <-]. destruct (TK j ltac:(lia)) as [_ <-]. now apply y_cubeid_same. }
      assert (C12 := CC 1%nat 2%nat ltac:(cbn; auto)). assert (C13 := CC 1%nat 3%nat ltac:(cbn; auto)). assert (C45 := CC 4%nat 5%nat ltac:(cbn; auto)). assert (C46 := CC 4%nat 6%nat ltac:(cbn; auto)).
      cbn [Z.of_nat Pos.of_succ_nat Pos.succ] in C12, C13, C45, C46. rewrite !Z.eqb_eq. repeat split; auto. apply forallb_forall. intros k Hk. apply Z.eqb_eq. change [1;2;3;4;5;6] with (zseq 1 6) in Hk. apply in_zseq in Hk.
      specialize (TS (Z.to_nat k) ltac:(lia)). rewrite G in TS by lia. destruct (TK (Z.to_nat k) ltac:(lia)) as [E1 _]. rewrite Z2Nat.id in * by lia. rewrite <- E1, TS, T0. reflexivity. }
  subst d. assert (NS : y_num_siblings e = nch (tend 6 q)).
  { rewrite EE, E0, <- y_walk_tend, <- nch_num by exact Hq. rewrite y_walk_snoc. destruct (y_walk_wf Hq) as [Wq Lq]. apply y_child_id_child; auto; [lia|]. rewrite nch_num, y_walk_tend by exact Hq. lia. }
  assert (EP : y_parent e = y_walk q) by (rewrite EE, E0, y_parent_walk by (auto; now destruct q); now rewrite removelast_last).
  split; [rewrite EE, L0; unfold zlen in *; lia|]. rewrite EP. rewrite y_children_walk by exact Hq. rewrite NS in HL. 
  (* every member is of the level of the first one *)
  assert (ALL : forall k, (k < length ps)%nat -> nth k ps [] = q ++ [Z.of_nat k]).
  { assert (K8 : forall k, (k < 8)%nat -> nth k ps [] = q ++ [Z.of_nat k]).
    { intros k Hk. rewrite KT by exact Hk. unfold kth. pose proof (nch_ge (tend 6 q)). destruct (Z.ltb_spec (0 + Z.of_nat k) (nch (tend 6 q))); [reflexivity|lia]. }
    destruct (Nat.eq_dec (length ps) 8) as [E8|N]; [rewrite E8; exact K8|].
    assert (TP : 6 <= tend 6 q) by (unfold nch in HL; destruct (Z.ltb_spec (tend 6 q) 6); lia). assert (N10 : length ps = 10%nat) by (unfold nch in HL; destruct (Z.ltb_spec (tend 6 q) 6); lia).
    assert (LA : forall k, (k < 10)%nat -> zlen (nth k ps []) = zlen (nth 0 ps [])).
    { intros k Hk. assert (TY0 : is_pyra (y_walk (nth 0 ps [])) = true) by (apply is_pyra_iff; rewrite T0; destruct (tab_first Ht) as (-> & _); lia).
      unfold y_is_family in HF. change (znth dpyr (map y_walk ps) 0) with (nth 0 (map y_walk ps) dpyr) in HF. rewrite G in HF by lia. rewrite TY0 in HF. destruct (ylv (y_walk (nth 0 ps [])) =? 0); [discriminate|].
      destruct (negb _) eqn:EF in HF; [discriminate|]. clear HF. apply negb_false_iff in EF. rewrite forallb_forall in EF. destruct k as [|k]; [reflexivity|].
      specialize (EF (Z.of_nat (S k)) ltac:(change [1;2;3;4;5;6;7;8;9] with (zseq 1 9); apply in_zseq; lia)). unfold znth in EF. rewrite Nat2Z.id, G in EF by lia. apply andb_prop in EF. destruct EF as [EF _]. apply Z.eqb_eq in EF.
      destruct (y_walk_wf (PK (S k) ltac:(lia))) as [_ Lk]. rewrite Lk, L0 in EF. exact EF. }
    rewrite N10. apply (@y_chain_children q 10 ps N10 E0 ltac:(lia)); [unfold nch; destruct (Z.ltb_spec (tend 6 q) 6); lia|].
    intros k Hk. apply CH; [lia|]. rewrite (LA k), (LA (k + 1)%nat) by lia. reflexivity. }
  apply nth_ext with (d := dpyr) (d' := y_walk (q ++ [0])); [rewrite !map_length, zseq_length; exact HL|]. intros k Hk. rewrite map_length in Hk. rewrite G by exact Hk. rewrite ALL by exact Hk.
  rewrite (map_nth (fun i => y_walk (q ++ [i]))). rewrite nth_zseq by lia. reflexivity.
Qed.
Lemma y_family e : ywf e -> ylv e < 21 -> y_is_family (y_children_of e) = true.
Proof.
  intros W HL. assert (Ht := yw_ty W). assert (L0 := ywf_lv W). destruct (is_pyra e) eqn:P.
  - assert (PP := P). apply is_pyra_iff in P. assert (N : y_num_children e = 10) by (unfold y_num_children; now rewrite PP).
    assert (C : forall i, 0 <= i < 10 -> exists s, y_child e i = Pyr (step true (yt e) (YT (yty e) i) (YC (yty e) i)) s) by (intros i Hi; eexists; apply y_child_step; auto; lia).
    unfold y_children_of. rewrite N. change (zseq 0 (Z.to_nat 10)) with [0;1;2;3;4;5;6;7;8;9]. cbn [map].
    destruct (C 0 ltac:(lia)) as (s0 & ->). destruct (C 1 ltac:(lia)) as (s1 & ->). destruct (C 2 ltac:(lia)) as (s2 & ->). destruct (C 3 ltac:(lia)) as (s3 & ->). destruct (C 4 ltac:(lia)) as (s4 & ->).
    destruct (C 5 ltac:(lia)) as (s5 & ->). destruct (C 6 ltac:(lia)) as (s6 & ->). destruct (C 7 ltac:(lia)) as (s7 & ->). destruct (C 8 ltac:(lia)) as (s8 & ->). destruct (C 9 ltac:(lia)) as (s9 & ->).
    unfold y_is_family, znth. change (Z.to_nat 0) with 0%nat. change FIRST_TYPE with 6. cbn [forallb].
    change (Z.to_nat 1) with 1%nat. change (Z.to_nat 2) with 2%nat. change (Z.to_nat 3) with 3%nat. change (Z.to_nat 4) with 4%nat. change (Z.to_nat 5) with 5%nat.
    change (Z.to_nat 6) with 6%nat. change (Z.to_nat 7) with 7%nat. change (Z.to_nat 8) with 8%nat. change (Z.to_nat 9) with 9%nat. cbn [nth].
    unfold is_pyra, step, ylv, yx, yy, yz, yty in *. cbn [yt lv ty sx sy sz] in *. change (MAXLEVEL true) with 21. rewrite YLEN_pow by lia. replace (21 - (lv (yt e) + 1)) with (21 - lv (yt e) - 1) by lia.
    set (h := 2 ^ (21 - lv (yt e) - 1)). clearbody h. clear C W PP N. destruct (yt e) as [l t x y z]. cbn [lv ty sx sy sz] in *.
    destruct (Z.eqb_spec (l + 1) 0); [lia|]. rewrite Z.eqb_refl. change FIRST_TYPE with 6.
    assert (t = 6 \/ t = 7) as [->| ->] by lia;
    repeat match goal with |- context [YT ?a ?b] => eval_term (YT a b) end; repeat match goal with |- context [YC ?a ?b] => eval_term (YC a b) end;
    repeat match goal with |- context [Z.testbit ?a ?b] => eval_term (Z.testbit a b) end; cbn [Z.b2z];
    change (6 <? 6) with false; change (7 <? 6) with false; repeat match goal with |- context [Z.pos ?a =? Z.pos ?b] => eval_term (Z.pos a =? Z.pos b) end;
    cbn [andb negb orb]; rewrite ?Z.eqb_refl; cbn [andb negb orb]; lia.
  - assert (TT := P). apply is_tet_iff in P. assert (N : y_num_children e = 8) by (unfold y_num_children; now rewrite TT).
    assert (C : y_children_of e = map (fun i => Pyr (child true (yt e) i) (ysw e)) [0;1;2;3;4;5;6;7]).
    { unfold y_children_of. rewrite N. change (zseq 0 (Z.to_nat 8)) with [0;1;2;3;4;5;6;7]. apply map_ext. intros i. unfold y_child. now rewrite TT. }
    rewrite C. assert (F := @is_family_complete true (yt e) (ywf_tet W TT) HL). unfold is_family, children_of in F. change (zseq 0 (Z.to_nat (CHILDREN true))) with [0;1;2;3;4;5;6;7] in F.
    assert (T0 : is_pyra (Pyr (child true (yt e) 0) (ysw e)) = false).
    { assert (E0 : y_child e 0 = Pyr (child true (yt e) 0) (ysw e)) by (unfold y_child; now rewrite TT). rewrite <- E0. rewrite y_child_step by (auto; lia). apply is_tet_iff. change (YT (yty e) 0 < 6). destruct (tab_first Ht) as (-> & _). exact P. }
    unfold y_is_family. cbn [map]. change (znth dpyr (Pyr (child true (yt e) 0) (ysw e) :: ?r) 0) with (Pyr (child true (yt e) 0) (ysw e)). 
    unfold znth. change (Z.to_nat 0) with 0%nat. change (Z.to_nat 1) with 1%nat. change (Z.to_nat 2) with 2%nat. change (Z.to_nat 3) with 3%nat. change (Z.to_nat 4) with 4%nat. change (Z.to_nat 5) with 5%nat.
    change (Z.to_nat 6) with 6%nat. change (Z.to_nat 7) with 7%nat. cbn [nth yt]. rewrite T0. exact F.
Qed.
Theorem pyramid_laws : laws pyramid_scheme.
Proof.
  split; change (gwalk pyramid_scheme) with y_walk; cbn [pyramid_scheme elt s_root s_level s_maxlevel s_max_children s_num_children s_num_siblings s_child s_parent s_child_id s_is_family s_equal
    s_compare s_nca s_is_ancestor s_linear_id s_set_linear_id s_successor s_first_desc s_last_desc s_count_root s_ancestor_id]; change YMAX with 21.
  - lia.
  - intros p H%pyramid_path. now apply y_walk_wf.
  - intros p H%pyramid_path. rewrite nch_num. pose proof (nch_ge (yty (y_walk p))). lia.
  - intros p i H%pyramid_path. apply y_path_snoc in H. destruct H as (H & Hl & Hi). destruct (y_walk_wf H) as [W L]. rewrite y_walk_snoc. apply y_child_id_child; auto. lia.
  - unfold y_num_siblings. destruct (_ || _); lia.
  - intros p i H%pyramid_path. rewrite y_parent_walk by (auto; now destruct p). now rewrite removelast_last.
  - intros p i H%pyramid_path. apply y_path_snoc in H. destruct H as (H & Hl & Hi). destruct (y_walk_wf H) as [W L]. rewrite y_walk_snoc. apply y_child_id_child; auto. lia.
  - intros p q Hp%pyramid_path Hq%pyramid_path. now apply y_equal_walk.
  - intros p q Hp%pyramid_path Hq%pyramid_path. now apply y_compare_walk.
  - intros p q Hp%pyramid_path Hq%pyramid_path. now rewrite y_nca_walk.
  - intros p q Hp%pyramid_path Hq%pyramid_path. now apply y_is_ancestor_walk.
  - intros p L Hp%pyramid_path HL. now rewrite y_first_descendant_walk.
  - intros p L Hp%pyramid_path HL. rewrite y_last_descendant_walk by auto. rewrite pyramid_descend. apply y_descend_last; auto. lia.
  - intros L HL. rewrite pyramid_descend. assert (E := @y_descend_ids [] (Z.to_nat L) L yp_nil). change (zlen (@nil Z)) with 0 in E. rewrite <- (map_length (fun e => y_linear_id e L)).
    change y_root with (y_walk []). rewrite E by lia. rewrite zseq_length. reflexivity.
  - intros p L Hp%pyramid_path HL. assert (HF := y_path_firstn (Z.to_nat L) Hp). assert (EL : L = Z.of_nat (Z.to_nat L)) by lia. unfold zlen in HL. rewrite EL at 1 3. rewrite y_linear_id_coarse by (auto; lia).
    assert (LF : zlen (firstn (Z.to_nat L) p) = Z.of_nat (Z.to_nat L)) by (unfold zlen; rewrite firstn_length, Nat.min_l by lia; reflexivity). rewrite <- LF. now rewrite y_linear_id_own.
  - intros p L Hp%pyramid_path HL. rewrite y_first_descendant_walk by auto. rewrite y_linear_id_fine by auto. set (n := Z.to_nat (L - zlen p)). assert (HZ := @y_path_zeros p n Hp ltac:(lia)).
    replace L with (zlen (p ++ repeat 0 n)) at 2 by (rewrite zlen_app, zlen_repeat; lia). rewrite y_linear_id_own by exact HZ.
    rewrite ynum_app, zlen_repeat, Z.add_0_r. destruct (@zeros_facts (tend 6 p) n 0) as (_ & _ & ->); [apply tend_type; [lia|now apply y_path_iff in Hp]|]. rewrite Z.add_0_r. f_equal. lia.
  - intros p Hp%pyramid_path. rewrite y_linear_id_own by auto. now rewrite y_init_linear_id_walk.
  - intros p q Hp%pyramid_path Hq%pyramid_path HL E. rewrite !y_linear_id_own in E by auto. rewrite (@y_successor_walk p q); auto. apply (@ynext_of_num p q 0); auto; try lia. now rewrite ysz_0.
  - intros p Hp%pyramid_path HL. destruct (y_walk_wf Hp) as [W L]. apply y_family; auto. lia.
  - intros l e HC HE HL HF. now apply y_family_only.
  - intros L HL. rewrite pyramid_descend, y_descend_root_length by lia. reflexivity.
  - intros p L Hp%pyramid_path HL. unfold zlen in HL. replace L with (Z.of_nat (Datatypes.S (Z.to_nat (L - 1)))) at 1 by lia. apply y_ancestor_id_walk; auto. lia.
Qed.

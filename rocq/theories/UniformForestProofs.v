(** The uniform forest has all elements of its level. *)
From Verif Require Import Prelude PathSpec SchemeModel SchemeSpec SchemeProofs LeafProofs OffsetModel PartitionModel PartitionSpec PartitionRangeProofs.
From Verif Require Import OwnerModel OwnerSpec UniformModel UniformSpec UniformProofs.

(** the elements of level L of a tree *)
Definition elements (S : scheme) (L : Z) : list (elt S) := descend (Z.to_nat L) (s_root S).

Lemma nth_error_zseq a n i : (i < n)%nat -> nth_error (zseq a n) i = Some (a + Z.of_nat i).
Proof. revert a i. induction n as [|n IH]; intros a i H; [lia|]. destruct i as [|i]; cbn [zseq nth_error]; [f_equal; lia|]. rewrite IH by lia. f_equal. lia. Qed.
Lemma skipn_cons_nth {A} (l : list A) i x : nth_error l i = Some x -> skipn i l = x :: skipn (S i) l.
Proof. revert i. induction l as [|y l IH]; intros [|i] H; try discriminate; cbn in *; [now injection H as ->|]. now apply IH. Qed.
Lemma part_head {A} (l1 l2 : list A) x y : 0 <= x -> x <= y -> y <= zlen l1 -> part (l1 ++ l2) x y = part l1 x y.
Proof.
  intros Hx Hy Hn. unfold part, zlen in *. rewrite skipn_app, firstn_app, skipn_length. replace (Z.to_nat (y - x) - (length l1 - Z.to_nat x))%nat with 0%nat by lia. cbn [firstn]. now rewrite app_nil_r.
Qed.

Section tree.
Variable S : scheme.
Hypothesis LW : laws S.
Variable L : Z.
Hypothesis HL : 0 <= L <= s_maxlevel S.
Implicit Types e f : elt S.
Notation D := (elements S L).
Lemma elem_path i e : nth_error D i = Some e -> exists p, gpath S p /\ zlen p = L /\ e = gwalk S p /\ s_linear_id e L = Z.of_nat i.
Proof.
  intros H. assert (I := nth_error_In _ _ H). destruct (@descend_in_inv S (Z.to_nat L) [] e (gp_nil _)) as (r & P & Lr & E); [unfold zlen; cbn [length]; lia|exact I|].
  cbn [app] in *. exists r. split; [exact P|]. split; [unfold zlen; lia|]. split; [exact E|].
  assert (Q := law_linear_id LW HL). fold D in Q. assert (Q1 := f_equal (fun l => nth_error l i) Q). cbn beta in Q1. rewrite nth_error_map, H in Q1. cbn [option_map] in Q1.
  assert (Li : (i < length D)%nat) by (apply nth_error_Some; congruence). rewrite nth_error_zseq in Q1 by exact Li. injection Q1. lia.
Qed.
Lemma successors_ok n : forall i, (i + n <= length D)%nat -> (0 < n)%nat -> successors (s_set_linear_id S L (Z.of_nat i)) n = firstn n (skipn i D).
Proof.
  assert (ST : forall i e, nth_error D i = Some e -> s_set_linear_id S L (Z.of_nat i) = e).
  { intros i e H. destruct (elem_path H) as (p & Hp & Lp & E & I). rewrite <- I. rewrite E, <- Lp. exact (law_set_linear_id LW Hp). }
  assert (NX : forall i e f, nth_error D i = Some e -> nth_error D (Datatypes.S i) = Some f -> s_successor e = f).
  { intros i e f H1 H2. destruct (elem_path H1) as (p & Hp & Lp & E1 & I1). destruct (elem_path H2) as (q & Hq & Lq & E2 & I2). rewrite E1, E2. apply (law_successor LW); auto; [congruence|].
    rewrite <- E1, <- E2, Lp, Lq. lia. }
  assert (G : forall n i e, nth_error D i = Some e -> (i + n <= length D)%nat -> successors e n = firstn n (skipn i D)).
  { clear n. induction n as [|n IH]; intros i e H Hi; [reflexivity|]. assert (K := skipn_cons_nth H). rewrite K. cbn [successors firstn]. f_equal.
    destruct n as [|n]; [reflexivity|]. destruct (nth_error D (Datatypes.S i)) as [f|] eqn:Hf; [|apply nth_error_None in Hf; lia].
    rewrite (NX i e f H Hf). apply IH; [exact Hf|lia]. }
  intros i Hi Hn. destruct (nth_error D i) as [e|] eqn:H; [|apply nth_error_None in H; lia]. rewrite (ST i e H). apply G; auto.
Qed.
Lemma elements_nonempty : 0 < zlen D.
Proof. unfold elements. destruct (@cells_first S LW [] (Z.to_nat L) (gp_nil _)) as (r & E); [unfold zlen; cbn [length]; lia|]. change (gwalk S []) with (s_root S) in E. rewrite E. unfold zlen. cbn [length]. lia. Qed.
End tree.

Section forest.
Variable cls : Z -> scheme.
Variables (K L : Z).
Hypothesis HK : 1 <= K.
Hypothesis LW : forall t, 0 <= t < K -> laws (cls t) /\ 0 <= L <= s_maxlevel (cls t).
Notation num t := (zlen (elements (cls t) L)).
Definition nums : list Z := map (fun t => num t) (zseq 0 (Z.to_nat K)).
Hypothesis HT : total nums < 2 ^ 63.
Notation mk t e := (existT (fun t => elt (cls t)) t e).
Notation B t := (psum nums t).

Lemma nums_len : zlen nums = K. Proof. unfold nums, zlen. rewrite map_length, zseq_length. lia. Qed.
Lemma nums_nth t : 0 <= t < K -> count_of nums t = num t.
Proof.
  intros H. unfold count_of, nums. apply nth_error_nth. rewrite nth_error_map, nth_error_zseq by lia. cbn [option_map]. replace (0 + Z.of_nat (Z.to_nat t)) with t by lia. reflexivity.
Qed.
Lemma nums_pos : Forall (fun c => 0 < c) nums.
Proof. apply Forall_forall. intros c Hc. unfold nums in Hc. apply in_map_iff in Hc. destruct Hc as (t & <- & Ht). apply in_zseq in Ht. destruct (LW (t := t)) as [A C]; [lia|]. now apply elements_nonempty. Qed.
Lemma nums_nonneg : Forall (fun c => 0 <= c) nums.
Proof. eapply Forall_impl; [|exact nums_pos]. intros c Hc. cbn beta in *. lia. Qed.
Lemma num_small t : 0 <= t < K -> 0 < num t < 2 ^ 63.
Proof.
  intros H. assert (P := nums_pos). rewrite Forall_forall in P. split.
  - rewrite <- nums_nth by exact H. apply P. apply nth_In. assert (NL := nums_len). unfold zlen in NL. lia.
  - assert (Q := psum_le nums (t + 1) (zlen nums) nums_nonneg ltac:(lia) ltac:(rewrite nums_len; lia) ltac:(lia)). rewrite psum_all, psum_step, nums_nth in Q by (rewrite ?nums_len; lia).
    assert (Q0 := psum_le nums 0 t nums_nonneg ltac:(lia) ltac:(lia) ltac:(rewrite nums_len; lia)). rewrite psum_0 in Q0. lia.
Qed.
Lemma count_root_ok t : 0 <= t < K -> s_count_root (cls t) L = num t.
Proof. intros H. destruct (LW H) as [A C]. rewrite (law_count_root A C). apply i64_small. assert (Q := num_small H). unfold zlen, elements in *. lia. Qed.
Lemma tree_counts_ok : tree_counts cls K L = nums.
Proof. unfold tree_counts, nums. apply map_ext_in. intros t Ht. apply in_zseq in Ht. apply count_root_ok. lia. Qed.

Variable class : Z -> Z.
Definition block (t : Z) : list (Z * Z * leaf cls) := map (fun e => (t, class t, mk t e)) (elements (cls t) L).
Definition whole : list (Z * Z * leaf cls) := flat_map block (zseq 0 (Z.to_nat K)).
Lemma block_len t : zlen (block t) = num t. Proof. unfold block, zlen. now rewrite map_length. Qed.
Lemma prefix_len n : Z.of_nat n <= K -> zlen (flat_map block (zseq 0 n)) = B (Z.of_nat n).
Proof.
  induction n as [|n IH]; intros H; [reflexivity|]. replace (Datatypes.S n) with (n + 1)%nat at 1 by lia. rewrite zseq_app, flat_map_app, zlen_app, IH by lia. cbn [zseq flat_map]. rewrite app_nil_r, block_len.
  replace (Z.of_nat (Datatypes.S n)) with (Z.of_nat n + 1) by lia. rewrite psum_step by (rewrite nums_len; lia). rewrite nums_nth by lia. f_equal.
Qed.
Lemma whole_len : zlen whole = total nums.
Proof. unfold whole. rewrite prefix_len by lia. replace (Z.of_nat (Z.to_nat K)) with (zlen nums) by (rewrite nums_len; lia). apply psum_all. Qed.
Lemma whole_part t x y : 0 <= t < K -> 0 <= x -> x <= y -> y <= num t -> part whole (B t + x) (B t + y) = part (block t) x y.
Proof.
  intros Ht Hx Hy Hn. unfold whole. rewrite (@zseq_split 0 (Z.to_nat K) (Z.to_nat t)) by lia. rewrite flat_map_app. assert (PL := @prefix_len (Z.to_nat t) ltac:(lia)). replace (Z.of_nat (Z.to_nat t)) with t in PL by lia.
  rewrite part_app_r by lia. rewrite PL. replace (B t + x - B t) with x by lia. replace (B t + y - B t) with y by lia.
  replace (Z.to_nat K - Z.to_nat t)%nat with (Datatypes.S (Z.to_nat K - Z.to_nat t - 1)) by lia. cbn [zseq flat_map]. replace (0 + Z.of_nat (Z.to_nat t)) with t by lia.
  apply part_head; rewrite ?block_len; lia.
Qed.

Lemma populate_trees_ok f l s e : 0 <= f -> l < K -> position nums (B f + s) f s -> 0 < e <= num l -> (f = l -> s < e) ->
  forall n jt count, f <= jt -> jt + Z.of_nat n = l + 1 ->
  let st := if jt =? f then s else 0 in
  exists trees, let z := part whole (B jt + st) (B l + e) in
    populate_trees n class L f l s e jt count = Ok (count + (if n then 0 else zlen z), trees) /\
    zlen trees = Z.of_nat n /\ trees_ok count trees /\ (n <> 0%nat -> tag_trees jt trees = z /\ B jt + st < B l + e).
Proof.
  intros Hf Hl (_ & Hs & _) He Hse. rewrite nums_nth in Hs.
  2:{ assert (NL := nums_len). destruct (Z.le_gt_cases K f) as [C|]; [exfalso|lia]. unfold count_of in Hs. rewrite nth_overflow in Hs; [lia|]. unfold zlen in NL. lia. }
  induction n as [|n IH]; intros jt count Hj Hn; cbn zeta; cbn [populate_trees].
  - exists []. rewrite Z.add_0_r. split; [reflexivity|]. split; [reflexivity|]. split; [exact I|]. congruence.
  - assert (Hjt : 0 <= jt < K) by lia. set (st := if jt =? f then s else 0). set (stop := if jt =? l then e else s_count_root (cls jt) L).
    assert (Est : stop = if jt =? l then e else num jt) by (unfold stop; now rewrite count_root_ok).
    assert (R : 0 <= st < stop /\ stop <= num jt).
    { rewrite Est. unfold st. assert (Q := num_small Hjt). destruct (Z.eqb_spec jt f) as [E1|E1]; destruct (Z.eqb_spec jt l) as [E2|E2]; try subst jt; try subst l; lia. }
    destruct R as [R1 R2]. rewrite (proj2 (Z.leb_gt _ 0)) by lia. destruct (LW Hjt) as [A C].
    assert (SU := successors_ok A C (n := Z.to_nat (stop - st)) (i := Z.to_nat st)). replace (Z.of_nat (Z.to_nat st)) with st in SU by lia. rewrite SU by (unfold zlen in R2; lia). clear SU.
    fold (part (elements (cls jt) L) st stop). assert (ZL := @zlen_part _ (elements (cls jt) L) st stop ltac:(lia) ltac:(lia) ltac:(lia)). rewrite ZL.
    match goal with |- context [PTree _ _ ?es] => set (ES := es : list (leaf cls)) end.
    assert (PB : map (fun e0 : leaf cls => (jt, class jt, e0)) ES = part whole (B jt + st) (B jt + stop)).
    { rewrite whole_part by lia. unfold ES. rewrite map_map. unfold part, block. now rewrite skipn_map, firstn_map. }
    assert (NN : ES <> []).
    { intros Q. unfold ES in Q. apply map_eq_nil in Q. rewrite Q in ZL. unfold zlen in ZL. cbn [length] in ZL. lia. }
    assert (LM : zlen ES = stop - st) by (unfold ES, zlen in *; rewrite map_length; exact ZL).
    assert (WL := whole_len). assert (BP := psum_le nums 0 jt nums_nonneg ltac:(lia) ltac:(lia) ltac:(rewrite nums_len; lia)). rewrite psum_0 in BP.
    destruct (IH (jt + 1) (count + (stop - st)) ltac:(lia) ltac:(lia)) as (trees & I1 & I2 & I3 & I4). rewrite I1. cbn [obind fst snd]. clear IH.
    eexists. assert (STEP := psum_step nums jt ltac:(rewrite nums_len; lia)). rewrite nums_nth in STEP by lia.
    assert (TG : tag_trees jt (PTree (class jt) count ES :: trees) = part whole (B jt + st) (B l + e) /\ B jt + st < B l + e).
    { cbn [tag_trees pt_class pt_elems]. rewrite PB. destruct (Z.eqb_spec jt l) as [E2|E2].
      - assert (n = 0%nat) by lia. subst n. destruct trees; [|unfold zlen in I2; cbn [length] in I2; lia]. cbn [tag_trees]. rewrite app_nil_r. rewrite Est. subst jt. split; [reflexivity|lia].
      - destruct (I4 ltac:(lia)) as [I5 I6]. rewrite I5. destruct (Z.eqb_spec (jt + 1) f); [lia|]. rewrite STEP in *. rewrite Z.add_0_r in *. rewrite Est. split; [|lia]. apply part_cat; lia. }
    assert (BL : B l + e <= total nums).
    { assert (Q := psum_le nums (l + 1) (zlen nums) nums_nonneg ltac:(lia) ltac:(rewrite nums_len; lia) ltac:(lia)). rewrite psum_all, psum_step, nums_nth in Q by (rewrite ?nums_len; lia). lia. }
    split; [|split; [|split]].
    + f_equal. f_equal. fold st. rewrite (@zlen_part _ whole (B jt + st) (B l + e)) by lia. destruct n as [|n].
      * assert (jt = l) by lia. subst jt. rewrite Est, Z.eqb_refl. lia.
      * destruct (I4 ltac:(lia)) as [_ I6]. destruct (Z.eqb_spec (jt + 1) f); [lia|]. rewrite STEP, Z.add_0_r in *. destruct (Z.eqb_spec jt l) as [Q|Q]; [lia|].  rewrite zlen_part by lia. rewrite Est. lia.
    + rewrite zlen_cons, I2. lia.
    + cbn [trees_ok pt_offset pt_elems]. split; [reflexivity|]. split; [exact NN|]. rewrite LM. exact I3.
    + intros _. exact TG.
Qed.

Lemma populate_ok maxlevel a b x : L <= maxlevel -> 0 <= a -> a <= b -> b <= total nums -> bounds_for nums a b x ->
  exists f, populate class maxlevel L 0 K x = Ok f /\ local_forest f /\ pf_num f = b - a /\ tagged f = part whole a b.
Proof.
  intros HM Ha Hab Hb [X1 X2]. unfold populate. destruct (Z.ltb_spec maxlevel L); [lia|]. destruct (Z.eq_dec a b) as [E|E].
  - destruct (X2 ltac:(lia)) as (f & F1 & F2). rewrite F1, F2. cbn [oget obind]. rewrite (proj2 (Z.ltb_lt (f - 1) f)) by lia. cbn [obind].
    eexists. split; [reflexivity|]. unfold local_forest, tagged. cbn [pf_first pf_last pf_num pf_trees tag_trees trees_ok]. rewrite part_nil by lia. unfold zlen. cbn [length]. repeat split; lia.
  - destruct (X1 ltac:(lia)) as (f & s & l & e & -> & FL & P1 & P2). cbn [b_first b_last b_begin b_end oget obind]. assert (NL := nums_len).
    assert (H1 := proj1 P1). assert (H2 := proj1 P2). rewrite NL in *. destruct P2 as (_ & P2 & P3). rewrite nums_nth in P2 by lia. assert (P1' := proj2 (proj2 P1)).
    assert (LE : f = l -> s < e) by (intros ->; lia).
    assert (EM : (if l <? f then Ok true else if f =? l then Ok (e <=? s) else Ok false) = Ok false).
    { rewrite (proj2 (Z.ltb_ge l f)) by lia. destruct (Z.eqb_spec f l) as [Q|Q]; [|reflexivity]. rewrite (proj2 (Z.leb_gt e s)) by auto. reflexivity. }
    rewrite EM. cbn [obind]. rewrite (proj2 (Z.leb_le 0 f)), (proj2 (Z.leb_le l (0 + K - 1))) by lia. cbn [andb negb].
    destruct (@populate_trees_ok f l s e ltac:(lia) ltac:(lia) ltac:(rewrite <- P1'; exact P1) ltac:(lia) LE (Z.to_nat (l - f + 1)) f 0 ltac:(lia) ltac:(lia)) as (trees & I1 & I2 & I3 & I4).
    rewrite Z.eqb_refl in *. destruct (I4 ltac:(lia)) as [I5 _]. rewrite I1. cbn [obind fst snd]. clear I4.
    replace (B f + s) with a in * by lia. replace (B l + e) with b in * by lia.
    destruct (Z.to_nat (l - f + 1)) as [|n0] eqn:En; [lia|]. eexists. split; [reflexivity|]. unfold local_forest, tagged. cbn [pf_first pf_last pf_num pf_trees].
    rewrite I5. assert (WL := whole_len). rewrite Z.add_0_l. split; [split; [exact I3|split; [reflexivity|lia]]|]. split; [apply zlen_part; lia|reflexivity].
Qed.
End forest.

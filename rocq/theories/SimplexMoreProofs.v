(** Further queries of triangles and tetrahedra: the bitwise ancestor, parent and sibling tests, all children at once. *)
From Verif Require Import Prelude PathSpec SimplexModel SimplexSpec BitLemmas SimplexProofs SimplexPathProofs SimplexOrderProofs
  SimplexGeoProofs SimplexAncProofs SimplexTileProofs SimplexFaceProofs SimplexFamilyProofs.

Lemma childrenpv_eq tet e : wf tet e -> lv e < MAXLEVEL tet -> childrenpv tet e = children_of tet e.
Proof.
  intros W L. destruct W as [_ T _ _ _ _ _ _ _]. destruct e as [l t x y z]. cbn [lv ty] in *.
  destruct tet; cbn [NUM_TYPES] in T; split_range T; unfold childrenpv, children_of; cbn [CHILDREN Z.to_nat Pos.to_nat Pos.iter_op Nat.add Z.sub Z.opp Z.add Z.pos_sub Pos.pred_double zseq map Pos.add Pos.succ];
  unfold child; cbn [ty lv sx sy sz];
  repeat match goal with |- context [index_to_bey_number ?b ?t ?i] => eval_term (index_to_bey_number b t i) end;
  repeat match goal with |- context [beyid_to_vertex ?b ?i] => eval_term (beyid_to_vertex b i) end;
  repeat match goal with |- context [type_of_child ?b ?t ?i] => eval_term (type_of_child b t i) end; red_ifs;
  unfold compute_integer_coords, all_coords; cbn [ty lv sx sy sz]; eval_divmod; red_ifs; unfold add_at; red_ifs; reflexivity.
Qed.

Lemma xor_shift_iff k a v : 0 <= k -> al k a -> (Z.shiftr (Z.lxor a v) k =? 0) = (0 <=? v - a) && (v - a <? 2 ^ k).
Proof.
  intros Hk (q & ->). rewrite Z.shiftr_lxor, !Z.shiftr_div_pow2 by lia. pose proof (pow2_pos Hk). rewrite Z.div_mul by lia.
  pose proof (Z.div_mod v (2 ^ k)) as D. pose proof (Z.mod_pos_bound v (2 ^ k)) as B.
  set (h := 2 ^ k) in *. set (m := v / h) in *. set (r := v mod h) in *. clearbody h m r.
  destruct (Z.eqb_spec (Z.lxor q m) 0) as [E|E].
  - apply Z.lxor_eq in E. subst q. symmetry. apply andb_true_intro. split; lia.
  - symmetry. apply Bool.not_true_iff_false. intros F. apply E. replace m with q; [apply Z.lxor_nilpotent|].
    assert (0 <= h * m + r - q * h < h) by lia. nia.
Qed.

Lemma if_false (c b : bool) : (if c then b else false) = c && b. Proof. destruct c; reflexivity. Qed.
Lemma is_ancestor_inside tet a e : wf tet a -> wf tet e -> lv a <= lv e ->
  is_ancestor tet a e = true <-> inside_of tet a e.
Proof.
  intros Wa We Hl. unfold is_ancestor. destruct (Z.ltb_spec (lv e) (lv a)); [lia|].
  destruct (Z.eqb_spec (lv a) (lv e)) as [E|E].
  - rewrite equal_iff by auto. split; [intros <-; now apply inside_refl|]. intros I. symmetry. symmetry. apply (@inside_same_level tet a e) in I; auto.
  - assert (Hk : 0 <= MAXLEVEL tet - lv a) by (destruct Wa; lia).
    rewrite !xor_shift_iff by (auto; apply Wa). rewrite LEN_pow by (destruct Wa; lia).
    destruct Wa as [_ Ta _ _ _ _ _ _ Za], We as [_ Te _ _ _ _ _ _ Ze].
    destruct a as [la ta xa ya za], e as [le te xe ye ze]; cbn [lv ty sx sy sz] in *.
    set (k := 2 ^ (MAXLEVEL tet - la)) in *.
    destruct tet; cbn [NUM_TYPES] in *; split_range Ta; cbn zeta; split_range Te; eval_divmod;
    repeat match goal with |- context [(?a + ?b * ?c) mod 6] => eval_term ((a + b * c) mod 6)
                         | |- context [(?a - ?b * ?c) mod 6] => eval_term ((a - b * c) mod 6) end; red_ifs;
    rewrite if_false;
    (split; [intros HH; constructor; cbn [lv ty sx sy sz]; intros; try discriminate; unfold rel, gxy, gxz, gyz; red_ifs; fold k; lia
      | intros [I1 I2 I3 I4 I5 I6]; cbn [lv ty sx sy sz] in *; try specialize (I3 eq_refl); try specialize (I5 eq_refl); try specialize (I6 eq_refl);
        clear Ze Za; unfold rel, gxy, gxz, gyz in *; cbn in I4, I5, I6; fold k in I1, I2, I3; lia]).
Qed.

Lemma is_ancestor_walk tet p q : tree_path tet p -> tree_path tet q ->
  is_ancestor tet (walk tet p) (walk tet q) = true <-> prefix p q.
Proof.
  intros Hp Hq. destruct (walk_wf Hp) as [Wp Lp]. destruct (walk_wf Hq) as [Wq Lq].
  destruct (Z.le_gt_cases (zlen p) (zlen q)).
  - rewrite is_ancestor_inside by (auto; lia). now apply inside_walk.
  - unfold is_ancestor. destruct (Z.ltb_spec (lv (walk tet q)) (lv (walk tet p))); [|lia].
    split; [discriminate|]. intros (r & ->). rewrite zlen_app in H. unfold zlen in H. lia.
Qed.

Lemma is_parent_iff tet e c : wf tet e -> wf tet c -> 0 < lv c -> is_parent tet e c = true <-> e = parent tet c.
Proof.
  intros We Wc Hl. unfold is_parent, parent. destruct e as [l t x y z]; cbn [lv ty sx sy sz].
  assert (Z0 := wf_z0 We). assert (Z1 := wf_z0 Wc). cbn [sz] in Z0. split.
  - intros H. rewrite if_true in H. assert (l = lv c - 1 /\ x = clear (sx c) (LEN tet (lv c)) /\ y = clear (sy c) (LEN tet (lv c)) /\
      t = cid_type_to_parenttype tet (compute_cubeid tet c (lv c)) (ty c)) as (-> & -> & -> & ->) by lia.
    f_equal. destruct tet; [lia|]. rewrite Z0, Z1; auto.
  - intros [= -> -> -> -> ->]. rewrite if_true. destruct tet; lia.
Qed.
Lemma is_sibling_sym tet a b : is_sibling tet a b = true -> lv a = lv b.
Proof. unfold is_sibling. rewrite !if_true. destruct (Z.eqb_spec (lv a) 0); lia. Qed.

Lemma lxor_clear_iff k a b : 0 <= k -> (clear (Z.lxor a b) (2 ^ k) =? 0) = true <-> clear a (2 ^ k) = clear b (2 ^ k).
Proof.
  intros Hk. rewrite Z.eqb_eq. split; intros H; apply Z.bits_inj'; intros n Hn.
  - assert (T := f_equal (fun v => Z.testbit v n) H). cbn beta in T. rewrite clear_pow_bits, Z.lxor_spec, Z.bits_0 in T by lia.
    rewrite !clear_pow_bits by lia. destruct (Z.testbit a n), (Z.testbit b n), (n =? k); cbn in *; congruence.
  - assert (T := f_equal (fun v => Z.testbit v n) H). cbn beta in T. rewrite !clear_pow_bits in T by lia.
    rewrite clear_pow_bits, Z.lxor_spec, Z.bits_0 by lia. destruct (Z.testbit a n), (Z.testbit b n), (n =? k); cbn in *; congruence.
Qed.
Lemma is_sibling_iff tet a b : wf tet a -> wf tet b -> 0 < lv a -> is_sibling tet a b = true <-> lv a = lv b /\ parent tet a = parent tet b.
Proof.
  intros Wa Wb Hl. unfold is_sibling, parent. destruct (Z.eqb_spec (lv a) 0); [lia|]. rewrite if_true.
  assert (Hk : 0 <= MAXLEVEL tet - lv a) by (destruct Wa; lia). rewrite !LEN_pow by (destruct Wa, Wb; lia).
  assert (Za := wf_z0 Wa). assert (Zb := wf_z0 Wb).
  assert (X := lxor_clear_iff (sx a) (sx b) Hk). assert (Y := lxor_clear_iff (sy a) (sy b) Hk). assert (V := lxor_clear_iff (sz a) (sz b) Hk).
  split.
  - intros H. apply andb_prop in H. destruct H as [H H5]. apply andb_prop in H. destruct H as [H H4]. apply andb_prop in H. destruct H as [H H3].
    apply andb_prop in H. destruct H as [H1 H2]. assert (E : lv a = lv b) by lia. split; [exact E|]. rewrite <- E in *. f_equal; try lia; try tauto.
    destruct tet; [apply V; lia|]. rewrite Za, Zb; auto.
  - intros [E H]. rewrite <- E in *. injection H as H1 H2 H3 H4. apply X in H2. apply Y in H3. destruct tet; [apply V in H4|]; rewrite ?H2, ?H3, ?H4, ?H1; lia.
Qed.

(** two elements of positive level are siblings in the sense of the query iff their paths differ at most in the last child number *)
Lemma parent_walk tet p : tree_path tet p -> p <> [] -> parent tet (walk tet p) = walk tet (removelast p).
Proof.
  intros H N. destruct (exists_last N) as (q & i & ->). rewrite removelast_last, walk_snoc. apply tree_path_snoc in H.
  destruct H as (H & Hi & Hl). destruct (walk_wf H) as [W L]. apply parent_child; auto. lia.
Qed.

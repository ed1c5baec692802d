(** Family tests, leaf counts and further queries of triangles and tetrahedra. *)
From Verif Require Import Prelude PathSpec GeoSpec SimplexModel SimplexSpec BitLemmas SimplexProofs SimplexPathProofs SimplexOrderProofs
  SimplexGeoProofs SimplexAncProofs SimplexTileProofs SimplexFaceProofs SimplexFaceChildProofs.

Lemma znth_children tet e k : 0 <= k < CHILDREN tet -> znth dsimp (children_of tet e) k = child tet e k.
Proof.
  intros Hk. destruct tet; cbn [CHILDREN] in Hk; split_range Hk; reflexivity.
Qed.

(** every full family is recognised *)
Lemma is_family_complete tet e : wf tet e -> lv e < MAXLEVEL tet -> is_family tet (children_of tet e) = true.
Proof.
  intros W Hl. assert (Ht := wf_ty W). assert (HL := wf_lv W).
  assert (Hinc := LEN_half Hl). assert (Hz : tet = false -> sz e = 0) by apply W.
  assert (C : forall k, 0 <= k < CHILDREN tet -> znth dsimp (children_of tet e) k = step tet e (Tt tet (ty e) k) (Tc tet (ty e) k)).
  { intros k Hk. rewrite znth_children by auto. apply child_step; auto. }
  unfold is_family. destruct tet.
  - unfold tet_is_familypv.
    rewrite !C by (cbn; lia). cbn [existsb]. rewrite !C by (cbn; lia).
    unfold step. cbn [lv ty sx sy sz anchor]. rewrite LEN_pow by lia. replace (MAXLEVEL true - (lv e + 1)) with (MAXLEVEL true - lv e - 1) by lia.
    set (h := 2 ^ (MAXLEVEL true - lv e - 1)). clearbody h. destruct e as [l t x y z]. cbn [lv ty sx sy sz NUM_TYPES] in *. clear Hinc C W Hz.
    assert (0 <? l + 1 = true) by lia. destruct (Z.eqb_spec (l + 1) 0); [lia|]. rewrite Z.eqb_refl.
    split_range Ht; eval_tabs; cbn [Z.testbit Pos.testbit Z.b2z]; 
    repeat match goal with |- context [type_of_child_morton ?b ?t ?i] => eval_term (type_of_child_morton b t i) end;
    repeat match goal with |- context [Z.testbit ?a ?b] => eval_term (Z.testbit a b) end; cbn [Z.b2z];
    repeat (eval_closed; cbn -[Z.mul Z.add Z.modulo Z.div Z.sub Z.eqb]); rewrite ?Z.eqb_refl; cbn -[Z.mul Z.add Z.modulo Z.div Z.sub Z.eqb];
    rewrite ?Z.eqb_refl; cbn -[Z.mul Z.add Z.modulo Z.div Z.sub Z.eqb]; red_ifs; lia.
  - unfold tri_is_familypv. rewrite !C by (cbn; lia).
    unfold step. cbn [lv ty sx sy sz anchor]. rewrite LEN_pow by lia. replace (MAXLEVEL false - (lv e + 1)) with (MAXLEVEL false - lv e - 1) by lia.
    set (h := 2 ^ (MAXLEVEL false - lv e - 1)). clearbody h. destruct e as [l t x y z]. cbn [lv ty sx sy sz NUM_TYPES] in *. clear Hinc C W Hz.
    destruct (Z.eqb_spec (l + 1) 0); [lia|]. rewrite Z.eqb_refl.
    split_range Ht; eval_tabs;
    repeat match goal with |- context [Z.testbit ?a ?b] => eval_term (Z.testbit a b) end; cbn [Z.b2z];
    repeat (eval_closed; cbn -[Z.mul Z.add Z.modulo Z.div Z.sub Z.eqb]); rewrite ?Z.eqb_refl; cbn -[Z.mul Z.add Z.modulo Z.div Z.sub Z.eqb];
    rewrite ?Z.eqb_refl; cbn -[Z.mul Z.add Z.modulo Z.div Z.sub Z.eqb]; red_ifs; lia.
Qed.

(** ** consecutive elements *)
Lemma nth_elem_split tet L id : 0 <= L -> 0 <= id ->
  let N := CHILDREN tet in
  nth_elem tet (L + 1) id = walk tet (digits N (Z.to_nat L) (id / N) ++ [id mod N]).
Proof. intros HL Hid. cbn zeta. unfold nth_elem. replace (Z.to_nat (L + 1)) with (S (Z.to_nat L)) by lia. reflexivity. Qed.

Lemma tree_path_digits tet L id : 0 <= L <= MAXLEVEL tet -> tree_path tet (digits (CHILDREN tet) (Z.to_nat L) id).
Proof.
  intros HL. split; [apply digits_valid, CHILDREN_pos|]. unfold zlen. rewrite digits_length. lia.
Qed.

Lemma cubeid_last tet p i : tree_path tet (p ++ [i]) ->
  compute_cubeid tet (walk tet (p ++ [i])) (zlen p + 1) = Tc tet (ty (walk tet p)) i.
Proof.
  intros H. rewrite (walk_step H). apply tree_path_snoc in H. destruct H as (H & Hi & Hl). destruct (walk_wf H) as [W L].
  rewrite <- L. apply cubeid_step_same; auto; [lia|]. apply tab_Tc_range; auto. apply W.
Qed.

Definition cid_eq (tet : bool) (a b : simp) : Prop := sx a = sx b /\ sy a = sy b /\ (tet = true -> sz a = sz b).
Lemma cid_eq_cubeid tet a b l : cid_eq tet a b -> compute_cubeid tet a l = compute_cubeid tet b l.
Proof. intros (H1 & H2 & H3). unfold compute_cubeid. rewrite H1, H2. destruct tet; auto. now rewrite H3. Qed.

Lemma is_family_pairs tet f : is_family tet f = true ->
  let g i := znth dsimp f i in
  if tet then cid_eq tet (g 1) (g 2) /\ cid_eq tet (g 1) (g 3) /\ cid_eq tet (g 4) (g 5) /\ cid_eq tet (g 4) (g 6)
  else cid_eq tet (g 1) (g 2).
Proof.
  intros H. unfold is_family, tet_is_familypv, tri_is_familypv, cid_eq in *. cbn zeta in *. destruct tet.
  - destruct (_ || existsb _ _) eqn:E1 in H; [discriminate|]. destruct (existsb _ _) eqn:E2 in H; [discriminate|].
    destruct (existsb _ _) eqn:E3 in H; [discriminate|]. cbn [existsb] in E3. clear - E3. lia.
  - destruct (_ || _) eqn:E1 in H; [discriminate|]. destruct (_ && _) eqn:E2 in H; [discriminate|].
    destruct (_ || _) eqn:E3 in H; [discriminate|]. clear - E3. repeat split; try discriminate; lia.
Qed.

(** cube id of the k-th of the elements starting at child d of a type-t parent, t' being the type of the next parent *)
Definition cidk (tet : bool) (t t' d k : Z) : Z := if d + k <? CHILDREN tet then Tc tet t (d + k) else Tc tet t' (d + k - CHILDREN tet).
Definition pairs_tab (tet : bool) (t t' d : Z) : bool :=
  let c := cidk tet t t' d in
  if tet then (c 1 =? c 2) && (c 1 =? c 3) && (c 4 =? c 5) && (c 4 =? c 6) else c 1 =? c 2.
Lemma tab_consec tet t t' d : 0 <= t < NUM_TYPES tet -> 0 <= t' < NUM_TYPES tet -> 0 <= d < CHILDREN tet ->
  pairs_tab tet t t' d = true -> d = 0.
Proof.
  intros Ht Ht' Hd H. assert (A : all2 (NUM_TYPES tet) (NUM_TYPES tet) (fun t t' => forallb (fun d => negb (pairs_tab tet t t' d) || (d =? 0)) (range (CHILDREN tet))) = true)
    by (destruct tet; vm_compute; reflexivity).
  assert (B := all2_spec A Ht Ht'). rewrite forallb_forall in B. specialize (B d (proj2 (in_range _ _) Hd)). rewrite H in B. cbn in B. lia.
Qed.

Lemma is_family_consecutive tet L id : 1 <= L <= MAXLEVEL tet -> 0 <= id -> id + CHILDREN tet <= CHILDREN tet ^ L ->
  is_family tet (map (fun k => nth_elem tet L (id + k)) (zseq 0 (Z.to_nat (CHILDREN tet)))) = true <->
  exists p, tree_path tet p /\ zlen p + 1 = L /\ map (fun k => nth_elem tet L (id + k)) (zseq 0 (Z.to_nat (CHILDREN tet))) = children_of tet (walk tet p).
Proof.
  intros HL Hid Hb. pose proof (CHILDREN_pos tet) as CP. set (N := CHILDREN tet) in *.
  set (q := digits N (Z.to_nat (L - 1)) (id / N)). set (q' := digits N (Z.to_nat (L - 1)) (id / N + 1)). set (d := id mod N).
  assert (Hd : 0 <= d < N) by (apply Z.mod_pos_bound; lia).
  assert (Hq : tree_path tet q) by (apply tree_path_digits; lia). assert (Hq' : tree_path tet q') by (apply tree_path_digits; lia).
  assert (Lq : zlen q = L - 1) by (unfold q, zlen; rewrite digits_length; lia). assert (Lq' : zlen q' = L - 1) by (unfold q', zlen; rewrite digits_length; lia).
  assert (E : forall k, 0 <= k < N -> nth_elem tet L (id + k) = walk tet (if d + k <? N then q ++ [d + k] else q' ++ [d + k - N])).
  { intros k Hk. replace L with ((L - 1) + 1) by lia. rewrite nth_elem_split by lia. fold N.
    assert (Ei : id = N * (id / N) + d) by (apply Z.div_mod; lia).
    destruct (Z.ltb_spec (d + k) N).
    - assert ((id + k) / N = id / N). { symmetry. apply Z.div_unique with (d + k); lia. }
      assert ((id + k) mod N = d + k). { symmetry. apply Z.mod_unique with (id / N); lia. }
      now rewrite H0, H1.
    - assert ((id + k) / N = id / N + 1). { symmetry. apply Z.div_unique with (d + k - N); lia. }
      assert ((id + k) mod N = d + k - N). { symmetry. apply Z.mod_unique with (id / N + 1); lia. }
      now rewrite H0, H1. }
  assert (TP : forall k, 0 <= k < N -> tree_path tet (if d + k <? N then q ++ [d + k] else q' ++ [d + k - N])).
  { intros k Hk. destruct (Z.ltb_spec (d + k) N); apply tree_path_snoc; repeat split; try apply Hq; try apply Hq'; try (fold N; lia). }
  assert (ZN : forall k, 0 <= k < N -> znth dsimp (map (fun k => nth_elem tet L (id + k)) (zseq 0 (Z.to_nat N))) k = nth_elem tet L (id + k)).
  { intros k Hk. unfold znth. rewrite (nth_indep _ dsimp (nth_elem tet L (id + 0))) by (rewrite map_length, zseq_length; lia).
    rewrite (map_nth (fun k => nth_elem tet L (id + k))). f_equal. f_equal. rewrite nth_zseq; lia. }
  assert (CK : forall k, 0 <= k < N -> compute_cubeid tet (nth_elem tet L (id + k)) L = cidk tet (ty (walk tet q)) (ty (walk tet q')) d k).
  { intros k Hk. rewrite E by auto. unfold cidk. fold N. specialize (TP k Hk). destruct (d + k <? N).
    - replace L with (zlen q + 1) by lia. now apply cubeid_last.
    - replace L with (zlen q' + 1) by lia. now apply cubeid_last. }
  assert (D0 : d = 0 -> map (fun k => nth_elem tet L (id + k)) (zseq 0 (Z.to_nat N)) = children_of tet (walk tet q)).
  { intros D. unfold children_of. fold N. apply map_ext_in. intros k Hk. apply in_zseq in Hk. rewrite E by lia.
    destruct (Z.ltb_spec (d + k) N); [|lia]. rewrite walk_snoc. f_equal. lia. }
  split.
  - intros H. assert (d = 0).
    { destruct (walk_wf Hq) as [W _]. destruct (walk_wf Hq') as [W' _].
      apply (@tab_consec tet (ty (walk tet q)) (ty (walk tet q'))); [apply W|apply W'|exact Hd|]. unfold pairs_tab.
      apply is_family_pairs in H. cbn zeta in H. destruct tet.
      - rewrite !ZN in H by (cbn; lia). destruct H as (P1 & P2 & P3 & P4). rewrite <- !CK by (cbn; lia).
        rewrite (cid_eq_cubeid L P1) at 1. rewrite <- (cid_eq_cubeid L P1). rewrite <- (cid_eq_cubeid L P2), <- (cid_eq_cubeid L P3), <- (cid_eq_cubeid L P4).
        rewrite !Z.eqb_refl. reflexivity.
      - rewrite !ZN in H by (cbn; lia). rewrite <- !CK by (cbn; lia). rewrite (cid_eq_cubeid L H). apply Z.eqb_refl. }
    exists q. repeat split; auto; try apply Hq. lia.
  - intros (p & Hp & Lp & ->). destruct (walk_wf Hp) as [W Wl]. apply is_family_complete; auto. lia.
Qed.

(** ** leaf counts *)
Lemma element_count_leaves_num tet e L : wf tet e -> lv e <= L -> element_count_leaves tet e L = i64 (CHILDREN tet ^ (L - lv e)).
Proof.
  intros W HL. unfold element_count_leaves, count_leaves_from_level. destruct (Z.ltb_spec L (lv e)); [lia|].
  pose proof (DIM_pos tet). f_equal. rewrite shiftl1_pow by nia. rewrite CHILDREN_pow, <- Z.pow_mul_r by lia. reflexivity.
Qed.


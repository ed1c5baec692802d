(** The concrete schemes as values of type [scheme], and the proof that they satisfy the laws. *)
From Verif Require Import Prelude PathSpec SchemeModel SchemeSpec SchemeProofs SchemeUniformProofs.
From Verif Require Import BitLemmas SimplexModel SimplexSpec SimplexProofs SimplexPathProofs SimplexOrderProofs SimplexAncProofs SimplexFamilyProofs.
From Verif Require Import LineModel LineSpec LineProofs VertexModel.

(** t8_default_tri.cxx / t8_default_tet.cxx.  The value of [nca] and [successor] outside of their domain is irrelevant. *)
Definition simplex_scheme (tet : bool) : scheme := {|
  elt := simp; s_root := init_root; s_level := lv; s_maxlevel := MAXLEVEL tet; s_max_children := CHILDREN tet;
  s_num_children := fun _ => CHILDREN tet; s_num_siblings := fun _ => CHILDREN tet;
  s_child := child tet; s_parent := parent tet; s_child_id := child_id tet; s_is_family := is_family tet;
  s_equal := equal tet; s_compare := compare tet;
  s_nca := fun a b => match nca tet a b with Ok e => e | _ => a end;
  s_is_ancestor := element_is_ancestor tet; s_linear_id := linear_id tet;
  s_set_linear_id := fun level id => init_linear_id tet id level;
  s_successor := fun e => match successor tet e (lv e) with Ok s => s | _ => e end;
  s_first_desc := first_descendant tet; s_last_desc := last_descendant tet; s_count_root := count_leaves_from_root tet;
  s_ancestor_id := ancestor_id tet |}.
(** t8_default_line.cxx *)
Definition line_scheme : scheme := {|
  elt := dline; s_root := l_root; s_level := ll; s_maxlevel := LMAX; s_max_children := 2;
  s_num_children := fun _ => 2; s_num_siblings := fun _ => 2;
  s_child := l_child; s_parent := l_parent; s_child_id := l_child_id; s_is_family := l_is_family;
  s_equal := l_equal; s_compare := l_compare; s_nca := l_nca; s_is_ancestor := l_element_is_ancestor; s_linear_id := l_linear_id;
  s_set_linear_id := l_init_linear_id; s_successor := fun e => l_successor e (ll e);
  s_first_desc := l_first_descendant; s_last_desc := l_last_descendant; s_count_root := fun L => l_count_leaves l_root L;
  s_ancestor_id := l_ancestor_id |}.
(** t8_default_vertex.cxx; element_construct_successor aborts for vertices *)
Definition vertex_scheme : scheme := {|
  elt := Z; s_root := 0; s_level := fun e => e; s_maxlevel := VMAX; s_max_children := 1;
  s_num_children := fun _ => 1; s_num_siblings := fun _ => 1;
  s_child := v_child; s_parent := v_parent; s_child_id := v_child_id; s_is_family := v_is_family;
  s_equal := v_equal; s_compare := v_compare; s_nca := v_nca; s_is_ancestor := v_is_ancestor; s_linear_id := v_linear_id;
  s_set_linear_id := v_set_linear_id; s_successor := fun e => e; s_first_desc := v_desc; s_last_desc := v_desc; s_count_root := fun L => v_count_leaves 0 L;
  s_ancestor_id := v_ancestor_id |}.

(** ** triangles and tetrahedra *)
Lemma simplex_path tet p : gpath (simplex_scheme tet) p <-> tree_path tet p.
Proof.
  split.
  - intros H. induction H as [|p i H [IH1 IH2] HL Hi]; [split; [constructor|destruct tet; vm_compute; congruence]|].
    cbn in HL, Hi. apply tree_path_snoc. repeat split; auto; lia.
  - intros [V L]. induction p as [|i p IH] using rev_ind; [constructor|]. rewrite zlen_snoc in L. apply valid_app in V. destruct V as [V Vi].
    inversion Vi; subst. constructor; [apply IH; auto; lia|cbn; lia|cbn; lia].
Qed.
Lemma simplex_valid_wf tet e : valid (S := simplex_scheme tet) e -> wf tet e.
Proof. intros (p & Hp & ->). apply simplex_path in Hp. apply (walk_wf Hp). Qed.
Lemma family_levels tet l e : hd_error l = Some e -> Forall (wf tet) l -> length l = Z.to_nat (CHILDREN tet) -> is_family tet l = true ->
  0 < lv e /\ Forall (fun x => lv x = lv e) l.
Proof.
  intros HE HW HL HF. destruct l as [|f l]; [discriminate|]. injection HE as ->. assert (W : wf tet e) by (now inversion HW). assert (L := wf_lv W).
  destruct tet.
  - do 8 (destruct l as [|? l]; try discriminate HL). unfold is_family, tet_is_familypv in HF. cbn zeta in HF.
    destruct (_ || _) eqn:E in HF; [discriminate|]. clear HF HL HW W.
    cbn [existsb] in E. unfold znth in E. change (Z.to_nat 0) with 0%nat in E. change (Z.to_nat 1) with 1%nat in E. change (Z.to_nat 2) with 2%nat in E.
    change (Z.to_nat 3) with 3%nat in E. change (Z.to_nat 4) with 4%nat in E. change (Z.to_nat 5) with 5%nat in E.
    change (Z.to_nat 6) with 6%nat in E. change (Z.to_nat 7) with 7%nat in E. cbn [nth] in E.
    split; [lia|repeat constructor; lia].
  - do 4 (destruct l as [|? l]; try discriminate HL). unfold is_family, tri_is_familypv in HF. cbn zeta in HF.
    destruct (_ || _) eqn:E in HF; [discriminate|]. clear HF HL HW W.
    unfold znth in E. change (Z.to_nat 0) with 0%nat in E. change (Z.to_nat 1) with 1%nat in E. change (Z.to_nat 2) with 2%nat in E.
    change (Z.to_nat 3) with 3%nat in E. cbn [nth] in E. split; [lia|repeat constructor; lia].
Qed.
Lemma next_path_unique N p q : 0 < N -> valid_path N p -> valid_path N q -> zlen p = zlen q -> num N q = num N p + 1 -> q = next_path N p.
Proof.
  intros HN Vp Vq L E. assert (R := num_range HN Vq). unfold zlen in *. unfold next_path.
  apply (@num_inj N); auto; [now apply digits_valid|rewrite digits_length; lia|]. rewrite num_digits; auto.
  rewrite L. lia.
Qed.

Theorem simplex_ulaws tet : ulaws (simplex_scheme tet) (CHILDREN tet).
Proof.
  pose proof (CHILDREN_pos tet) as CP.
  split; cbn [simplex_scheme elt s_root s_level s_maxlevel s_max_children s_num_children s_num_siblings s_child s_parent s_child_id s_is_family s_equal
    s_compare s_nca s_is_ancestor s_linear_id s_set_linear_id s_successor s_first_desc s_last_desc s_count_root s_ancestor_id]; auto; try lia.
  - destruct tet; vm_compute; congruence.
  - intros p H%simplex_path. apply (walk_wf H).
  - intros p i H%simplex_path. apply tree_path_snoc in H. destruct H as (H & Hi & HL).
    change (gwalk (simplex_scheme tet)) with (walk tet). rewrite walk_snoc. destruct (walk_wf H) as [W L]. apply parent_child; auto; lia.
  - intros p i H%simplex_path. apply tree_path_snoc in H. destruct H as (H & Hi & HL).
    change (gwalk (simplex_scheme tet)) with (walk tet). rewrite walk_snoc. destruct (walk_wf H) as [W L]. apply child_id_child; auto; lia.
  - intros p q Hp%simplex_path Hq%simplex_path. change (gwalk (simplex_scheme tet)) with (walk tet).
    rewrite equal_iff by (now apply walk_wf). split; [now apply walk_inj|now intros ->].
  - intros p q Hp%simplex_path Hq%simplex_path. now apply compare_walk.
  - intros p q Hp%simplex_path Hq%simplex_path. change (gwalk (simplex_scheme tet)) with (walk tet). now rewrite nca_walk.
  - intros p q Hp%simplex_path Hq%simplex_path. now apply element_is_ancestor_walk.
  - intros p L Hp%simplex_path HL. now apply first_descendant_walk.
  - intros p L Hp%simplex_path HL. now apply last_descendant_walk.
  - intros p L Hp%simplex_path HL. now apply linear_id_coarse.
  - intros p L Hp%simplex_path HL. apply linear_id_fine; auto; lia.
  - intros p Hp%simplex_path. now apply init_linear_id_num.
  - intros p q Hp%simplex_path Hq%simplex_path HL HN. change (gwalk (simplex_scheme tet)) with (walk tet). rewrite (walk_lv Hp).
    rewrite (@next_path_unique (CHILDREN tet) p q) by (auto; try apply Hp; apply Hq).
    rewrite successor_walk; auto. pose proof (num_range CP (proj1 Hq)). rewrite <- HL in *. lia.
  - intros p Hp%simplex_path HL. destruct (walk_wf Hp) as [W L]. change (gwalk (simplex_scheme tet)) with (walk tet). apply is_family_complete; auto. lia.
  - intros l e HV HE HL HF. apply (@family_levels tet); auto. eapply Forall_impl; [|exact HV]. apply simplex_valid_wf.
  - intros L id HL Hid Hb HF. change (gwalk (simplex_scheme tet)) with (walk tet) in *. apply is_family_consecutive in HF; auto. destruct HF as (p & Hp & EL & E). exists p. split; [now apply simplex_path|]. split; auto.
  - intros L HL. refine (eq_trans (@element_count_leaves_num tet init_root L (wf_root tet) _) _); [cbn [init_root lv]; lia|].
    cbn [init_root lv]. now rewrite Z.sub_0_r.
  - intros p L Hp%simplex_path HL. now apply ancestor_id_walk.
Qed.
Theorem simplex_laws tet : laws (simplex_scheme tet).
Proof. eapply ulaws_laws. apply simplex_ulaws. Qed.

(** ** lines *)
Lemma line_path p : gpath line_scheme p <-> l_path p.
Proof.
  split.
  - intros H. induction H as [|p i H IH HL Hi]; [split; [constructor|vm_compute; congruence]|]. apply l_path_snoc. auto.
  - intros H. induction p as [|i p IH] using rev_ind; [constructor|]. apply l_path_snoc in H. destruct H as (H & Hi & HL). constructor; auto.
Qed.
Theorem line_ulaws : ulaws line_scheme 2.
Proof.
  split; cbn [line_scheme elt s_root s_level s_maxlevel s_max_children s_num_children s_num_siblings s_child s_parent s_child_id s_is_family s_equal
    s_compare s_nca s_is_ancestor s_linear_id s_set_linear_id s_successor s_first_desc s_last_desc s_count_root s_ancestor_id]; auto; try lia.
  - vm_compute; congruence.
  - intros p H%line_path. apply (l_walk_wf H).
  - intros p i H%line_path. apply l_path_snoc in H. destruct H as (H & Hi & HL).
    change (gwalk line_scheme) with l_walk. rewrite l_child_walk. destruct (l_walk_wf H) as [W L]. apply l_parent_child; auto; lia.
  - intros p i H%line_path. apply l_path_snoc in H. destruct H as (H & Hi & HL).
    change (gwalk line_scheme) with l_walk. rewrite l_child_walk. destruct (l_walk_wf H) as [W L]. apply l_parent_child; auto; lia.
  - intros p q Hp%line_path Hq%line_path. change (gwalk line_scheme) with l_walk. split; [|intros ->; unfold l_equal; lia].
    intros E. apply l_walk_inj; auto. unfold l_equal in E. destruct (l_walk p) as [a b], (l_walk q) as [c d]. cbn [ll lx] in E. f_equal; lia.
  - intros p q Hp%line_path Hq%line_path. now apply l_compare_walk.
  - intros p q Hp%line_path Hq%line_path. now apply l_nca_walk.
  - intros p q Hp%line_path Hq%line_path. now apply l_is_ancestor_walk.
  - intros p L Hp%line_path HL. now apply l_first_descendant_walk.
  - intros p L Hp%line_path HL. now apply l_last_descendant_walk.
  - intros p L Hp%line_path HL. now apply l_linear_id_coarse.
  - intros p L Hp%line_path HL. apply l_linear_id_fine; auto; lia.
  - intros p Hp%line_path. now apply l_init_linear_id_num.
  - intros p q Hp%line_path Hq%line_path HL HN. change (gwalk line_scheme) with l_walk. destruct (l_walk_wf Hp) as [_ ->].
    assert (H2 : 0 < 2) by lia.
    rewrite (@next_path_unique 2 p q) by (auto; try apply Hp; apply Hq).
    rewrite l_next_path; auto. pose proof (num_range H2 (proj1 Hq)). rewrite <- HL in *. lia.
  - intros p Hp%line_path HL. destruct (l_walk_wf Hp) as [W L].
    destruct (@l_parent_child (l_walk p) 0) as (W0 & _); [auto|lia|lia|]. destruct (@l_parent_child (l_walk p) 1) as (W1 & _); [auto|lia|lia|].
    apply (@l_is_family_iff (l_child (l_walk p) 0) (l_child (l_walk p) 1)); auto. exists (l_walk p). repeat split; auto; try apply W. lia.
  - intros l e HV HE HL HF. destruct l as [|a [|b [|c l]]]; try discriminate HL. injection HE as ->.
    apply Forall_cons_iff in HV as [(p & Hp & Ep) HV]. apply Forall_cons_iff in HV as [(q & Hq & Eq) _]. apply line_path in Hp, Hq.
    change (gwalk line_scheme) with l_walk in *. assert (Wa : lwf e) by (subst; now apply l_walk_wf). assert (Wb : lwf b) by (subst; now apply l_walk_wf).
    apply (l_is_family_iff Wa Wb) in HF. destruct HF as (f & Wf & Hf & E). unfold l_children_of in E. injection E as -> ->.
    cbn. destruct Wf. split; [lia|repeat constructor].
  - intros L id HL Hid Hb. set (f := fun k => gwalk line_scheme (digits 2 (Z.to_nat L) (id + k))). intros HF.
    assert (Wk : forall k, lwf (f k) /\ ll (f k) = L).
    { intros k. destruct (@l_walk_wf (digits 2 (Z.to_nat L) (id + k))) as [W EL]; [apply l_path_digits; lia|]. split; auto.
      unfold f. change (gwalk line_scheme) with l_walk. rewrite EL. unfold zlen. rewrite digits_length. lia. }
    destruct (Wk 0) as [W0 L0]. destruct (Wk 1) as [W1 L1].
    apply (@l_is_family_iff (f 0) (f 1) W0 W1) in HF. destruct HF as (e & We & He & E). destruct (l_wf_walk We) as (p & Hp & ->).
    exists p. split; [now apply line_path|]. destruct (l_walk_wf Hp) as [_ EL]. split.
    + unfold l_children_of in E. injection E as E0 _. rewrite E0 in L0. cbn [l_child ll] in L0. lia.
    + exact E.
  - intros L HL. unfold l_count_leaves, count_leaves_from_level. cbn [l_root ll]. destruct (Z.ltb_spec L 0); [lia|].
    rewrite Z.mul_1_l, Z.sub_0_r, shiftl1_pow by lia. reflexivity.
  - intros p L Hp%line_path HL. now apply l_ancestor_id_walk.
Qed.
Theorem line_laws : laws line_scheme.
Proof. eapply ulaws_laws. apply line_ulaws. Qed.

(** ** vertices *)
Lemma vertex_walk p : gwalk vertex_scheme p = zlen p.
Proof.
  induction p as [|i p IH] using rev_ind; [reflexivity|]. unfold gwalk in *. rewrite fold_left_app. cbn [fold_left]. rewrite IH, zlen_snoc. reflexivity.
Qed.
Lemma vertex_path p : gpath vertex_scheme p <-> p = repeat 0 (length p) /\ zlen p <= VMAX.
Proof.
  split.
  - intros H. induction H as [|p i H [IH1 IH2] HL Hi]; [split; [reflexivity|vm_compute; congruence]|]. cbn in Hi, HL. assert (i = 0) by lia. subst i.
    rewrite zlen_snoc, app_length. cbn [length]. split; [|lia]. rewrite repeat_app, <- IH1. reflexivity.
  - intros [E L]. rewrite E. unfold zlen in L. revert L. generalize (length p). intros n. induction n as [|n IH]; intros L; [constructor|].
    replace (S n) with (n + 1)%nat by lia. rewrite repeat_app. cbn [repeat]. constructor; [apply IH; lia| |cbn; lia].
    unfold zlen. rewrite repeat_length. cbn [s_maxlevel vertex_scheme]. lia.
Qed.
Lemma num_1 p : gpath vertex_scheme p -> num 1 p = 0.
Proof.
  intros H. apply vertex_path in H. destruct H as [-> _]. generalize (length p). intros n. induction n as [|n IH]; [reflexivity|].
  replace (S n) with (n + 1)%nat by lia. rewrite repeat_app, num_app, IH. reflexivity.
Qed.
Lemma vertex_eq p q : gpath vertex_scheme p -> gpath vertex_scheme q -> zlen p = zlen q -> p = q.
Proof. intros [Hp _]%vertex_path [Hq _]%vertex_path E. rewrite Hp, Hq. f_equal. unfold zlen in E. lia. Qed.
Lemma vertex_repeat p : gpath vertex_scheme p -> exists n, p = repeat 0 n /\ Z.of_nat n <= VMAX.
Proof. intros [E L]%vertex_path. exists (length p). auto. Qed.
Lemma repeat_path n : Z.of_nat n <= VMAX -> gpath vertex_scheme (repeat 0 n).
Proof. intros H. apply vertex_path. unfold zlen. now rewrite repeat_length. Qed.
Lemma path_cmp_repeat a b : path_cmp (repeat 0 a) (repeat 0 b) = (Z.of_nat a - Z.of_nat b ?= 0).
Proof.
  revert b. induction a as [|a IH]; intros [|b]; try reflexivity. cbn [repeat path_cmp]. rewrite Z.compare_refl, IH. f_equal. lia.
Qed.
Lemma lcp_repeat a b : lcp (repeat 0 a) (repeat 0 b) = repeat 0 (Nat.min a b).
Proof. revert b. induction a as [|a IH]; intros [|b]; try reflexivity. cbn [repeat lcp Z.eqb Nat.min]. now rewrite IH. Qed.
Lemma prefix_repeat a b : prefix (repeat 0 a) (repeat 0 b) <-> (a <= b)%nat.
Proof.
  rewrite prefix_firstn, !repeat_length. split; [tauto|]. intros H. split; auto. revert b H. induction a as [|a IH]; intros [|b] H; try reflexivity; try lia.
  cbn [repeat firstn]. now rewrite IH by lia.
Qed.
Lemma firstn_vertex p n : gpath vertex_scheme p -> gpath vertex_scheme (firstn n p).
Proof.
  intros (m & -> & H)%vertex_repeat. replace (firstn n (repeat 0 m)) with (repeat 0 (Nat.min n m)); [apply repeat_path; lia|].
  revert m H. induction n as [|n IH]; intros [|m] H; try reflexivity. cbn [Nat.min repeat firstn]. rewrite IH; auto. lia.
Qed.
Lemma vertex_valid e : valid (S := vertex_scheme) e <-> 0 <= e <= VMAX.
Proof.
  split.
  - intros (p & Hp & ->). rewrite vertex_walk. destruct (vertex_repeat Hp) as (n & -> & H). unfold zlen. rewrite repeat_length. lia.
  - intros H. exists (repeat 0 (Z.to_nat e)). split; [apply repeat_path; lia|]. rewrite vertex_walk. unfold zlen. rewrite repeat_length. cbn. lia.
Qed.
Theorem vertex_ulaws : ulaws vertex_scheme 1.
Proof.
  split; cbn [vertex_scheme elt s_root s_level s_maxlevel s_max_children s_num_children s_num_siblings s_child s_parent s_child_id s_is_family s_equal
    s_compare s_nca s_is_ancestor s_linear_id s_set_linear_id s_successor s_first_desc s_last_desc s_count_root s_ancestor_id]; auto; try lia.
  - vm_compute; congruence.
  - intros p H. apply vertex_walk.
  - intros p i H. rewrite !vertex_walk, zlen_snoc. unfold v_parent. lia.
  - intros p i H. apply (gpath_snoc_inv) in H. destruct H as (_ & _ & H). cbn in H. unfold v_child_id. lia.
  - intros p q Hp Hq. rewrite !vertex_walk. unfold v_equal. rewrite Z.eqb_eq. split; [now apply vertex_eq|now intros ->].
  - intros p q (n & -> & _)%vertex_repeat (m & -> & _)%vertex_repeat. rewrite !vertex_walk, path_cmp_repeat. unfold zlen, v_compare. now rewrite !repeat_length.
  - intros p q (n & -> & _)%vertex_repeat (m & -> & _)%vertex_repeat. rewrite !vertex_walk, lcp_repeat. unfold zlen, v_nca. rewrite !repeat_length. lia.
  - intros p q (n & -> & _)%vertex_repeat (m & -> & _)%vertex_repeat. rewrite !vertex_walk, prefix_repeat. unfold zlen, v_is_ancestor, v_linear_id.
    rewrite !repeat_length. destruct (Z.ltb_spec (Z.of_nat m) (Z.of_nat n)); [split; [discriminate|lia]|]. cbn [Z.eqb]. split; auto; lia.
  - intros p L H HL. rewrite !vertex_walk, zlen_app. unfold v_desc, zlen in *. rewrite repeat_length. lia.
  - intros p L H HL. rewrite !vertex_walk, zlen_app. unfold v_desc, zlen in *. rewrite repeat_length. lia.
  - intros p L H HL. rewrite num_1; [reflexivity|]. now apply firstn_vertex.
  - intros p L H HL. now rewrite num_1.
  - intros p H. now rewrite vertex_walk.
  - intros p q Hp Hq HL. rewrite !num_1 by auto. lia.
  - intros p H HL. unfold s_children. cbn. rewrite vertex_walk. unfold v_is_family, v_child, znth. change (Pos.to_nat 1) with 1%nat. cbn. pose proof (zlen_ge0 p). lia.
  - intros l e HV HE HL HF. destruct l as [|a [|b l]]; try discriminate HL. injection HE as ->. unfold v_is_family, znth in HF. cbn in HF.
    split; [lia|repeat constructor].
  - intros L id HL Hid Hb HF. exists (repeat 0 (Z.to_nat (L - 1))). split; [apply repeat_path; lia|].
    split; [unfold zlen; rewrite repeat_length; lia|]. unfold s_children. cbn [map zseq Z.to_nat Pos.to_nat Pos.iter_op s_num_children vertex_scheme].
    cbn. unfold v_child. change (Pos.to_nat 1) with 1%nat. cbn [zseq map]. rewrite !vertex_walk. unfold zlen. rewrite digits_length, repeat_length. f_equal. lia.
  - intros L HL. unfold v_count_leaves, count_leaves_from_level. destruct (Z.ltb_spec L 0); [lia|]. rewrite Z.mul_0_l, Z.shiftl_0_r.
    now rewrite Z.pow_1_l by lia.
  - intros p L (n & -> & _)%vertex_repeat HL. symmetry. destruct (nth_in_or_default (Z.to_nat (L - 1)) (repeat 0 n) 0) as [H|H]; [now apply repeat_spec in H|exact H].
Qed.
Theorem vertex_laws : laws vertex_scheme.
Proof. eapply ulaws_laws. apply vertex_ulaws. Qed.

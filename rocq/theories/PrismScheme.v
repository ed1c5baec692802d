(** The prism scheme as a value of type [scheme] and the proof of its laws. *)
From Verif Require Import Prelude PathSpec SchemeModel SchemeSpec SchemeProofs SchemeUniformProofs SchemeInstances.
From Verif Require Import BitLemmas SimplexModel SimplexSpec SimplexProofs SimplexPathProofs SimplexOrderProofs SimplexAncProofs SimplexFamilyProofs.
From Verif Require Import LineModel LineSpec LineProofs PrismModel PrismSpec PrismProofs.

(** t8_default_prism.cxx.  The value of [nca] and [successor] outside of their domain is irrelevant. *)
Definition prism_scheme : scheme := {|
  elt := prism; s_root := p_root; s_level := p_level; s_maxlevel := PMAX; s_max_children := 8;
  s_num_children := fun _ => 8; s_num_siblings := fun _ => 8;
  s_child := p_child; s_parent := p_parent; s_child_id := p_child_id; s_is_family := p_is_family;
  s_equal := p_equal; s_compare := p_compare;
  s_nca := fun a b => match p_nca a b with Ok e => e | _ => a end;
  s_is_ancestor := p_is_ancestor; s_linear_id := p_linear_id; s_set_linear_id := p_init_linear_id;
  s_successor := fun e => match p_successor e (p_level e) with Ok s => s | _ => e end;
  s_first_desc := p_first_descendant; s_last_desc := p_last_descendant; s_count_root := p_count_root;
  s_ancestor_id := p_ancestor_id |}.

Lemma prism_path p : gpath prism_scheme p <-> p_path p.
Proof.
  split.
  - intros H. induction H as [|p i H IH HL Hi]; [split; [constructor|vm_compute; congruence]|]. apply p_path_snoc. auto.
  - intros H. induction p as [|i p IH] using rev_ind; [constructor|]. apply p_path_snoc in H. destruct H as (H & Hi & HL). constructor; auto.
Qed.

(** the eight elements of a family test *)
Definition tri4 (f : list prism) (j : Z) : list simp := map (fun i => ptri (znth prism0 f (i + j))) [0;1;2;3].
Lemma p_is_family_inv f : p_is_family f = true ->
  is_family false (tri4 f 0) = true /\ is_family false (tri4 f 4) = true /\
  forall i, 0 <= i < 4 -> l_is_family [pline (znth prism0 f i); pline (znth prism0 f (i + 4))] = true /\
    lv (ptri (znth prism0 f i)) = lv (ptri (znth prism0 f (i + 4))) /\
    ll (pline (znth prism0 f i)) = lv (ptri (znth prism0 f i)) /\ ll (pline (znth prism0 f (i + 4))) = lv (ptri (znth prism0 f (i + 4))).
Proof.
  intros H. unfold p_is_family in H. apply andb_prop in H. destruct H as [H H4]. apply andb_prop in H. destruct H as [H H3].
  apply andb_prop in H. destruct H as [H1 H2]. split; [exact H1|]. split; [exact H2|].
  rewrite forallb_forall in H3, H4. intros i Hi. specialize (H3 i ltac:(assert (i = 0 \/ i = 1 \/ i = 2 \/ i = 3) as [->|[->|[->| ->]]] by lia; cbn; auto 10)).
  assert (A := H4 i ltac:(assert (i = 0 \/ i = 1 \/ i = 2 \/ i = 3) as [->|[->|[->| ->]]] by lia; cbn; auto 10)).
  assert (B := H4 (i + 4) ltac:(assert (i = 0 \/ i = 1 \/ i = 2 \/ i = 3) as [->|[->|[->| ->]]] by lia; cbn; auto 10)).
  rewrite (Z.add_comm 4 i) in H3. repeat (apply andb_prop in H3; destruct H3 as [H3 ?]). repeat split; auto; lia.
Qed.
Lemma p_family p : p_path p -> zlen p < PMAX -> p_is_family (p_children_of (p_walk p)) = true.
Proof.
  intros H HL. change PMAX with 21 in HL. rewrite p_walk_eq. destruct (walk_wf (p_t_path H)) as [WT LT]. destruct (l_walk_wf (p_l_path H)) as [WL LL].
  rewrite tpart_len in LT. rewrite lpart_len in LL. pose proof (zlen_nonneg p).
  set (T := walk false (tpart p)) in *. set (L := l_walk (lpart p)) in *.
  assert (FT : tri_is_familypv [child false T 0; child false T 1; child false T 2; child false T 3] = true).
  { apply (@is_family_complete false T WT). rewrite LT. change (MAXLEVEL false) with 29. lia. }
  assert (FL : l_is_family [l_child L 0; l_child L 1] = true).
  { destruct (@l_parent_child L 0 WL) as (W0 & _); [rewrite LL; change LMAX with 30; lia|lia|].
    destruct (@l_parent_child L 1 WL) as (W1 & _); [rewrite LL; change LMAX with 30; lia|lia|].
    apply l_is_family_iff; auto. exists L. split; [exact WL|]. split; [rewrite LL; change LMAX with 30; lia|reflexivity]. }
  assert (LC : forall i, ll (l_child L i) = zlen p + 1) by (intros; unfold l_child; cbn [ll]; lia).
  unfold p_is_family, p_children_of.
  change (zseq 0 8) with [0;1;2;3;4;5;6;7].
  change (map (fun j => ptri (znth prism0 (map (p_child (Prism L T)) [0;1;2;3;4;5;6;7]) j)) [0;1;2;3])
    with [child false T 0; child false T 1; child false T 2; child false T 3].
  change (map (fun j => ptri (znth prism0 (map (p_child (Prism L T)) [0;1;2;3;4;5;6;7]) (j + 4))) [0;1;2;3])
    with [child false T 0; child false T 1; child false T 2; child false T 3].
  rewrite FT. cbn [andb]. apply andb_true_intro. split; apply forallb_forall.
  - intros i Hi. assert (E : pline (znth prism0 (map (p_child (Prism L T)) [0;1;2;3;4;5;6;7]) i) = l_child L 0 /\
      pline (znth prism0 (map (p_child (Prism L T)) [0;1;2;3;4;5;6;7]) (4 + i)) = l_child L 1 /\
      ptri (znth prism0 (map (p_child (Prism L T)) [0;1;2;3;4;5;6;7]) i) = ptri (znth prism0 (map (p_child (Prism L T)) [0;1;2;3;4;5;6;7]) (i + 4))).
    { destruct Hi as [<-|[<-|[<-|[<-|[]]]]]; repeat split; reflexivity. }
    destruct E as (-> & -> & ->). rewrite FL, !Z.eqb_refl. reflexivity.
  - intros i Hi. assert (E : exists a b, znth prism0 (map (p_child (Prism L T)) [0;1;2;3;4;5;6;7]) i = Prism (l_child L a) (child false T b)).
    { destruct Hi as [<-|[<-|[<-|[<-|[<-|[<-|[<-|[<-|[]]]]]]]]]; eexists; eexists; reflexivity. }
    destruct E as (a & b & ->). cbn [pline ptri]. rewrite LC, child_lv. lia.
Qed.
Lemma prism_valid e : valid (S := prism_scheme) e -> wf false (ptri e) /\ lwf (pline e).
Proof.
  intros (p & Hp & ->). apply prism_path in Hp. change (gwalk prism_scheme) with p_walk. rewrite p_walk_eq. split; [apply walk_wf, p_t_path, Hp|apply l_walk_wf, p_l_path, Hp].
Qed.
Lemma p_family_levels (l : list prism) e : Forall (valid (S := prism_scheme)) l -> hd_error l = Some e -> length l = 8%nat -> p_is_family l = true ->
  0 < p_level e /\ Forall (fun x => p_level x = p_level e) l.
Proof.
  intros V HE HL HF. do 8 (destruct l as [|? l]; [discriminate HL|]). destruct l; [|discriminate HL].
  injection HE as ->. apply p_is_family_inv in HF. destruct HF as (F0 & F4 & FI).
  assert (W : Forall (fun x => wf false (ptri x)) [e; p0; p1; p2; p3; p4; p5; p6]).
  { eapply Forall_impl; [|exact V]. intros a Ha. now apply prism_valid. }
  unfold tri4 in F0, F4. unfold znth in *. change (map (fun i => ptri (nth (Z.to_nat (i + 0)) [e; p0; p1; p2; p3; p4; p5; p6] prism0)) [0; 1; 2; 3]) with
    [ptri e; ptri p0; ptri p1; ptri p2] in F0.
  rewrite !Forall_cons_iff in W. destruct W as (W0 & W1 & W2 & W3 & _).
  destruct (@family_levels false [ptri e; ptri p0; ptri p1; ptri p2] (ptri e) eq_refl (Forall_cons _ W0 (Forall_cons _ W1 (Forall_cons _ W2 (Forall_cons _ W3 (Forall_nil _))))) eq_refl F0) as [P A].
  rewrite !Forall_cons_iff in A. destruct A as (_ & A1 & A2 & A3 & _).
  assert (I0 := FI 0 ltac:(lia)). assert (I1 := FI 1 ltac:(lia)). assert (I2 := FI 2 ltac:(lia)). assert (I3 := FI 3 ltac:(lia)).
  change (Z.to_nat (0 + 4)) with 4%nat in I0. change (Z.to_nat (1 + 4)) with 5%nat in I1. change (Z.to_nat (2 + 4)) with 6%nat in I2. change (Z.to_nat (3 + 4)) with 7%nat in I3.
  change (Z.to_nat 0) with 0%nat in I0. change (Z.to_nat 1) with 1%nat in I1. change (Z.to_nat 2) with 2%nat in I2. change (Z.to_nat 3) with 3%nat in I3. cbn [nth] in I0, I1, I2, I3.
  destruct I0 as (_ & L0 & U0 & D0). destruct I1 as (_ & L1 & U1 & D1). destruct I2 as (_ & L2 & U2 & D2). destruct I3 as (_ & L3 & U3 & D3).
  unfold p_level. clear -P A1 A2 A3 L0 L1 L2 L3 U0 U1 U2 U3 D0 D1 D2 D3. split; [lia|].
  repeat (constructor; [lia|]). constructor.
Qed.
Lemma digits_snoc_mod N L id : (0 < L)%nat -> digits N L id = digits N (L - 1) (id / N) ++ [id mod N].
Proof. intros H. destruct L as [|n]; [lia|]. replace (Datatypes.S n - 1)%nat with n by lia. reflexivity. Qed.
Lemma l_family_digits p q i j : l_path (p ++ [i]) -> l_path (q ++ [j]) -> l_is_family [l_walk (p ++ [i]); l_walk (q ++ [j])] = true -> i = 0 /\ j = 1.
Proof.
  intros Hp Hq HF. apply l_is_family_iff in HF; [|apply l_walk_wf; assumption..]. destruct HF as (e & W & HL & E). injection E as E1 E2.
  apply l_path_snoc in Hp, Hq. destruct Hp as (Hp & Hi & Hpl). destruct Hq as (Hq & Hj & Hql). rewrite l_child_walk in E1, E2.
  destruct (l_walk_wf Hp) as [Wp Lp]. destruct (l_walk_wf Hq) as [Wq Lq].
  destruct (@l_parent_child _ i Wp) as (_ & _ & C1 & _); [lia|lia|]. destruct (@l_parent_child _ j Wq) as (_ & _ & C2 & _); [lia|lia|].
  destruct (@l_parent_child e 0 W HL) as (_ & _ & C3 & _); [lia|]. destruct (@l_parent_child e 1 W HL) as (_ & _ & C4 & _); [lia|].
  rewrite E1 in C1. rewrite E2 in C2. split; congruence.
Qed.
Lemma p_family_consecutive L id : 1 <= L <= PMAX -> 0 <= id -> id + 8 <= 8 ^ L ->
  let l := map (fun k => p_walk (digits 8 (Z.to_nat L) (id + k))) (zseq 0 8) in
  p_is_family l = true -> exists p, p_path p /\ zlen p + 1 = L /\ l = p_children_of (p_walk p).
Proof.
  intros HL Hid Hb l HF. apply p_is_family_inv in HF. destruct HF as (_ & _ & FI).
  assert (EN : forall i, 0 <= i < 8 -> znth prism0 l i = p_walk (digits 8 (Z.to_nat L) (id + i))).
  { intros i Hi. unfold l, znth. rewrite (nth_indep _ prism0 (p_walk (digits 8 (Z.to_nat L) (id + 0)))) by (rewrite map_length, zseq_length; lia).
    rewrite (map_nth (fun k => p_walk (digits 8 (Z.to_nat L) (id + k)))). rewrite nth_zseq by lia. do 3 f_equal. lia. }
  assert (DI : forall i, 0 <= i < 4 -> (id + i) mod 8 / 4 = 0).
  { intros i Hi. destruct (FI i Hi) as (F & _). rewrite !EN in F by lia. rewrite !p_walk_eq in F. cbn [pline] in F.
    assert (P1 := p_l_path (@p_path_digits L (id + i) ltac:(lia))). assert (P2 := p_l_path (@p_path_digits L (id + (i + 4)) ltac:(lia))).
    rewrite (@digits_snoc_mod 8 (Z.to_nat L) (id + i)) in F, P1 by lia. rewrite (@digits_snoc_mod 8 (Z.to_nat L) (id + (i + 4))) in F, P2 by lia.
    rewrite !lpart_app in F. rewrite lpart_app in P1, P2. cbn [lpart map] in *. now apply (l_family_digits P1 P2). }
  assert (D0 := DI 0 ltac:(lia)). assert (D3 := DI 3 ltac:(lia)).
  assert (E8 : id mod 8 = 0 \/ id mod 8 = 0) by (clear -D0 D3; lia). assert (M : id mod 8 = 0) by tauto. clear E8 D0 D3.
  exists (digits 8 (Z.to_nat (L - 1)) (id / 8)).
  split; [apply p_path_digits; lia|]. split; [unfold zlen; rewrite digits_length; lia|].
  unfold l, p_children_of. apply map_ext_in. intros k Hk. apply in_zseq in Hk. rewrite digits_snoc_mod by lia. rewrite p_walk_snoc.
  replace (Z.to_nat L - 1)%nat with (Z.to_nat (L - 1)) by lia. f_equal; [do 2 f_equal|]; lia.
Qed.

Theorem prism_ulaws : ulaws prism_scheme 8.
Proof.
  split; cbn [prism_scheme elt s_root s_level s_maxlevel s_max_children s_num_children s_num_siblings s_child s_parent s_child_id s_is_family s_equal
    s_compare s_nca s_is_ancestor s_linear_id s_set_linear_id s_successor s_first_desc s_last_desc s_count_root s_ancestor_id]; auto; try lia.
  - vm_compute; congruence.
  - intros p H%prism_path. now apply p_walk_level.
  - intros p i H%prism_path. now apply p_child_facts.
  - intros p i H%prism_path. now apply p_child_facts.
  - intros p q Hp%prism_path Hq%prism_path. now apply p_equal_walk.
  - intros p q Hp%prism_path Hq%prism_path. now apply p_compare_walk.
  - intros p q Hp%prism_path Hq%prism_path. change (gwalk prism_scheme) with p_walk. now rewrite p_nca_walk.
  - intros p q Hp%prism_path Hq%prism_path. now apply p_is_ancestor_walk.
  - intros p L Hp%prism_path HL. now apply p_first_descendant_walk.
  - intros p L Hp%prism_path HL. now apply p_last_descendant_walk.
  - intros p L Hp%prism_path HL. now apply p_linear_id_coarse.
  - intros p L Hp%prism_path HL. now apply p_linear_id_fine.
  - intros p Hp%prism_path. now apply p_init_linear_id_num.
  - intros p q Hp%prism_path Hq%prism_path HL HN. change (gwalk prism_scheme) with p_walk. rewrite (p_walk_level Hp).
    rewrite (@next_path_unique 8 p q) by (auto; try lia; try apply Hp; apply Hq).
    rewrite p_successor_walk; auto. pose proof (num_range (N:=8) ltac:(lia) (proj1 Hq)). rewrite <- HL in *. lia.
  - intros p Hp%prism_path HL. now apply p_family.
  - intros l e HV HE HL HF. now apply p_family_levels.
  - intros L id HL Hid Hb HF. destruct (p_family_consecutive HL Hid Hb HF) as (p & Hp & EL & E). exists p. split; [now apply prism_path|]. split; auto.
  - intros L HL. unfold p_count_root, count_leaves_from_level. destruct (Z.ltb_spec L 0); [lia|]. rewrite shiftl1_pow by lia.
    rewrite Z.sub_0_r, Z.pow_mul_r by lia. reflexivity.
  - intros p L Hp%prism_path HL. now apply p_ancestor_id_walk.
Qed.
Theorem prism_laws : laws prism_scheme.
Proof. eapply ulaws_laws. apply prism_ulaws. Qed.

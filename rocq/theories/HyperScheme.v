(** The hypercubes of the standalone scheme as values of type [scheme] and the proof of their laws. *)
From Verif Require Import Prelude PathSpec SchemeModel SchemeSpec SchemeProofs SchemeUniformProofs SchemeInstances.
From Verif Require Import BitLemmas SimplexModel SimplexPathProofs SimplexOrderProofs LineModel LineSpec LineProofs HyperModel HyperSpec HyperProofs HyperOrderProofs.

(** t8_standalone_implementation.hxx.  The values where an assertion fails are irrelevant: there is no successor of the last element, and
    t8_forest_adapt.cxx:499,515 does not ask for the family of a root, whose child id is -1. *)
Definition hyper_scheme (c : hclass) : scheme := {|
  elt := hcube; s_root := h_root c; s_level := hl; s_maxlevel := hmax c; s_max_children := hchildren c;
  s_num_children := fun _ => hchildren c; s_num_siblings := h_num_siblings c;
  s_child := h_child c; s_parent := h_parent c; s_child_id := h_child_id c;
  s_is_family := fun l => match h_is_family c l with Ok b => b | _ => false end;
  s_equal := h_equal; s_compare := h_compare c; s_nca := h_nca c; s_is_ancestor := h_is_ancestor c; s_linear_id := h_linear_id c;
  s_set_linear_id := fun L id => match h_set_linear_id c L id with Ok e => e | _ => h_root c end;
  s_successor := fun e => match h_successor c e with Ok s => s | _ => e end;
  s_first_desc := h_first_descendant c; s_last_desc := h_last_descendant c; s_count_root := h_count_root c;
  s_ancestor_id := h_ancestor_id c |}.

Lemma hyper_path c p : gpath (hyper_scheme c) p <-> h_path c p.
Proof.
  split.
  - intros H. induction H as [|p i H IH HL Hi]; [split; [constructor|pose proof (hmax_pos c); unfold zlen; cbn [length]; lia]|]. apply h_path_snoc. auto.
  - intros H. induction p as [|i p IH] using rev_ind; [constructor|]. apply h_path_snoc in H. destruct H as (H & Hi & HL). constructor; auto.
Qed.
Lemma hyper_valid c e : valid (S := hyper_scheme c) e <-> h_valid c e.
Proof.
  split; intros (p & Hp & E); exists p; (split; [now apply hyper_path|exact E]).
Qed.
Lemma h_children_valid c p : h_path c p -> zlen p < hmax c -> Forall (h_valid c) (h_children_of c (h_walk c p)).
Proof.
  intros H HL. apply Forall_map, Forall_forall. intros i Hi. apply in_zseq in Hi. pose proof (hN_pos c). exists (p ++ [i]).
  split; [apply h_path_snoc; split; [exact H|]; lia|symmetry; apply h_walk_snoc].
Qed.
Lemma h_family_true c l : (match h_is_family c l with Ok b => b | _ => false end) = true -> h_is_family c l = Ok true.
Proof. destruct (h_is_family c l) as [[]| | |]; congruence. Qed.
Lemma h_family_levels c (l : list hcube) e : Forall (h_valid c) l -> hd_error l = Some e -> length l = Z.to_nat (h_num_siblings c e) -> h_is_family c l = Ok true ->
  0 < hl e /\ Forall (fun x => hl x = hl e) l.
Proof.
  intros V HE HL HF. destruct l as [|a l]; [discriminate HE|]. injection HE as ->. pose proof (hN_pos c) as NP.
  assert (L0 : 0 < hl e).
  { unfold h_is_family in HF. change (znth cube0 (e :: l) 0) with e in HF. destruct (Z.leb_spec (hl e) 0); [discriminate HF|assumption]. }
  split; [exact L0|]. unfold h_num_siblings in HL. rewrite (proj2 (Z.eqb_neq (hl e) 0)) in HL by lia.
  apply h_is_family_iff in HF; [|exact V|unfold zlen; lia]. destruct HF as (p & Hp & HM & E).
  assert (A : Forall (fun x => hl x = zlen p + 1) (e :: l)).
  { rewrite E. apply Forall_map, Forall_forall. intros i _. unfold h_child. cbn [hl]. rewrite h_walk_level by apply Hp. reflexivity. }
  inversion A; subst. eapply Forall_impl; [|exact A]. cbv beta. intros x Hx. congruence.
Qed.
Lemma h_path_digits c L id : 0 <= L <= hmax c -> h_path c (digits (hchildren c) (Z.to_nat L) id).
Proof. intros H. split; [apply digits_valid, hN_pos|]. unfold zlen. rewrite digits_length. lia. Qed.

Theorem hyper_ulaws c : ulaws (hyper_scheme c) (hchildren c).
Proof.
  pose proof (hN_pos c) as NP. pose proof (hmax_pos c) as MP.
  split; cbn [hyper_scheme elt s_root s_level s_maxlevel s_max_children s_num_children s_num_siblings s_child s_parent s_child_id s_is_family s_equal
    s_compare s_nca s_is_ancestor s_linear_id s_set_linear_id s_successor s_first_desc s_last_desc s_count_root s_ancestor_id]; auto; try lia.
  - intros e He. unfold h_num_siblings. now rewrite (proj2 (Z.eqb_neq (hl e) 0)) by lia.
  - cbn. lia.
  - intros p H%hyper_path. now apply h_walk_level, H.
  - intros p i H%hyper_path. now apply h_parent_child.
  - intros p i H%hyper_path. now apply h_child_id_walk.
  - intros p q Hp%hyper_path Hq%hyper_path. now apply h_equal_walk.
  - intros p q Hp%hyper_path Hq%hyper_path. now apply h_compare_walk.
  - intros p q Hp%hyper_path Hq%hyper_path. now apply h_nca_walk.
  - intros p q Hp%hyper_path Hq%hyper_path. now apply h_is_ancestor_walk.
  - intros p L Hp%hyper_path HL. now apply h_first_descendant_walk.
  - intros p L Hp%hyper_path HL. now apply h_last_descendant_walk.
  - intros p L Hp%hyper_path HL. now apply h_linear_id_coarse.
  - intros p L Hp%hyper_path HL. now apply h_linear_id_fine.
  - intros p Hp%hyper_path. now rewrite h_set_linear_id_num.
  - intros p q Hp%hyper_path Hq%hyper_path HL HN. change (gwalk (hyper_scheme c)) with (h_walk c).
    rewrite (@next_path_unique (hchildren c) p q) by (auto; try lia; try apply Hp; apply Hq).
    rewrite h_successor_walk; auto. pose proof (num_range (N:=hchildren c) ltac:(lia) (proj1 Hq)). rewrite <- HL in *. lia.
  - intros p Hp%hyper_path HL. change (s_children (S := hyper_scheme c) (gwalk (hyper_scheme c) p)) with (h_children_of c (h_walk c p)).
    rewrite (proj2 (@h_is_family_iff c (h_children_of c (h_walk c p)) (h_children_valid Hp HL) ltac:(unfold zlen; rewrite h_children_of_len; lia))); [reflexivity|].
    now exists p.
  - intros l e HV HE HL HF. apply h_family_true in HF. apply (@h_family_levels c); auto. eapply Forall_impl; [|exact HV]. intros a. apply hyper_valid.
  - intros L id HL Hid Hb. cbv zeta. intros HF. apply h_family_true in HF. apply h_is_family_iff in HF.
    + destruct HF as (p & Hp & HM & E). exists p. split; [now apply hyper_path|]. change (gwalk (hyper_scheme c)) with (h_walk c) in *. split; [|exact E].
      assert (E0 := f_equal (fun l => hl (znth cube0 l 0)) E). cbv beta in E0. rewrite h_children_of_nth in E0 by lia. unfold h_child in E0. cbn [hl] in E0.
      rewrite (h_walk_level (proj2 Hp)) in E0. rewrite <- E0. unfold znth. rewrite (nth_indep _ cube0 (h_walk c (digits (hchildren c) (Z.to_nat L) (id + 0)))) by (rewrite map_length, zseq_length; lia).
      rewrite (map_nth (fun k => h_walk c (digits (hchildren c) (Z.to_nat L) (id + k)))). rewrite h_walk_level; [unfold zlen; rewrite digits_length; lia|].
      apply h_path_digits. lia.
    + apply Forall_map, Forall_forall. intros k _. exists (digits (hchildren c) (Z.to_nat L) (id + k)). split; [apply h_path_digits; lia|reflexivity].
    + unfold zlen. rewrite map_length, zseq_length. lia.
  - intros L HL. unfold h_count_root. rewrite shiftl1_pow by nia. rewrite Z.mul_comm, hpow by lia. reflexivity.
  - intros p L Hp%hyper_path HL. now apply h_ancestor_id_walk.
Qed.
Theorem hyper_laws c : laws (hyper_scheme c).
Proof. eapply ulaws_laws. apply hyper_ulaws. Qed.

(** ** further consequences *)
Lemma h_end_ids c p L : h_path c p -> zlen p <= L <= hmax c ->
  h_linear_id c (h_first_descendant c (h_walk c p) L) L = num (hchildren c) p * hchildren c ^ (L - zlen p) /\
  h_linear_id c (h_last_descendant c (h_walk c p) L) L = num (hchildren c) p * hchildren c ^ (L - zlen p) + hchildren c ^ (L - zlen p) - 1.
Proof.
  intros Hp HL. rewrite (h_first_descendant_walk Hp HL), (h_last_descendant_walk Hp HL). set (n := Z.to_nat (L - zlen p)). assert (En : Z.of_nat n = L - zlen p) by (unfold n; lia).
  assert (N0 := hN_pos c). assert (PA : forall i, 0 <= i < hchildren c -> h_path c (p ++ repeat i n)).
  { intros i Hi. apply h_path_app. split; [exact Hp|]. split; [apply Forall_forall; intros x Hx; apply repeat_spec in Hx; lia|]. unfold zlen at 2. rewrite repeat_length. lia. }
  assert (LA : forall i, zlen (p ++ repeat i n) = L) by (intros i; rewrite zlen_app; unfold zlen at 2; rewrite repeat_length; lia).
  assert (ID : forall i, 0 <= i < hchildren c -> h_linear_id c (h_walk c (p ++ repeat i n)) L = num (hchildren c) p * hchildren c ^ (L - zlen p) + num (hchildren c) (repeat i n)).
  { intros i Hi. rewrite (h_linear_id_fine (PA i Hi)) by (rewrite LA; lia). rewrite LA, Z.sub_diag, Z.mul_1_r, num_app. f_equal. f_equal. f_equal. unfold zlen at 1. rewrite repeat_length. exact En. }
  rewrite !ID by lia. rewrite num_repeat0, num_repeat_last, En by lia. lia.
Qed.
Lemma h_descendant_ids c p L id : h_path c p -> zlen p <= L <= hmax c -> 0 <= id < hchildren c ^ L ->
  (h_linear_id c (h_first_descendant c (h_walk c p) L) L <= id <= h_linear_id c (h_last_descendant c (h_walk c p) L) L <-> prefix p (digits (hchildren c) (Z.to_nat L) id)).
Proof.
  intros Hp HL Hid. destruct (h_end_ids Hp HL) as [-> ->]. assert (Z0 : 0 <= zlen p) by (unfold zlen; lia). assert (N0 := hN_pos c).
  set (N := hchildren c) in *. set (d := digits N (Z.to_nat L) id). assert (Hd : valid_path N d) by (apply digits_valid; lia).
  assert (Ld : length d = Z.to_nat L) by apply digits_length. assert (Nd : num N d = id) by (apply num_digits; rewrite ?Z2Nat.id; lia).
  rewrite prefix_firstn. assert (PW : 0 < N ^ (L - zlen p)) by (apply Z.pow_pos_nonneg; lia).
  assert (F : num N (firstn (length p) d) = id / N ^ (L - zlen p)).
  { rewrite num_firstn by (auto; lia). rewrite Nd. unfold zlen at 1 2. rewrite firstn_length, Ld. do 2 f_equal. unfold zlen in *. lia. }
  split.
  - intros H. split; [unfold zlen in *; lia|]. apply (@num_inj N); [lia|now apply valid_firstn|apply Hp|rewrite firstn_length, Ld; unfold zlen in *; lia|].
    rewrite F. symmetry. apply Z.div_unique with (id - num N p * N ^ (L - zlen p)); [left; lia|lia].
  - intros (_ & E). rewrite E in F. pose proof (Z.div_mod id (N ^ (L - zlen p)) ltac:(lia)) as D. pose proof (Z.mod_pos_bound id (N ^ (L - zlen p)) PW). rewrite <- F in D. rewrite Z.mul_comm in D. lia.
Qed.
Lemma h_count_value c n : 0 <= n <= hmax c -> (c = HHex -> n < hmax c) -> i64 (u64 (Z.shiftl 1 (Z.of_nat (hdim c) * n))) = hchildren c ^ n /\ i64 (Z.shiftl 1 (n * Z.of_nat (hdim c))) = hchildren c ^ n.
Proof.
  intros Hn HH. rewrite (Z.mul_comm n). rewrite shiftl1_pow by lia. rewrite hpow by lia.
  assert (B : 1 <= hchildren c ^ n < 2 ^ 63).
  { destruct (Z.eq_dec n (hmax c)) as [->|]; [|apply hpow_small; lia]. destruct c; try (vm_compute; split; [discriminate|reflexivity]). specialize (HH eq_refl). lia. }
  rewrite u64_small by lia. rewrite !i64_small by lia. split; reflexivity.
Qed.
Lemma h_count_leaves_exact c p L : h_path c p -> zlen p <= L <= hmax c -> (c = HHex -> L - zlen p < hmax c) ->
  h_count_leaves c (h_walk c p) L = hchildren c ^ (L - zlen p) /\
  h_count_leaves c (h_walk c p) L = h_linear_id c (h_last_descendant c (h_walk c p) L) L - h_linear_id c (h_first_descendant c (h_walk c p) L) L + 1.
Proof.
  intros Hp HL HH. destruct (h_end_ids Hp HL) as [-> ->]. assert (Z0 := zlen_nonneg p). unfold h_count_leaves, h_num_descendants. rewrite (h_walk_level (proj2 Hp)).
  destruct (Z.ltb_spec L (zlen p)); [lia|]. rewrite (proj1 (@h_count_value c (L - zlen p) ltac:(lia) HH)). split; lia.
Qed.
Lemma h_count_root_exact c L : 0 <= L <= hmax c -> (c = HHex -> L < hmax c) -> h_count_root c L = h_count_leaves c (h_root c) L.
Proof.
  intros HL HH. unfold h_count_root, h_count_leaves, h_num_descendants. cbn [h_root hl]. destruct (Z.ltb_spec L 0); [lia|]. rewrite Z.sub_0_r.
  destruct (h_count_value HL HH) as [-> ->]. reflexivity.
Qed.
Lemma h_family_loop_total c fam p n i : Forall (fun e => 0 < hl e) fam -> zlen fam = hchildren c -> 0 <= i -> i + Z.of_nat n <= hchildren c ->
  h_family_loop c fam p n i = Ok true \/ h_family_loop c fam p n i = Ok false.
Proof.
  intros HF HZ. revert i. induction n as [|n IH]; intros i Hi Hb; [left; reflexivity|]. cbn [h_family_loop].
  assert (P : 0 < hl (znth cube0 fam i)). { rewrite Forall_forall in HF. apply HF. unfold znth. apply nth_In. unfold zlen in *. lia. }
  destruct (Z.leb_spec (hl (znth cube0 fam i)) 0); [lia|]. destruct (negb _); [right; reflexivity|]. destruct (negb _); [right; reflexivity|]. apply IH; lia.
Qed.
Lemma h_is_family_total c fam : Forall (fun e => 0 < hl e) fam -> zlen fam = hchildren c -> h_is_family c fam = Ok true \/ h_is_family c fam = Ok false.
Proof.
  intros HF HZ. assert (N0 := hN_pos c). unfold h_is_family. assert (P : 0 < hl (znth cube0 fam 0)). { rewrite Forall_forall in HF. apply HF. unfold znth. apply nth_In. unfold zlen in *. lia. }
  destruct (Z.leb_spec (hl (znth cube0 fam 0)) 0); [lia|]. apply h_family_loop_total; auto; lia.
Qed.

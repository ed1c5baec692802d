(** Schemes in which every element has the same number N of children: a list of statements about paths and their base-N numbers
    that implies [laws]. *)
From Verif Require Import Prelude PathSpec SchemeModel SchemeSpec SchemeProofs.

Record ulaws (S : scheme) (N : Z) : Prop := {
  u_N : 1 <= N;
  u_max : 0 <= s_maxlevel S;
  u_max_children : s_max_children S = N;
  u_num_children : forall e : elt S, s_num_children e = N;
  u_num_siblings : forall e : elt S, 0 < s_level e -> s_num_siblings e = N;
  u_num_siblings_root : 1 <= s_num_siblings (s_root S);
  u_level : forall p, gpath S p -> s_level (gwalk S p) = zlen p;
  u_parent : forall p i, gpath S (p ++ [i]) -> s_parent (gwalk S (p ++ [i])) = gwalk S p;
  u_child_id : forall p i, gpath S (p ++ [i]) -> s_child_id (gwalk S (p ++ [i])) = i;
  u_equal : forall p q, gpath S p -> gpath S q -> (s_equal (gwalk S p) (gwalk S q) = true <-> p = q);
  u_compare : forall p q, gpath S p -> gpath S q -> (s_compare (gwalk S p) (gwalk S q) ?= 0) = path_cmp p q;
  u_nca : forall p q, gpath S p -> gpath S q -> s_nca (gwalk S p) (gwalk S q) = gwalk S (lcp p q);
  u_is_ancestor : forall p q, gpath S p -> gpath S q -> (s_is_ancestor (gwalk S p) (gwalk S q) = true <-> prefix p q);
  u_first_desc : forall p L, gpath S p -> zlen p <= L <= s_maxlevel S ->
    s_first_desc (gwalk S p) L = gwalk S (p ++ repeat 0 (Z.to_nat (L - zlen p)));
  u_last_desc : forall p L, gpath S p -> zlen p <= L <= s_maxlevel S ->
    s_last_desc (gwalk S p) L = gwalk S (p ++ repeat (N - 1) (Z.to_nat (L - zlen p)));
  u_linear_id_coarse : forall p L, gpath S p -> 0 <= L <= zlen p -> s_linear_id (gwalk S p) L = num N (firstn (Z.to_nat L) p);
  u_linear_id_fine : forall p L, gpath S p -> zlen p <= L <= s_maxlevel S -> s_linear_id (gwalk S p) L = num N p * N ^ (L - zlen p);
  u_set_linear_id : forall p, gpath S p -> s_set_linear_id S (zlen p) (num N p) = gwalk S p;
  u_successor : forall p q, gpath S p -> gpath S q -> zlen p = zlen q -> num N q = num N p + 1 -> s_successor (gwalk S p) = gwalk S q;
  u_family : forall p, gpath S p -> zlen p < s_maxlevel S -> s_is_family (s_children (gwalk S p)) = true;
  u_family_levels : forall (l : list (elt S)) e, Forall valid l -> hd_error l = Some e -> length l = Z.to_nat (s_num_siblings e) -> s_is_family l = true ->
    0 < s_level e /\ Forall (fun x => s_level x = s_level e) l;
  u_family_consecutive : forall L id, 1 <= L <= s_maxlevel S -> 0 <= id -> id + N <= N ^ L ->
    let l := map (fun k => gwalk S (digits N (Z.to_nat L) (id + k))) (zseq 0 (Z.to_nat N)) in
    s_is_family l = true -> exists p, gpath S p /\ zlen p + 1 = L /\ l = s_children (gwalk S p);
  u_count_root : forall L, 0 <= L <= s_maxlevel S -> s_count_root S L = i64 (N ^ L);
  u_ancestor_id : forall p L, gpath S p -> 1 <= L <= zlen p -> s_ancestor_id (gwalk S p) L = nth (Z.to_nat (L - 1)) p 0
}.

Section uniform.
Variable S : scheme.
Variable N : Z.
Hypothesis U : ulaws S N.
Notation M := (s_maxlevel S).

Lemma u_gpath p : gpath S p <-> valid_path N p /\ zlen p <= M.
Proof.
  split.
  - intros H. induction H as [|p i H [IH1 IH2] HL Hi]; [split; [constructor|unfold zlen; cbn; apply (u_max U)]|].
    rewrite (u_num_children U) in Hi. rewrite zlen_snoc. split; [|lia]. apply valid_app. split; auto. constructor; [lia|constructor].
  - intros [V L]. induction p as [|i p IH] using rev_ind; [constructor|]. rewrite zlen_snoc in L. apply valid_app in V. destruct V as [V Vi].
    inversion Vi; subst. constructor; [apply IH; auto; lia|lia|]. now rewrite (u_num_children U).
Qed.
Lemma N_pos : 0 < N. Proof. pose proof (u_N U). lia. Qed.

Lemma zseq_shift a b n : map (fun k => a + k) (zseq b n) = zseq (a + b) n.
Proof. revert b. induction n as [|n IH]; intros b; cbn [zseq map]; [reflexivity|]. f_equal. rewrite IH. f_equal. lia. Qed.
Lemma digits_split n m k : 0 <= k < N ^ Z.of_nat (n + m) ->
  digits N (n + m) k = digits N n (k / N ^ Z.of_nat m) ++ digits N m (k mod N ^ Z.of_nat m).
Proof.
  intros Hk. pose proof N_pos as HN. assert (P : 0 < N ^ Z.of_nat m) by (apply Z.pow_pos_nonneg; lia).
  rewrite Nat2Z.inj_add, Z.pow_add_r in Hk by lia.
  assert (R1 : 0 <= k / N ^ Z.of_nat m < N ^ Z.of_nat n) by (split; [apply Z.div_pos; lia|apply Z.div_lt_upper_bound; lia]).
  assert (R2 := Z.mod_pos_bound k _ P).
  apply num_inj with (N := N); auto.
  - now apply digits_valid.
  - apply valid_app; split; now apply digits_valid.
  - rewrite app_length, !digits_length. reflexivity.
  - rewrite num_app. unfold zlen. rewrite digits_length. rewrite !num_digits by (auto; rewrite ?Nat2Z.inj_add, ?Z.pow_add_r by lia; lia).
    rewrite (Z.mul_comm (k / _)). rewrite <- Z.div_mod; lia.
Qed.
Lemma zseq_blocks n q : zseq 0 (n * q) = flat_map (fun i => zseq (i * Z.of_nat q) q) (zseq 0 n).
Proof.
  induction n as [|n IH]; [reflexivity|]. replace (Datatypes.S n * q)%nat with (n * q + q)%nat by lia.
  replace (Datatypes.S n) with (n + 1)%nat by lia. rewrite !zseq_app, flat_map_app, IH. cbn [zseq flat_map]. rewrite app_nil_r. do 2 f_equal. lia.
Qed.
Lemma map_flat_map {A B C} (f : B -> C) (g : A -> list B) l : map f (flat_map g l) = flat_map (fun x => map f (g x)) l.
Proof. induction l as [|a l IH]; [reflexivity|]. cbn [flat_map]. now rewrite map_app, IH. Qed.
Lemma u_descend n p : descend n (gwalk S p) = map (fun k => gwalk S (p ++ digits N n k)) (zseq 0 (Z.to_nat (N ^ Z.of_nat n))).
Proof.
  pose proof N_pos as HN. revert p. induction n as [|n IH]; intros p; cbn [descend].
  - change (Z.to_nat (N ^ Z.of_nat 0)) with 1%nat. cbn [zseq map digits]. now rewrite app_nil_r.
  - assert (P : 0 < N ^ Z.of_nat n) by (apply Z.pow_pos_nonneg; lia).
    rewrite Nat2Z.inj_succ, Z.pow_succ_r, Z2Nat.inj_mul by lia. rewrite zseq_blocks, map_flat_map.
    unfold s_children. rewrite (u_num_children U), flat_map_concat_map, map_map, <- flat_map_concat_map.
    apply flat_map_ext_in. intros i Hi. apply in_zseq in Hi.
    change (s_child (gwalk S p) i) with (fold_left (@s_child S) [i] (gwalk S p)). unfold gwalk at 1. rewrite <- fold_left_app. fold (gwalk S (p ++ [i])).
    rewrite IH. rewrite Z2Nat.id by lia. replace (i * N ^ Z.of_nat n) with (i * N ^ Z.of_nat n + 0) by lia. rewrite <- zseq_shift, map_map.
    apply map_ext_in. intros k Hk. apply in_zseq in Hk. rewrite <- app_assoc. f_equal. f_equal.
    change (Datatypes.S n) with (1 + n)%nat. rewrite digits_split.
    2: { rewrite Nat2Z.inj_add, Z.pow_add_r by lia. change (Z.of_nat 1) with 1. nia. }
    rewrite Z.div_add_l, (Z.div_small k) by lia. rewrite Z.add_0_r, Z.add_comm, Z_mod_plus_full, Z.mod_small by lia.
    cbn [digits app]. now rewrite Z.mod_small by lia.
Qed.
Lemma u_size n p : length (descend n (gwalk S p)) = Z.to_nat (N ^ Z.of_nat n).
Proof. now rewrite u_descend, map_length, zseq_length. Qed.

Lemma u_digits_path L id : 0 <= L <= M -> gpath S (digits N (Z.to_nat L) id).
Proof. intros HL. apply u_gpath. split; [apply digits_valid, N_pos|]. unfold zlen. rewrite digits_length. lia. Qed.
Lemma u_linear_id_own p : gpath S p -> s_linear_id (gwalk S p) (zlen p) = num N p.
Proof. intros Hp. rewrite (u_linear_id_coarse U Hp) by (pose proof (zlen_ge0 p); lia). unfold zlen. now rewrite Nat2Z.id, firstn_all. Qed.
Lemma u_walk_of_id p : gpath S p -> p = digits N (Z.to_nat (zlen p)) (num N p).
Proof. intros Hp. apply u_gpath in Hp. unfold zlen. rewrite Nat2Z.id. symmetry. apply digits_num; [apply N_pos|apply Hp]. Qed.

(** the contiguous lists accepted as a family *)
Lemma contig_ids l e : Forall valid (l : list (elt S)) -> hd_error l = Some e -> Forall (fun x => s_level x = s_level e) l ->
  (exists a, map cell_id (region l) = zseq a (length (region l))) -> 0 <= s_level e <= M ->
  l = map (fun k => gwalk S (digits N (Z.to_nat (s_level e)) (s_linear_id e (s_level e) + k))) (zseq 0 (length l)).
Proof.
  intros V HE HL HC Hle. pose proof N_pos as HN. set (q := N ^ (M - s_level e)). assert (Pq : 0 < q) by (apply Z.pow_pos_nonneg; lia).
  revert e V HE HL HC Hle q Pq. induction l as [|x l IH]; intros e V HE HL HC Hle q Pq; [discriminate|].
  cbn in HE. injection HE as ->. inversion V as [|? ? Ve Vl]; subst.
  assert (He : e = gwalk S (digits N (Z.to_nat (s_level e)) (s_linear_id e (s_level e) + 0))).
  { destruct Ve as (p & Hp & ->). rewrite (u_level U Hp), (u_linear_id_own Hp), Z.add_0_r. now rewrite <- (u_walk_of_id Hp). }
  cbn [length zseq map]. f_equal; [exact He|].
  destruct l as [|f l]; [reflexivity|]. inversion HL as [|? ? _ HL']; subst. inversion HL' as [|? ? Lf _]; subst.
  assert (Vl' := Vl). inversion Vl' as [|? ? Vf _]; subst.
  assert (Lf2 : Forall (fun x => s_level x = s_level f) (f :: l)) by (eapply Forall_impl; [|exact HL']; cbn; congruence).
  assert (HC2 : exists a, map cell_id (region (f :: l)) = zseq a (length (region (f :: l)))).
  { destruct HC as (a & HC). rewrite region_cons, map_app in HC. exists (a + zlen (map cell_id (cells e))).
    rewrite <- (map_length cell_id (region (f :: l))). apply (@zseq_infix a (length (cells e ++ region (f :: l))) _ [] _). rewrite app_nil_r. exact HC. }
  assert (IH' := IH f Vl eq_refl Lf2 HC2 ltac:(rewrite Lf; exact Hle) ltac:(rewrite Lf; exact Pq)). etransitivity; [exact IH'|]. clear IH IH'.
  (* the ids of e and f are consecutive *)
  assert (E : s_linear_id f (s_level f) = s_linear_id e (s_level e) + 1).
  { destruct HC as (a & HC). rewrite !region_cons, !map_app, !app_length, !zseq_app in HC.
    destruct Ve as (pe & Hpe & Ee). destruct Vf as (pf & Hpf & Ef). assert (Le := u_level U Hpe). assert (Lf' := u_level U Hpf).
    rewrite <- Ee in Le. rewrite <- Ef in Lf'. rewrite Le, Lf', Ee, Ef, !u_linear_id_own by auto.
    assert (Ce : cells e = map (fun k => gwalk S (pe ++ digits N (Z.to_nat (M - s_level e)) k)) (zseq 0 (Z.to_nat q))).
    { unfold cells. transitivity (descend (Z.to_nat (M - s_level e)) (gwalk S pe)); [now rewrite <- Ee|]. rewrite u_descend. unfold q. rewrite Z2Nat.id by lia. reflexivity. }
    assert (Cf : cells f = map (fun k => gwalk S (pf ++ digits N (Z.to_nat (M - s_level e)) k)) (zseq 0 (Z.to_nat q))).
    { unfold cells. rewrite Lf. transitivity (descend (Z.to_nat (M - s_level e)) (gwalk S pf)); [now rewrite <- Ef|]. rewrite u_descend. unfold q. rewrite Z2Nat.id by lia. reflexivity. }
    assert (ID : forall p k, gpath S p -> zlen p = s_level e -> 0 <= k < q -> cell_id (gwalk S (p ++ digits N (Z.to_nat (M - s_level e)) k)) = num N p * q + k).
    { intros p k Hp Lp Hk. unfold cell_id.
      assert (P : gpath S (p ++ digits N (Z.to_nat (M - s_level e)) k)).
      { apply u_gpath in Hp. apply u_gpath. split; [apply valid_app; split; [apply Hp|now apply digits_valid]|].
        rewrite zlen_app. unfold zlen at 2. rewrite digits_length. lia. }
      rewrite (u_linear_id_fine U P) by (split; [|lia]; apply u_gpath in P; apply P).
      rewrite zlen_app. unfold zlen at 2. rewrite digits_length. replace (M - (zlen p + Z.of_nat (Z.to_nat (M - s_level e)))) with 0 by lia.
      rewrite Z.pow_0_r, Z.mul_1_r, num_app, num_digits by (rewrite ?Z2Nat.id by lia; auto; lia).
      unfold zlen at 1. rewrite digits_length, Z2Nat.id by lia. reflexivity. }
    assert (Me : map cell_id (cells e) = zseq (num N pe * q) (length (cells e))).
    { rewrite Ce, map_map, map_length, zseq_length. rewrite (map_ext_in _ (fun k => num N pe * q + k)), zseq_shift by (intros k Hk; apply in_zseq in Hk; apply ID; auto; lia).
      f_equal. lia. }
    assert (Mf : map cell_id (cells f) = zseq (num N pf * q) (length (cells f))).
    { rewrite Cf, map_map, map_length, zseq_length. rewrite (map_ext_in _ (fun k => num N pf * q + k)), zseq_shift by (intros k Hk; apply in_zseq in Hk; apply ID; auto; lia).
      f_equal. lia. }
    assert (Se : length (cells e) = Z.to_nat q) by (rewrite Ce, map_length, zseq_length; reflexivity).
    assert (Sf : length (cells f) = Z.to_nat q) by (rewrite Cf, map_length, zseq_length; reflexivity).
    rewrite Me, Mf, Se, Sf in HC. destruct (Z.to_nat q) as [|n] eqn:Eq; [lia|]. cbn [zseq app] in HC.
    assert (H0 := f_equal (hd 0) HC). cbn [hd] in H0. subst a.
    change (num N pe * q :: (zseq (num N pe * q + 1) n ++ num N pf * q :: zseq (num N pf * q + 1) n ++ map cell_id (region l)))
      with (zseq (num N pe * q) (Datatypes.S n) ++ zseq (num N pf * q) (Datatypes.S n) ++ map cell_id (region l)) in HC.
    change (num N pe * q :: zseq (num N pe * q + 1) n ++ num N pe * q + Z.of_nat (Datatypes.S n) :: zseq (num N pe * q + Z.of_nat (Datatypes.S n) + 1) n ++
       zseq (num N pe * q + Z.of_nat (Datatypes.S n) + Z.of_nat (Datatypes.S n)) (length (region l)))
      with (zseq (num N pe * q) (Datatypes.S n) ++ (num N pe * q + Z.of_nat (Datatypes.S n) :: zseq (num N pe * q + Z.of_nat (Datatypes.S n) + 1) n ++
       zseq (num N pe * q + Z.of_nat (Datatypes.S n) + Z.of_nat (Datatypes.S n)) (length (region l)))) in HC.
    apply app_inv_head in HC. cbn [zseq app] in HC. assert (H1 := f_equal (hd 0) HC). cbn [hd] in H1. nia. }
  rewrite E, Lf. change (zseq (0 + 1) (length (f :: l))) with (zseq (1 + 0) (length (f :: l))). rewrite <- (zseq_shift 1 0), map_map. apply map_ext. intros k.
  do 2 f_equal. lia.
Qed.

Theorem ulaws_laws : laws S.
Proof.
  pose proof N_pos as HN. constructor.
  - apply (u_max U).
  - apply (u_level U).
  - intros p Hp. rewrite (u_num_children U), (u_max_children U). pose proof (u_N U). lia.
  - intros p i Hp. rewrite (u_num_children U), (u_num_siblings U); [reflexivity|]. rewrite (u_level U Hp), zlen_snoc. unfold zlen. lia.
  - apply (u_num_siblings_root U).
  - apply (u_parent U).
  - apply (u_child_id U).
  - apply (u_equal U).
  - apply (u_compare U).
  - apply (u_nca U).
  - apply (u_is_ancestor U).
  - apply (u_first_desc U).
  - intros p L Hp HL. rewrite (u_last_desc U Hp HL), u_descend. set (n := Z.to_nat (L - zlen p)).
    assert (P : 0 < N ^ Z.of_nat n) by (apply Z.pow_pos_nonneg; lia).
    replace (Z.to_nat (N ^ Z.of_nat n)) with (Z.to_nat (N ^ Z.of_nat n - 1) + 1)%nat by lia. rewrite zseq_app, map_app. cbn [zseq map].
    eexists. f_equal. f_equal. f_equal. f_equal.
    rewrite <- (digits_num (N := N) (p := repeat (N - 1) n)) by (auto; apply valid_repeat; lia).
    rewrite repeat_length, num_repeat_last by auto. f_equal. lia.
  - intros L HL. change (s_root S) with (gwalk S []). rewrite u_descend, map_map, map_length, zseq_length.
    rewrite Z2Nat.id by lia. rewrite <- (map_id (zseq 0 (Z.to_nat (N ^ L)))) at 2. apply map_ext_in. intros k Hk. apply in_zseq in Hk.
    assert (0 < N ^ L) by (apply Z.pow_pos_nonneg; lia). cbn [app].
    rewrite (u_linear_id_coarse U) by (try apply u_digits_path; try (unfold zlen; rewrite digits_length); lia).
    rewrite <- (digits_length N (Z.to_nat L) k) at 1. rewrite firstn_all. apply num_digits; auto. rewrite Z2Nat.id by lia. lia.
  - intros p L Hp HL. rewrite !(u_linear_id_coarse U); auto.
    + now rewrite firstn_firstn, Nat.min_id.
    + apply u_gpath. apply u_gpath in Hp. split; [now apply valid_firstn|]. unfold zlen in *. rewrite firstn_length. lia.
    + unfold zlen in *. rewrite firstn_length. lia.
  - intros p L Hp HL. rewrite (u_first_desc U Hp HL). rewrite (u_linear_id_fine U Hp HL).
    rewrite (u_linear_id_fine U).
    + rewrite num_pad0, zlen_app, zlen_repeat. rewrite Z2Nat.id by lia. replace (L - (zlen p + (L - zlen p))) with 0 by lia. rewrite Z.pow_0_r. lia.
    + apply u_gpath. apply u_gpath in Hp. split; [apply valid_app; split; [apply Hp|apply valid_repeat; lia]|]. rewrite zlen_app, zlen_repeat. lia.
    + rewrite zlen_app, zlen_repeat. lia.
  - intros p Hp. rewrite (u_linear_id_own Hp). now apply (u_set_linear_id U).
  - intros p q Hp Hq HL. rewrite !u_linear_id_own by auto. now apply (u_successor U).
  - apply (u_family U).
  - intros l e [V HC] HE HLen HF. destruct (u_family_levels U V HE HLen HF) as [L0 HL]. rewrite (u_num_siblings U L0) in HLen. split; auto.
    assert (Ve : valid e) by (destruct l; [discriminate|]; injection HE as ->; now inversion V).
    destruct Ve as (pe & Hpe & Ee). assert (Le := u_level U Hpe). rewrite <- Ee in Le.
    assert (LM : s_level e <= M) by (apply u_gpath in Hpe; lia).
    assert (E := contig_ids V HE HL HC ltac:(lia)). rewrite HLen in E.
    assert (Hid : s_linear_id e (s_level e) = num N pe) by (rewrite Le, Ee; now apply u_linear_id_own).
    assert (R : 0 <= num N pe < N ^ s_level e) by (rewrite Le; apply num_range; auto; now apply u_gpath).
    rewrite Hid in E. destruct (Z.le_gt_cases (num N pe + N) (N ^ s_level e)) as [B|B].
    + rewrite E in HF. destruct (@u_family_consecutive S N U (s_level e) (num N pe) ltac:(lia) ltac:(lia) B HF) as (p & Hp & Lp & EC).
      rewrite E. rewrite EC. f_equal. rewrite EC in E. rewrite E in HE. unfold s_children in HE. rewrite (u_num_children U) in HE.
      destruct (Z.to_nat N) eqn:EN; [lia|]. cbn [zseq map hd_error] in HE. injection HE as HE.
      change (s_child (gwalk S p) 0) with (fold_left (@s_child S) [0] (gwalk S p)) in HE. unfold gwalk in HE at 1. rewrite <- fold_left_app in HE. fold (gwalk S (p ++ [0])) in HE.
      rewrite <- HE. symmetry. apply (u_parent U). constructor; auto; [lia|]. rewrite (u_num_children U). lia.
    + (* a level has no room for such a list *)
      exfalso. (* the last member would have a number beyond the last of the level *)
      set (k := N ^ s_level e - num N pe). assert (Hk : 1 <= k < N) by (unfold k; lia).
      assert (V1 : valid (nth (Z.to_nat k) l e)). { rewrite Forall_forall in V. apply V, nth_In. lia. }
      assert (L1 : s_level (nth (Z.to_nat k) l e) = s_level e). { rewrite Forall_forall in HL. apply HL, nth_In. lia. }
      (* its cells would follow the last cell of the tree *)
      destruct HC as (a & HC). rewrite Forall_forall in V, HL.
      assert (SZ : forall x, In x l -> exists px, gpath S px /\ x = gwalk S px /\ zlen px = s_level e).
      { intros x Hx. destruct (V x Hx) as (px & Hpx & Ex). exists px. split; auto. split; auto. rewrite <- (HL x Hx), Ex. symmetry. now apply (u_level U). }
      rewrite E in HC. (* number of cell k*q.. *)
      set (q := N ^ (M - s_level e)) in *. assert (Pq : 0 < q) by (apply Z.pow_pos_nonneg; lia).
      assert (SZ2 : forall x, In x l -> length (cells x) = Z.to_nat q).
      { intros x Hx. destruct (SZ x Hx) as (px & Hpx & Ex & Lx). unfold cells. rewrite (HL x Hx), Ex, u_size. unfold q. now rewrite Z2Nat.id by lia. }
      assert (CE : cell_id (nth (Z.to_nat k) l e) = num N pe * q + k * q).
      { assert (G : forall j, (j < length l)%nat -> map cell_id (region l) = map cell_id (region (firstn j l)) ++ map cell_id (cells (nth j l e)) ++ map cell_id (region (skipn (Datatypes.S j) l))).
        { intros j Hj. rewrite <- !map_app. f_equal. unfold region. rewrite app_assoc. 
          rewrite <- (firstn_skipn j l) at 1. rewrite flat_map_app, <- app_assoc. f_equal.
          assert (SK : skipn j l = nth j l e :: skipn (Datatypes.S j) l).
          { clear -Hj. revert j Hj. induction l as [|x l IH]; intros j Hj; [cbn in Hj; lia|]. destruct j; [reflexivity|]. cbn in *. apply IH. lia. }
          rewrite SK. reflexivity. }
        assert (LR : forall j, (j <= length l)%nat -> length (region (firstn j l)) = (j * Z.to_nat q)%nat).
        { intros j Hj. unfold region. rewrite flat_map_concat_map. clear -SZ2 Hj. revert j Hj. induction l as [|x l IH]; intros j Hj; [destruct j; [reflexivity|cbn in Hj; lia]|].
          destruct j; [reflexivity|]. cbn [firstn map concat]. rewrite app_length, IH; [|intros y Hy; apply SZ2; now right|cbn in Hj; lia]. rewrite SZ2 by (now left). lia. }
        assert (CID : forall x, In x l -> exists r, map cell_id (cells x) = cell_id x :: r).
        { intros x Hx. destruct (SZ x Hx) as (px & Hpx & Ex & Lx). unfold cells. rewrite (HL x Hx), Ex, u_descend.
          rewrite Z2Nat.id by lia. fold q. destruct (Z.to_nat q) eqn:EQ; [lia|]. cbn [zseq map]. eexists. f_equal. unfold cell_id.
          assert (P : gpath S (px ++ digits N (Z.to_nat (M - s_level e)) 0)).
          { apply u_gpath in Hpx. apply u_gpath. split; [apply valid_app; split; [apply Hpx|now apply digits_valid]|]. rewrite zlen_app. unfold zlen at 2. rewrite digits_length. lia. }
          rewrite (u_linear_id_fine U P) by (split; [|lia]; apply u_gpath in P; apply P).
          rewrite (u_linear_id_fine U Hpx) by lia. rewrite num_app, zlen_app. unfold zlen at 1 3. rewrite digits_length.
          rewrite num_digits by (auto; rewrite Z2Nat.id by lia; fold q; lia). rewrite Z2Nat.id by lia. rewrite Lx.
          replace (M - (s_level e + (M - s_level e))) with 0 by lia. rewrite Z.pow_0_r. lia. }
        assert (HC' : map cell_id (region l) = zseq a (length (region l))) by (rewrite E; exact HC).
        assert (G0 := G 0%nat ltac:(lia)). assert (Gk := G (Z.to_nat k) ltac:(lia)).
        cbn [firstn] in G0. unfold region at 2 in G0. cbn [flat_map map app] in G0.
        assert (H0 : nth 0 l e = e) by (destruct l; [discriminate|]; injection HE as ->; reflexivity).
        assert (I0 : In (nth 0 l e) l) by (apply nth_In; lia). assert (Ik : In (nth (Z.to_nat k) l e) l) by (apply nth_In; lia).
        destruct (CID _ I0) as (r0 & R0). destruct (CID _ Ik) as (rk & Rk). rewrite R0 in G0. rewrite Rk in Gk.
        rewrite HC' in G0, Gk.
        assert (T0 := f_equal (fun z => nth 0 z 0) G0). cbn [app nth] in T0. 
        assert (PR : (0 < length (region l))%nat).
        { rewrite <- (firstn_all l), LR by lia. nia. }
        rewrite nth_zseq in T0 by lia. rewrite H0 in T0.
        assert (Tk := f_equal (fun z => nth (Z.to_nat k * Z.to_nat q) z 0) Gk). cbn beta in Tk.
        rewrite app_nth2 in Tk by (rewrite map_length, LR by lia; lia). rewrite map_length, LR, Nat.sub_diag in Tk by lia. cbn [app nth] in Tk.
        rewrite nth_zseq in Tk by (rewrite <- (firstn_all l), LR by lia; nia).
        assert (Ce : cell_id e = num N pe * q).
        { unfold cell_id. rewrite Ee, (u_linear_id_fine U Hpe) by lia. unfold q. rewrite Ee, (u_level U Hpe). reflexivity. }
        rewrite Ce in T0. rewrite <- Tk. lia. }
      destruct V1 as (p1 & Hp1 & E1). assert (Lp1 : zlen p1 = s_level e) by (rewrite <- L1, E1; symmetry; now apply (u_level U)).
      assert (R1 : 0 <= num N p1 < N ^ s_level e) by (rewrite <- Lp1; apply num_range; auto; now apply u_gpath).
      unfold cell_id in CE. rewrite E1, (u_linear_id_fine U Hp1), Lp1 in CE by lia. fold q in CE.
      assert (num N p1 = num N pe + k) by nia. unfold k in *. lia.
  - intros L HL. rewrite (u_count_root U HL). change (s_root S) with (gwalk S []). rewrite u_size. f_equal.
    pose proof (Z.pow_pos_nonneg N L ltac:(lia) ltac:(lia)). rewrite !Z2Nat.id by (rewrite ?Z2Nat.id; lia). reflexivity.
  - apply (u_ancestor_id U).
Qed.
End uniform.

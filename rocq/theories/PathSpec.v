(** Specification vocabulary: refinement paths.
    An element of a tree is identified with the list of child numbers that leads from the root to it.  Nothing here depends on
    the modelled code. *)
From Verif Require Import Prelude.

(** all child numbers are in 0..N-1 *)
Definition valid_path (N : Z) (p : list Z) : Prop := Forall (fun i => 0 <= i < N) p.

(** the number of a path among all paths of its length, in lexicographic order: base-N value *)
Definition num (N : Z) (p : list Z) : Z := fold_left (fun a i => a * N + i) p 0.

(** [prefix p q] : q descends from p *)
Definition prefix (p q : list Z) : Prop := exists r, q = p ++ r.

(** lexicographic comparison, a proper prefix being smaller *)
Fixpoint path_cmp (p q : list Z) : comparison :=
  match p, q with
  | [], [] => Eq
  | [], _ :: _ => Lt
  | _ :: _, [] => Gt
  | i :: p', j :: q' => match i ?= j with Eq => path_cmp p' q' | c => c end
  end.

(** longest common prefix *)
Fixpoint lcp (p q : list Z) : list Z :=
  match p, q with
  | i :: p', j :: q' => if i =? j then i :: lcp p' q' else []
  | _, _ => []
  end.

(** the L base-N digits of id, most significant first *)
Fixpoint digits (N : Z) (L : nat) (id : Z) : list Z :=
  match L with O => [] | S L' => digits N L' (id / N) ++ [id mod N] end.

Lemma valid_app N p q : valid_path N (p ++ q) <-> valid_path N p /\ valid_path N q.
Proof. apply Forall_app. Qed.
Lemma valid_firstn N p n : valid_path N p -> valid_path N (firstn n p).
Proof. intros H. rewrite <- (firstn_skipn n p) in H. now apply valid_app in H. Qed.
Lemma valid_repeat N i n : 0 <= i < N -> valid_path N (repeat i n).
Proof. intros H. apply Forall_forall. intros x Hx. apply repeat_spec in Hx. now subst. Qed.

Lemma num_acc N p a : fold_left (fun a i => a * N + i) p a = a * N ^ zlen p + num N p.
Proof.
  unfold num, zlen. revert a. induction p as [|i p IH]; intros a; cbn [fold_left length].
  - rewrite Z.pow_0_r. lia.
  - rewrite IH, (IH (0 * N + i)). rewrite Nat2Z.inj_succ, Z.pow_succ_r by lia. nia.
Qed.
Lemma num_nil N : num N [] = 0. Proof. reflexivity. Qed.
Lemma num_snoc N p i : num N (p ++ [i]) = num N p * N + i.
Proof. unfold num. rewrite fold_left_app. reflexivity. Qed.
Lemma num_app N p q : num N (p ++ q) = num N p * N ^ zlen q + num N q.
Proof. unfold num at 1. rewrite fold_left_app. apply num_acc. Qed.
Lemma num_cons N i p : num N (i :: p) = i * N ^ zlen p + num N p.
Proof. change (i :: p) with ([i] ++ p). rewrite num_app. unfold num at 1. cbn. lia. Qed.

Lemma num_range N p : 0 < N -> valid_path N p -> 0 <= num N p < N ^ zlen p.
Proof.
  intros HN. unfold zlen. induction p as [|i p IH] using rev_ind; intros Hv.
  - cbn. lia.
  - apply valid_app in Hv. destruct Hv as [Hv Hi]. inversion Hi; subst. specialize (IH Hv).
    rewrite num_snoc, app_length. cbn [length]. replace (Z.of_nat (length p + 1)) with (Z.succ (Z.of_nat (length p))) by lia.
    rewrite Z.pow_succ_r by lia. nia.
Qed.

Lemma num_inj N p q : 0 < N -> valid_path N p -> valid_path N q -> length p = length q -> num N p = num N q -> p = q.
Proof.
  intros HN. revert q. induction p as [|i p IH] using rev_ind; intros q Hp Hq Hl He.
  - destruct q; [reflexivity|discriminate].
  - destruct q as [|j q _] using rev_ind; [rewrite app_length in Hl; cbn in Hl; lia|].
    apply valid_app in Hp; apply valid_app in Hq. destruct Hp as [Hp Hi], Hq as [Hq Hj].
    inversion Hi; inversion Hj; subst. rewrite !num_snoc in He. rewrite !app_length in Hl. cbn in Hl.
    assert (num N p = num N q /\ i = j) as [E ->].
    { assert (E1 : (num N p * N + i) / N = (num N q * N + j) / N) by (now rewrite He).
      rewrite !Z.div_add_l, !Z.div_small in E1 by lia. split; [lia|]. nia. }
    f_equal. apply IH; auto. lia.
Qed.

Lemma digits_length N L id : length (digits N L id) = L.
Proof. revert id. induction L as [|L IH]; intros id; cbn; [reflexivity|]. rewrite app_length, IH. cbn. lia. Qed.
Lemma digits_valid N L id : 0 < N -> valid_path N (digits N L id).
Proof.
  intros HN. revert id. induction L as [|L IH]; intros id; cbn; [constructor|].
  apply valid_app. split; [apply IH|]. constructor; [|constructor]. apply Z.mod_pos_bound. lia.
Qed.
Lemma num_digits N L id : 0 < N -> 0 <= id < N ^ Z.of_nat L -> num N (digits N L id) = id.
Proof.
  intros HN. revert id. induction L as [|L IH]; intros id H.
  - cbn in *. lia.
  - cbn [digits]. rewrite num_snoc. rewrite Nat2Z.inj_succ, Z.pow_succ_r in H by lia.
    rewrite IH.
    + pose proof (Z.div_mod id N). lia.
    + split; [apply Z.div_pos; lia|]. apply Z.div_lt_upper_bound; lia.
Qed.
Lemma digits_num N p : 0 < N -> valid_path N p -> digits N (length p) (num N p) = p.
Proof.
  intros HN Hv. apply num_inj with (N := N); auto.
  - now apply digits_valid.
  - now rewrite digits_length.
  - apply num_digits; auto. pose proof (num_range HN Hv). unfold zlen in *. lia.
Qed.

Lemma num_firstn N p n : 0 < N -> valid_path N p -> num N (firstn n p) = num N p / N ^ (zlen p - zlen (firstn n p)).
Proof.
  intros HN Hv. assert (E := firstn_skipn n p). rewrite <- E in Hv. apply valid_app in Hv. destruct Hv as [H1 H2].
  assert (Hz : zlen p - zlen (firstn n p) = zlen (skipn n p)).
  { rewrite <- E at 1. unfold zlen. rewrite app_length. lia. }
  rewrite Hz. rewrite <- E at 2. rewrite num_app.
  pose proof (num_range HN H2). rewrite Z.div_add_l by lia. rewrite Z.div_small by lia. lia.
Qed.

Lemma num_repeat0 N n : num N (repeat 0 n) = 0.
Proof. induction n as [|n IH]; [reflexivity|]. cbn [repeat]. rewrite num_cons, IH. lia. Qed.
Lemma num_repeat_last N n : 0 < N -> num N (repeat (N - 1) n) = N ^ Z.of_nat n - 1.
Proof.
  intros HN. induction n as [|n IH]; [reflexivity|]. cbn [repeat]. rewrite num_cons, IH.
  unfold zlen. rewrite repeat_length. rewrite Nat2Z.inj_succ, Z.pow_succ_r by lia. lia.
Qed.
Lemma num_pad0 N p n : num N (p ++ repeat 0 n) = num N p * N ^ Z.of_nat n.
Proof. rewrite num_app, num_repeat0. unfold zlen. rewrite repeat_length. lia. Qed.
Lemma zlen_app {A} (p q : list A) : zlen (p ++ q) = zlen p + zlen q.
Proof. unfold zlen. rewrite app_length. lia. Qed.
Lemma zlen_repeat {A} (a : A) n : zlen (repeat a n) = Z.of_nat n.
Proof. unfold zlen. now rewrite repeat_length. Qed.

(** lexicographic order is the order of the padded numbers, ties broken by length *)
Lemma path_cmp_num_aux N n p q : 0 < N -> valid_path N p -> valid_path N q ->
  (length p <= n)%nat -> (length q <= n)%nat ->
  path_cmp p q =
  match num N (p ++ repeat 0 (n - length p)) ?= num N (q ++ repeat 0 (n - length q)) with
  | Eq => zlen p ?= zlen q | c => c end.
Proof.
  intros HN. revert p q. induction n as [|n IH]; intros p q Hp Hq Lp Lq.
  - destruct p; [|cbn in Lp; lia]. destruct q; [|cbn in Lq; lia]. reflexivity.
  - assert (NP : 0 < N ^ Z.of_nat n) by (apply Z.pow_pos_nonneg; lia).
    assert (R : forall p, valid_path N p -> (length p <= n)%nat -> 0 <= num N (p ++ repeat 0 (n - length p)) < N ^ Z.of_nat n).
    { intros r Hr Lr. assert (V : valid_path N (r ++ repeat 0 (n - length r))) by (apply valid_app; split; auto; apply valid_repeat; lia).
      pose proof (num_range HN V) as B. rewrite zlen_app, zlen_repeat in B. unfold zlen in B.
      replace (Z.of_nat (length r) + Z.of_nat (n - length r)) with (Z.of_nat n) in B by lia. exact B. }
    assert (PL : forall r : list Z, (length r <= n)%nat -> zlen (r ++ repeat 0 (n - length r)) = Z.of_nat n).
    { intros r Lr. rewrite zlen_app, zlen_repeat. unfold zlen. lia. }
    destruct p as [|i p], q as [|j q]; cbn [length] in *.
    + cbn [path_cmp]. rewrite Z.compare_refl. reflexivity.
    + cbn [path_cmp app]. replace (S n - 0)%nat with (S n) by lia. rewrite num_repeat0.
      replace (S n - S (length q))%nat with (n - length q)%nat by lia. rewrite num_cons.
      rewrite PL by lia. inversion Hq; subst. pose proof (R q ltac:(auto) ltac:(lia)).
      destruct (0 ?= j * N ^ Z.of_nat n + num N (q ++ repeat 0 (n - length q))) eqn:E.
      * unfold zlen. cbn [length]. symmetry. apply Z.compare_lt_iff. lia.
      * reflexivity.
      * rewrite Z.compare_gt_iff in E. assert (0 <= j * N ^ Z.of_nat n) by (apply Z.mul_nonneg_nonneg; lia). lia.
    + cbn [path_cmp app]. replace (S n - 0)%nat with (S n) by lia. rewrite num_repeat0.
      replace (S n - S (length p))%nat with (n - length p)%nat by lia. rewrite num_cons.
      rewrite PL by lia. inversion Hp; subst. pose proof (R p ltac:(auto) ltac:(lia)).
      destruct (i * N ^ Z.of_nat n + num N (p ++ repeat 0 (n - length p)) ?= 0) eqn:E.
      * unfold zlen. cbn [length]. symmetry. apply Z.compare_gt_iff. lia.
      * rewrite Z.compare_lt_iff in E. assert (0 <= i * N ^ Z.of_nat n) by (apply Z.mul_nonneg_nonneg; lia). lia.
      * reflexivity.
    + cbn [path_cmp app].
      replace (S n - S (length p))%nat with (n - length p)%nat by lia.
      replace (S n - S (length q))%nat with (n - length q)%nat by lia. rewrite !num_cons, !PL by lia.
      inversion Hp; inversion Hq; subst. pose proof (R p ltac:(auto) ltac:(lia)). pose proof (R q ltac:(auto) ltac:(lia)).
      destruct (i ?= j) eqn:Eij.
      * apply Z.compare_eq in Eij. subst j. rewrite (IH p q) by (auto; lia).
        rewrite Z.add_compare_mono_l.
        replace (zlen (i :: p) ?= zlen (i :: q)) with (zlen p ?= zlen q); [reflexivity|].
        unfold zlen. cbn [length]. rewrite !Nat2Z.inj_succ, <- !Z.add_1_l. symmetry. apply Z.add_compare_mono_l.
      * rewrite Z.compare_lt_iff in Eij. replace (_ ?= _) with Lt; [reflexivity|]. symmetry. apply Z.compare_lt_iff. nia.
      * rewrite Z.compare_gt_iff in Eij. replace (_ ?= _) with Gt; [reflexivity|]. symmetry. apply Z.compare_gt_iff. nia.
Qed.

Lemma path_cmp_eq p q : path_cmp p q = Eq <-> p = q.
Proof.
  revert q. induction p as [|i p IH]; destruct q as [|j q]; cbn; try (split; [discriminate|discriminate]); [tauto|].
  destruct (i ?= j) eqn:E.
  - apply Z.compare_eq in E. subst. rewrite IH. split; congruence.
  - split; [discriminate|]. intros [= -> ->]. rewrite Z.compare_refl in E. discriminate.
  - split; [discriminate|]. intros [= -> ->]. rewrite Z.compare_refl in E. discriminate.
Qed.

Lemma prefix_firstn p q : prefix p q <-> (length p <= length q)%nat /\ firstn (length p) q = p.
Proof.
  split.
  - intros (r & ->). rewrite app_length. split; [lia|]. rewrite firstn_app, Nat.sub_diag, firstn_all. cbn. apply app_nil_r.
  - intros [H1 H2]. exists (skipn (length p) q). rewrite <- H2 at 1. now rewrite firstn_skipn.
Qed.
Lemma prefix_refl p : prefix p p. Proof. exists []. now rewrite app_nil_r. Qed.

Lemma lcp_prefix_l p q : prefix (lcp p q) p.
Proof.
  revert q. induction p as [|i p IH]; intros [|j q]; cbn; try (now exists []); try (eexists; reflexivity).
  destruct (Z.eqb_spec i j); [|eexists; reflexivity]. destruct (IH q) as (r & E). exists r. cbn. congruence.
Qed.
Lemma lcp_comm p q : lcp p q = lcp q p.
Proof.
  revert q. induction p as [|i p IH]; intros [|j q]; cbn; auto.
  rewrite (Z.eqb_sym j i). destruct (Z.eqb_spec i j); [subst; now rewrite IH|reflexivity].
Qed.
Lemma lcp_prefix_r p q : prefix (lcp p q) q.
Proof. rewrite lcp_comm. apply lcp_prefix_l. Qed.
Lemma lcp_greatest r p q : prefix r p -> prefix r q -> prefix r (lcp p q).
Proof.
  revert p q. induction r as [|i r IH]; intros p q (a & ->) (b & ->); cbn.
  - eexists; reflexivity.
  - rewrite Z.eqb_refl. destruct (IH (r ++ a) (r ++ b)) as (c & E); [eexists; reflexivity|eexists; reflexivity|].
    rewrite E. eexists; reflexivity.
Qed.

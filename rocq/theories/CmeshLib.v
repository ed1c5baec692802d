(** Lists, bytes and sorting for the proofs about coarse meshes. *)
From Coq Require Import Permutation Sorted.
From Verif Require Import Prelude EclassModel CmeshModel.

(** lists as functions on 0, ..., n - 1 *)
Definition tab {A} (F : Z -> A) (n : Z) : list A := map F (zseq 0 (Z.to_nat n)).
Lemma zlen_tab {A} (F : Z -> A) n : 0 <= n -> zlen (tab F n) = n.
Proof. intros H. unfold zlen, tab. rewrite map_length, zseq_length. lia. Qed.
Lemma nth_error_zseq : forall n a i, (i < n)%nat -> nth_error (zseq a n) i = Some (a + Z.of_nat i).
Proof. intros n. induction n as [|n IH]; intros a i H; [lia|]. destruct i; cbn; [f_equal; lia|]. rewrite IH by lia. f_equal. lia. Qed.
Lemma lget_tab {A} (F : Z -> A) n i : 0 <= i < n -> lget (tab F n) i = Ok (F i).
Proof.
  intros H. unfold lget, tab. destruct (Z.ltb_spec i 0); [lia|]. erewrite map_nth_error; [|apply nth_error_zseq; lia]. f_equal. f_equal. lia.
Qed.
Lemma tab_ext {A} (F G : Z -> A) n : (forall i, 0 <= i < n -> F i = G i) -> tab F n = tab G n.
Proof. intros H. unfold tab. apply map_ext_in. intros a Ha. apply in_zseq in Ha. apply H. lia. Qed.
Definition upd {A} (F : Z -> A) (i : Z) (v : A) (j : Z) : A := if j =? i then v else F j.
Lemma lset_tab {A} (F : Z -> A) n i v : 0 <= i < n -> lset (tab F n) i v = Ok (tab (upd F i v) n).
Proof.
  intros H. unfold lset. rewrite zlen_tab by lia. destruct (Z.leb_spec 0 i); [|lia]. destruct (Z.ltb_spec i n); [|lia]. cbn [andb]. f_equal. unfold tab.
  replace (Z.to_nat n) with (Z.to_nat i + (1 + Z.to_nat (n - i - 1)))%nat by lia. rewrite !zseq_app, !map_app. cbn [zseq map app].
  assert (L : length (map F (zseq 0 (Z.to_nat i))) = Z.to_nat i) by now rewrite map_length, zseq_length.
  rewrite firstn_app, L, Nat.sub_diag, firstn_all2 by lia. cbn [firstn]. rewrite app_nil_r.
  rewrite skipn_app, L, skipn_all2 by lia. replace (Z.to_nat (i + 1) - Z.to_nat i)%nat with 1%nat by lia. cbn [skipn app]. f_equal; [|f_equal].
  - apply map_ext_in. intros a Ha. apply in_zseq in Ha. unfold upd. destruct (Z.eqb_spec a i); [lia|reflexivity].
  - unfold upd. destruct (Z.eqb_spec (0 + Z.of_nat (Z.to_nat i)) i); [reflexivity|lia].
  - apply map_ext_in. intros a Ha. apply in_zseq in Ha. unfold upd. destruct (Z.eqb_spec a i); [lia|reflexivity].
Qed.
Lemma tab_S {A} (F : Z -> A) n : 0 <= n -> tab F (n + 1) = tab F n ++ [F n].
Proof. intros H. unfold tab. replace (Z.to_nat (n + 1)) with (Z.to_nat n + 1)%nat by lia. rewrite zseq_app, map_app. cbn. do 3 f_equal. lia. Qed.
Lemma repeat_tab {A} (x : A) k : repeat x k = tab (fun _ => x) (Z.of_nat k).
Proof. unfold tab. rewrite Nat2Z.id. generalize 0 as a. induction k as [|k IH]; intros a; cbn; [reflexivity|]. f_equal. apply IH. Qed.
Lemma map_tab {A B} (f : A -> B) (F : Z -> A) n : map f (tab F n) = tab (fun i => f (F i)) n.
Proof. unfold tab. now rewrite map_map. Qed.
Lemma combine_tab {A} (F : Z -> A) n : combine (zseq 0 (length (tab F n))) (tab F n) = tab (fun i => (i, F i)) n.
Proof. unfold tab. rewrite map_length, zseq_length. generalize (zseq 0 (Z.to_nat n)) as l. intros l. induction l as [|a l IH]; cbn; [reflexivity|]. now rewrite IH. Qed.
Lemma tab_nth {A} (F : Z -> A) n d i : 0 <= i < n -> znth d (tab F n) i = F i.
Proof. intros H. assert (E := lget_tab F H). unfold lget in E. destruct (Z.ltb_spec i 0); [lia|]. unfold znth. destruct (nth_error (tab F n) (Z.to_nat i)) eqn:E2; [|discriminate]. injection E as ->. now apply nth_error_nth. Qed.
Lemma in_tab {A} (F : Z -> A) n x : In x (tab F n) <-> exists i, 0 <= i < n /\ F i = x.
Proof. unfold tab. rewrite in_map_iff. split; intros (i & H1 & H2); exists i; [apply in_zseq in H2|]; split; auto; [lia|apply in_zseq; lia]. Qed.
(** any list as such a function *)
Lemma list_tab {A} (d : A) l : l = tab (znth d l) (zlen l).
Proof.
  unfold tab, zlen. rewrite Nat2Z.id. induction l as [|x l IH] using rev_ind; [reflexivity|]. rewrite app_length. cbn [length]. rewrite zseq_app, map_app. cbn [zseq map]. f_equal.
  - rewrite IH at 1. apply map_ext_in. intros a Ha. apply in_zseq in Ha. unfold znth. rewrite app_nth1 by lia. reflexivity.
  - unfold znth. rewrite app_nth2 by lia. replace (Z.to_nat (0 + Z.of_nat (length l)) - length l)%nat with 0%nat by lia. reflexivity.
Qed.

(** bytes *)
Lemma le_length n v : length (le n v) = n.
Proof. revert v. induction n as [|n IH]; intros v; cbn; auto. Qed.
Lemma zlen_le n v : zlen (le n v) = Z.of_nat n.
Proof. unfold zlen. now rewrite le_length. Qed.
Lemma unle_le n : forall v, unle (le n v) = v mod 256 ^ Z.of_nat n.
Proof.
  induction n as [|n IH]; intros v; [cbn; now rewrite Z.mod_1_r|]. cbn [le unle]. rewrite IH. rewrite Nat2Z.inj_succ, Z.pow_succ_r by lia.
  rewrite Z.rem_mul_r by lia. reflexivity.
Qed.
Definition bytes_at (m : memory) (a : Z) (l : list Z) : Prop := forall i, 0 <= i < zlen l -> m_at m (a + i) = znth 0 l i.
Definition inside (m : memory) (a n : Z) : Prop := m_lo m <= a /\ a + n <= m_hi m.
Lemma zseq_shift k : forall a c, zseq (a + c) k = map (fun i => a + i) (zseq c k).
Proof. induction k as [|k IH]; intros a c; cbn [zseq map]; [reflexivity|]. f_equal. rewrite <- IH. f_equal. lia. Qed.
Lemma get_bytes m a l : inside m a (zlen l) -> bytes_at m a l -> get m a (length l) = Ok l.
Proof.
  intros [H1 H2] B. unfold get. fold (zlen l). destruct (Z.leb_spec (m_lo m) a); [|lia]. destruct (Z.leb_spec (a + zlen l) (m_hi m)); [|lia]. cbn [andb]. f_equal.
  rewrite (list_tab 0 l) at 2. unfold tab. replace (Z.to_nat (zlen l)) with (length l) by (unfold zlen; lia).
  replace a with (a + 0) by lia. rewrite zseq_shift, map_map. apply map_ext_in. intros i Hi. apply in_zseq in Hi. apply B. unfold zlen. lia.
Qed.
Lemma ld64_bytes m a v : inside m a 8 -> bytes_at m a (le 8 v) -> 0 <= v < 2 ^ 64 -> ld64 m a = Ok v.
Proof.
  intros I B V. unfold ld64. change 8%nat with (length (le 8 v)). rewrite get_bytes; [|now rewrite zlen_le|assumption]. cbn [obind]. f_equal. rewrite unle_le.
  change (256 ^ Z.of_nat 8) with (2 ^ 64). now apply Z.mod_small.
Qed.
Lemma ld32_bytes m a v : inside m a 4 -> bytes_at m a (le 4 v) -> - 2 ^ 31 <= v < 2 ^ 31 -> ld32 m a = Ok v.
Proof.
  intros I B V. unfold ld32. change 4%nat with (length (le 4 v)). rewrite get_bytes; [|now rewrite zlen_le|assumption]. cbn [obind]. f_equal. rewrite unle_le.
  change (256 ^ Z.of_nat 4) with (2 ^ 32). unfold s32. change (2 ^ 31) with 2147483648 in *. change (2 ^ 32) with 4294967296.
  destruct (Z_lt_le_dec v 0).
  - replace (v mod 4294967296) with (v + 4294967296) by (rewrite <- (Z.mod_small (v + 4294967296) 4294967296) by lia; rewrite <- Z.add_mod_idemp_r, Z.mod_same, Z.add_0_r by lia; reflexivity).
    destruct (Z.ltb_spec (v + 4294967296) 2147483648); lia.
  - rewrite Z.mod_small by lia. destruct (Z.ltb_spec v 2147483648); lia.
Qed.
(** writing *)
Lemma put_ok m a l : inside m a (zlen l) -> exists m', put m a l = Ok m' /\ m_lo m' = m_lo m /\ m_hi m' = m_hi m /\ bytes_at m' a l /\
  (forall x, x < a \/ a + zlen l <= x -> m_at m' x = m_at m x).
Proof.
  intros [H1 H2]. unfold put. destruct (Z.leb_spec (m_lo m) a); [|lia]. destruct (Z.leb_spec (a + zlen l) (m_hi m)); [|lia]. cbn [andb]. eexists. split; [reflexivity|]. cbn.
  split; [reflexivity|]. split; [reflexivity|]. split.
  - intros i Hi. cbn. destruct (Z.leb_spec a (a + i)); [|lia]. destruct (Z.ltb_spec (a + i) (a + zlen l)); [|lia]. cbn. f_equal. lia.
  - intros x Hx. destruct (Z.leb_spec a x); [|reflexivity]. destruct (Z.ltb_spec x (a + zlen l)); [lia|reflexivity].
Qed.
Lemma bytes_at_frame m m' a l (P : Z -> Prop) : (forall x, P x -> m_at m' x = m_at m x) -> (forall i, 0 <= i < zlen l -> P (a + i)) -> bytes_at m a l -> bytes_at m' a l.
Proof. intros H1 H2 B i Hi. rewrite H1 by now apply H2. now apply B. Qed.

(** sorting *)
Lemma insert_perm {A} lt (x : A) l : Permutation (x :: l) (insert lt x l).
Proof. induction l as [|y l IH]; cbn; [reflexivity|]. destruct (lt y x); [|reflexivity]. rewrite perm_swap. now constructor. Qed.
Lemma isort_perm {A} lt (l : list A) : Permutation l (isort lt l).
Proof. induction l as [|x l IH]; cbn; [reflexivity|]. rewrite <- insert_perm. now constructor. Qed.
Section sorted.
Variable A : Type.
Variable lt : A -> A -> bool.
Hypothesis trans : forall a b c, lt a b = true -> lt b c = true -> lt a c = true.
Lemma insert_sorted x l : (forall y, In y l -> lt x y = true \/ lt y x = true) -> StronglySorted (fun a b => lt a b = true) l -> StronglySorted (fun a b => lt a b = true) (insert lt x l).
Proof.
  intros T H. induction H as [|y l H IH F]; cbn; [repeat constructor|]. destruct (lt y x) eqn:E.
  - constructor; [apply IH; intros; apply T; now right|]. rewrite Forall_forall in *. intros z Hz. apply (Permutation_in _ (Permutation_sym (insert_perm lt x l))) in Hz. destruct Hz as [<-|Hz]; auto.
  - destruct (T y (or_introl eq_refl)) as [L|L]; [|congruence]. constructor; [constructor; auto|]. constructor; [assumption|]. rewrite Forall_forall in *. intros z Hz. eapply trans; eauto.
Qed.
Lemma isort_sorted l : ForallOrdPairs (fun a b => lt a b = true \/ lt b a = true) l -> StronglySorted (fun a b => lt a b = true) (isort lt l).
Proof.
  intros H. induction H as [|x l F H IH]; cbn; [constructor|]. apply insert_sorted; [|assumption]. rewrite Forall_forall in F. intros y Hy. apply F. now apply (Permutation_in _ (Permutation_sym (isort_perm lt l))).
Qed.
End sorted.
(** distinct keys on which the order is total *)
Lemma ordpairs_nodup {A B} (f : A -> B) (lt : A -> A -> bool) l : (forall a b, f a <> f b -> lt a b = true \/ lt b a = true) -> NoDup (map f l) ->
  ForallOrdPairs (fun a b => lt a b = true \/ lt b a = true) l.
Proof.
  intros H N. induction l as [|x l IH]; cbn in N; [constructor|]. inversion N; subst. constructor; [|now apply IH]. apply Forall_forall. intros y Hy. apply H. intros E. apply H2. rewrite E. now apply in_map.
Qed.
(** the first n numbers, sorted *)
Lemma sorted_zseq : forall l a, StronglySorted Z.lt l -> Permutation l (zseq a (length l)) -> l = zseq a (length l).
Proof.
  intros l. induction l as [|x l IH]; intros a H P; [reflexivity|]. inversion H; subst. cbn [length zseq] in *. assert (x = a) as ->.
  { assert (I1 : In a (x :: l)) by (apply (Permutation_in _ (Permutation_sym P)); now left). assert (I2 : In x (a :: zseq (a + 1) (length l))) by (apply (Permutation_in _ P); now left).
    destruct I1 as [->|I1]; [reflexivity|]. destruct I2 as [->|I2]; [reflexivity|]. apply in_zseq in I2. rewrite Forall_forall in H3. specialize (H3 _ I1). lia. }
  f_equal. apply IH; [assumption|]. now apply Permutation_cons_inv in P.
Qed.

(** sums over lists *)
Definition sumf {A} (f : A -> Z) (l : list A) : Z := fold_right (fun x s => f x + s) 0 l.
Lemma sumf_app {A} (f : A -> Z) a b : sumf f (a ++ b) = sumf f a + sumf f b.
Proof. induction a as [|x a IH]; cbn; [reflexivity|]. unfold sumf in *. rewrite IH. lia. Qed.
Lemma sumf_perm {A} (f : A -> Z) a b : Permutation a b -> sumf f a = sumf f b.
Proof. intros P. induction P; cbn; unfold sumf in *; lia. Qed.
Lemma sumf_nonneg {A} (f : A -> Z) l : (forall x, In x l -> 0 <= f x) -> 0 <= sumf f l.
Proof. intros H. induction l as [|x l IH]; cbn; [lia|]. assert (0 <= f x) by (apply H; now left). assert (0 <= sumf f l) by (apply IH; intros; apply H; now right). unfold sumf in *. lia. Qed.
Lemma sumf_ext {A} (f g : A -> Z) l : (forall x, In x l -> f x = g x) -> sumf f l = sumf g l.
Proof. intros H. induction l as [|x l IH]; cbn; [reflexivity|]. rewrite (H x) by now left. unfold sumf in *. rewrite IH; [reflexivity|]. intros; apply H; now right. Qed.
Lemma sumf_map {A B} (f : B -> Z) (g : A -> B) l : sumf f (map g l) = sumf (fun x => f (g x)) l.
Proof. induction l as [|x l IH]; cbn; [reflexivity|]. unfold sumf in *. now rewrite IH. Qed.
(** number of elements with a property *)
Definition num {A} (p : A -> bool) (l : list A) : Z := sumf (fun x => if p x then 1 else 0) l.
Lemma num_nonneg {A} (p : A -> bool) l : 0 <= num p l.
Proof. apply sumf_nonneg. intros x _. destruct (p x); lia. Qed.
Lemma num_app {A} (p : A -> bool) a b : num p (a ++ b) = num p a + num p b.
Proof. apply sumf_app. Qed.
Lemma num_cons {A} (p : A -> bool) x l : num p (x :: l) = (if p x then 1 else 0) + num p l.
Proof. reflexivity. Qed.
Lemma num_filter {A} (p : A -> bool) l : num p l = zlen (filter p l).
Proof. unfold zlen. induction l as [|x l IH]; [reflexivity|]. rewrite num_cons, IH. cbn [filter]. destruct (p x); cbn [length]; lia. Qed.
Lemma num_pos {A} (p : A -> bool) l : 0 < num p l <-> exists x, In x l /\ p x = true.
Proof.
  split.
  - intros H. induction l as [|x l IH]; [cbn in H; lia|]. rewrite num_cons in H. destruct (p x) eqn:E; [exists x; split; [now left|assumption]|]. destruct IH as (y & Hy & E2); [lia|]. exists y. split; [now right|assumption].
  - intros (x & Hx & E). induction l as [|y l IH]; [destruct Hx|]. rewrite num_cons. assert (N := @num_nonneg _ p l). destruct Hx as [->|Hx]; [rewrite E; lia|]. specialize (IH Hx). destruct (p y); lia.
Qed.
Lemma num_0 {A} (p : A -> bool) l : (forall x, In x l -> p x = false) -> num p l = 0.
Proof. intros H. destruct (Z_lt_le_dec 0 (num p l)) as [L|L]; [|assert (N := @num_nonneg _ p l); lia]. apply num_pos in L as (x & Hx & E). rewrite H in E by assumption. discriminate. Qed.
Lemma num_ext {A} (p q : A -> bool) l : (forall x, In x l -> p x = q x) -> num p l = num q l.
Proof. intros H. apply sumf_ext. intros x Hx. now rewrite H. Qed.
Lemma num_perm {A} (p : A -> bool) a b : Permutation a b -> num p a = num p b.
Proof. apply sumf_perm. Qed.
Lemma num_zlen {A} (p : A -> bool) l : num p l <= zlen l.
Proof. unfold zlen. induction l as [|x l IH]; [reflexivity|]. rewrite num_cons. cbn [length]. destruct (p x); lia. Qed.
Lemma num_all {A} (p : A -> bool) l : num p l = zlen l <-> forall x, In x l -> p x = true.
Proof.
  unfold zlen. split.
  - intros H x Hx. induction l as [|y l IH]; [destruct Hx|]. rewrite num_cons in H. cbn [length] in H. assert (N := @num_zlen _ p l). unfold zlen in N. destruct (p y) eqn:E; [|lia]. destruct Hx as [->|Hx]; [assumption|]. apply IH; [lia|assumption].
  - intros H. induction l as [|y l IH]; [reflexivity|]. rewrite num_cons, (H y) by now left. cbn [length]. rewrite IH by (intros; apply H; now right). lia.
Qed.

(** the position of an element *)
Lemma index_of_some l : forall x i, index_of x l = Some i -> 0 <= i < zlen l /\ znth 0 l i = x.
Proof.
  unfold zlen. induction l as [|y l IH]; intros x i H; [discriminate|]. cbn [index_of] in H. destruct (Z.eqb_spec x y) as [->|N]; [injection H as <-; cbn [length]; split; [lia|reflexivity]|].
  destruct (index_of x l) as [j|] eqn:E; [|discriminate]. injection H as <-. apply IH in E as [E1 E2]. cbn [length]. split; [lia|]. unfold znth in *. replace (Z.to_nat (j + 1)) with (S (Z.to_nat j)) by lia. assumption.
Qed.
Lemma index_of_none l : forall x, index_of x l = None <-> ~ In x l.
Proof.
  induction l as [|y l IH]; intros x; cbn [index_of In]; [tauto|]. destruct (Z.eqb_spec x y) as [->|N]; [split; [discriminate|tauto]|]. specialize (IH x). destruct (index_of x l); split; intros H; try discriminate; try tauto.
  - exfalso. destruct IH as [_ IH]. assert (~ In x l) as K by tauto. specialize (IH K). discriminate.
  - destruct IH as [IH _]. specialize (IH eq_refl). intros [E|E]; [congruence|tauto].
Qed.
Lemma index_of_nth l : NoDup l -> forall i, 0 <= i < zlen l -> index_of (znth 0 l i) l = Some i.
Proof.
  intros N i H. destruct (index_of (znth 0 l i) l) as [j|] eqn:E.
  - apply index_of_some in E as [E1 E2]. f_equal. unfold znth, zlen in *. apply (proj1 (NoDup_nth l 0) N) in E2; lia.
  - apply index_of_none in E. exfalso. apply E. unfold znth, zlen in *. apply nth_In. lia.
Qed.
Lemma insert_unique_nodup x l : NoDup l -> NoDup (insert_unique x l).
Proof.
  intros N. unfold insert_unique. destruct (index_of x l) eqn:E; [assumption|]. apply index_of_none in E. apply Permutation_NoDup with (x :: l); [|now constructor].
  apply Permutation_cons_append.
Qed.
Lemma insert_unique_in x l y : In y (insert_unique x l) <-> y = x \/ In y l.
Proof.
  unfold insert_unique. destruct (index_of x l) eqn:E.
  - split; [tauto|]. intros [->|H]; [|assumption]. apply index_of_some in E as [E1 <-]. unfold znth, zlen in *. apply nth_In. lia.
  - rewrite in_app_iff. cbn. intuition.
Qed.

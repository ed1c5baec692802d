(** The offsets that finishing a part computes. *)
From Coq Require Import Permutation Sorted.
From Verif Require Import Prelude EclassModel CmeshModel CmeshLib CmeshBlockProofs.

Lemma tab_cons {A} (F : Z -> A) n : 0 <= n -> tab F (n + 1) = F 0 :: tab (fun i => F (i + 1)) n.
Proof.
  intros H. unfold tab. replace (Z.to_nat (n + 1)) with (S (Z.to_nat n)) by lia. cbn [zseq map]. f_equal. change (0 + 1) with (1 + 0). rewrite zseq_shift, map_map. apply map_ext. intros i. f_equal. lia.
Qed.
Lemma znth_cons {A} (d : A) x l i : znth d (x :: l) i = if i <=? 0 then x else znth d l (i - 1).
Proof. unfold znth. destruct (Z.leb_spec i 0); [replace (Z.to_nat i) with 0%nat by lia; reflexivity|]. replace (Z.to_nat i) with (S (Z.to_nat (i - 1))) by lia. reflexivity. Qed.

(** the offsets of the faces *)
Lemma padded_mod x : padded x mod 8 = 0.
Proof. unfold padded. assert (x mod 8 = x - 8 * (x / 8)) by (rewrite Z.mod_eq; lia). assert (K := Z.mod_pos_bound x 8 ltac:(lia)). destruct (Z.eq_dec (x mod 8) 0) as [E|E]; [rewrite E; change ((8 - 0) mod 8) with 0; now rewrite Z.add_0_r|]. rewrite (Z.mod_small (8 - x mod 8) 8) by lia. replace (x + (8 - x mod 8)) with ((x / 8 + 1) * 8) by lia. apply Z.mod_mul. lia. Qed.
Lemma padded_add b x : b mod 8 = 0 -> padded (b + x) = b + padded x.
Proof. intros H. unfold padded. assert (E : (b + x) mod 8 = x mod 8) by (rewrite Z.add_mod, H, Z.add_0_l, Z.mod_mod by lia; reflexivity). rewrite E. lia. Qed.
Lemma set_neigh_tab l : forall block entry ff bytes off, bytes mod 8 = 0 -> exists nb fs bytes', set_neigh block entry ff bytes off l =
  (tab (fun i => let t := znth zero_tree l i in mkCtree (t_id t) (t_class t) (nb i) (t_att t) (t_natt t) (fs i) (fs i)) (zlen l), bytes') /\ bytes' = bytes + sumf (neighbor_bytes entry) l /\ bytes' mod 8 = 0.
Proof.
  induction l as [|t l IH]; intros block entry ff bytes off M; [exists (fun _ => 0), (fun _ => []), bytes; cbn; repeat split; [lia|assumption]|]. cbn [set_neigh].
  destruct (IH block entry ff (padded (bytes + eclass_num_faces (t_class t) * entry)) (off + block)) as (nb & fs & b' & -> & E & M'); [apply padded_mod|].
  exists (fun i => if i <=? 0 then ff + bytes - off else nb (i - 1)), (fun i => if i <=? 0 then repeat 0 (Z.to_nat (eclass_num_faces (t_class t))) else fs (i - 1)), b'. split; [|split; [rewrite E, padded_add by assumption; change (sumf (neighbor_bytes entry) (t :: l)) with (neighbor_bytes entry t + sumf (neighbor_bytes entry) l); unfold neighbor_bytes; lia|assumption]]. rewrite zlen_cons, tab_cons by apply zlen_pos. f_equal. f_equal.
  apply tab_ext. intros i Hi. rewrite znth_cons. destruct (Z.leb_spec (i + 1) 0); [lia|]. replace (i + 1 - 1) with i by lia. reflexivity.
Qed.
(** the offsets of the attributes of trees *)
Lemma set_att_tab l : forall first data num next off, set_att first data num next off l =
  (tab (fun i => let t := znth zero_tree l i in mkCtree (t_id t) (t_class t) (t_neigh t) (first - (off + 32 * i) + (num + sumf t_natt (firstn (Z.to_nat i) l)) * 24) (t_natt t) (t_faces t) (t_ttf t)) (zlen l),
   (data + sumf t_att l, num + sumf t_natt l, match l with [] => next | _ => first - (off + 32 * zlen l) + (num + sumf t_natt l) * 24 end)).
Proof.
  induction l as [|t l IH]; intros; [cbn; rewrite !Z.add_0_r; reflexivity|]. cbn [set_att]. rewrite IH, zlen_cons, tab_cons by apply zlen_pos. unfold INFO_BYTES, TREE_BYTES. cbn [Z.leb Z.to_nat firstn sumf fold_right]. f_equal.
  - f_equal; [cbn; f_equal; lia|]. apply tab_ext. intros i Hi. rewrite znth_cons. destruct (Z.leb_spec (i + 1) 0); [lia|]. replace (i + 1 - 1) with i by lia.
    replace (Z.to_nat (i + 1)) with (S (Z.to_nat i)) by lia. cbn [firstn sumf fold_right]. change (fold_right (fun x s => t_natt x + s) 0 (firstn (Z.to_nat i) l)) with (sumf t_natt (firstn (Z.to_nat i) l)). cbn zeta. f_equal. lia.
  - change (fold_right (fun x s => t_natt x + s) 0 l) with (sumf t_natt l). change (fold_right (fun x s => t_att x + s) 0 l) with (sumf t_att l). f_equal; [f_equal; lia|]. destruct l; [cbn; lia|]. lia.
Qed.
(** the offsets of the attributes of ghosts *)
Lemma set_ghost_att_tab l : forall first data num off os, length os = length l -> set_ghost_att first data num off os l =
  (tab (fun i => let t := znth zero_tree l i in mkCtree (t_id t) (t_class t) (t_neigh t) (first + znth 0 os i * 24 - (off + 40 * i)) (t_natt t) (t_faces t) (t_ttf t)) (zlen l),
   (data + sumf t_att l, num + sumf t_natt l)).
Proof.
  induction l as [|t l IH]; intros first data num off os L; destruct os as [|o os]; try discriminate; [cbn; rewrite !Z.add_0_r; reflexivity|]. cbn [set_ghost_att]. rewrite IH, zlen_cons, tab_cons by (try apply zlen_pos; cbn in L; lia).
  unfold INFO_BYTES, GHOST_BYTES. cbn [sumf fold_right]. f_equal.
  - f_equal; [cbn; f_equal; lia|]. apply tab_ext. intros i Hi. rewrite !znth_cons. destruct (Z.leb_spec (i + 1) 0); [lia|]. replace (i + 1 - 1) with i by lia. cbn zeta. f_equal. lia.
  - change (fold_right (fun x s => t_natt x + s) 0 l) with (sumf t_natt l). change (fold_right (fun x s => t_att x + s) 0 l) with (sumf t_att l). f_equal; lia.
Qed.
(** the number of attributes of the ghosts with a smaller number *)
Lemma running_in l : forall a it s, In (it, s) (running a l) -> exists P gid natt Q, l = P ++ (gid, it, natt) :: Q /\ s = a + sumf snd P.
Proof.
  induction l as [|[[g i] k] l IH]; intros a it s H; [destruct H|]. cbn [running] in H. destruct H as [E|H].
  - injection E as <- <-. exists [], g, k, l. split; [reflexivity|]. cbn. lia.
  - apply IH in H as (P & gid & natt & Q & -> & ->). exists ((g, i, k) :: P), gid, natt, Q. split; [reflexivity|]. cbn. unfold sumf. lia.
Qed.
Lemma running_fst l : forall a, map fst (running a l) = map (fun e => snd (fst e)) l.
Proof. induction l as [|[[g i] k] l IH]; intros a; cbn; [reflexivity|]. now rewrite IH. Qed.
Lemma graph_list (f : Z -> Z) l : (forall i s, In (i, s) l -> s = f i) -> l = map (fun i => (i, f i)) (map fst l).
Proof. intros H. induction l as [|[i s] l IH]; [reflexivity|]. cbn. rewrite <- IH by (intros; apply H; now right). f_equal. f_equal. apply H. now left. Qed.
Lemma gstrict_split (l P : list (Z * Z * Z)) a Q : StronglySorted (fun p q => (fst (fst p) <? fst (fst q)) = true) l -> l = P ++ a :: Q ->
  (forall x, In x P -> fst (fst x) < fst (fst a)) /\ (forall x, In x Q -> fst (fst a) < fst (fst x)).
Proof.
  revert l. induction P as [|y P IH]; intros l H ->; cbn in H; inversion H; subst; rewrite Forall_forall in *.
  - split; [intros x []|]. intros x Hx. apply Z.ltb_lt. auto.
  - destruct (IH _ H2 eq_refl) as [I1 I2]. split; [|assumption]. intros x [<-|Hx]; [|auto]. apply Z.ltb_lt, H3. apply in_or_app. right. now left.
Qed.
Lemma ghost_attr_offsets_tab G n : 0 <= n -> NoDup (map (fun i => t_id (G i)) (zseq 0 (Z.to_nat n))) ->
  ghost_attr_offsets (tab G n) = tab (fun i => sumf (fun j => if t_id (G j) <? t_id (G i) then t_natt (G j) else 0) (zseq 0 (Z.to_nat n))) n.
Proof.
  intros Hn ND. unfold ghost_attr_offsets, ghost_entries. rewrite combine_tab, map_tab. cbn [fst snd]. set (E := tab (fun i => (t_id (G i), i, t_natt (G i))) n).
  set (S1 := isort (fun p q : Z * Z * Z => fst (fst p) <? fst (fst q)) E). assert (PE : Permutation E S1) by apply isort_perm.
  assert (SS : StronglySorted (fun p q : Z * Z * Z => (fst (fst p) <? fst (fst q)) = true) S1).
  { apply isort_sorted; [intros; lia|]. apply ordpairs_nodup with (f := fun p : Z * Z * Z => fst (fst p)); [intros; lia|]. unfold E, tab. rewrite map_map. cbn. exact ND. }
  set (f := fun i => sumf (fun j => if t_id (G j) <? t_id (G i) then t_natt (G j) else 0) (zseq 0 (Z.to_nat n))).
  assert (RV : forall it s, In (it, s) (running 0 S1) -> s = f it).
  { intros it s H. apply running_in in H as (P & gid & natt & Q & E1 & ->). rewrite Z.add_0_l. destruct (gstrict_split SS E1) as [L1 L2]. cbn [fst] in *.
    assert (In (gid, it, natt) E) as HE by (apply (Permutation_in _ (Permutation_sym PE)); rewrite E1; apply in_or_app; right; now left). apply in_tab in HE as (i & Hi & EQ). injection EQ as <- -> <-.
    transitivity (sumf (fun e => if fst (fst e) <? t_id (G it) then snd e else 0) S1).
    - rewrite E1, sumf_app. cbn. rewrite Z.ltb_irrefl. change (fold_right _ 0 Q) with (sumf (fun e : Z * Z * Z => if fst (fst e) <? t_id (G it) then snd e else 0) Q).
      rewrite (@sumf_ext _ _ (fun _ => 0) Q). 2:{ intros x Hx. specialize (L2 _ Hx). destruct (Z.ltb_spec (fst (fst x)) (t_id (G it))); lia. }
      rewrite (@sumf_ext _ (fun e : Z * Z * Z => if fst (fst e) <? t_id (G it) then snd e else 0) snd P). 2:{ intros x Hx. specialize (L1 _ Hx). destruct (Z.ltb_spec (fst (fst x)) (t_id (G it))); lia. }
      assert (sumf (fun _ : Z * Z * Z => 0) Q = 0) as -> by (clear; induction Q; cbn; auto). lia.
    - rewrite <- (sumf_perm _ PE). unfold E, tab, f. rewrite sumf_map. reflexivity. }
  set (R := running 0 S1) in *. set (R' := isort (fun p q : Z * Z => fst p <? fst q) R). assert (PR : Permutation R R') by apply isort_perm.
  assert (PF : Permutation (map fst R) (zseq 0 (Z.to_nat n))).
  { unfold R. rewrite running_fst. rewrite <- PE. unfold E, tab. rewrite map_map. cbn. now rewrite map_id. }
  assert (NDR : NoDup (map fst R)). { eapply Permutation_NoDup; [symmetry; exact PF|]. clear. generalize 0 as a. induction (Z.to_nat n) as [|k IH]; intros a; cbn; constructor; [rewrite in_zseq; lia|apply IH]. }
  assert (SR : StronglySorted (fun p q : Z * Z => (fst p <? fst q) = true) R').
  { apply isort_sorted; [intros; lia|]. apply ordpairs_nodup with (f := fst); [intros; lia|assumption]. }
  assert (EF : map fst R' = zseq 0 (Z.to_nat n)).
  { assert (LEN : length (map fst R') = Z.to_nat n). { rewrite map_length, <- (Permutation_length PR), <- (map_length fst), (Permutation_length PF). apply zseq_length. }
    assert (P2 : Permutation (map fst R') (zseq 0 (Z.to_nat n))) by (rewrite <- PR; exact PF). rewrite <- LEN in P2 |- *. apply sorted_zseq; [|assumption].
    clear -SR. induction SR as [|x l H IH F]; cbn; constructor; [assumption|]. rewrite Forall_forall in *. intros y Hy. apply in_map_iff in Hy as (z & <- & Hz). apply Z.ltb_lt. auto. }
  rewrite (@graph_list f R'). 2:{ intros i s H. apply RV. apply (Permutation_in _ (Permutation_sym PR)). assumption. }
  rewrite EF, map_map. reflexivity.
Qed.
Lemma firstn_tab {A} (F : Z -> A) n i : 0 <= i <= n -> firstn (Z.to_nat i) (tab F n) = tab F i.
Proof.
  intros H. unfold tab. replace (Z.to_nat n) with (Z.to_nat i + Z.to_nat (n - i))%nat by lia. rewrite zseq_app, map_app, firstn_app, map_length, zseq_length, Nat.sub_diag. cbn. rewrite app_nil_r. apply firstn_all2. rewrite map_length, zseq_length. lia.
Qed.
Definition total (f : ctree -> Z) (F : Z -> ctree) (n : Z) : Z := sumf f (tab F n).
Lemma finish_part_tab T G n g : 0 <= n -> 0 <= g -> (n = 0 -> g = 0) ->
  (forall i, 0 <= i < n -> 0 <= t_natt (T i) /\ 0 <= t_att (T i)) -> (forall i, 0 <= i < g -> 0 <= t_natt (G i) /\ 0 <= t_att (G i)) ->
  NoDup (map (fun i => t_id (G i)) (zseq 0 (Z.to_nat g))) ->
  exists T' G' m I0, finish_part (tab T n) (tab G g) = Ok (tab T' n, tab G' g, m) /\
    (forall i, 0 <= i < n -> t_id (T' i) = t_id (T i) /\ t_class (T' i) = t_class (T i) /\ t_natt (T' i) = t_natt (T i) /\ i * 32 + t_att (T' i) = I0 + 24 * total t_natt T i) /\
    (forall i, 0 <= i < g -> t_id (G' i) = t_id (G i) /\ t_class (G' i) = t_class (G i) /\ t_natt (G' i) = t_natt (G i) /\
       n * 32 + i * 40 + t_att (G' i) = I0 + 24 * total t_natt T n + total t_att T n + 24 * sumf (fun j => if t_id (G j) <? t_id (G i) then t_natt (G j) else 0) (zseq 0 (Z.to_nat g))) /\
    m_lo m = I0 /\ m_hi m = I0 + 24 * total t_natt T n + total t_att T n + 24 * total t_natt G g + total t_att G g /\
    (0 < total t_natt T n -> bytes_at m (I0 + 8) (le 8 (24 * total t_natt T n))) /\
    (0 < total t_natt G g -> bytes_at m (I0 + 24 * total t_natt T n + total t_att T n + 8) (le 8 (24 * total t_natt G g))) /\
    I0 = n * 32 + g * 40 + total (neighbor_bytes 9) G g + total (neighbor_bytes 5) T n.
Proof.
  intros Hn Hg H0 PT PG ND. unfold finish_part. rewrite !zlen_tab by assumption. unfold TREE_BYTES, GHOST_BYTES.
  destruct (@set_neigh_tab (tab G g) 40 9 (n * 32 + g * 40) 0 (n * 32) eq_refl) as (nbg & fsg & gb & -> & EGB & MGB). rewrite zlen_tab by assumption.
  match goal with |- context [ghost_attr_offsets ?x] => replace x with (tab (fun i => mkCtree (t_id (G i)) (t_class (G i)) (nbg i) (t_att (G i)) (t_natt (G i)) (fsg i) (fsg i)) g) end.
  2:{ apply tab_ext. intros i Hi. cbn zeta. now rewrite tab_nth. }
  set (G1 := fun i => mkCtree (t_id (G i)) (t_class (G i)) (nbg i) (t_att (G i)) (t_natt (G i)) (fsg i) (fsg i)).
  rewrite (ghost_attr_offsets_tab (G := G1)) by assumption. cbn [t_id t_natt G1].
  destruct (@set_neigh_tab (tab T n) 32 5 (n * 32 + g * 40) gb 0 MGB) as (nbt & fst' & bb & -> & EBB & _). rewrite zlen_tab by assumption.
  match goal with |- context [set_att _ _ _ _ _ ?x] => replace x with (tab (fun i => mkCtree (t_id (T i)) (t_class (T i)) (nbt i) (t_att (T i)) (t_natt (T i)) (fst' i) (fst' i)) n) end.
  2:{ apply tab_ext. intros i Hi. cbn zeta. now rewrite tab_nth. }
  set (T1 := fun i => mkCtree (t_id (T i)) (t_class (T i)) (nbt i) (t_att (T i)) (t_natt (T i)) (fst' i) (fst' i)).
  rewrite set_att_tab. rewrite zlen_tab by assumption. set (I0 := n * 32 + g * 40 + bb).
  assert (TT : sumf t_natt (tab T1 n) = total t_natt T n) by (unfold total, tab; rewrite !sumf_map; reflexivity). assert (TA : sumf t_att (tab T1 n) = total t_att T n) by (unfold total, tab; rewrite !sumf_map; reflexivity).
  assert (GT : sumf t_natt (tab G1 g) = total t_natt G g) by (unfold total, tab; rewrite !sumf_map; reflexivity). assert (GA : sumf t_att (tab G1 g) = total t_att G g) by (unfold total, tab; rewrite !sumf_map; reflexivity).
  rewrite TT, TA, !Z.add_0_l.
  set (next := match tab T1 n with [] => 0 | _ => _ end).
  rewrite set_ghost_att_tab by (unfold tab; now rewrite !map_length). rewrite zlen_tab, GT, GA, !Z.add_0_l by assumption. unfold INFO_BYTES.
  assert (NT : 0 <= total t_natt T n) by (apply sumf_nonneg; intros x Hx; apply in_tab in Hx as (i & Hi & <-); now apply PT).
  assert (NA : 0 <= total t_att T n) by (apply sumf_nonneg; intros x Hx; apply in_tab in Hx as (i & Hi & <-); now apply PT).
  assert (MT : 0 <= total t_natt G g) by (apply sumf_nonneg; intros x Hx; apply in_tab in Hx as (i & Hi & <-); now apply PG).
  assert (MA : 0 <= total t_att G g) by (apply sumf_nonneg; intros x Hx; apply in_tab in Hx as (i & Hi & <-); now apply PG).
  set (m0 := mkMem I0 _ _).
  assert (M1 : exists m1, (if 0 <? total t_natt T n then put m0 (I0 + 8) (le 8 (total t_natt T n * 24)) else Ok m0) = Ok m1 /\ m_lo m1 = m_lo m0 /\ m_hi m1 = m_hi m0 /\ (0 < total t_natt T n -> bytes_at m1 (I0 + 8) (le 8 (24 * total t_natt T n)))).
  { destruct (Z.ltb_spec 0 (total t_natt T n)); [|exists m0; repeat split; auto; lia]. destruct (@put_ok m0 (I0 + 8) (le 8 (total t_natt T n * 24))) as (m1 & -> & L & U & W & _); [rewrite zlen_le; split; cbn; lia|].
    exists m1. repeat split; auto. intros _. now rewrite Z.mul_comm. }
  destruct M1 as (m1 & -> & L1 & U1 & W1). cbn [obind].
  assert (M2 : exists m2, (if 0 <? total t_natt G g then put m1 (I0 + (total t_att T n + total t_natt T n * 24) + 8) (le 8 (total t_natt G g * 24)) else Ok m1) = Ok m2 /\ m_lo m2 = m_lo m0 /\ m_hi m2 = m_hi m0 /\
    (0 < total t_natt T n -> bytes_at m2 (I0 + 8) (le 8 (24 * total t_natt T n))) /\ (0 < total t_natt G g -> bytes_at m2 (I0 + 24 * total t_natt T n + total t_att T n + 8) (le 8 (24 * total t_natt G g)))).
  { destruct (Z.ltb_spec 0 (total t_natt G g)); [|exists m1; repeat split; auto; lia].
    destruct (@put_ok m1 (I0 + (total t_att T n + total t_natt T n * 24) + 8) (le 8 (total t_natt G g * 24))) as (m2 & -> & L & U & W & F); [rewrite zlen_le; split; rewrite ?L1, ?U1; cbn; lia|]. rewrite zlen_le in F.
    exists m2. rewrite L, U. repeat split; auto; intros P.
    - eapply bytes_at_frame; [exact F|rewrite zlen_le; lia|auto].
    - rewrite (Z.mul_comm 24 (total t_natt G g)). replace (I0 + 24 * total t_natt T n + total t_att T n + 8) with (I0 + (total t_att T n + total t_natt T n * 24) + 8) by lia. exact W. }
  destruct M2 as (m2 & -> & L2 & U2 & W2 & W3). cbn [obind].
  do 2 eexists. exists m2, I0. split; [reflexivity|]. cbn zeta. cbn [t_id t_class t_natt t_att]. split; [|split].
  - intros i Hi. rewrite tab_nth by assumption. cbn [t_id t_class t_natt T1]. rewrite firstn_tab by lia. unfold total at 1. replace (sumf t_natt (tab T1 i)) with (sumf t_natt (tab T i)) by (unfold tab; rewrite !sumf_map; reflexivity). repeat split; lia.
  - intros i Hi. rewrite !tab_nth by assumption. cbn [t_id t_class t_natt G1]. repeat split.
    assert (NX : next = I0 - 32 * n + total t_natt T n * 24).
    { unfold next. assert (0 < n) by lia. replace n with (n - 1 + 1) at 1 by lia. rewrite tab_cons by lia. lia. }
    rewrite NX. lia.
  - rewrite L2, U2. unfold m0. cbn [m_lo m_hi]. split; [reflexivity|]. split; [lia|]. split; [assumption|]. split; [assumption|]. unfold I0, total. lia.
Qed.

(** The infos and data of the attributes of a block: what adding an attribute writes and what looking it up reads. *)
From Coq Require Import Permutation Sorted.
From Verif Require Import Prelude EclassModel CmeshModel CmeshLib.

Definition asize (a : sattr) : Z := zlen (a_data a).
Definition same (id : Z) (a : sattr) : bool := a_id a =? id.
Definition below (id : Z) (a : sattr) : bool := a_id a <? id.
Lemma asize_nonneg l : 0 <= sumf asize l.
Proof. apply sumf_nonneg. intros x _. unfold asize, zlen. lia. Qed.
Arguments asize_nonneg : clear implicits.
Lemma zlen_pos {A} (P : list A) : 0 <= zlen P.
Proof. unfold zlen. lia. Qed.
Arguments zlen_pos {A} P.

Section block.
Variable I0 : Z.
Variable B : list sattr.
Hypothesis sorted : StronglySorted (fun a b => a_id a <= a_id b) B.
Hypothesis fits : 24 * zlen B + sumf asize B < 2 ^ 64.
Definition D0 := I0 + 24 * zlen B.
Definition pos (P : list sattr) : Z := I0 + 24 * zlen P.
Definition dat (P : list sattr) : Z := D0 + sumf asize P.
Definition boff (P : list sattr) (a : sattr) : Z := dat P - (I0 + 24 * num (below (a_id a)) P).
Definition info_ok (m : memory) (P : list sattr) (a : sattr) : Prop :=
  bytes_at m (pos P) (le 4 (a_pkg a)) /\ bytes_at m (pos P + 4) (le 4 (a_key a)) /\ bytes_at m (pos P + 8) (le 8 (boff P a)) /\
  bytes_at m (pos P + 16) (le 8 (asize a)) /\ bytes_at m (dat P) (a_data a).
Definition in_block (m : memory) : Prop := m_lo m <= I0 /\ D0 + sumf asize B <= m_hi m.
Definition Inv (m : memory) (P Q : list sattr) : Prop :=
  (forall P1 a P2, P = P1 ++ a :: P2 -> info_ok m P1 a) /\ match Q with [] => True | a :: _ => bytes_at m (pos P + 8) (le 8 (boff P a)) end.

Lemma sorted_split : forall l P a Q, StronglySorted (fun a b => a_id a <= a_id b) l -> l = P ++ a :: Q ->
  (forall x, In x P -> a_id x <= a_id a) /\ (forall x, In x Q -> a_id a <= a_id x).
Proof.
  intros l P. revert l. induction P as [|y P IH]; intros l a Q H ->; cbn in H; inversion H; subst; rewrite Forall_forall in *.
  - split; [intros x []|assumption].
  - destruct (IH _ a Q H2 eq_refl) as [I1 I2]. split; [|assumption]. intros x [<-|Hx]; [|auto]. apply H3. apply in_or_app. right. now left.
Qed.
Lemma num_split a P : (forall x, In x P -> a_id x <= a_id a) -> num (below (a_id a)) P + num (same (a_id a)) P = zlen P.
Proof.
  intros H. unfold zlen. induction P as [|y P IH]; [reflexivity|]. rewrite !num_cons. cbn [length]. assert (K := H y (or_introl eq_refl)). unfold below at 1, same at 1.
  rewrite Nat2Z.inj_succ, <- IH by (intros; apply H; now right). destruct (Z.ltb_spec (a_id y) (a_id a)), (Z.eqb_spec (a_id y) (a_id a)); lia.
Qed.
Lemma zlen_snoc {A} (P : list A) a : zlen (P ++ [a]) = zlen P + 1.
Proof. unfold zlen. rewrite app_length. cbn. lia. Qed.
Lemma zlen_app {A} (P Q : list A) : zlen (P ++ Q) = zlen P + zlen Q.
Proof. unfold zlen. rewrite app_length. lia. Qed.
Lemma zlen_cons {A} a (P : list A) : zlen (a :: P) = zlen P + 1.
Proof. unfold zlen. cbn [length]. lia. Qed.
Lemma snoc_split {A} (P : list A) a P1 b P2 : P ++ [a] = P1 ++ b :: P2 -> (P2 = [] /\ P1 = P /\ b = a) \/ exists P3, P2 = P3 ++ [a] /\ P = P1 ++ b :: P3.
Proof.
  intros H. destruct P2 as [|x P2 _] using rev_ind.
  - left. apply app_inj_tail in H as [-> ->]. auto.
  - right. exists P2. replace (P1 ++ b :: P2 ++ [x]) with ((P1 ++ b :: P2) ++ [x]) in H by now rewrite <- app_assoc. apply app_inj_tail in H as [-> ->]. auto.
Qed.

Lemma add_attr_step m P a Q (last : bool) : B = P ++ a :: Q -> in_block m -> Inv m P (a :: Q) -> (last = true <-> Q = []) ->
  exists m', add_attr m (I0 + 24 * num (below (a_id a)) B) (num (same (a_id a)) B) (num (same (a_id a)) P) last a = Ok m' /\
    m_lo m' = m_lo m /\ m_hi m' = m_hi m /\ Inv m' (P ++ [a]) Q /\ (forall x, x < I0 \/ D0 + sumf asize B <= x -> m_at m' x = m_at m x).
Proof.
  intros EB [Hlo Hhi] [V1 V2] L. destruct (sorted_split sorted EB) as [S1 S2]. assert (NS := num_split S1).
  assert (EN : num (below (a_id a)) B = num (below (a_id a)) P).
  { rewrite EB, num_app, num_cons. unfold below at 2. rewrite Z.ltb_irrefl, (@num_0 _ _ Q); [lia|]. intros x Hx. apply Z.ltb_ge. now apply S2. }
  assert (EC : num (same (a_id a)) B = num (same (a_id a)) P + 1 + num (same (a_id a)) Q) by (rewrite EB, num_app, num_cons; unfold same at 2; rewrite Z.eqb_refl; lia).
  assert (EZ : zlen B = zlen P + 1 + zlen Q) by (rewrite EB, zlen_app, zlen_cons; lia).
  assert (ED : sumf asize B = sumf asize P + asize a + sumf asize Q) by (rewrite EB, sumf_app; cbn; unfold sumf; lia).
  assert (NP := asize_nonneg P). assert (NQ := asize_nonneg Q). assert (LQ := zlen_pos Q). assert (LP := zlen_pos P). assert (LA := zlen_pos (a_data a)). fold (asize a) in LA.
  assert (NB := @num_nonneg _ (below (a_id a)) P). assert (NC := @num_nonneg _ (same (a_id a)) P).
  rewrite EN. unfold add_attr, INFO_BYTES. set (st := num (below (a_id a)) P) in *. set (ix := num (same (a_id a)) P) in *.
  assert (OFF : 0 <= boff P a < 2 ^ 64) by (unfold boff, dat, D0; fold st; lia).
  replace (I0 + 24 * st + ix * 24) with (pos P) by (unfold pos; lia).
  assert (K1 : ld64 m (pos P + 8) = Ok (boff P a)) by (apply ld64_bytes; [split; unfold pos, D0 in *; lia|assumption|assumption]). rewrite K1. cbn [obind].
  replace (I0 + 24 * st + boff P a) with (dat P) by (unfold boff; fold st; lia).
  destruct (@put_ok m (dat P) (a_data a)) as (m1 & -> & L1 & U1 & W1 & F1); [fold (asize a); split; unfold dat, D0 in *; lia|]. cbn [obind]. fold (asize a) in F1.
  destruct (@put_ok m1 (pos P + 4) (le 4 (a_key a))) as (m2 & -> & L2 & U2 & W2 & F2); [rewrite zlen_le; split; unfold pos, D0 in *; lia|]. cbn [obind]. rewrite zlen_le in F2.
  destruct (@put_ok m2 (pos P) (le 4 (a_pkg a))) as (m3 & -> & L3 & U3 & W3 & F3); [rewrite zlen_le; split; unfold pos, D0 in *; lia|]. cbn [obind]. rewrite zlen_le in F3.
  fold (asize a). destruct (@put_ok m3 (pos P + 16) (le 8 (asize a))) as (m4 & -> & L4 & U4 & W4 & F4); [rewrite zlen_le; split; unfold pos, D0 in *; lia|]. cbn [obind]. rewrite zlen_le in F4.
  assert (I4 : forall m5, (forall x, x < pos P + 24 \/ D0 <= x -> m_at m5 x = m_at m4 x) -> forall P1 b P2, P ++ [a] = P1 ++ b :: P2 -> info_ok m5 P1 b).
  { intros m5 F5 P1 b P2 E. apply snoc_split in E as [(-> & -> & ->)|(P3 & -> & E)].
    - unfold info_ok. repeat split.
      + apply bytes_at_frame with m3 (fun x => x < pos P + 4); [|rewrite zlen_le; unfold pos in *; lia|assumption]. intros x Hx. rewrite F5 by lia. apply F4. lia.
      + apply bytes_at_frame with m2 (fun x => pos P + 4 <= x < pos P + 8); [|rewrite zlen_le; lia|assumption]. intros x Hx. rewrite F5, F4 by lia. apply F3. lia.
      + apply bytes_at_frame with m (fun x => pos P + 8 <= x < pos P + 16); [|rewrite zlen_le; lia|assumption]. intros x Hx. rewrite F5, F4, F3, F2 by lia. apply F1. unfold dat, D0, pos in *. lia.
      + apply bytes_at_frame with m4 (fun x => x < pos P + 24); [|rewrite zlen_le; lia|assumption]. intros x Hx. apply F5. lia.
      + apply bytes_at_frame with m1 (fun x => dat P <= x); [|unfold zlen; lia|assumption]. intros x Hx. rewrite F5, F4, F3, F2 by (unfold dat, D0, pos in *; lia). reflexivity.
    - assert (G := V1 _ _ _ E). destruct G as (G1 & G2 & G3 & G4 & G5).
      assert (E1 : zlen P = zlen P1 + 1 + zlen P3) by (rewrite E, zlen_app, zlen_cons; lia). assert (E2 : sumf asize P = sumf asize P1 + asize b + sumf asize P3) by (rewrite E, sumf_app; cbn; unfold sumf; lia).
      assert (N1 := asize_nonneg P1). assert (N3 := asize_nonneg P3). assert (Z1 := zlen_pos P1). assert (Z3 := zlen_pos P3). assert (Nb := zlen_pos (a_data b)). fold (asize b) in Nb.
      assert (F : forall x, x < pos P \/ D0 <= x < dat P -> m_at m5 x = m_at m x). { intros x Hx. rewrite F5, F4, F3, F2 by (unfold dat, D0, pos in *; lia). apply F1. unfold dat, D0, pos in *. lia. }
      unfold info_ok. repeat split; (eapply bytes_at_frame; [exact F| |eassumption]); intros i Hi; rewrite ?zlen_le in Hi; fold (asize b) in *; unfold dat, D0, pos in *; lia. }
  assert (F04 : forall x, x < I0 \/ D0 + sumf asize B <= x -> m_at m4 x = m_at m x). { intros x Hx. rewrite F4, F3, F2 by (unfold dat, D0, pos in *; lia). apply F1. unfold dat, D0, pos in *. lia. }
  destruct Q as [|b Q].
  - replace last with true by (symmetry; now apply L). exists m4. split; [reflexivity|]. split; [congruence|]. split; [congruence|]. split; [|assumption]. split; [|exact I]. apply I4. reflexivity.
  - replace last with false by (destruct last; [destruct L as [L _]; discriminate (L eq_refl)|reflexivity]).
    assert (K4 : ld64 m4 (pos P + 8) = Ok (boff P a)).
    { apply ld64_bytes; [split; [rewrite L4, L3, L2, L1|rewrite U4, U3, U2, U1]; unfold pos, D0 in *; lia| |assumption].
      apply bytes_at_frame with m (fun x => pos P + 8 <= x < pos P + 16); [|rewrite zlen_le; lia|assumption]. intros x Hx. rewrite F4, F3, F2 by lia. apply F1. unfold dat, D0, pos in *. lia. }
    rewrite K4. cbn [obind]. rewrite zlen_cons in *. assert (LQ' := zlen_pos Q). cbn in ED. assert (Nb := zlen_pos (a_data b)). fold (asize b) in Nb. assert (NQ' := asize_nonneg Q). change (fold_right _ 0 Q) with (sumf asize Q) in ED.
    destruct (@put_ok m4 (pos P + 24 + 8) (le 8 (boff P a + asize a))) as (m5 & -> & L5 & U5 & W5 & F5); [rewrite zlen_le; split; unfold pos, D0 in *; lia|]. cbn [obind]. rewrite zlen_le in F5.
    assert (PS : pos (P ++ [a]) = pos P + 24) by (unfold pos; rewrite zlen_snoc; lia). assert (DS : dat (P ++ [a]) = dat P + asize a) by (unfold dat; rewrite sumf_app; cbn; lia).
    assert (SB : a_id a <= a_id b) by (apply S2; now left).
    assert (SQ : forall x, In x Q -> a_id b <= a_id x). { rewrite EB in sorted. replace (P ++ a :: b :: Q) with ((P ++ [a]) ++ b :: Q) in sorted by now rewrite <- app_assoc. now destruct (sorted_split sorted eq_refl). }
    destruct (Z.eqb_spec (a_id b) (a_id a)) as [EQ|NE].
    + replace (ix =? num (same (a_id a)) B - 1) with false.
      2:{ symmetry. apply Z.eqb_neq. rewrite EC, num_cons. unfold same at 1. rewrite EQ, Z.eqb_refl. assert (G := @num_nonneg _ (same (a_id a)) Q). lia. }
      exists m5. split; [reflexivity|]. split; [congruence|]. split; [congruence|]. split; [split|].
      * apply I4. intros x Hx. apply F5. unfold pos, D0 in *. lia.
      * rewrite PS. replace (boff (P ++ [a]) b) with (boff P a + asize a); [exact W5|]. unfold boff. rewrite DS, EQ, num_app, num_cons. cbn [num sumf fold_right]. unfold below at 3. rewrite Z.ltb_irrefl. change (num (below (a_id a)) []) with 0. lia.
      * intros x Hx. rewrite F5 by (unfold pos, D0 in *; lia). now apply F04.
    + replace (ix =? num (same (a_id a)) B - 1) with true.
      2:{ symmetry. apply Z.eqb_eq. rewrite EC, num_0; [lia|]. intros x Hx. apply Z.eqb_neq. destruct Hx as [<-|Hx]; [assumption|]. specialize (SQ _ Hx). lia. }
      assert (EC' : num (same (a_id a)) B = ix + 1). { rewrite EC, num_0; [lia|]. intros x Hx. apply Z.eqb_neq. destruct Hx as [<-|Hx]; [assumption|]. specialize (SQ _ Hx). lia. }
      assert (R1 : 0 <= boff P a + asize a < 2 ^ 64) by (unfold boff, dat, D0; fold st; lia).
      assert (K5 : ld64 m5 (pos P + 24 + 8) = Ok (boff P a + asize a)) by (apply ld64_bytes; [split; [rewrite L5, L4, L3, L2, L1|rewrite U5, U4, U3, U2, U1]; unfold pos, D0 in *; lia|assumption|assumption]).
      rewrite K5. cbn [obind].
      destruct (@put_ok m5 (pos P + 24 + 8) (le 8 (boff P a + asize a - num (same (a_id a)) B * 24))) as (m6 & -> & L6 & U6 & W6 & F6); [rewrite zlen_le; split; unfold pos, D0 in *; lia|]. rewrite zlen_le in F6.
      exists m6. split; [reflexivity|]. split; [congruence|]. split; [congruence|]. split; [split|].
      * apply I4. intros x Hx. rewrite F6, F5 by (unfold pos, D0 in *; lia). reflexivity.
      * rewrite PS. replace (boff (P ++ [a]) b) with (boff P a + asize a - num (same (a_id a)) B * 24); [exact W6|]. unfold boff. rewrite DS, EC'. fold st.
        replace (num (below (a_id b)) (P ++ [a])) with (zlen P + 1); [lia|]. rewrite <- (zlen_snoc P a). symmetry. apply num_all. intros x Hx. apply Z.ltb_lt. apply in_app_iff in Hx as [Hx|[<-|[]]]; [specialize (S1 _ Hx); lia|lia].
      * intros x Hx. rewrite F6, F5 by (unfold pos, D0 in *; lia). now apply F04.
Qed.

Lemma split_at {A} (l : list A) i : 0 <= i < zlen l -> exists P a Q, l = P ++ a :: Q /\ zlen P = i.
Proof.
  intros H. unfold zlen in *. destruct (nth_error l (Z.to_nat i)) as [a|] eqn:E; [|apply nth_error_None in E; lia]. apply nth_error_split in E as (P & Q & -> & L). exists P, a, Q. split; [reflexivity|lia].
Qed.
Lemma bsearch_ok m fa pkg key (pk ky : Z -> Z) c :
  (forall i, 0 <= i < c -> ld32 m (fa + i * INFO_BYTES) = Ok (pk i) /\ ld32 m (fa + i * INFO_BYTES + 4) = Ok (ky i)) ->
  (forall i j, 0 <= i < j -> j < c -> pk i < pk j \/ (pk i = pk j /\ ky i < ky j)) ->
  forall fuel lo hi, 0 <= lo <= hi -> hi <= c -> hi - lo < Z.of_nat fuel ->
  exists r, info_bsearch fuel m fa pkg key lo hi = Ok r /\
    match r with Some i => lo <= i < hi /\ pk i = pkg /\ ky i = key | None => forall i, lo <= i < hi -> ~ (pk i = pkg /\ ky i = key) end.
Proof.
  intros R S fuel. induction fuel as [|fuel IH]; intros lo hi H1 H2 H3; [exists None; lia|]. cbn [info_bsearch]. destruct (Z.leb_spec hi lo); [exists None; split; [reflexivity|intros; lia]|].
  assert (M : lo <= (lo + hi) / 2 < hi) by (split; [apply Z.div_le_lower_bound|apply Z.div_lt_upper_bound]; lia). set (mid := (lo + hi) / 2) in *.
  destruct (R mid) as [-> ->]; [lia|]. cbn [obind].
  assert (LEFT : (pk mid > pkg \/ (pk mid = pkg /\ ky mid > key)) -> exists r, info_bsearch fuel m fa pkg key lo mid = Ok r /\
    match r with Some i => lo <= i < hi /\ pk i = pkg /\ ky i = key | None => forall i, lo <= i < hi -> ~ (pk i = pkg /\ ky i = key) end).
  { intros G. destruct (IH lo mid) as (r & E & Q); [lia|lia|lia|]. exists r. split; [assumption|]. destruct r as [i|]; [intuition lia|]. intros i Hi [E1 E2]. destruct (Z_lt_le_dec i mid); [apply (Q i); auto; lia|].
    destruct (Z.eq_dec i mid) as [->|]; [lia|]. destruct (S mid i); lia. }
  assert (RIGHT : (pk mid < pkg \/ (pk mid = pkg /\ ky mid < key)) -> exists r, info_bsearch fuel m fa pkg key (mid + 1) hi = Ok r /\
    match r with Some i => lo <= i < hi /\ pk i = pkg /\ ky i = key | None => forall i, lo <= i < hi -> ~ (pk i = pkg /\ ky i = key) end).
  { intros G. destruct (IH (mid + 1) hi) as (r & E & Q); [lia|lia|lia|]. exists r. split; [assumption|]. destruct r as [i|]; [intuition lia|]. intros i Hi [E1 E2]. destruct (Z_lt_le_dec mid i); [apply (Q i); auto; lia|].
    destruct (Z.eq_dec i mid) as [->|]; [lia|]. destruct (S i mid); lia. }
  destruct (Z.ltb_spec pkg (pk mid)); [apply LEFT; lia|]. destruct (Z.ltb_spec (pk mid) pkg); [apply RIGHT; lia|]. destruct (Z.ltb_spec key (ky mid)); [apply LEFT; lia|].
  destruct (Z.eqb_spec (ky mid) key); [|apply RIGHT; lia]. exists (Some mid). split; [reflexivity|]. lia.
Qed.

Definition lookup (m : memory) (fa natt pkg key : Z) : outcome (option (list Z)) :=
  if natt <=? 0 then Ok None else
  do i <- info_bsearch (S (Z.to_nat natt)) m fa pkg key 0 natt;
  match i with
  | None => Ok None
  | Some i => do size <- ld64 m (fa + i * INFO_BYTES + 16); do off <- ld64 m (fa + i * INFO_BYTES + 8); do d <- get m (fa + off) (Z.to_nat size); Ok (Some d)
  end.
Lemma strict_split l P a Q : StronglySorted (fun a b => attr_lt a b = true) l -> l = P ++ a :: Q -> (forall x, In x P -> attr_lt x a = true) /\ (forall x, In x Q -> attr_lt a x = true).
Proof.
  revert l. induction P as [|y P IH]; intros l H ->; cbn in H; inversion H; subst; rewrite Forall_forall in *.
  - split; [intros x []|assumption].
  - destruct (IH _ H2 eq_refl) as [I1 I2]. split; [|assumption]. intros x [<-|Hx]; [|auto]. apply H3. apply in_or_app. right. now left.
Qed.
Lemma lookup_ok m id pkg key : in_block m -> Inv m B [] -> StronglySorted (fun a b => attr_lt a b = true) B ->
  (forall a, In a B -> - 2 ^ 31 <= a_pkg a < 2 ^ 31 /\ - 2 ^ 31 <= a_key a < 2 ^ 31) ->
  exists r, lookup m (I0 + 24 * num (below id) B) (num (same id) B) pkg key = Ok r /\
  match r with
  | Some d => exists a, In a B /\ a_id a = id /\ a_pkg a = pkg /\ a_key a = key /\ a_data a = d
  | None => forall a, In a B -> ~ (a_id a = id /\ a_pkg a = pkg /\ a_key a = key)
  end.
Proof.
  intros [Hlo Hhi] [V _] SS RG. unfold lookup. assert (NC := @num_nonneg _ (same id) B). assert (NB := @num_nonneg _ (below id) B). set (st := num (below id) B) in *. set (c := num (same id) B) in *.
  (* the index of an attribute of the owner *)
  assert (AT : forall P a Q, B = P ++ a :: Q -> a_id a = id -> zlen P = st + num (same id) P /\ 0 <= num (same id) P < c).
  { intros P a Q E Ea. destruct (sorted_split sorted E) as [S1 S2]. assert (NS := num_split S1). rewrite Ea in NS, S1, S2. assert (N1 := @num_nonneg _ (same id) P). assert (N2 := @num_nonneg _ (same id) Q). split.
    - replace st with (num (below id) P); [lia|]. unfold st. rewrite E, num_app, num_cons, (@num_0 _ _ Q); [|intros x Hx; apply Z.ltb_ge; auto]. replace (below id a) with false by (symmetry; apply Z.ltb_ge; lia). lia.
    - unfold c. rewrite E, num_app, num_cons. replace (same id a) with true by (symmetry; now apply Z.eqb_eq). lia. }
  assert (AB : forall P a Q, B = P ++ a :: Q -> st <= zlen P < st + c -> a_id a = id).
  { intros P a Q E H. destruct (sorted_split sorted E) as [S1 S2]. destruct (Z_lt_le_dec (a_id a) id) as [L|L].
    - exfalso. assert (zlen P + 1 <= st); [|lia]. unfold st. replace (P ++ a :: Q) with ((P ++ [a]) ++ Q) in E by now rewrite <- app_assoc. rewrite E, num_app. assert (N2 := @num_nonneg _ (below id) Q).
      replace (num (below id) (P ++ [a])) with (zlen (P ++ [a])); [rewrite zlen_snoc; lia|]. symmetry. apply num_all. intros x Hx. apply Z.ltb_lt. apply in_app_iff in Hx as [Hx|[<-|[]]]; [specialize (S1 _ Hx)|]; lia.
    - destruct (Z.eq_dec (a_id a) id); [assumption|]. exfalso. assert (st + c <= zlen P); [|lia]. unfold st, c. rewrite E, !num_app, (@num_0 _ (below id) (a :: Q)), (@num_0 _ (same id) (a :: Q)).
      + clear -id. unfold zlen. induction P as [|y P IH]; [reflexivity|]. rewrite !num_cons. cbn [length]. unfold below at 1, same at 1. destruct (Z.ltb_spec (a_id y) id), (Z.eqb_spec (a_id y) id); lia.
      + intros x Hx. apply Z.eqb_neq. destruct Hx as [<-|Hx]; [lia|]. specialize (S2 _ Hx). lia.
      + intros x Hx. apply Z.ltb_ge. destruct Hx as [<-|Hx]; [lia|]. specialize (S2 _ Hx). lia. }
  assert (SC : st + c <= zlen B). { destruct (Z_lt_le_dec (zlen B) (st + c)); [exfalso|assumption]. assert (G : st + c <= zlen B); [|lia]. unfold st, c, zlen. clear. induction B as [|y P IH]; [reflexivity|]. rewrite !num_cons. cbn [length]. unfold below at 1, same at 1. destruct (Z.ltb_spec (a_id y) id), (Z.eqb_spec (a_id y) id); lia. }
  destruct (Z.leb_spec c 0) as [C0|C0].
  { exists None. split; [reflexivity|]. intros a Ha (E & _). apply in_split in Ha as (P & Q & E2). destruct (AT _ _ _ E2 E). lia. }
  set (dummy := mkSattr 0 0 0 []).
  assert (NTH : forall i, 0 <= i < c -> exists P a Q, B = P ++ a :: Q /\ zlen P = st + i /\ znth dummy B (st + i) = a /\ a_id a = id).
  { intros i Hi. destruct (@split_at _ B (st + i)) as (P & a & Q & E & L); [lia|]. exists P, a, Q. repeat split; auto; [|eapply AB; [eassumption|lia]]. unfold znth. rewrite <- L, E, app_nth2 by (unfold zlen; lia).
    replace (Z.to_nat (zlen P) - length P)%nat with 0%nat by (unfold zlen; lia). reflexivity. }
  assert (LOC : forall P a Q i, B = P ++ a :: Q -> zlen P = st + i -> 0 <= i < c -> info_ok m P a /\ pos P = I0 + 24 * st + i * 24 /\ 0 <= sumf asize P /\ sumf asize P + asize a <= sumf asize B /\ 0 <= asize a).
  { intros P a Q i E L Hi. split; [exact (V _ _ _ E)|]. split; [unfold pos; lia|]. assert (NP := asize_nonneg P). assert (NQ := asize_nonneg Q). assert (LA := zlen_pos (a_data a)). fold (asize a) in LA. rewrite E, sumf_app. cbn. unfold sumf in *. lia. }
  assert (LB := zlen_pos B).
  destruct (@bsearch_ok m (I0 + 24 * st) pkg key (fun i => a_pkg (znth dummy B (st + i))) (fun i => a_key (znth dummy B (st + i))) c) with (fuel := S (Z.to_nat c)) (lo := 0) (hi := c) as (r & -> & R); [| |lia|lia|lia|].
  { intros i Hi. destruct (NTH i Hi) as (P & a & Q & E & L & -> & Ea). destruct (LOC _ _ _ _ E L Hi) as ((G1 & G2 & _) & EP & W1 & W2 & W3). unfold INFO_BYTES. rewrite <- EP.
    assert (Ra : In a B) by (rewrite E; apply in_or_app; right; now left). destruct (RG _ Ra). split; (apply ld32_bytes; [split; unfold D0 in *; lia|assumption|assumption]). }
  { intros i j Hi Hj. destruct (NTH i) as (P & a & Q & E & L & -> & Ea); [lia|]. destruct (NTH j) as (P' & a' & Q' & E' & L' & -> & Ea'); [lia|].
    assert (In a P') as IA.
    { assert (znth dummy B (st + i) = a) as <-. { unfold znth. rewrite <- L, E, app_nth2 by (unfold zlen; lia). replace (Z.to_nat (zlen P) - length P)%nat with 0%nat by (unfold zlen; lia). reflexivity. }
      unfold znth. rewrite E', app_nth1 by (unfold zlen in *; lia). apply nth_In. unfold zlen in *. lia. }
    destruct (strict_split SS E') as [S1 _]. specialize (S1 _ IA). unfold attr_lt in S1. rewrite Ea, Ea', Z.eqb_refl in S1. destruct (Z.eqb_spec (a_pkg a) (a_pkg a')); [right|left]; lia. }
  cbn [obind]. destruct r as [i|].
  - destruct R as (Hi & R1 & R2). destruct (NTH i Hi) as (P & a & Q & E & L & EA & Ea). rewrite EA in R1, R2. destruct (LOC _ _ _ _ E L Hi) as ((G1 & G2 & G3 & G4 & G5) & EP & H1 & H2 & H3). unfold INFO_BYTES. rewrite <- EP.
    assert (OFF : 0 <= boff P a < 2 ^ 64). { unfold boff, dat, D0. rewrite Ea. assert (num (below id) P <= zlen P) by apply num_zlen. assert (0 <= num (below id) P) by apply num_nonneg. lia. }
    rewrite (ld64_bytes (v := asize a)); [|split; unfold D0 in *; lia|assumption|lia]. rewrite (ld64_bytes (v := boff P a)); [|split; unfold D0 in *; lia|assumption|assumption]. cbn [obind].
    replace (I0 + 24 * st + boff P a) with (dat P). 2:{ unfold boff. destruct (AT _ _ _ E Ea) as [K1 K2]. destruct (sorted_split sorted E) as [S1 _]. assert (NS := num_split S1). rewrite Ea in *. lia. }
    replace (Z.to_nat (asize a)) with (length (a_data a)) by (unfold asize, zlen; lia). rewrite get_bytes; [|fold (asize a); split; unfold dat, D0 in *; lia|assumption]. cbn [obind].
    exists (Some (a_data a)). split; [reflexivity|]. exists a. repeat split; auto. rewrite E. apply in_or_app. right. now left.
  - exists None. split; [reflexivity|]. intros a Ha (E1 & E2 & E3). apply in_split in Ha as (P & Q & E). destruct (AT _ _ _ E E1) as [K1 K2]. apply (R (num (same id) P) K2). cbv beta.
    replace (znth dummy B (st + num (same id) P)) with a; [auto|]. symmetry. unfold znth. rewrite <- K1, E, app_nth2 by (unfold zlen; lia). replace (Z.to_nat (zlen P) - length P)%nat with 0%nat by (unfold zlen; lia). reflexivity.
Qed.
End block.

(** Every process receives exactly the messages sent to it, in some order, and never waits forever. *)
From Coq Require Import Sorting.Permutation.
From Verif Require Import Prelude AnyNetModel.

Section net.
Variable M : Type.
Variable P : Z.
Hypothesis HP : 0 <= P.
Variable out : Z -> list (Z * M).
Variable n : Z -> nat.
Notation anet := (anet M).
Definition ranks : list Z := zseq 0 (Z.to_nat P).
(** the messages for d in a list of a source *)
Definition for_dest (d s : Z) (l : list (Z * M)) : list (Z * M) := map (fun x => (s, snd x)) (filter (fun x => fst x =? d) l).
Definition todo_for (f : Z -> list (Z * M)) (d : Z) : list (Z * M) := flat_map (fun s => for_dest d s (f s)) ranks.
Definition incoming (d : Z) : list (Z * M) := todo_for out d.
Definition air_for (d : Z) (l : list (Z * Z * M)) : list (Z * M) := map (fun x => (fst (fst x), snd x)) (filter (fun x => snd (fst x) =? d) l).
Hypothesis HN : forall d, 0 <= d < P -> n d = length (incoming d).
Hypothesis HO : forall s, 0 <= s < P -> Forall (fun x => 0 <= fst x < P) (out s).

Definition ainv (s : anet) : Prop :=
  (forall d, 0 <= d < P -> Permutation (a_got s d ++ air_for d (a_air s) ++ todo_for (a_todo s) d) (incoming d)) /\
  (forall d, 0 <= d < P -> a_want s d = length (air_for d (a_air s) ++ todo_for (a_todo s) d)) /\
  (forall p, 0 <= p < P -> Forall (fun x => 0 <= fst x < P) (a_todo s p)) /\
  Forall (fun x => 0 <= snd (fst x) < P) (a_air s).

Lemma upd_same A (f : Z -> A) p x : upd f p x p = x.
Proof. unfold upd. now rewrite Z.eqb_refl. Qed.
Lemma upd_other A (f : Z -> A) p x q : q <> p -> upd f p x q = f q.
Proof. intros H. unfold upd. destruct (Z.eqb_spec q p); [contradiction|reflexivity]. Qed.
Lemma air_app d a b : air_for d (a ++ b) = air_for d a ++ air_for d b.
Proof. unfold air_for. now rewrite filter_app, map_app. Qed.
Lemma todo_upd f p q m r d : 0 <= p < P -> f p = (q, m) :: r ->
  Permutation (todo_for f d) ((if q =? d then [(p, m)] else []) ++ todo_for (upd f p r) d).
Proof.
  intros Hp E. unfold todo_for, ranks. assert (Q : forall k a, Permutation (flat_map (fun s => for_dest d s (f s)) (zseq a k))
     ((if (a <=? p) && (p <? a + Z.of_nat k) && (q =? d) then [(p, m)] else []) ++ flat_map (fun s => for_dest d s (upd f p r s)) (zseq a k))).
  { induction k as [|k IH]; intros a; cbn [zseq flat_map].
    - replace ((a <=? p) && (p <? a + Z.of_nat 0)) with false by (symmetry; apply andb_false_iff; destruct (Z.leb_spec a p); [right; apply Z.ltb_ge; lia|now left]). reflexivity.
    - destruct (Z.eq_dec a p) as [->|N].
      + rewrite upd_same, E. rewrite (proj2 (Z.leb_le p p)) by lia. rewrite (proj2 (Z.ltb_lt p (p + Z.of_nat (S k)))) by lia. cbn [andb]. unfold for_dest at 1. cbn [filter fst].
        rewrite (IH (p + 1)). rewrite (proj2 (Z.leb_gt (p + 1) p)) by lia. cbn [andb app]. destruct (q =? d); cbn [map snd app]; reflexivity.
      + rewrite upd_other by exact N. rewrite (IH (a + 1)). replace ((a + 1 <=? p) && (p <? a + 1 + Z.of_nat k)) with ((a <=? p) && (p <? a + Z.of_nat (S k))).
        * rewrite !app_assoc. apply Permutation_app_tail. apply Permutation_app_comm.
        * destruct (Z.leb_spec a p), (Z.leb_spec (a + 1) p), (Z.ltb_spec p (a + Z.of_nat (S k))), (Z.ltb_spec p (a + 1 + Z.of_nat k)); try reflexivity; lia. }
  specialize (Q (Z.to_nat P) 0). rewrite (proj2 (Z.leb_le 0 p)) in Q by lia. rewrite (proj2 (Z.ltb_lt p (0 + Z.of_nat (Z.to_nat P)))) in Q by lia. exact Q.
Qed.
Lemma ainv_start : ainv (astart out n).
Proof.
  split; [|split; [|split]]; cbn [astart a_got a_air a_todo a_want].
  - intros d Hd. reflexivity.
  - intros d Hd. cbn. apply HN, Hd.
  - exact HO.
  - constructor.
Qed.
Lemma ainv_step s s' : ainv s -> astep P s s' -> ainv s'.
Proof.
  intros (I1 & I2 & I3 & I4) ST. destruct ST as [p q m r Hp E|p q m a b k Hp W A]; unfold ainv; cbn [a_todo a_want a_got a_air].
  - assert (Fq := I3 p Hp). rewrite E in Fq. apply Forall_cons_iff in Fq. destruct Fq as [Hq Fr]. cbn [fst] in Hq.
    assert (PM : forall d, Permutation (air_for d (a_air s) ++ todo_for (a_todo s) d) (air_for d (a_air s ++ [(p, q, m)]) ++ todo_for (upd (a_todo s) p r) d)).
    { intros d. rewrite air_app, <- app_assoc. apply Permutation_app_head. etransitivity; [apply (@todo_upd (a_todo s) p q m r d Hp E)|]. apply Permutation_app_tail. unfold air_for. cbn [filter fst snd]. destruct (q =? d); reflexivity. }
    split; [|split; [|split]].
    + intros d Hd. rewrite <- (PM d). auto.
    + intros d Hd. rewrite <- (Permutation_length (PM d)). auto.
    + intros p' Hp'. destruct (Z.eq_dec p' p) as [->|N]; [rewrite upd_same; exact Fr|rewrite upd_other by exact N; auto].
    + apply Forall_app. split; [exact I4|]. constructor; [exact Hq|constructor].
  - rewrite A in I1, I2, I4. assert (AO : forall d, d <> p -> air_for d (a ++ (q, p, m) :: b) = air_for d (a ++ b)).
    { intros d N. rewrite !air_app. f_equal. unfold air_for. cbn [filter fst snd]. destruct (Z.eqb_spec p d); [congruence|reflexivity]. }
    assert (AP : Permutation (air_for p (a ++ (q, p, m) :: b)) ((q, m) :: air_for p (a ++ b))).
    { rewrite !air_app. unfold air_for at 2. cbn [filter fst snd]. rewrite Z.eqb_refl. cbn [map fst snd]. symmetry. apply Permutation_middle. }
    split; [|split; [|split]].
    + intros d Hd. specialize (I1 d Hd). destruct (Z.eq_dec d p) as [->|N]; [rewrite upd_same; rewrite AP in I1; rewrite <- app_assoc; exact I1|rewrite upd_other, <- (AO d) by exact N; exact I1].
    + intros d Hd. specialize (I2 d Hd). destruct (Z.eq_dec d p) as [->|N].
      * rewrite upd_same. rewrite W, app_length, (Permutation_length AP) in I2. cbn [length] in I2. rewrite app_length. lia.
      * rewrite upd_other, <- (AO d) by exact N. exact I2.
    + exact I3.
    + apply Forall_app in I4. destruct I4 as [F1 F2]. apply Forall_cons_iff in F2. destruct F2 as [_ F2]. now apply Forall_app.
Qed.
Lemma ainv_steps s : asteps P (astart out n) s -> ainv s.
Proof. induction 1; [apply ainv_start|eapply ainv_step; eauto]. Qed.

(** all messages arrive *)
Theorem all_arrive s : asteps P (astart out n) s -> adone P s -> forall d, 0 <= d < P -> Permutation (a_got s d) (incoming d).
Proof.
  intros ST DN d Hd. destruct (ainv_steps ST) as (I1 & I2 & _). destruct (DN d Hd) as [_ W]. rewrite (I2 d Hd) in W. apply length_zero_iff_nil in W.
  rewrite <- (I1 d Hd), W, app_nil_r. reflexivity.
Qed.
(** no process waits forever *)
Theorem no_deadlock s : asteps P (astart out n) s -> adone P s \/ exists s', astep P s s'.
Proof.
  intros ST. destruct (ainv_steps ST) as (I1 & I2 & I3 & I4).
  assert (T : (forall p, 0 <= p < P -> a_todo s p = []) \/ exists p, 0 <= p < P /\ a_todo s p <> []).
  { assert (Q : forall k, (forall p, 0 <= p < Z.of_nat k -> a_todo s p = []) \/ exists p, 0 <= p < Z.of_nat k /\ a_todo s p <> []).
    { induction k as [|k [IH|(p & Hp & E)]]; [left; intros p Hp; lia| |right; exists p; split; [lia|exact E]].
      destruct (a_todo s (Z.of_nat k)) as [|x l] eqn:E; [|right; exists (Z.of_nat k); split; [lia|congruence]]. left. intros p Hp. destruct (Z.eq_dec p (Z.of_nat k)) as [->|N]; [exact E|apply IH; lia]. }
    specialize (Q (Z.to_nat P)). rewrite Z2Nat.id in Q by lia. exact Q. }
  destruct T as [T|(p & Hp & E)].
  2:{ destruct (a_todo s p) as [|[q m] r] eqn:ET; [congruence|]. right. eexists. eapply astep_send; eauto. }
  assert (T0 : forall d, todo_for (a_todo s) d = []).
  { intros d. unfold todo_for, ranks. assert (Q : forall k a, 0 <= a -> a + Z.of_nat k <= P -> flat_map (fun s0 => for_dest d s0 (a_todo s s0)) (zseq a k) = []).
    { induction k as [|k IH]; intros a Ha Hk; [reflexivity|]. cbn [zseq flat_map]. rewrite T by lia. cbn [for_dest filter map app]. apply IH; lia. }
    apply Q; lia. }
  destruct (a_air s) as [|[[q p] m] l] eqn:A.
  - left. intros p Hp. split; [auto|]. rewrite (I2 p Hp), T0. reflexivity.
  - right. apply Forall_cons_iff in I4. destruct I4 as [Hp _]. cbn [fst snd] in Hp. assert (W := I2 p Hp). rewrite T0, app_nil_r in W. unfold air_for in W. cbn [filter fst snd] in W. rewrite Z.eqb_refl in W. cbn [map length] in W.
    eexists. eapply astep_recv with (a := []); eauto.
Qed.
(** every execution ends *)
Definition ameasure (s : anet) : nat := (2 * length (flat_map (fun p => a_todo s p) ranks) + length (a_air s))%nat.
Theorem step_measure s s' : astep P s s' -> (ameasure s' < ameasure s)%nat.
Proof.
  clear HN HO out n HP. intros ST. destruct ST as [p q m r Hp E|p q m a b k Hp W A]; unfold ameasure; cbn [a_todo a_air].
  - rewrite app_length. cbn [length]. assert (Q : forall k a, length (flat_map (fun x => a_todo s x) (zseq a k)) = Nat.add (if (a <=? p) && (p <? a + Z.of_nat k) then 1%nat else 0%nat) (length (flat_map (fun x => upd (a_todo s) p r x) (zseq a k)))).
    { induction k as [|k IH]; intros a; cbn [zseq flat_map].
      - destruct (Z.leb_spec a p), (Z.ltb_spec p (a + Z.of_nat 0)); try lia; reflexivity.
      - rewrite !app_length, IH. destruct (Z.eq_dec a p) as [->|N].
        + rewrite upd_same, E. cbn [length]. destruct (Z.leb_spec p p), (Z.ltb_spec p (p + Z.of_nat (S k))), (Z.leb_spec (p + 1) p); try lia; cbn [andb]; lia.
        + rewrite upd_other by exact N. destruct (Z.leb_spec a p), (Z.ltb_spec p (a + Z.of_nat (S k))), (Z.leb_spec (a + 1) p), (Z.ltb_spec p (a + 1 + Z.of_nat k)); try lia; cbn [andb]; lia. }
    unfold ranks. rewrite (Q (Z.to_nat P) 0). rewrite (proj2 (Z.leb_le 0 p)) by lia. rewrite (proj2 (Z.ltb_lt p (0 + Z.of_nat (Z.to_nat P)))) by lia. cbn [andb]. lia.
  - rewrite A, !app_length. cbn [length]. lia.
Qed.
End net.

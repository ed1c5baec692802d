(** If every process sends first and every message has exactly one receive, then no schedule deadlocks, every schedule ends, and at
    the end everything has been received, independently of the schedule. *)
From Verif Require Import Prelude NetModel.

Section net.
Variable M : Type.
Implicit Types (s : nstate M) (prog : Z -> list (action M)).

Lemma sent_to_app q (a b : list (action M)) : sent_to q (a ++ b) = sent_to q a ++ sent_to q b.
Proof. induction a as [|[d m|d] a IH]; cbn [app sent_to]; auto. destruct (d =? q); [|auto]. cbn [app]. now rewrite IH. Qed.
Lemma sources_app (a b : list (action M)) : sources (a ++ b) = sources a ++ sources b.
Proof. induction a as [|[d m|d] a IH]; cbn [app sources]; auto. now rewrite IH. Qed.
Lemma from_app p (a b : list (Z * M)) : from p (a ++ b) = from p a ++ from p b.
Proof. unfold from. now rewrite filter_app, map_app. Qed.
Lemma from_count p (l : list (Z * M)) : length (from p l) = count_occ Z.eq_dec (map fst l) p.
Proof.
  induction l as [|[q m] l IH]; [reflexivity|]. unfold from in *. cbn [filter map fst count_occ]. destruct (Z.eqb_spec q p) as [->|N].
  - cbn [map length]. destruct (Z.eq_dec p p); [|congruence]. now rewrite IH.
  - destruct (Z.eq_dec q p); [congruence|]. exact IH.
Qed.

Definition ninv (P : Z) prog s : Prop :=
  (forall p, 0 <= p < P -> exists done, prog p = done ++ todo s p /\ map fst (nlog s p) = sources done) /\
  (forall p q, 0 <= p < P -> 0 <= q < P -> exists done, prog p = done ++ todo s p /\ sent_to q done = from p (nlog s q) ++ chan s p q).
Lemma ninv_init P prog : ninv P prog (ninit prog).
Proof. split; intros; exists []; auto. Qed.
Lemma done_unique (a b c : list (action M)) : a ++ c = b ++ c -> a = b.
Proof. intros H. now apply app_inv_tail in H. Qed.
Lemma ninv_step P prog s s' : ninv P prog s -> nstep P s s' -> ninv P prog s'.
Proof.
  intros [I1 I2] H. destruct H as [p q m r Hp Ht Ht' Hto Hc Hco Hl|p q m rest r Hp Ht Hc Ht' Hto Hc' Hco Hl Hlo].
  - split.
    + intros a Ha. destruct (I1 a Ha) as (d & E & L). destruct (Z.eq_dec a p) as [->|N].
      * exists (d ++ [Send q m]). rewrite Ht', <- app_assoc. cbn [app]. rewrite <- Ht. split; auto. rewrite Hl, sources_app. cbn [sources]. now rewrite app_nil_r.
      * exists d. rewrite Hto, Hl by auto. auto.
    + intros a b Ha Hb. destruct (I2 a b Ha Hb) as (d & E & L). destruct (Z.eq_dec a p) as [->|N].
      * exists (d ++ [Send q m]). rewrite Ht', <- app_assoc. cbn [app]. rewrite <- Ht. split; auto. rewrite Hl, sent_to_app. cbn [sent_to]. destruct (Z.eqb_spec q b) as [->|N].
        { rewrite Hc, L. now rewrite app_assoc. }
        { rewrite Hco by (try (intros [? ?]); congruence). now rewrite app_nil_r. }
      * exists d. rewrite Hto, Hl, Hco by (try (intros [? ?]); congruence). auto.
  - split.
    + intros a Ha. destruct (I1 a Ha) as (d & E & L). destruct (Z.eq_dec a p) as [->|N].
      * exists (d ++ [Recv q]). rewrite Ht', <- app_assoc. cbn [app]. rewrite <- Ht. split; auto. rewrite Hl, map_app, L, sources_app. reflexivity.
      * exists d. rewrite Hto, Hlo by auto. auto.
    + intros a b Ha Hb. destruct (I2 a b Ha Hb) as (d & E & L).
      assert (T : exists d', prog a = d' ++ todo s' a /\ sent_to b d' = sent_to b d).
      { destruct (Z.eq_dec a p) as [->|N].
        - exists (d ++ [Recv q]). rewrite Ht', <- app_assoc. cbn [app]. rewrite <- Ht. split; auto. rewrite sent_to_app. cbn [sent_to]. now rewrite app_nil_r.
        - exists d. rewrite Hto by auto. auto. }
      destruct T as (d' & E' & L'). exists d'. split; auto. rewrite L', L. destruct (Z.eq_dec b p) as [->|Nb].
      * rewrite Hl, from_app. unfold from at 3. cbn [filter map fst snd]. destruct (Z.eqb_spec q a) as [->|Nq].
        { rewrite Hc', Hc. cbn [map]. now rewrite <- app_assoc. }
        { rewrite Hco by (try (intros [? ?]); congruence). cbn [map]. now rewrite app_nil_r. }
      * rewrite Hlo, Hco by (try (intros [? ?]); congruence). reflexivity.
Qed.
Lemma ninv_steps P prog n s : nsteps P n (ninit prog) s -> ninv P prog s.
Proof.
  intros H. remember (ninit prog) as s0 eqn:E0. induction H as [|n s0 s1 s2 H IH St]; [subst; apply ninv_init|].
  exact (ninv_step (IH E0) St).
Qed.

(** number of actions left *)
Definition left (P : Z) (f : Z -> list (action M)) : Z := fold_right Z.add 0 (map (fun p => zlen (f p)) (zseq 0 (Z.to_nat P))).
Lemma left_step_gen (f g : Z -> list (action M)) p lo n : lo <= p < lo + Z.of_nat n -> zlen (g p) + 1 = zlen (f p) -> (forall q, q <> p -> g q = f q) ->
  fold_right Z.add 0 (map (fun p => zlen (g p)) (zseq lo n)) + 1 = fold_right Z.add 0 (map (fun p => zlen (f p)) (zseq lo n)).
Proof.
  revert lo. induction n as [|n IH]; intros lo Hp H1 H2; [lia|]. cbn [zseq map fold_right]. destruct (Z.eq_dec lo p) as [->|N].
  - assert (Q : forall n lo, p < lo -> fold_right Z.add 0 (map (fun p => zlen (g p)) (zseq lo n)) = fold_right Z.add 0 (map (fun p => zlen (f p)) (zseq lo n))).
    { induction n0 as [|n0 IH0]; intros l0 HL; [reflexivity|]. cbn [zseq map fold_right]. rewrite (H2 l0) by lia. rewrite IH0 by lia. reflexivity. }
    rewrite Q by lia. lia.
  - rewrite <- (IH (lo + 1)) by (auto; lia). rewrite (H2 lo) by lia. lia.
Qed.
Lemma left_step P s s' : nstep P s s' -> left P (todo s') + 1 = left P (todo s).
Proof.
  intros [p q m r Hp Ht Ht' Hto _ _ _|p q m rest r Hp Ht _ Ht' Hto _ _ _ _]; apply (@left_step_gen (todo s) (todo s') p); auto; try lia; rewrite Ht, Ht'; unfold zlen; cbn [length]; lia.
Qed.
Lemma left_nonneg P f : 0 <= left P f.
Proof. unfold left. induction (zseq 0 (Z.to_nat P)) as [|p l IH]; cbn [map fold_right]; [lia|]. unfold zlen at 1. lia. Qed.
Lemma nsteps_bound P prog n s : nsteps P n (ninit prog) s -> Z.of_nat n + left P (todo s) = left P prog.
Proof.
  intros H. remember (ninit prog) as s0 eqn:E0. induction H as [|n s0 s1 s2 H IH St]; [subst; cbn; lia|].
  specialize (IH E0). apply left_step in St. lia.
Qed.

Section matched.
Variables (P : Z) (prog : Z -> list (action M)).
Hypothesis first : forall p, 0 <= p < P -> sends_first (prog p).
Hypothesis range : forall p, 0 <= p < P -> Forall (fun q => 0 <= q < P) (sources (prog p)).
Hypothesis matched : forall p q, 0 <= p < P -> 0 <= q < P -> length (sent_to q (prog p)) = count_occ Z.eq_dec (sources (prog q)) p.

Lemma sends_first_tail a (l : list (action M)) q r : sends_first (a ++ Recv q :: l) -> r = Recv q :: l -> forall b, sent_to b r = [].
Proof.
  intros (x & y & E) -> b. revert x y E. induction a as [|c a IH]; intros x y E.
  - destruct x as [|[d m] x]; cbn [map app] in E; [|discriminate]. rewrite E. clear. induction y as [|z y IH]; [reflexivity|exact IH].
  - destruct x as [|[d m] x]; cbn [map app] in E.
    + destruct y as [|z y]; [discriminate|]. cbn [map] in E. injection E as _ E. exact (IH [] y E).
    + injection E as _ E. exact (IH x y E).
Qed.
Lemma progress s : ninv P prog s -> finished P s \/ exists s', nstep P s s'.
Proof.
  intros [I1 I2].
  assert (D : (forall p, 0 <= p < P -> todo s p = []) \/ exists p, 0 <= p < P /\ todo s p <> []).
  { assert (G : forall n, (forall p, 0 <= p < Z.of_nat n -> todo s p = []) \/ exists p, 0 <= p < Z.of_nat n /\ todo s p <> []).
    { induction n as [|n [IH|(p & Hp & N)]]; [left; lia| |right; exists p; split; [lia|exact N]].
      destruct (todo s (Z.of_nat n)) as [|x y] eqn:E; [|right; exists (Z.of_nat n); split; [lia|congruence]].
      left. intros p Hp. destruct (Z.eq_dec p (Z.of_nat n)) as [->|]; [exact E|]. apply IH. lia. }
    destruct (Z.leb_spec 0 P) as [C|C]; [|left; lia]. destruct (G (Z.to_nat P)) as [H|(p & H & N)]; [left; intros p Hp; apply H; lia|right; exists p; split; [lia|exact N]]. }
  destruct D as [D|(p0 & Hp0 & N0)]; [left; exact D|]. right.
  (* is some process about to send? *)
  assert (D : (exists p q m r, 0 <= p < P /\ todo s p = Send q m :: r) \/ forall p, 0 <= p < P -> forall q m r, todo s p <> Send q m :: r).
  { assert (G : forall n, (exists p q m r, 0 <= p < Z.of_nat n /\ todo s p = Send q m :: r) \/ forall p, 0 <= p < Z.of_nat n -> forall q m r, todo s p <> Send q m :: r).
    { induction n as [|n [(p & q & m & r & Hp & E)|IH]]; [right; lia|left; exists p, q, m, r; split; [lia|exact E]|].
      destruct (todo s (Z.of_nat n)) as [|[q m|q] y] eqn:E.
      - right. intros p Hp. destruct (Z.eq_dec p (Z.of_nat n)) as [->|]; [rewrite E; discriminate|]. apply IH. lia.
      - left. exists (Z.of_nat n), q, m, y. split; [lia|exact E].
      - right. intros p Hp. destruct (Z.eq_dec p (Z.of_nat n)) as [->|]; [rewrite E; discriminate|]. apply IH. lia. }
    destruct (G (Z.to_nat P)) as [(p & q & m & r & Hp & E)|H]; [left; exists p, q, m, r; split; [lia|exact E]|right; intros p Hp; apply H; lia]. }
  destruct D as [(p & q & m & r & Hp & E)|D].
  - exists (NState (fun a => if a =? p then r else todo s a) (fun a b => if (a =? p) && (b =? q) then chan s p q ++ [m] else chan s a b) (nlog s)).
    apply (@nstep_send _ P s _ p q m r); cbn [todo chan nlog]; auto.
    + now rewrite Z.eqb_refl.
    + intros p' N. now rewrite (proj2 (Z.eqb_neq p' p) N).
    + now rewrite !Z.eqb_refl.
    + intros a b N. destruct (Z.eqb_spec a p), (Z.eqb_spec b q); cbn [andb]; auto. exfalso; apply N; auto.
  - (* all processes only receive: the sends are all done *)
    assert (ND : forall p b, 0 <= p < P -> sent_to b (todo s p) = []).
    { intros p b Hp. destruct (I1 p Hp) as (d & E & _). destruct (todo s p) as [|[q m|q] y] eqn:T; [reflexivity|exfalso; apply (D p Hp q m y T)|].
      apply (@sends_first_tail d y q); auto. rewrite <- E. apply first, Hp. }
    destruct (todo s p0) as [|[q m|q] y] eqn:T; [congruence|exfalso; apply (D p0 Hp0 q m y T)|].
    assert (Hq : 0 <= q < P).
    { assert (R := range Hp0). destruct (I1 p0 Hp0) as (d & E & _). rewrite E, T, sources_app in R. apply Forall_app in R. destruct R as [_ R]. now inversion R. }
    destruct (I2 q p0 Hq Hp0) as (d & E & L). destruct (I1 p0 Hp0) as (d0 & E0 & L0).
    assert (C := matched Hq Hp0). rewrite E, sent_to_app, (ND q p0 Hq), app_nil_r, L, app_length, from_count, L0 in C.
    rewrite E0, T, sources_app, count_occ_app in C. cbn [sources count_occ] in C. destruct (Z.eq_dec q q); [|congruence].
    destruct (chan s q p0) as [|m rest] eqn:Ch; [cbn [length] in C; lia|].
    exists (NState (fun a => if a =? p0 then y else todo s a) (fun a b => if (a =? q) && (b =? p0) then rest else chan s a b) (fun a => if a =? p0 then nlog s p0 ++ [(q, m)] else nlog s a)).
    apply (@nstep_recv _ P s _ p0 q m rest y); cbn [todo chan nlog]; auto.
    + now rewrite Z.eqb_refl.
    + intros p' N. now rewrite (proj2 (Z.eqb_neq p' p0) N).
    + now rewrite !Z.eqb_refl.
    + intros a b N. destruct (Z.eqb_spec a q), (Z.eqb_spec b p0); cbn [andb]; auto. exfalso; apply N; auto.
    + now rewrite Z.eqb_refl.
    + intros a N. now rewrite (proj2 (Z.eqb_neq a p0) N).
Qed.
Lemma delivered s : ninv P prog s -> finished P s -> forall p q, 0 <= p < P -> 0 <= q < P ->
  chan s p q = [] /\ from p (nlog s q) = sent_to q (prog p) /\ map fst (nlog s q) = sources (prog q).
Proof.
  intros [I1 I2] F p q Hp Hq. destruct (I1 q Hq) as (d & E & L). rewrite (F q Hq), app_nil_r in E. subst d.
  destruct (I2 p q Hp Hq) as (d & E & L'). rewrite (F p Hp), app_nil_r in E. subst d.
  assert (C := matched Hp Hq). rewrite L', app_length, from_count, L in C.
  destruct (chan s p q); [|cbn [length] in C; lia]. rewrite app_nil_r in L'. auto.
Qed.
End matched.
End net.

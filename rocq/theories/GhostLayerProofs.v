(** The ghost layer and the exchange of its data, from the creation of the remote elements to the end of the exchange. *)
From Coq Require Import Sorting.Sorted Sorting.Permutation.
From Verif Require Import Prelude PathSpec SchemeModel SchemeSpec SchemeProofs SchemeOrderProofs SearchModel PartitionSpec OwnerModel OwnerSpec OwnerMainProofs FaceModel FaceSpec FaceProofs.
From Verif Require Import GhostModel GhostSpec GhostOwnerProofs GhostRemoteProofs GhostSearchProofs GhostExchangeProofs GhostDataProofs AnyNetModel AnyNetProofs GhostMainProofs.

(** states that are the same for the processes 0, ..., P - 1 *)
Section same.
Variable M : Type.
Variable P : Z.
Definition same (s s' : anet M) : Prop := a_air s = a_air s' /\ forall p, 0 <= p < P -> a_todo s p = a_todo s' p /\ a_want s p = a_want s' p /\ a_got s p = a_got s' p.
Lemma same_sym s s' : same s s' -> same s' s.
Proof. intros [A B]. split; [auto|]. intros p Hp. destruct (B p Hp) as (B1 & B2 & B3). auto. Qed.
Lemma same_upd {A} (f g : Z -> A) p x q : f q = g q -> upd f p x q = upd g p x q.
Proof. unfold upd. now destruct (q =? p). Qed.
Lemma same_step s1 s2 s : same s1 s2 -> astep P s1 s -> exists s', astep P s2 s' /\ same s s'.
Proof.
  intros [A B] ST. destruct ST as [p q m r Hp E|p q m a b k Hp W E]; destruct (B p Hp) as (B1 & B2 & B3).
  - eexists. split; [apply astep_send with (q := q) (m := m) (r := r); [exact Hp|congruence]|]. split; cbn [a_todo a_want a_got a_air]; [now rewrite A|].
    intros x Hx. destruct (B x Hx) as (C1 & C2 & C3). split; [now apply same_upd|auto].
  - eexists. split; [apply astep_recv with (q := q) (m := m) (a := a) (b := b) (n := k); [exact Hp|congruence|congruence]|]. split; cbn [a_todo a_want a_got a_air]; [reflexivity|].
    intros x Hx. destruct (B x Hx) as (C1 & C2 & C3). split; [exact C1|]. split; [now apply same_upd|]. rewrite B3. now apply same_upd.
Qed.
Lemma same_steps s1 s2 s : same s1 s2 -> asteps P s1 s -> exists s', asteps P s2 s' /\ same s s'.
Proof.
  intros H ST. induction ST as [|s s' ST IH S1]; [exists s2; split; [constructor|exact H]|]. destruct IH as (t & T1 & T2). destruct (same_step T2 S1) as (t' & T3 & T4). exists t'. split; [econstructor; eassumption|exact T4].
Qed.
Lemma same_done s s' : same s s' -> adone P s -> adone P s'.
Proof. intros [_ B] H p Hp. destruct (B p Hp) as (B1 & B2 & _). destruct (H p Hp). split; congruence. Qed.
(** there is no endless exchange *)
Theorem steps_end : well_founded (fun s' s : anet M => astep P s s').
Proof.
  intros s. remember (ameasure P s) as n eqn:E. revert s E. induction n as [n IH] using (well_founded_induction Wf_nat.lt_wf). intros s ->. constructor. intros s' ST. eapply IH; [|reflexivity]. exact (step_measure ST).
Qed.
End same.

Section forest.
Variable cls : Z -> scheme.
Notation leaf := {t : Z & elt (cls t)}.
Notation el t e := (existT (fun s => elt (cls s)) t e).
Variables (P K ml : Z) (lv : forall t, list (elt (cls t))) (loc : Z -> list leaf).
Hypothesis D : distributed P K ml lv loc.
Variable fc : forall t, faces (cls t).
Variable nb : leaf -> Z -> option (leaf * Z).
Hypothesis HM : mesh_ok fc nb K ml.
Variable dbg : bool.
Variable x0 : Z.
Variable trs : Z -> list (ltree cls).
Hypothesis HT : forall p, 0 <= p < P -> local_trees loc p (trs p).
Notation eo := (element_offsets P loc).
Notation fd := (create_first_desc P ml loc ++ [x0]).

Lemma begin_v3 to p g : create_remotes fc nb dbg P ml p eo to fd 3 (trs p) = Ok g <-> fill_remote_v3 fc nb dbg P ml p eo to fd (trs p) = Ok g.
Proof. unfold create_remotes. destruct (trs p) as [|t l]; [reflexivity|]. reflexivity. Qed.
Theorem ghost_begin_ok : exists to, create_tree_offsets P K ml loc = Ok to /\ forall p, 0 <= p < P -> exists g ms, ghost_begin fc nb dbg P ml p eo to fd 3 (trs p) = Ok (g, ms).
Proof.
  destruct (tree_offsets_ok D) as (to & ET & _). exists to. split; [exact ET|]. intros p Hp. destruct (remotes_found D HM dbg ET x0 HT Hp) as (g & E & _).
  unfold ghost_begin. rewrite (proj2 (begin_v3 to p g) E). cbn [obind]. rewrite (messages_ok D HM ET HT Hp E). cbn [obind]. eauto.
Qed.

Variable to : list Z.
Hypothesis ET : create_tree_offsets P K ml loc = Ok to.
Variable rem : Z -> remotes cls.
Variable out : Z -> list (Z * message cls).
Hypothesis EB : forall p, 0 <= p < P -> ghost_begin fc nb dbg P ml p eo to fd 3 (trs p) = Ok (rem p, out p).
Lemma ER p : 0 <= p < P -> fill_remote_v3 fc nb dbg P ml p eo to fd (trs p) = Ok (rem p).
Proof.
  intros Hp. specialize (EB Hp). unfold ghost_begin in EB. destruct (create_remotes _ _ _ _ _ _ _ _ _ _ _) as [g| | |] eqn:E; try discriminate. cbn [obind] in EB. destruct (messages g (g_procs g)); try discriminate. cbn [obind] in EB. injection EB as -> _. now apply begin_v3.
Qed.
Lemma EO p : 0 <= p < P -> out p = outgoing (fun p q => remote_msg (rem p) q) (fun p => g_procs (rem p)) p.
Proof.
  intros Hp. assert (E := ER Hp). specialize (EB Hp). unfold ghost_begin in EB. rewrite (proj2 (begin_v3 to p _) E) in EB. cbn [obind] in EB. rewrite (messages_ok D HM ET HT Hp E) in EB. cbn [obind] in EB. injection EB as <-. reflexivity.
Qed.
Notation start := (astart out (fun p => length (g_procs (rem p)))).
Lemma start_same : same P start (started (fun p q => remote_msg (rem p) q) (fun p => g_procs (rem p))).
Proof. split; [reflexivity|]. intros p Hp. cbn [a_todo a_want a_got astart started]. rewrite (EO Hp). auto. Qed.
Theorem ghost_progress s : asteps P start s -> adone P s \/ exists s', astep P s s'.
Proof.
  intros ST. destruct (same_steps start_same ST) as (t & T1 & T2). destruct (exchange_progress D HM ET HT ER (fun p _ => Permutation_refl _) T1) as [DN|(t' & S)].
  - left. exact (same_done (same_sym T2) DN).
  - right. destruct (same_step (same_sym T2) S) as (s' & S' & _). eauto.
Qed.
Theorem ghost_result s p : asteps P start s -> adone P s -> 0 <= p < P -> exists h,
  receive (g_procs (rem p)) (a_got s p) = Ok h /\ gok h (ghost_list rem p) /\ procs_ok h (fun q => remote_msg (rem q) p) (sort_ranks (g_procs (rem p))).
Proof.
  intros ST DN Hp. destruct (same_steps start_same ST) as (t & T1 & T2). destruct (ghosts_ok D HM ET HT ER T1 (same_done T2 DN) Hp) as (h & R). exists h. destruct T2 as [_ B]. destruct (B p Hp) as (_ & _ & ->). exact R.
Qed.
Lemma remote_iff p q x : 0 <= p < P -> 0 <= q < P ->
  (In x (ghost_list rem p) /\ In x (loc q)) <-> exists r i, In r (g_remotes (rem q)) /\ r_rank r = p /\ In (x, i) (flat r).
Proof.
  intros Hp Hq. destruct (remotes_h D HM ET HT Hq (ER Hq)) as (h & (E1 & ND & F & C) & PK). rewrite (picks_in (ghost_list_picks D HM ET HT ER Hp) x). assert (EL : map fst (indexed (trs q)) = loc q) by (rewrite <- indexed_items, indexed_fst; apply (HT Hq)). split.
  - intros ((_ & (q' & Hq' & N & I') & m & Hm & A) & I). assert (Q : q' = q). { destruct (Z.eq_dec q' q) as [Q|Q]; [exact Q|]. destruct (loc_disjoint D Hq' Hq I' I Q) as [B|B]; destruct (gbefore_irrefl D (in_loc_all D Hq I) B). } subst q'. rewrite <- EL in I. apply in_map_iff in I. destruct I as ([y i] & Ey & I). cbn [fst] in Ey. subst y.
    assert (IH : In (x, i) (h p)). { apply (picks_in (PK p)). split; [exact I|]. split; [exact Hp|]. split; [congruence|]. exists m. split; [exact Hm|]. destruct m as [t e]. apply (adjacent_sym HM) with (1 := proj1 (leaf_ok D (in_loc_all D Hp Hm))). exact A. }
    assert (IP : In p (g_procs (rem q))) by (apply C; intros HN; rewrite HN in IH; destruct IH). rewrite E1 in IP. apply in_map_iff in IP. destruct IP as (r & Er & Ir). exists r, i. split; [exact Ir|]. split; [exact Er|]. rewrite Forall_forall in F. destruct (F r Ir) as (_ & FL & _). now rewrite FL, Er.
  - intros (r & i & Ir & Er & I). rewrite Forall_forall in F. destruct (F r Ir) as (_ & FL & _). rewrite FL, Er in I. apply (picks_in (PK p)) in I. destruct I as (I & _ & N & m & Hm & A). apply (in_map fst) in I. rewrite EL in I. cbn [fst] in *.
    split; [|exact I]. split; [exact (in_loc_all D Hq I)|]. split; [exists q; auto|]. exists m. split; [exact Hm|]. destruct x as [t e]. apply (adjacent_sym HM) with (1 := proj1 (leaf_ok D (in_loc_all D Hq I))). exact A.
Qed.

Section data.
Variable DT : Type.
Variable dat : Z -> list DT.
Hypothesis HD : forall p, 0 <= p < P -> (length (loc p) <= length (dat p))%nat.
Theorem data_begin_ok p : 0 <= p < P -> exists ms, data_messages (dat p) (tree_offset (trs p)) (rem p) (remote_processes (rem p)) = Ok ms.
Proof. intros Hp. eexists. exact (data_messages_ok D HM ET HT ER HD Hp). Qed.
Variable dout : Z -> list (Z * list DT).
Hypothesis ED : forall p, 0 <= p < P -> data_messages (dat p) (tree_offset (trs p)) (rem p) (remote_processes (rem p)) = Ok (dout p).
Notation dstart := (astart dout (fun p => length (remote_processes (rem p)))).
Lemma dstart_same : same P dstart (started (data_msg trs rem dat) (fun p => remote_processes (rem p))).
Proof. split; [reflexivity|]. intros p Hp. cbn [a_todo a_want a_got astart started]. assert (E := data_messages_ok D HM ET HT ER HD Hp). rewrite (ED Hp) in E. injection E as ->. auto. Qed.
Theorem data_progress s : asteps P dstart s -> adone P s \/ exists s', astep P s s'.
Proof.
  intros ST. destruct (same_steps dstart_same ST) as (t & T1 & T2). destruct (exchange_progress D HM ET HT ER (data_perm rem) T1) as [DN|(t' & S)].
  - left. exact (same_done (same_sym T2) DN).
  - right. destruct (same_step (same_sym T2) S) as (s' & S' & _). eauto.
Qed.
Theorem data_result s p h : asteps P dstart s -> adone P s -> 0 <= p < P ->
  gok h (ghost_list rem p) -> procs_ok h (fun q => remote_msg (rem q) p) (sort_ranks (g_procs (rem p))) -> zlen (dat p) = zlen (loc p) + gh_num h ->
  exists ds, receive_data (remote_processes (rem p)) h (zlen (loc p)) (a_got s p) (dat p) = Ok (firstn (length (loc p)) (dat p) ++ ds) /\ Forall2 (data_of P loc dat) (ghost_list rem p) ds.
Proof.
  intros ST DN Hp G1 G2 ZL. destruct (same_steps dstart_same ST) as (t & T1 & T2). assert (R := data_ok D HM ET HT ER HD T1 (same_done T2 DN) Hp G1 G2 ZL). destruct T2 as [_ B]. destruct (B p Hp) as (_ & _ & ->). exact R.
Qed.
End data.
End forest.

(** The ghost layer of all processes. *)
From Coq Require Import Sorting.Sorted Sorting.Permutation.
From Verif Require Import Prelude PathSpec SchemeModel SchemeSpec SchemeProofs SchemeOrderProofs SearchModel PartitionSpec OwnerModel OwnerSpec OwnerMainProofs FaceModel FaceSpec FaceProofs.
From Verif Require Import GhostModel GhostSpec GhostOwnerProofs GhostRemoteProofs GhostSearchProofs GhostExchangeProofs GhostDataProofs AnyNetModel AnyNetProofs.

Lemma perm_set (l l' : list Z) : NoDup l -> NoDup l' -> (forall x, In x l <-> In x l') -> length l = length l'.
Proof. intros H H' E. apply Permutation_length. now apply NoDup_Permutation. Qed.
Lemma picks_fst {A} (Pr : A -> Prop) (l r : list (A * Z)) : picks (fun x => Pr (fst x)) l r -> picks Pr (map fst l) (map fst r).
Proof. induction 1; cbn [map]; [constructor|now apply picks_take|now apply picks_skip]. Qed.
Lemma picks_flat {A} (Pr : A -> Prop) (f g : Z -> list A) l : (forall q, In q l -> picks Pr (f q) (g q)) -> picks Pr (flat_map f l) (flat_map g l).
Proof. induction l as [|q l IH]; intros H; cbn [flat_map]; [constructor|]. apply picks_app; [apply H; now left|]. apply IH. intros x Hx. apply H. now right. Qed.
Lemma flat_filter {A} (b : Z -> bool) (f : Z -> list A) l : flat_map (fun q => if b q then f q else []) l = flat_map f (filter b l).
Proof. induction l as [|q l IH]; [reflexivity|]. cbn [flat_map filter]. destruct (b q); cbn [flat_map app]; now rewrite IH. Qed.
Lemma filter_lt_sorted (b : Z -> bool) l : StronglySorted Z.lt l -> StronglySorted Z.lt (filter b l).
Proof.
  induction 1 as [|a l S IH F]; cbn [filter]; [constructor|]. destruct (b a); [|exact IH]. constructor; [exact IH|]. apply Forall_forall. intros x Hx. apply filter_In in Hx. rewrite Forall_forall in F. apply F, Hx.
Qed.

Section forest.
Variable cls : Z -> scheme.
Notation leaf := {t : Z & elt (cls t)}.
Notation el t e := (existT (fun s => elt (cls s)) t e).
Variables (P K ml : Z) (lv : forall t, list (elt (cls t))) (loc : Z -> list leaf).
Hypothesis D : distributed P K ml lv loc.
Variable fc : forall t, faces (cls t).
Variable nb : leaf -> Z -> option (leaf * Z).
Hypothesis HM : mesh_ok fc nb K ml.
Variable dbg : bool.
Variable to : list Z.
Hypothesis ET : create_tree_offsets P K ml loc = Ok to.
Variable x0 : Z.
Variable trs : Z -> list (ltree cls).
Hypothesis HT : forall p, 0 <= p < P -> local_trees loc p (trs p).
Notation eo := (element_offsets P loc).
Notation fd := (create_first_desc P ml loc ++ [x0]).
Notation "'touch'" := (at_process fc nb ml loc).

Lemma indexed_fst ts : map fst (flat_map (@tree_items cls) ts) = leaves_of ts.
Proof.
  induction ts as [|[t ls] ts IH]; [reflexivity|]. cbn [flat_map leaves_of]. rewrite map_app, IH. f_equal. unfold tree_items, items. cbn [projT1 projT2]. generalize 0 as k. clear.
  induction ls as [|x l IH]; intros k; [reflexivity|]. cbn [map length zseq combine fst]. now rewrite IH.
Qed.
Lemma indexed_items ts : flat_map (@tree_items cls) ts = indexed ts.
Proof. unfold indexed. induction ts as [|[t ls] ts IH]; [reflexivity|]. cbn [flat_map]. rewrite IH. reflexivity. Qed.
(** the remote elements of process p *)
Theorem remotes_found p : 0 <= p < P -> exists g, fill_remote_v3 fc nb dbg P ml p eo to fd (trs p) = Ok g /\ exists h, rem_ok g h /\
  forall q, picks (fun x => 0 <= q < P /\ q <> p /\ touch q (fst x)) (indexed (trs p)) (h q).
Proof.
  intros Hp. destruct (HT Hp) as (H1 & H2 & H3). unfold fill_remote_v3. assert (EF := indexed_fst (trs p)). rewrite H3 in EF.
  assert (TR : forall tr, In tr (trs p) -> 0 <= projT1 tr).
  { intros [t ls] Htr. rewrite Forall_forall in H2. specialize (H2 _ Htr). cbn [projT1 projT2] in *. destruct ls as [|e ls]; [congruence|]. assert (I : In (el t e) (loc p)). { rewrite <- H3. unfold leaves_of. apply in_flat_map. eexists. split; [exact Htr|]. now left. }
    apply (leaf_ok D (in_loc_all D Hp I)). }
  destruct (@trees_claim cls P K ml lv loc D fc nb HM dbg to ET x0 p Hp (trs p) 0 (BData (-1) 0 0 []) no_remotes []) as (d' & g & E & h & RO & PK); auto.
  - apply Forall_forall. intros tr Htr. cbn [b_tree]. specialize (TR tr Htr). lia.
  - cbn [app]. rewrite EF. apply (proj1 (loc_sorted D)). exact Hp.
  - cbn [app]. rewrite EF. apply incl_refl.
  - exists (fun _ => []). split; [|intros q; constructor]. split; [reflexivity|]. split; [constructor|]. split; [constructor|]. intros q H. congruence.
  - rewrite E. cbn [obind snd]. exists g. split; [reflexivity|]. exists h. split; [exact RO|]. cbn [app] in PK. rewrite indexed_items in PK. exact PK.
Qed.
(** facts about the remote elements *)
Section remotes_of.
Variable p : Z.
Hypothesis Hp : 0 <= p < P.
Variable g : remotes cls.
Hypothesis EG : fill_remote_v3 fc nb dbg P ml p eo to fd (trs p) = Ok g.
Definition remote_msg (g : remotes cls) (q : Z) : message cls := match find_remote g q with Ok r => message_of r | _ => [] end.
Definition remote_items (g : remotes cls) (q : Z) : list (leaf * Z) := match find_remote g q with Ok r => flat r | _ => [] end.
Lemma remotes_h : exists h, rem_ok g h /\ forall q, picks (fun x => 0 <= q < P /\ q <> p /\ touch q (fst x)) (indexed (trs p)) (h q).
Proof. destruct (remotes_found Hp) as (g' & E & H). rewrite EG in E. injection E as <-. exact H. Qed.
Lemma find_entry h q : rem_ok g h -> In q (g_procs g) -> exists r, find_remote g q = Ok r /\ r_rank r = q /\ entry_ok r (h q).
Proof.
  intros (E & ND & F & _) I. unfold find_remote. rewrite E in I. apply in_map_iff in I. destruct I as (r & Er & Ir). destruct (find (fun r => r_rank r =? q) (g_remotes g)) as [r'|] eqn:FE.
  - apply find_some in FE. destruct FE as [I' Q]. apply Z.eqb_eq in Q. exists r'. split; [reflexivity|]. split; [exact Q|]. rewrite Forall_forall in F. rewrite <- Q. auto.
  - apply (find_none _ _ FE) in Ir. apply Z.eqb_neq in Ir. contradiction.
Qed.
Lemma flat_ne (r : remote cls) h : entry_ok r h -> h <> [].
Proof.
  intros (NE & F & _ & (T & _)) ->. destruct (r_trees r) as [|rt l] eqn:E; [congruence|]. apply Forall_cons_iff in T. destruct T as [[T _] _]. unfold flat in F. rewrite E in F. cbn [flat_map] in F. apply app_eq_nil in F. tauto.
Qed.
Lemma remote_procs : NoDup (g_procs g) /\ forall q, In q (g_procs g) <-> 0 <= q < P /\ q <> p /\ exists x, In x (loc p) /\ touch q x.
Proof.
  destruct remotes_h as (h & RO & PK). assert (RO' := RO). destruct RO as (E & ND & F & C). split; [exact ND|]. intros q. assert (EL : map fst (indexed (trs p)) = loc p) by (rewrite <- indexed_items, indexed_fst; apply (HT Hp)). split.
  - intros I. destruct (find_entry RO' I) as (r & _ & _ & EO). assert (NE := flat_ne EO). destruct (h q) as [|x l] eqn:HQ; [congruence|]. assert (Ix : In x (h q)) by (rewrite HQ; now left).
    apply (picks_in (PK q)) in Ix. destruct Ix as (I1 & I2 & I3 & I4). split; [exact I2|]. split; [exact I3|]. exists (fst x). split; [rewrite <- EL; now apply in_map|exact I4].
  - intros (Hq & N & x & Ix & T). apply C. rewrite <- EL in Ix. apply in_map_iff in Ix. destruct Ix as (y & Ey & Iy). intros Q. assert (I : In y (h q)) by (apply (picks_in (PK q)); rewrite Ey; auto). rewrite Q in I. destruct I.
Qed.
Lemma entry_picks q : In q (g_procs g) -> picks (fun x => touch q (fst x)) (indexed (trs p)) (remote_items g q).
Proof.
  intros I. destruct remotes_h as (h & RO & PK). destruct (find_entry RO I) as (r & E & _ & (_ & F & _)). unfold remote_items. rewrite E, F. apply remote_procs in I. destruct I as (Hq & N & _).
  eapply picks_ext; [|apply PK]. intros x _. cbn. tauto.
Qed.
Lemma flat_msg (r : remote cls) : mflat (message_of r) = map fst (flat r).
Proof. unfold mflat, message_of, flat. induction (r_trees r) as [|rt l IH]; [reflexivity|]. cbn [map flat_map snd]. rewrite IH, map_app. reflexivity. Qed.
Lemma msg_facts q : In q (g_procs g) -> msg_ok (remote_msg g q) /\ remote_msg g q <> [] /\ mflat (remote_msg g q) = map fst (remote_items g q) /\ picks (touch q) (loc p) (mflat (remote_msg g q)).
Proof.
  intros I. destruct remotes_h as (h & RO & PK). destruct (find_entry RO I) as (r & E & _ & (NE & F & NU & (T1 & T2))). assert (EP := entry_picks I). unfold remote_msg, remote_items in *. rewrite E in *.
  split; [|split; [|split]].
  - split.
    + apply Forall_forall. intros x Hx. apply in_map_iff in Hx. destruct Hx as (rt & <- & Hrt). cbn [fst snd]. rewrite Forall_forall in T1. destruct (T1 rt Hrt) as [A B]. split; [destruct (rt_elems rt); [congruence|discriminate]|].
      apply Forall_forall. intros y Hy. apply in_map_iff in Hy. destruct Hy as (z & <- & Hz). unfold of_tree in B. rewrite Forall_forall in B. now apply B.
    + unfold message_of. rewrite map_map. exact T2.
  - unfold message_of. destruct (r_trees r); [congruence|discriminate].
  - apply flat_msg.
  - rewrite flat_msg. replace (loc p) with (map fst (indexed (trs p))) by (rewrite <- indexed_items, indexed_fst; apply (HT Hp)). apply picks_fst. exact EP.
Qed.
Lemma messages_ok : messages g (g_procs g) = Ok (map (fun q => (q, remote_msg g q)) (g_procs g)).
Proof.
  destruct remotes_h as (h & RO & _). assert (Q : forall l, incl l (g_procs g) -> messages g l = Ok (map (fun q => (q, remote_msg g q)) l)); [|apply Q, incl_refl].
  induction l as [|q l IH]; intros I; [reflexivity|]. cbn [messages map]. destruct (find_entry RO (I q (or_introl eq_refl))) as (r & E & _). unfold remote_msg at 1. rewrite E. cbn [obind]. rewrite IH; [reflexivity|]. intros x Hx. apply I. now right.
Qed.
End remotes_of.

(** ** the exchange *)
Variable rem : Z -> remotes cls.
Hypothesis ER : forall p, 0 <= p < P -> fill_remote_v3 fc nb dbg P ml p eo to fd (trs p) = Ok (rem p).
Notation procs p := (g_procs (rem p)).
Lemma touch_sym p q : 0 <= p < P -> 0 <= q < P -> (exists x, In x (loc p) /\ touch q x) -> exists x, In x (loc q) /\ touch p x.
Proof.
  intros Hp Hq (x & Hx & m & Hm & A). exists m. split; [exact Hm|]. exists x. split; [exact Hx|]. destruct x as [t e]. apply (adjacent_sym HM) with (1 := proj1 (leaf_ok D (in_loc_all D Hp Hx))). exact A.
Qed.
Lemma procs_sym p q : 0 <= p < P -> 0 <= q < P -> (In q (procs p) <-> In p (procs q)).
Proof.
  intros Hp Hq. rewrite (proj2 (remote_procs Hp (ER Hp)) q), (proj2 (remote_procs Hq (ER Hq)) p). split; intros (_ & N & T); (split; [assumption|split; [congruence|]]); eapply touch_sym; eauto.
Qed.
Lemma procs_range p q : 0 <= p < P -> In q (procs p) -> 0 <= q < P.
Proof. intros Hp I. apply (proj2 (remote_procs Hp (ER Hp)) q) in I. apply I. Qed.

(** messages of any type between the remote processes *)
Section any_message.
Variable M : Type.
Variable m : Z -> Z -> M.
Variable pr : Z -> list Z.
Hypothesis HPR : forall p, 0 <= p < P -> Permutation (pr p) (procs p).
Lemma pr_ok p : 0 <= p < P -> NoDup (pr p) /\ forall q, In q (pr p) <-> In q (procs p).
Proof. intros Hp. assert (Q := HPR Hp). split; [eapply Permutation_NoDup; [symmetry; exact Q|]; apply (remote_procs Hp (ER Hp))|]. intros q. split; apply Permutation_in; [|symmetry]; exact Q. Qed.
Definition outgoing (p : Z) : list (Z * M) := map (fun q => (q, m p q)) (pr p).
Lemma for_dest_out d s : NoDup (pr s) -> for_dest d s (outgoing s) = if inb d (pr s) then [(s, m s d)] else [].
Proof.
  unfold for_dest, outgoing. induction (pr s) as [|q l IH]; intros ND; [reflexivity|]. inversion ND as [|? ? N1 N2]; subst. specialize (IH N2). cbn [map filter fst inb existsb]. destruct (Z.eqb_spec q d) as [->|N].
  - rewrite Z.eqb_refl. cbn [orb map snd]. rewrite IH. replace (inb d l) with false by (symmetry; apply not_true_iff_false; rewrite inb_iff; exact N1). reflexivity.
  - rewrite (proj2 (Z.eqb_neq d q)) by congruence. cbn [orb]. exact IH.
Qed.
Lemma incoming_eq d : 0 <= d < P -> incoming P outgoing d = map (fun s => (s, m s d)) (filter (fun s => inb d (pr s)) (zseq 0 (Z.to_nat P))).
Proof.
  intros Hd. unfold incoming, todo_for, ranks. assert (Q : forall l, (forall s, In s l -> 0 <= s < P) -> flat_map (fun s => for_dest d s (outgoing s)) l = map (fun s => (s, m s d)) (filter (fun s => inb d (pr s)) l)).
  { induction l as [|s l IH]; intros HS; [reflexivity|]. cbn [flat_map filter]. rewrite IH by (intros; apply HS; now right). rewrite for_dest_out by (apply (pr_ok (HS s (or_introl eq_refl)))). destruct (inb d (pr s)); reflexivity. }
  apply Q. intros s Hs. apply in_zseq in Hs. lia.
Qed.
Lemma sources d : 0 <= d < P -> NoDup (map fst (incoming P outgoing d)) /\ (forall q, In q (map fst (incoming P outgoing d)) <-> In q (procs d)) /\ Forall (fun x => snd x = m (fst x) d) (incoming P outgoing d).
Proof.
  intros Hd. rewrite (incoming_eq Hd). rewrite map_map. cbn [fst]. rewrite map_id. split; [|split].
  - apply NoDup_filter, lt_sorted_nodup, sorted_zseq.
  - intros q. rewrite filter_In, in_zseq, inb_iff. split.
    + intros [Hq I]. apply (proj2 (pr_ok (p:=q) ltac:(lia))) in I. apply (procs_sym Hd) in I; [exact I|lia].
    + intros I. assert (Hq := procs_range Hd I). split; [lia|]. apply (proj2 (pr_ok Hq)). now apply (procs_sym Hd Hq).
  - apply Forall_forall. intros x Hx. apply in_map_iff in Hx. destruct Hx as (s & <- & _). reflexivity.
Qed.
Definition started : anet M := astart outgoing (fun p => length (pr p)).
Lemma HN d : 0 <= d < P -> length (pr d) = length (incoming P outgoing d).
Proof. intros Hd. rewrite (Permutation_length (HPR Hd)). destruct (sources Hd) as (A & B & _). rewrite <- (map_length fst (incoming P outgoing d)). apply perm_set; [apply (remote_procs Hd (ER Hd))|exact A|]. intros q. symmetry. apply B. Qed.
Lemma HO s : 0 <= s < P -> Forall (fun x => 0 <= fst x < P) (outgoing s).
Proof. intros Hs. apply Forall_forall. intros x Hx. unfold outgoing in Hx. apply in_map_iff in Hx. destruct Hx as (q & <- & Hq). apply (procs_range Hs), (pr_ok Hs), Hq. Qed.
Lemma HP0 : 0 <= P.
Proof. pose proof (HP1 D). lia. Qed.
Theorem exchange_progress s : asteps P started s -> adone P s \/ exists s', astep P s s'.
Proof. apply (no_deadlock HP0). - exact HN. - exact HO. Qed.
Theorem exchange_arrived s d : asteps P started s -> adone P s -> 0 <= d < P ->
  NoDup (map fst (a_got s d)) /\ (forall q, In q (map fst (a_got s d)) <-> In q (procs d)) /\ Forall (fun x => snd x = m (fst x) d) (a_got s d).
Proof.
  intros ST DN Hd. assert (PM := all_arrive HN HO ST DN Hd). destruct (sources Hd) as (A & B & C). split; [|split].
  - eapply Permutation_NoDup; [symmetry; apply Permutation_map; exact PM|exact A].
  - intros q. rewrite <- B. split; apply Permutation_in; [|symmetry]; apply Permutation_map; exact PM.
  - eapply Permutation_Forall; [symmetry; exact PM|exact C].
Qed.
End any_message.

(** the ghosts of process p *)
Definition ghost_list (p : Z) : list leaf := flat_map (fun q => mflat (remote_msg (rem q) p)) (sort_ranks (procs p)).
Lemma ghost_list_picks p : 0 <= p < P -> picks (ghost_of fc nb P ml loc p) (all_leaves K lv) (ghost_list p).
Proof.
  intros Hp. rewrite <- (gather_loc D). unfold gather, ghost_list. destruct (remote_procs Hp (ER Hp)) as [ND IP].
  assert (ES : sort_ranks (procs p) = filter (fun q => inb q (procs p)) (zseq 0 (Z.to_nat P))).
  { apply lt_sorted_ext; [now apply sort_sorted|apply filter_lt_sorted, sorted_zseq|]. intros q. rewrite filter_In, in_zseq, inb_iff. split.
    - intros I. apply (Permutation_in _ (sort_perm _)) in I. split; [pose proof (procs_range Hp I); lia|exact I].
    - intros [_ I]. eapply Permutation_in; [symmetry; apply sort_perm|exact I]. }
  rewrite ES, <- flat_filter. apply picks_flat. intros q Hq. apply in_zseq in Hq. assert (Hq' : 0 <= q < P) by lia.
  assert (GO : forall x, In x (loc q) -> (ghost_of fc nb P ml loc p x <-> q <> p /\ touch p x)).
  { intros x Hx. unfold ghost_of, at_process. split.
    - intros ((q' & Hq1 & N & Hx') & m & Hm & A). split.
      + intros ->. destruct (loc_disjoint D Hq1 Hp Hx' Hx N) as [B|B]; exact (gbefore_irrefl D (in_loc_all D Hp Hx) B).
      + exists m. split; [exact Hm|]. destruct m as [t e]. apply (adjacent_sym HM) with (1 := proj1 (leaf_ok D (in_loc_all D Hp Hm))). exact A.
    - intros (N & m & Hm & A). split; [exists q; auto|]. exists m. split; [exact Hm|]. destruct x as [t e]. apply (adjacent_sym HM) with (1 := proj1 (leaf_ok D (in_loc_all D Hq' Hx))). exact A. }
  destruct (inb q (procs p)) eqn:Q.
  - apply inb_iff in Q. assert (N : q <> p) by (apply IP in Q; tauto). apply (procs_sym Hp Hq') in Q. destruct (msg_facts Hq' (ER Hq') Q) as (_ & _ & _ & PK). eapply picks_ext; [|exact PK]. intros x Hx. rewrite (GO x Hx). tauto.
  - apply picks_none. intros x Hx G. apply (GO x Hx) in G. destruct G as [N T]. assert (I : In q (procs p)). { apply IP. split; [exact Hq'|]. split; [exact N|]. apply (touch_sym Hq' Hp). exists x. auto. } apply inb_iff in I. congruence.
Qed.
Lemma parse_ghosts p : 0 <= p < P -> exists h, parse_seq (map (fun q => (q, remote_msg (rem q) p)) (sort_ranks (procs p))) (0, no_ghosts) = Ok (zlen (ghost_list p), h) /\
  gok h (ghost_list p) /\ procs_ok h (fun q => remote_msg (rem q) p) (sort_ranks (procs p)).
Proof.
  intros Hp. destruct (remote_procs Hp (ER Hp)) as [ND IP]. assert (SS := sort_sorted ND).
  assert (IS : forall q, In q (sort_ranks (procs p)) -> 0 <= q < P /\ In p (procs q)). { intros q I. apply (Permutation_in _ (sort_perm _)) in I. assert (Hq := procs_range Hp I). split; [exact Hq|]. now apply (procs_sym Hp Hq). }
  apply (@parse_seq_ok cls (fun q => remote_msg (rem q) p) (sort_ranks (procs p)) [] no_ghosts).
  - cbn [app]. apply lt_sorted_nodup, SS.
  - intros q I. destruct (IS q I) as [Hq I']. destruct (msg_facts Hq (ER Hq) I') as (A & B & _). auto.
  - cbn [app]. intros pre q post x y E Hx Hy. apply in_flat_map in Hx. destruct Hx as (q' & Hq' & Hx). assert (LT : q' < q). { rewrite E in SS. apply sorted_app in SS. destruct SS as (_ & _ & SS). apply SS; [exact Hq'|now left]. }
    destruct (IS q) as [Hq I]; [rewrite E; apply in_or_app; right; now left|]. destruct (IS q') as [Hq1 I1]; [rewrite E; apply in_or_app; now left|].
    destruct (msg_facts Hq (ER Hq) I) as (_ & _ & _ & PK). destruct (msg_facts Hq1 (ER Hq1) I1) as (_ & _ & _ & PK1). apply (picks_in PK) in Hy. apply (picks_in PK1) in Hx.
    apply gbefore_tree. apply (proj2 (loc_sorted D) q' q); try lia; tauto.
  - split; [|split; reflexivity]. split; [constructor|]. split; [constructor|]. intros pre T post E. destruct pre; discriminate.
  - split; [reflexivity|]. intros pre q post E. destruct pre; discriminate.
Qed.
Theorem ghosts_ok s p : asteps P (started (fun p q => remote_msg (rem p) q) (fun p => procs p)) s -> adone P s -> 0 <= p < P -> exists h,
  receive (procs p) (a_got s p) = Ok h /\ gok h (ghost_list p) /\ procs_ok h (fun q => remote_msg (rem q) p) (sort_ranks (procs p)).
Proof.
  intros ST DN Hp. destruct (exchange_arrived (fun p _ => Permutation_refl _) ST DN Hp) as (A & B & C). destruct (parse_ghosts Hp) as (h & E & G & R). exists h. split; [|auto].
  rewrite (@receive_ok cls (procs p) (fun q => remote_msg (rem q) p) (a_got s p) (zlen (ghost_list p), h)); auto. apply (remote_procs Hp (ER Hp)).
Qed.

(** ** the exchange of data *)
Section data.
Variable DT : Type.
Variable dat : Z -> list DT.
Hypothesis HD : forall p, 0 <= p < P -> (length (loc p) <= length (dat p))%nat.
Notation rp p := (remote_processes (rem p)).
Definition data_msg (p q : Z) : list DT := match fill_send_buffer (dat p) (tree_offset (trs p)) (rem p) q with Ok ds => ds | _ => [] end.
Lemma picks_incl {A} (Pr : A -> Prop) l r : picks Pr l r -> incl r l.
Proof. intros H x Hx. now apply (picks_in H) in Hx. Qed.
Lemma data_msg_ok p q : 0 <= p < P -> In q (procs p) -> fill_send_buffer (dat p) (tree_offset (trs p)) (rem p) q = Ok (data_msg p q) /\
  Forall2 (data_of P loc dat) (mflat (remote_msg (rem p) q)) (data_msg p q).
Proof.
  intros Hp I. destruct (remotes_h Hp (ER Hp)) as (h & RO & PK). destruct (find_entry RO I) as (r & E & _ & EO). destruct (HT Hp) as (H1 & H2 & H3).
  destruct (@fill_send_buffer_ok cls DT (trs p) (dat p) H1) with (2 := E) (3 := EO) as (ds & F1 & F2); [rewrite H3; now apply HD|exact (picks_incl (PK q))|].
  unfold data_msg. rewrite F1. split; [reflexivity|]. destruct (msg_facts Hp (ER Hp) I) as (_ & _ & EM & _). rewrite EM. unfold remote_items. rewrite E. rewrite (proj1 (proj2 EO)).
  clear - F2 H3 Hp. induction F2 as [|x d l l' (j & J1 & J2) F IH]; constructor; [|exact IH]. rewrite H3 in J1. exists p, j. auto.
Qed.
Lemma data_messages_ok p : 0 <= p < P -> data_messages (dat p) (tree_offset (trs p)) (rem p) (rp p) = Ok (outgoing data_msg (fun p => rp p) p).
Proof.
  intros Hp. unfold outgoing. assert (Q : forall l, incl l (procs p) -> data_messages (dat p) (tree_offset (trs p)) (rem p) l = Ok (map (fun q => (q, data_msg p q)) l)).
  { induction l as [|q l IH]; intros I; [reflexivity|]. cbn [data_messages map]. rewrite (proj1 (data_msg_ok Hp (I q (or_introl eq_refl)))). cbn [obind]. rewrite IH by (intros z Hz; apply I; now right). reflexivity. }
  apply Q. intros q Hq. exact (Permutation_in _ (sort_perm _) Hq).
Qed.
Lemma data_perm p : 0 <= p < P -> Permutation (rp p) (procs p).
Proof. intros _. apply sort_perm. Qed.
Theorem data_ok s p h : asteps P (started data_msg (fun p => rp p)) s -> adone P s -> 0 <= p < P ->
  gok h (ghost_list p) -> procs_ok h (fun q => remote_msg (rem q) p) (sort_ranks (procs p)) -> zlen (dat p) = zlen (loc p) + gh_num h ->
  exists ds, receive_data (rp p) h (zlen (loc p)) (a_got s p) (dat p) = Ok (firstn (length (loc p)) (dat p) ++ ds) /\ Forall2 (data_of P loc dat) (ghost_list p) ds.
Proof.
  intros ST DN Hp HG HR ZL. destruct (exchange_arrived data_perm ST DN Hp) as (A & B & C). destruct (remote_procs Hp (ER Hp)) as [ND IP]. assert (SS := sort_sorted ND).
  assert (IS : forall q, In q (rp p) -> 0 <= q < P /\ In p (procs q)). { intros q I. apply (Permutation_in _ (sort_perm _)) in I. assert (Hq := procs_range Hp I). split; [exact Hq|]. now apply (procs_sym Hp Hq). }
  assert (LL : length (firstn (length (loc p)) (dat p)) = length (loc p)) by (rewrite firstn_length; specialize (HD Hp); lia).
  exists (flat_map (fun q => data_msg q p) (rp p)). split.
  - replace (zlen (loc p)) with (zlen (firstn (length (loc p)) (dat p))) by (unfold zlen; now rewrite LL).
    apply (@receive_data_ok cls DT (rp p) (fun q => remote_msg (rem q) p) h (lt_sorted_nodup SS) HG HR (fun q => data_msg q p)).
    + intros q Hq. destruct (IS q Hq) as [Hq' I]. destruct (data_msg_ok Hq' I) as [_ F]. unfold zlen. symmetry. exact (f_equal Z.of_nat (forall2_len F)).
    + rewrite ZL. unfold zlen. now rewrite LL.
    + rewrite LL. reflexivity.
    + exact A.
    + intros q. rewrite B. split; intros I; [eapply Permutation_in; [symmetry; apply sort_perm|exact I]|exact (Permutation_in _ (sort_perm _) I)].
    + exact C.
  - unfold ghost_list. assert (Q : forall l, incl l (rp p) -> Forall2 (data_of P loc dat) (flat_map (fun q => mflat (remote_msg (rem q) p)) l) (flat_map (fun q => data_msg q p) l)); [|exact (Q _ (incl_refl _))].
    induction l as [|q l IH]; intros I; [constructor|]. cbn [flat_map]. apply Forall2_app; [|apply IH; intros z Hz; apply I; now right]. destruct (IS q (I q (or_introl eq_refl))) as [Hq Iq]. apply (data_msg_ok Hq Iq).
Qed.
End data.
End forest.

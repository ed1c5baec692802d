(** The exchange of ghost data: one process. *)
From Coq Require Import Sorting.Sorted Sorting.Permutation.
From Verif Require Import Prelude PathSpec SchemeModel SchemeSpec SchemeProofs OwnerModel FaceModel FaceSpec.
From Verif Require Import GhostModel GhostSpec GhostRemoteProofs GhostSearchProofs GhostExchangeProofs.

Lemma nth_map_app {A} (a b : list A) i x : 0 <= i -> nth_error b (Z.to_nat i) = Some x -> nth_error (a ++ b) (Z.to_nat (zlen a + i)) = Some x.
Proof. intros Hi E. unfold zlen. rewrite Z2Nat.inj_add, Nat2Z.id by lia. rewrite nth_error_app2 by lia. now replace (length a + Z.to_nat i - length a)%nat with (Z.to_nat i) by lia. Qed.

Lemma forall2_len {A B} (R : A -> B -> Prop) a b : Forall2 R a b -> length a = length b.
Proof. induction 1; cbn [length]; congruence. Qed.

Section send.
Variable cls : Z -> scheme.
Notation leaf := {t : Z & elt (cls t)}.
Notation el t e := (existT (fun s => elt (cls s)) t e).
Lemma combine_seq (l : list leaf) : forall k x i, In (x, i) (combine l (zseq k (length l))) -> k <= i /\ nth_error l (Z.to_nat (i - k)) = Some x.
Proof.
  induction l as [|a l IH]; intros k x i H; [destruct H|]. cbn [length zseq combine] in H. destruct H as [H|H].
  - injection H as -> ->. rewrite Z.sub_diag. split; [lia|reflexivity].
  - apply IH in H. destruct H as [H1 H2]. split; [lia|]. replace (Z.to_nat (i - k)) with (Datatypes.S (Z.to_nat (i - (k + 1)))) by lia. exact H2.
Qed.
Lemma indexed_pos (ts : list (ltree cls)) : StronglySorted Z.lt (map (@projT1 _ _) ts) -> forall x i, In (x, i) (indexed ts) ->
  exists off, tree_offset ts (projT1 x) = Ok off /\ 0 <= off /\ 0 <= i /\ nth_error (leaves_of ts) (Z.to_nat (off + i)) = Some x.
Proof.
  induction ts as [|[t ls] ts IH]; intros SO x i H; [destruct H|]. cbn [map projT1] in SO. inversion SO as [|? ? SO1 SO2]; subst. unfold indexed in H. cbn [flat_map projT1 projT2] in H. apply in_app_or in H. cbn [tree_offset]. destruct H as [H|H].
  - rewrite <- (map_length (fun e => el t e) ls) in H. apply combine_seq in H. destruct H as [Hi H]. rewrite Z.sub_0_r in H.
    assert (ET : t = projT1 x). { apply nth_error_In in H. apply in_map_iff in H. destruct H as (e & <- & _). reflexivity. }
    rewrite (proj2 (Z.eqb_eq _ _) ET). exists 0. split; [reflexivity|]. split; [lia|]. split; [exact Hi|]. unfold leaves_of. cbn [flat_map projT1 projT2]. rewrite nth_error_app1; [exact H|]. apply nth_error_Some. rewrite Z.add_0_l. congruence.
  - destruct (IH SO1 x i H) as (off & E & H1 & H2 & H3). assert (LT : t < projT1 x).
    { rewrite Forall_forall in SO2. apply SO2. apply in_flat_map in H. destruct H as ([u l] & Hu & Hx). cbn [projT1 projT2] in Hx. apply in_combine_l in Hx. apply in_map_iff in Hx. destruct Hx as (e & <- & _). apply in_map_iff. exists (existT _ u l). auto. }
    rewrite (proj2 (Z.eqb_neq t (projT1 x))) by lia. rewrite E. cbn [obind]. exists (zlen ls + off). pose proof (zlen_ge0 ls). split; [reflexivity|]. split; [lia|]. split; [exact H2|].
    unfold leaves_of. cbn [flat_map projT1 projT2]. replace (zlen ls + off + i) with (zlen (map (fun e => el t e) ls) + (off + i)) by (unfold zlen; rewrite map_length; lia). apply nth_map_app; [lia|exact H3].
Qed.
Variable D : Type.
Variables (ts : list (ltree cls)) (data : list D).
Hypothesis SO : StronglySorted Z.lt (map (@projT1 _ _) ts).
Hypothesis LE : (length (leaves_of ts) <= length data)%nat.
Definition own_data (x : leaf) (d : D) : Prop := exists j, nth_error (leaves_of ts) j = Some x /\ nth_error data j = Some d.
Lemma send_elems_ok t off : tree_offset ts t = Ok off -> forall es, Forall (fun x => projT1 (fst x) = t) es -> incl es (indexed ts) ->
  exists ds, send_elems data off es = Ok ds /\ Forall2 own_data (map fst es) ds.
Proof.
  intros EO. induction es as [|[x i] es IH]; intros F I; [exists []; split; [reflexivity|constructor]|]. apply Forall_cons_iff in F. destruct F as [F1 F2]. cbn [fst] in F1. cbn [send_elems map fst].
  destruct (@indexed_pos ts SO x i (I _ (or_introl eq_refl))) as (off' & E & H1 & H2 & H3). rewrite F1, EO in E. injection E as <-. destruct IH as (ds & E & FF); [exact F2|intros y Hy; apply I; now right|].
  rewrite (proj2 (Z.ltb_ge i 0)) by lia. assert (B : (Z.to_nat (off + i) < length data)%nat). { apply Nat.lt_le_trans with (2 := LE). apply nth_error_Some. congruence. }
  destruct (nth_error data (Z.to_nat (off + i))) as [d|] eqn:Q; [|apply nth_error_None in Q; lia]. rewrite E. cbn [obind]. exists (d :: ds). split; [reflexivity|]. constructor; [|exact FF]. exists (Z.to_nat (off + i)). auto.
Qed.
Lemma send_trees_ok rts : Forall (fun rt => rt_elems rt <> [] /\ of_tree (rt_tree rt) (rt_elems rt)) rts -> incl (flat_map (@rt_elems cls) rts) (indexed ts) ->
  exists ds, send_trees data (tree_offset ts) rts = Ok ds /\ Forall2 own_data (map fst (flat_map (@rt_elems cls) rts)) ds.
Proof.
  induction rts as [|rt rts IH]; intros F I; [exists []; split; [reflexivity|constructor]|]. apply Forall_cons_iff in F. destruct F as [[NE OT] F]. cbn [flat_map] in *. cbn [send_trees].
  destruct (rt_elems rt) as [|[x i] es] eqn:EE; [congruence|]. assert (OT' := OT). unfold of_tree in OT'. apply Forall_inv in OT' as OX. cbn [fst] in OX.
  destruct (@indexed_pos ts SO x i) as (off & EO & _). { apply I. apply in_or_app. left. now left. } rewrite OX in EO. rewrite EO. cbn [obind].
  destruct (@send_elems_ok (rt_tree rt) off EO ((x, i) :: es)) as (ds & E1 & F1); [exact OT'|intros y Hy; apply I; apply in_or_app; now left|]. rewrite E1. cbn [obind].
  destruct IH as (ds2 & E2 & F2); [exact F|intros y Hy; apply I; apply in_or_app; now right|]. rewrite E2. cbn [obind]. exists (ds ++ ds2). split; [reflexivity|]. rewrite map_app. now apply Forall2_app.
Qed.
Lemma fill_send_buffer_ok g q r h : find_remote g q = Ok r -> entry_ok r h -> incl h (indexed ts) ->
  exists ds, fill_send_buffer data (tree_offset ts) g q = Ok ds /\ Forall2 own_data (map fst h) ds.
Proof.
  intros E (_ & F & NU & (T & _)) I. destruct (@send_trees_ok (r_trees r) T) as (ds & E1 & F1); [unfold flat in F; rewrite F; exact I|]. unfold flat in F. rewrite F in F1. unfold fill_send_buffer. rewrite E. cbn [obind]. rewrite E1. cbn [obind].
  exists ds. split; [|exact F1]. rewrite (proj2 (Z.eqb_eq _ _)); [reflexivity|]. rewrite NU. unfold zlen. apply forall2_len in F1. rewrite map_length in F1. symmetry. exact (f_equal Z.of_nat F1).
Qed.
End send.

Section receive.
Variable cls : Z -> scheme.
Notation leaf := {t : Z & elt (cls t)}.
Variable D : Type.
Variables (procs : list Z) (msg : Z -> message cls) (h : ghosts cls).
Hypothesis ND : NoDup procs.
Hypothesis HG : gok h (flat_map (fun q => mflat (msg q)) procs).
Hypothesis HR : procs_ok h msg procs.
Notation size q := (zlen (mflat (msg q))).
Lemma zlen_flat {A B} (f : Z -> list A) (g : Z -> list B) l : (forall q, In q l -> zlen (f q) = zlen (g q)) -> zlen (flat_map f l) = zlen (flat_map g l).
Proof. induction l as [|q l IH]; intros H; [reflexivity|]. cbn [flat_map]. rewrite !zlen_app, IH, (H q); auto; [now left|]. intros x Hx. apply H. now right. Qed.
Lemma find_proc pre q post : procs = pre ++ q :: post -> proc_offset h q = Ok (zlen (flat_map (fun q => mflat (msg q)) pre)).
Proof.
  intros E. destruct HR as [H1 H2]. destruct (H2 pre q post E) as (e & N & R & O & _). unfold proc_offset. destruct (find (fun p => gp_rank p =? q) (gh_procs h)) as [e'|] eqn:F.
  - assert (e' = e); [|subst e'; now rewrite O]. apply find_some in F. destruct F as [I Q]. apply Z.eqb_eq in Q. apply In_nth_error in I. destruct I as [k Ek]. assert (k = length pre); [|congruence].
    assert (ND' := ND). rewrite <- H1 in ND'. rewrite NoDup_nth_error in ND'. apply ND'.
    + rewrite map_length. apply nth_error_Some. congruence.
    + rewrite (map_nth_error _ _ _ Ek), (map_nth_error _ _ _ N). congruence.
  - apply nth_error_In in N. apply (find_none _ _ F) in N. apply Z.eqb_neq in N. contradiction.
Qed.
Lemma recv_range_ok pre q post : procs = pre ++ q :: post -> recv_range procs h q = Ok (zlen (flat_map (fun q => mflat (msg q)) pre), size q).
Proof.
  intros E. unfold recv_range. assert (RP : rank_pos procs q = Some (length pre)). { apply rank_pos_iff; [exact ND|]. rewrite E. rewrite nth_error_app2 by lia. now rewrite Nat.sub_diag. }
  rewrite RP, (find_proc E). cbn [obind]. destruct post as [|q' post].
  - replace (nth_error procs (Datatypes.S (length pre))) with (@None Z). 2:{ symmetry. apply nth_error_None. rewrite E, app_length. cbn [length]. lia. } cbn [obind]. destruct HG as (_ & _ & N). rewrite N, E, flat_map_app. cbn [flat_map]. rewrite !zlen_app, zlen_nil. do 2 f_equal. lia.
  - replace (nth_error procs (Datatypes.S (length pre))) with (Some q'). 2:{ rewrite E, nth_error_app2 by lia. now replace (Datatypes.S (length pre) - length pre)%nat with 1%nat by lia. }
    rewrite (@find_proc (pre ++ [q]) q' post) by (rewrite E, <- app_assoc; reflexivity). cbn [obind]. rewrite flat_map_app. cbn [flat_map]. rewrite !zlen_app, zlen_nil. do 2 f_equal. lia.
Qed.
Variable dm : Z -> list D.
Hypothesis DS : forall q, In q procs -> zlen (dm q) = size q.
Variable L : list D.
Definition parts (chunk : Z -> list D) (data : list D) : Prop := data = L ++ flat_map chunk procs /\ forall q, In q procs -> zlen (chunk q) = size q.
Lemma write_chunk pre q post chunk data : procs = pre ++ q :: post -> parts chunk data ->
  parts (fun z => if z =? q then dm q else chunk z) (write_data data (zlen L + zlen (flat_map (fun q => mflat (msg q)) pre)) (dm q)).
Proof.
  intros E (-> & C). assert (Iq : In q procs) by (rewrite E; apply in_or_app; right; now left). split.
  - unfold write_data. assert (NQ : ~ In q pre /\ ~ In q post). { rewrite E in ND. apply NoDup_remove_2 in ND. rewrite in_app_iff in ND. tauto. }
    assert (S1 : forall l, ~ In q l -> flat_map (fun z => if z =? q then dm q else chunk z) l = flat_map chunk l).
    { induction l as [|z l IH]; intros N; [reflexivity|]. cbn [flat_map]. cbn [In] in N. rewrite IH by tauto. destruct (Z.eqb_spec z q); [subst; tauto|reflexivity]. }
    assert (Z1 : zlen (flat_map chunk pre) = zlen (flat_map (fun q => mflat (msg q)) pre)). { apply zlen_flat. intros z Hz. apply C. rewrite E. apply in_or_app. now left. }
    rewrite E. rewrite !flat_map_app. cbn [flat_map]. rewrite !S1 by tauto. rewrite Z.eqb_refl. rewrite (DS Iq), <- (C q Iq), <- Z1.
    replace (L ++ flat_map chunk pre ++ chunk q ++ flat_map chunk post) with ((L ++ flat_map chunk pre) ++ chunk q ++ flat_map chunk post) by (now rewrite <- app_assoc).
    rewrite <- zlen_app. unfold zlen at 1. rewrite Nat2Z.id, firstn_app, Nat.sub_diag, firstn_all, firstn_O, app_nil_r.
    replace ((L ++ flat_map chunk pre) ++ chunk q ++ flat_map chunk post) with (((L ++ flat_map chunk pre) ++ chunk q) ++ flat_map chunk post) by (now rewrite <- app_assoc).
    rewrite <- zlen_app. unfold zlen. rewrite Nat2Z.id, skipn_app, Nat.sub_diag, skipn_all. cbn [skipn app]. now rewrite <- app_assoc.
  - intros z Hz. destruct (Z.eqb_spec z q) as [->|N]; [now apply DS|now apply C].
Qed.
Lemma receive_data_loop arrived : forall chunk data, parts chunk data -> NoDup (map fst arrived) -> (forall q, In q (map fst arrived) -> In q procs) -> Forall (fun x => snd x = dm (fst x)) arrived ->
  (forall q, In q procs -> In q (map fst arrived) \/ chunk q = dm q) -> receive_data procs h (zlen L) arrived data = Ok (L ++ flat_map dm procs).
Proof.
  induction arrived as [|[q m] r IH]; intros chunk data PC NA IP F C; cbn [receive_data].
  - f_equal. rewrite (proj1 PC). f_equal. clear - C. induction procs as [|q l IH]; [reflexivity|]. cbn [flat_map]. rewrite IH by (intros z Hz; apply C; now right). destruct (C q (or_introl eq_refl)) as [[]|E]. now rewrite E.
  - cbn [map fst] in *. inversion NA as [|? ? N1 N2]; subst. apply Forall_cons_iff in F. destruct F as [F1 F2]. cbn [fst snd] in F1. subst m. assert (Iq := IP q (or_introl eq_refl)). destruct (in_split _ _ Iq) as (pre & post & E).
    rewrite (recv_range_ok E). cbn [obind fst snd]. rewrite (proj2 (Z.eqb_eq _ _) (DS Iq)). cbn [negb].
    assert (B : zlen data = zlen L + zlen (flat_map (fun q => mflat (msg q)) procs)). { rewrite (proj1 PC), zlen_app. f_equal. apply zlen_flat, PC. }
    rewrite E, flat_map_app in B. cbn [flat_map] in B. rewrite !zlen_app in B. pose proof (zlen_ge0 L). pose proof (zlen_ge0 (flat_map (fun q => mflat (msg q)) pre)). pose proof (zlen_ge0 (flat_map (fun q => mflat (msg q)) post)). pose proof (zlen_ge0 (mflat (msg q))).
    rewrite (proj2 (Z.ltb_ge _ 0)) by lia. rewrite (proj2 (Z.ltb_ge (zlen data) _)) by lia. cbn [orb].
    apply (IH (fun z => if z =? q then dm q else chunk z)); auto.
    + now apply (@write_chunk pre q post chunk data).
    + intros z Hz. apply IP. now right.
    + intros z Hz. destruct (Z.eqb_spec z q) as [->|N]; [now right|]. destruct (C z Hz) as [[A|A]|A]; [congruence|now left|now right].
Qed.
(** the data at the places of the ghosts is replaced by the messages, the data of the local elements stays *)
Theorem receive_data_ok arrived data : zlen data = zlen L + gh_num h -> firstn (length L) data = L -> NoDup (map fst arrived) -> (forall q, In q (map fst arrived) <-> In q procs) -> Forall (fun x => snd x = dm (fst x)) arrived ->
  receive_data procs h (zlen L) arrived data = Ok (L ++ flat_map dm procs).
Proof.
  intros ZL FL NA IA F. assert (SP : exists chunk, parts chunk data).
  { rewrite <- (firstn_skipn (length L) data), FL. rewrite <- (firstn_skipn (length L) data), FL, zlen_app in ZL. rewrite (proj2 (proj2 HG)) in ZL. assert (ZS : zlen (skipn (length L) data) = zlen (flat_map (fun q => mflat (msg q)) procs)) by lia. clear - ZS ND. revert ZS. generalize (skipn (length L) data) as d.
    assert (Q : forall d, zlen d = zlen (flat_map (fun q => mflat (msg q)) procs) -> exists chunk : Z -> list D, d = flat_map chunk procs /\ forall q, In q procs -> zlen (chunk q) = size q).
    { induction procs as [|q l IH]; intros d E; cbn [flat_map] in E.
      - exists (fun _ => []). split; [destruct d as [|? d']; [reflexivity|]; rewrite zlen_cons in E; pose proof (zlen_ge0 d'); rewrite zlen_nil in E; lia|intros q []].
      - inversion ND as [|? ? N1 N2]; subst. rewrite zlen_app in E. pose proof (zlen_ge0 (mflat (msg q))) as G1. pose proof (zlen_ge0 (flat_map (fun q => mflat (msg q)) l)) as G2.
        assert (LD : length d = (length (mflat (msg q)) + length (flat_map (fun q => mflat (msg q)) l))%nat) by (unfold zlen in E; lia).
        destruct (IH N2 (skipn (length (mflat (msg q))) d)) as (chunk & E1 & E2); [unfold zlen; rewrite skipn_length; lia|].
        exists (fun z => if z =? q then firstn (length (mflat (msg q))) d else chunk z). cbn [flat_map]. rewrite Z.eqb_refl. split.
        + transitivity (firstn (length (mflat (msg q))) d ++ skipn (length (mflat (msg q))) d); [symmetry; apply firstn_skipn|]. f_equal. rewrite E1. apply flat_map_ext_in. intros z Hz. destruct (Z.eqb_spec z q); [subst; contradiction|reflexivity].
        + intros z [<-|Hz]; [rewrite Z.eqb_refl; unfold zlen; rewrite firstn_length; lia|]. destruct (Z.eqb_spec z q); [subst; contradiction|now apply E2]. }
    intros d E. destruct (Q d E) as (chunk & -> & C). exists chunk. split; [reflexivity|exact C]. }
  destruct SP as (chunk & PC). apply (receive_data_loop PC NA); auto.
  - intros q Hq. now apply IA.
  - intros q Hq. left. now apply IA.
Qed.
End receive.

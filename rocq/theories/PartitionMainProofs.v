(** The exchange as a whole: what every rank sends and receives, under every schedule. *)
From Verif Require Import Prelude OffsetModel PathSpec SchemeProofs NetModel NetProofs PartitionModel PartitionSpec PartitionRangeProofs PartitionProofs.

(** ** Exchange of one message per pair of ranks *)
Lemma nodup_zseq p n : NoDup (zseq p n).
Proof. revert p. induction n as [|n IH]; intros p; cbn [zseq]; constructor; auto. rewrite in_zseq. lia. Qed.
Lemma find_hd (A : Type) (t : A -> bool) (l : list A) : find t l = hd_error (filter t l).
Proof. induction l as [|x l IH]; [reflexivity|]. cbn [find filter]. destruct (t x); [reflexivity|exact IH]. Qed.
Section exchange.
Variables (M : Type) (P : Z) (sends : Z -> list (Z * M)) (srcs : Z -> list Z) (overlap : Z -> Z -> Prop).
Hypothesis sends_nodup : forall p, 0 <= p < P -> NoDup (map fst (sends p)).
Hypothesis sends_iff : forall p q, 0 <= p < P -> (In q (map fst (sends p)) <-> 0 <= q < P /\ overlap p q).
Hypothesis srcs_nodup : forall q, 0 <= q < P -> NoDup (srcs q).
Hypothesis srcs_iff : forall p q, 0 <= q < P -> (In p (srcs q) <-> 0 <= p < P /\ overlap p q).
Definition prog (p : Z) : list (action M) := net_program p (sends p) (srcs p).

Lemma sent_to_sends q (a : list (Z * M)) (b : list Z) :
  sent_to q (map (fun x => Send (fst x) (snd x)) a ++ map Recv b) = map snd (filter (fun x => fst x =? q) a).
Proof.
  rewrite sent_to_app. assert (E : sent_to q (map (@Recv M) b) = []) by (induction b; [reflexivity|assumption]). rewrite E, app_nil_r. clear E.
  induction a as [|[d m] a IH]; [reflexivity|]. cbn [map filter fst snd sent_to]. destruct (d =? q); cbn [map snd]; now rewrite IH.
Qed.
Lemma sources_srcs (a : list (Z * M)) (b : list Z) : sources (map (fun x => Send (fst x) (snd x)) a ++ map Recv b) = b.
Proof. induction a as [|x a IH]; cbn [map app sources]; [|exact IH]. induction b as [|y b IH]; cbn [map sources]; [reflexivity|now rewrite IH]. Qed.
Lemma filter_filter (A : Type) (f g : A -> bool) l : filter f (filter g l) = filter (fun x => g x && f x) l.
Proof. induction l as [|x l IH]; [reflexivity|]. cbn [filter]. destruct (g x); cbn [filter andb]; [destruct (f x); now rewrite IH|exact IH]. Qed.
Lemma filter_key_nil (q : Z) (l : list (Z * M)) : ~ In q (map fst l) -> filter (fun x => fst x =? q) l = [].
Proof.
  induction l as [|[d m] l IH]; intros H; [reflexivity|]. cbn [filter fst]. destruct (Z.eqb_spec d q) as [->|N]; [exfalso; apply H; now left|]. apply IH. intros Hi. apply H. now right.
Qed.
Lemma filter_key (q : Z) (l : list (Z * M)) : NoDup (map fst l) -> In q (map fst l) -> exists m, filter (fun x => fst x =? q) l = [(q, m)] /\ In (q, m) l.
Proof.
  induction l as [|[d m] l IH]; intros ND H; [destruct H|]. cbn [map fst] in ND. inversion ND as [|? ? N1 N2]; subst. cbn [filter fst]. destruct (Z.eqb_spec d q) as [->|N].
  - exists m. rewrite filter_key_nil by assumption. split; [reflexivity|now left].
  - cbn [map fst] in H. destruct H as [H|H]; [congruence|]. destruct (IH N2 H) as (m' & E1 & E2). exists m'. split; [exact E1|now right].
Qed.
Lemma sent_other p q : p <> q -> sent_to q (prog p) = map snd (filter (fun x => fst x =? q) (sends p)).
Proof.
  intros N. unfold prog, net_program. rewrite sent_to_sends, filter_filter. f_equal. apply filter_ext. intros [d m]. cbn [fst].
  destruct (Z.eqb_spec d q) as [->|]; [|apply andb_false_r]. destruct (Z.eqb_spec q p); [congruence|reflexivity].
Qed.
Lemma sent_self p : sent_to p (prog p) = [].
Proof.
  unfold prog, net_program. rewrite sent_to_sends, filter_filter. rewrite (filter_ext _ (fun _ => false)).
  - induction (sends p) as [|x l IH]; [reflexivity|exact IH].
  - intros [d m]. cbn [fst]. destruct (d =? p); reflexivity.
Qed.
Lemma sources_prog q : sources (prog q) = filter (fun p => negb (p =? q)) (srcs q).
Proof. unfold prog, net_program. apply sources_srcs. Qed.
Lemma prog_matched p q : 0 <= p < P -> 0 <= q < P -> length (sent_to q (prog p)) = count_occ Z.eq_dec (sources (prog q)) p.
Proof.
  intros Hp Hq. rewrite sources_prog. destruct (Z.eq_dec p q) as [->|N].
  - rewrite sent_self. symmetry. apply count_occ_not_In. rewrite filter_In. intros [_ H]. rewrite Z.eqb_refl in H. discriminate.
  - rewrite sent_other, map_length by assumption. destruct (in_dec Z.eq_dec q (map fst (sends p))) as [I|I].
    + destruct (filter_key (sends_nodup Hp) I) as (m & E & _). rewrite E. cbn [length]. symmetry. apply NoDup_count_occ'; [apply NoDup_filter, srcs_nodup, Hq|].
      apply filter_In. split; [apply srcs_iff; auto; split; auto; apply sends_iff in I; tauto|]. destruct (Z.eqb_spec p q); [congruence|reflexivity].
    + rewrite filter_key_nil by assumption. symmetry. apply count_occ_not_In. rewrite filter_In. intros [H _]. apply I. apply sends_iff; auto. split; auto. apply srcs_iff in H; tauto.
Qed.
Lemma prog_first p : sends_first (prog p).
Proof. unfold prog, net_program, sends_first. eauto. Qed.
Lemma prog_range p : 0 <= p < P -> Forall (fun q => 0 <= q < P) (sources (prog p)).
Proof. intros Hp. rewrite sources_prog. apply Forall_forall. intros q H. apply filter_In in H. destruct H as [H _]. apply srcs_iff in H; tauto. Qed.

Lemma exchange_progress n s : nsteps P n (ninit prog) s -> finished P s \/ exists s', nstep P s s'.
Proof. intros H. apply (progress (fun p _ => prog_first p) prog_range prog_matched). exact (ninv_steps H). Qed.
Lemma exchange_done n s : nsteps P n (ninit prog) s -> finished P s -> forall p q, 0 <= p < P -> 0 <= q < P ->
  chan s p q = [] /\ (In p (srcs q) -> exists m, inbox_of q (sends q) (nlog s q) p = Some m /\ In (q, m) (sends p)).
Proof.
  intros H F p q Hp Hq. destruct (delivered (fun p _ => prog_first p) prog_range prog_matched (ninv_steps H) F Hp Hq) as (D1 & D2 & _). split; [exact D1|]. intros HI.
  assert (Iq : In q (map fst (sends p))) by (apply sends_iff; auto; split; auto; apply srcs_iff in HI; tauto).
  destruct (filter_key (sends_nodup Hp) Iq) as (m & E & IM). exists m. split; [|exact IM]. unfold inbox_of. rewrite find_hd. destruct (Z.eqb_spec p q) as [->|N].
  - rewrite E. reflexivity.
  - rewrite sent_other, E in D2 by assumption. cbn [map snd] in D2. unfold from in D2. destruct (filter (fun x => fst x =? p) (nlog s q)) as [|[d x] r]; [discriminate|]. cbn [map snd hd_error] in *. now injection D2 as -> _.
Qed.
End exchange.

Section main.
Variables (P N : Z) (oold onew : list Z).
Hypothesis TO : element_table P N oold.
Hypothesis TN : element_table P N onew.
Notation lo := (lo_ oold onew).
Notation hi := (hi_ oold onew).
Definition ov (p q : Z) : Prop := lo p q < hi p q.

(** the receivers: the ranks of the send range that overlap *)
Definition receivers (p q : Z) (n : nat) : list Z := filter (fun q => lo p q <? hi p q) (zseq q n).
Lemma receivers_all p sf sl q : 0 <= p < P -> 0 <= sf -> sf <= sl -> sl < P -> at_ onew sf <= at_ oold p < at_ onew (sf + 1) -> at_ onew sl <= at_ oold (p + 1) - 1 < at_ onew (sl + 1) ->
  (In q (receivers p sf (Z.to_nat (sl - sf + 1))) <-> 0 <= q < P /\ ov p q).
Proof.
  intros Hp H1 H2 H3 H4 H5. unfold receivers, ov. rewrite filter_In, in_zseq, Z.ltb_lt. split.
  - intros [A B]. split; [lia|exact B].
  - intros [A B]. assert (C := overlap_send TN (p := p) (q := q) Hp H1 H2 H3 H4 H5 A B). split; [lia|exact B].
Qed.
Lemma empty_no_overlap p q : 0 <= q < P -> at_ oold (p + 1) = at_ oold p -> ~ ov p q.
Proof. intros Hq H. unfold ov, lo_, hi_. lia. Qed.

Lemma sources_spec q : 0 <= q < P -> exists srcs, partition_sources P q oold onew = Ok srcs /\ NoDup srcs /\ (forall p, In p srcs <-> 0 <= p < P /\ ov p q) /\
  forall (A : Type) (g : list A), flat_map (fun p => part g (lo p q) (hi p q)) srcs = part g (at_ onew q) (at_ onew (q + 1)).
Proof.
  intros Hq. assert (S1 := tab_step TN Hq). unfold partition_sources. change (ent onew (q + 1)) with (at_ onew (q + 1)). change (ent onew q) with (at_ onew q). destruct (Z.ltb_spec 0 (at_ onew (q + 1) - at_ onew q)) as [C|C].
  - destruct (recvrange_spec TO TN Hq) as (rf & rl & E & R1 & R2 & R3 & R4 & R5); [lia|]. rewrite E. cbn [obind fst snd]. exists (recv_procs rf rl oold). split; [reflexivity|].
    split; [apply recv_procs_nodup|]. split.
    + intros p. unfold ov. split.
      * intros I. assert (0 <= p < P) by (apply in_recv_procs in I; lia). split; [assumption|]. apply (recv_overlap (onew := onew) TO (q := q) (rf := rf) (rl := rl)); auto. lia.
      * intros [Hp Ov]. apply (recv_overlap (onew := onew) TO (q := q) (rf := rf) (rl := rl)); auto. lia.
    + intros A g. unfold recv_procs. rewrite flat_map_filter.
      * rewrite (pieces_cat g TO TN Hq R1) by lia. f_equal. replace (rf + Z.of_nat (Z.to_nat (rl - rf + 1))) with (rl + 1) by lia. lia.
      * intros p _ Em. apply part_nil. unfold part_empty, part_first_element in Em. change (ent oold p) with (at_ oold p) in Em. change (ent oold (p + 1)) with (at_ oold (p + 1)) in Em.
        apply negb_false_iff, Z.leb_le in Em. unfold lo_, hi_. lia.
  - exists []. split; [reflexivity|]. split; [constructor|]. split.
    + intros p. split; [intros []|]. intros [_ O]. unfold ov, lo_, hi_ in O. lia.
    + intros A g. cbn [flat_map]. rewrite part_nil by lia. reflexivity.
Qed.

Section elements.
Variable E : Type.
Implicit Types f : pforest E.
Lemma send_loop_spec f p sf sl : 0 <= p < P -> local_forest f -> pf_num f = at_ oold (p + 1) - at_ oold p -> at_ oold p < at_ oold (p + 1) ->
  0 <= sf -> sf <= sl -> sl < P -> at_ onew sf <= at_ oold p < at_ onew (sf + 1) -> at_ onew sl <= at_ oold (p + 1) - 1 < at_ onew (sl + 1) ->
  forall n q ct, sf <= q -> q + Z.of_nat n = sl + 1 -> tree_at (pf_trees f) ct (lo p q - at_ oold p) ->
  exists sends, send_loop (zseq q n) f p sf sl oold onew ct = Ok sends /\ map fst sends = receivers p q n /\
    Forall (fun x => carries (snd x) (part (tagged f) (lo p (fst x) - at_ oold p) (hi p (fst x) - at_ oold p))) sends.
Proof.
  intros Hp LF Hn NE H1 H2 H3 H4 H5. induction n as [|n IH]; intros q ct Hq Hn' Ht.
  - exists []. split; [reflexivity|]. split; [reflexivity|constructor].
  - cbn [zseq send_loop]. rewrite Hn. rewrite (bounds_spec TN Hp NE H1 H2 H3 H4 H5) by lia. unfold receivers. cbn [zseq filter]. fold (receivers p (q + 1) n).
    assert (M1 := @tab_mono _ _ _ TN (sf + 1) (q + 1) ltac:(lia) ltac:(lia) ltac:(lia)). assert (M2 := @tab_mono _ _ _ TN q sl ltac:(lia) ltac:(lia) ltac:(lia)). assert (S1 := @tab_step _ _ _ TN q ltac:(lia)).
    destruct (Z.ltb_spec 0 (hi p q - 1 - at_ oold p - (lo p q - at_ oold p) + 1)) as [C|C].
    + rewrite (proj2 (Z.ltb_lt (lo p q) (hi p q))) by lia.
      destruct (@fill_buffer_spec _ f ct (lo p q - at_ oold p) (hi p q - 1 - at_ oold p)) as (m & ct' & Em & Cm & Tm); [exact LF|exact Ht|unfold lo_; lia|lia|unfold hi_; lia|].
      rewrite Em. cbn [obind fst snd]. replace (hi p q - 1 - at_ oold p + 1) with (hi p q - at_ oold p) in * by lia.
      destruct (IH (q + 1) ct') as (sends & Es & Fs & Cs); [lia|lia| |].
      { destruct (Z.leb_spec (at_ onew (q + 1)) (at_ oold (p + 1))) as [D|D].
        - replace (lo p (q + 1) - at_ oold p) with (hi p q - at_ oold p) by (unfold lo_, hi_ in *; lia). exact Tm.
        - intros Hlt. exfalso. destruct LF as (_ & Hf & _). unfold tagged in Hf. rewrite zlen_tag in Hf. unfold lo_ in Hlt. lia. }
      rewrite Es. cbn [obind]. eexists. split; [reflexivity|]. cbn [map fst]. rewrite Fs. split; [reflexivity|]. constructor; [exact Cm|exact Cs].
    + rewrite (proj2 (Z.ltb_ge (lo p q) (hi p q))) by lia. destruct (IH (q + 1) ct) as (sends & Es & Fs & Cs); [lia|lia| |].
      { replace (lo p (q + 1)) with (lo p q); [exact Ht|]. unfold lo_, hi_ in *. lia. }
      exists sends. split; [exact Es|]. split; [exact Fs|exact Cs].
Qed.
Lemma tree_at_0 f : local_forest f -> tree_at (pf_trees f) 0 0.
Proof.
  intros (OK & _) Hlt. destruct (pf_trees f) as [|t ts]; [change (count []) with 0 in Hlt; lia|]. exists [], t, ts. split; [reflexivity|]. split; [reflexivity|].
  destruct OK as (O1 & O2 & _). rewrite O1. destruct (pt_elems t) as [|e es]; [congruence|]. rewrite zlen_cons. assert (Q := zlen_ge0 es). lia.
Qed.
Lemma partition_send_spec f p : 0 <= p < P -> local_forest f -> pf_num f = at_ oold (p + 1) - at_ oold p ->
  exists sends, partition_send P p f oold onew = Ok sends /\ NoDup (map fst sends) /\ (forall q, In q (map fst sends) <-> 0 <= q < P /\ ov p q) /\
    Forall (fun x => carries (snd x) (part (tagged f) (lo p (fst x) - at_ oold p) (hi p (fst x) - at_ oold p))) sends.
Proof.
  intros Hp LF Hn. unfold partition_send. rewrite Hn. destruct (sendrange_spec TO TN Hp) as (sf & sl & Er & [(Z0 & -> & ->)|(NE & H1 & H2 & H3 & H4 & H5)]); rewrite Er; cbn [obind].
  - exists []. split; [reflexivity|]. split; [constructor|]. split; [|constructor]. intros q. split; [intros []|]. intros [Hq O]. exfalso. exact (empty_no_overlap Hq Z0 O).
  - destruct (send_loop_spec Hp LF Hn NE H1 H2 H3 H4 H5 (n := Z.to_nat (sl - sf + 1)) (q := sf) (ct := 0)) as (sends & Es & Fs & Cs); [lia|lia| |].
    { replace (lo p sf - at_ oold p) with 0 by (unfold lo_; lia). apply tree_at_0, LF. }
    exists sends. split; [exact Es|]. rewrite Fs. split; [apply NoDup_filter, nodup_zseq|]. split; [|exact Cs]. intros q. apply receivers_all; auto.
Qed.
Lemma partition_recv_spec q (g : list (Z * Z * E)) inbox srcs : 0 <= q < P -> consecutive g -> partition_sources P q oold onew = Ok srcs ->
  (forall p, In p srcs -> exists m, inbox p = Some m /\ carries m (part g (lo p q) (hi p q))) ->
  exists f', partition_recv P q oold onew inbox = Ok f' /\ local_forest f' /\ tagged f' = part g (at_ onew q) (at_ onew (q + 1)).
Proof.
  intros Hq Cg Es Hi. destruct (sources_spec Hq) as (srcs' & Es' & _ & _ & FM). rewrite Es in Es'. injection Es' as <-. unfold partition_sources in Es. unfold partition_recv.
  assert (LF0 : local_forest (PForest 0 (-1) 0 (@nil (ptree E)))) by (split; [exact I|split; reflexivity]).
  destruct (0 <? ent onew (q + 1) - ent onew q).
  - destruct (part_recvrange P q oold onew) as [[rf rl]| | |]; cbn [obind] in *; try discriminate. injection Es as Es. cbn [fst snd] in *. rewrite Es.
    destruct (@recv_loop_spec E inbox (fun p => part g (lo p q) (hi p q)) srcs 0 (PForest 0 (-1) 0 [])) as (f' & E1 & E2 & E3); auto; [lia|split; reflexivity| |].
    { unfold tagged. cbn [pf_trees tag_trees app]. rewrite FM. unfold part. rewrite <- (firstn_skipn (Z.to_nat (at_ onew q)) g) in Cg. apply consecutive_app_inv in Cg. destruct Cg as [_ Cg].
      rewrite <- (firstn_skipn (Z.to_nat (at_ onew (q + 1) - at_ onew q)) (skipn (Z.to_nat (at_ onew q)) g)) in Cg. apply consecutive_app_inv in Cg. apply Cg. }
    exists f'. split; [exact E1|]. split; [exact E2|]. rewrite E3. unfold tagged. cbn [pf_trees tag_trees app]. apply FM.
  - injection Es as <-. exists (PForest 0 (-1) 0 []). split; [reflexivity|]. split; [exact LF0|]. rewrite <- FM. reflexivity.
Qed.
Lemma piece_global (f : Z -> pforest E) p q : (forall p, 0 <= p < P -> local_forest (f p) /\ pf_num (f p) = at_ oold (p + 1) - at_ oold p) -> 0 <= p < P -> ov p q ->
  part (tagged (f p)) (lo p q - at_ oold p) (hi p q - at_ oold p) = part (gather P (fun p => tagged (f p))) (lo p q) (hi p q).
Proof.
  intros H Hp Ov. assert (L : forall p, 0 <= p < P -> zlen (tagged (f p)) = at_ oold (p + 1) - at_ oold p) by (intros r Hr; destruct (H r Hr) as [(_ & A & _) B]; lia).
  assert (R := @tab_range _ _ _ TO p ltac:(lia)).
  rewrite <- (@gather_part _ P N oold (fun p => tagged (f p)) p TO L Hp) at 1. rewrite part_part by (unfold ov, lo_, hi_ in *; lia). f_equal; lia.
Qed.
End elements.

Section data.
Variable D : Type.
Implicit Types d : list D.
Lemma copy_part d a n : 0 < n -> 0 <= a -> a + n <= zlen d -> copy_range d a n = Ok (part d a (a + n)).
Proof.
  intros H1 H2 H3. unfold copy_range, part. destruct (Z.ltb_spec n 0); [lia|]. destruct (Z.eqb_spec n 0); [lia|]. rewrite (proj2 (Z.leb_le 0 a)) by lia. rewrite (proj2 (Z.leb_le (a + n) _)) by lia. cbn [andb]. do 2 f_equal. lia.
Qed.
Lemma send_loop_data_spec d p sf sl : 0 <= p < P -> zlen d = at_ oold (p + 1) - at_ oold p -> at_ oold p < at_ oold (p + 1) ->
  0 <= sf -> sf <= sl -> sl < P -> at_ onew sf <= at_ oold p < at_ onew (sf + 1) -> at_ onew sl <= at_ oold (p + 1) - 1 < at_ onew (sl + 1) ->
  forall n q, sf <= q -> q + Z.of_nat n = sl + 1 ->
  exists sends, send_loop_data (zseq q n) d p (at_ oold (p + 1) - at_ oold p) sf sl oold onew = Ok sends /\ map fst sends = receivers p q n /\
    Forall (fun x => snd x = part d (lo p (fst x) - at_ oold p) (hi p (fst x) - at_ oold p)) sends.
Proof.
  intros Hp Hn NE H1 H2 H3 H4 H5. induction n as [|n IH]; intros q Hq Hn'.
  - exists []. split; [reflexivity|]. split; [reflexivity|constructor].
  - cbn [zseq send_loop_data]. rewrite (bounds_spec TN Hp NE H1 H2 H3 H4 H5) by lia. unfold receivers. cbn [zseq filter]. fold (receivers p (q + 1) n).
    destruct (IH (q + 1)) as (sends & Es & Fs & Cs); [lia|lia|].
    destruct (Z.ltb_spec 0 (hi p q - 1 - at_ oold p - (lo p q - at_ oold p) + 1)) as [C|C].
    + rewrite (proj2 (Z.ltb_lt (lo p q) (hi p q))) by lia. rewrite copy_part; [|lia|unfold lo_; lia|unfold lo_, hi_; lia]. cbn [obind]. rewrite Es. cbn [obind]. eexists. split; [reflexivity|]. cbn [map fst]. rewrite Fs. split; [reflexivity|].
      constructor; [|exact Cs]. cbn [fst snd]. f_equal. lia.
    + rewrite (proj2 (Z.ltb_ge (lo p q) (hi p q))) by lia. exists sends. split; [exact Es|]. split; [exact Fs|exact Cs].
Qed.
Lemma partition_send_data_spec d p : 0 <= p < P -> zlen d = at_ oold (p + 1) - at_ oold p ->
  exists sends, partition_send_data P p (at_ oold (p + 1) - at_ oold p) d oold onew = Ok sends /\ NoDup (map fst sends) /\ (forall q, In q (map fst sends) <-> 0 <= q < P /\ ov p q) /\
    Forall (fun x => snd x = part d (lo p (fst x) - at_ oold p) (hi p (fst x) - at_ oold p)) sends.
Proof.
  intros Hp Hn. unfold partition_send_data. rewrite Hn, Z.eqb_refl. cbn [negb]. destruct (sendrange_spec TO TN Hp) as (sf & sl & Er & [(Z0 & -> & ->)|(NE & H1 & H2 & H3 & H4 & H5)]); rewrite Er; cbn [obind].
  - exists []. split; [reflexivity|]. split; [constructor|]. split; [|constructor]. intros q. split; [intros []|]. intros [Hq O]. exfalso. exact (empty_no_overlap Hq Z0 O).
  - destruct (send_loop_data_spec Hp Hn NE H1 H2 H3 H4 H5 (n := Z.to_nat (sl - sf + 1)) (q := sf)) as (sends & Es & Fs & Cs); [lia|lia|].
    exists sends. split; [exact Es|]. rewrite Fs. split; [apply NoDup_filter, nodup_zseq|]. split; [|exact Cs]. intros q. apply receivers_all; auto.
Qed.
Lemma recv_data_loop inbox (sq : Z -> list D) procs : forall pos out, (forall p, In p procs -> inbox p = Some (sq p)) -> 0 <= pos -> pos + zlen (flat_map sq procs) = zlen out ->
  recv_loop_data procs inbox pos out = Ok (firstn (Z.to_nat pos) out ++ flat_map sq procs).
Proof.
  induction procs as [|p procs IH]; intros pos out H H0 HL.
  - cbn [recv_loop_data flat_map] in *. change (zlen []) with 0 in HL. unfold zlen in HL. rewrite firstn_all2 by lia. now rewrite app_nil_r.
  - cbn [recv_loop_data flat_map] in *. rewrite (H p (or_introl eq_refl)). rewrite zlen_app in HL. assert (Q := zlen_ge0 (flat_map sq procs)). assert (Q' := zlen_ge0 (sq p)). unfold write_at. rewrite (proj2 (Z.leb_le 0 pos)) by lia. rewrite (proj2 (Z.leb_le (pos + zlen (sq p)) _)) by lia. cbn [andb obind].
    assert (L1 : length (firstn (Z.to_nat pos) out) = Z.to_nat pos) by (rewrite firstn_length; unfold zlen in *; lia).
    rewrite IH; [|intros q Hq; apply H; now right|lia|rewrite !zlen_app; unfold zlen in *; rewrite skipn_length, L1; lia].
    replace (Z.to_nat (pos + zlen (sq p))) with (length (firstn (Z.to_nat pos) out ++ sq p)) by (rewrite app_length, L1; unfold zlen; lia).
    rewrite app_assoc, firstn_app, Nat.sub_diag, firstn_all. cbn [firstn]. rewrite app_nil_r, <- app_assoc. reflexivity.
Qed.
Lemma partition_recv_data_spec q (g out : list D) inbox srcs : 0 <= q < P -> zlen g = N -> zlen out = at_ onew (q + 1) - at_ onew q -> partition_sources P q oold onew = Ok srcs ->
  (forall p, In p srcs -> inbox p = Some (part g (lo p q) (hi p q))) ->
  partition_recv_data P q (at_ onew (q + 1) - at_ onew q) out oold onew inbox = Ok (part g (at_ onew q) (at_ onew (q + 1))).
Proof.
  intros Hq Hg Ho Es Hi. destruct (sources_spec Hq) as (srcs' & Es' & _ & _ & FM). rewrite Es in Es'. injection Es' as <-. unfold partition_sources in Es. unfold partition_recv_data.
  rewrite Ho, Z.eqb_refl. cbn [negb]. change (ent onew (q + 1)) with (at_ onew (q + 1)) in Es. change (ent onew q) with (at_ onew q) in Es. destruct (Z.ltb_spec 0 (at_ onew (q + 1) - at_ onew q)) as [C|C].
  - destruct (part_recvrange P q oold onew) as [[rf rl]| | |]; cbn [obind] in *; try discriminate. injection Es as Es. cbn [fst snd] in *. rewrite Es.
    rewrite (@recv_data_loop inbox (fun p => part g (lo p q) (hi p q)) srcs 0 out Hi); [|lia|].
    + rewrite FM. reflexivity.
    + rewrite FM, zlen_part; try lia; assert (R := @tab_range _ _ _ TN q ltac:(lia)); assert (R' := @tab_range _ _ _ TN (q + 1) ltac:(lia)); lia.
  - rewrite part_nil by lia. destruct out as [|x out]; [reflexivity|]. rewrite zlen_cons in Ho. assert (Q := zlen_ge0 out). lia.
Qed.
Lemma piece_data (d : Z -> list D) p q : (forall p, 0 <= p < P -> zlen (d p) = at_ oold (p + 1) - at_ oold p) -> 0 <= p < P -> ov p q ->
  part (d p) (lo p q - at_ oold p) (hi p q - at_ oold p) = part (gather P d) (lo p q) (hi p q).
Proof.
  intros L Hp Ov. assert (R := @tab_range _ _ _ TO p ltac:(lia)).
  rewrite <- (@gather_part _ P N oold d p TO L Hp) at 1. rewrite part_part by (unfold ov, lo_, hi_ in *; lia). f_equal; lia.
Qed.
End data.
End main.

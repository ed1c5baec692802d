(** Properties C21, C23 and C24: partition of a forest.  Vocabulary: PartitionSpec.v (and the message passing of NetModel.v).

    Setting of all theorems: P ranks; two element tables [oold] and [onew] for the same number N of elements; on rank p a local forest
    [f p] with the number of elements that the old table gives it.  The global sequence is the sequence of all (tree, class, element)
    in the order of the ranks. *)
From Verif Require Import Prelude OffsetModel PathSpec SchemeProofs NetModel NetProofs PartitionModel PartitionSpec.
From Verif Require Import PartitionRangeProofs PartitionProofs PartitionMainProofs.

Definition forests_on {E} (P : Z) (o : list Z) (f : Z -> pforest E) : Prop :=
  forall p, 0 <= p < P -> local_forest (f p) /\ pf_num (f p) = at_ o (p + 1) - at_ o p.
Definition global_sequence {E} (P : Z) (f : Z -> pforest E) : list (Z * Z * E) := gather P (fun p => tagged (f p)).
(** every execution, from any point on, either has ended or can go on, and none is longer than the number of actions *)
Definition never_stuck {M} (P : Z) (prog : Z -> list (action M)) : Prop :=
  forall n s, nsteps P n (ninit prog) s -> Z.of_nat n <= num_actions P prog /\ (finished P s \/ exists s', nstep P s s').

Lemma gather_parts (A : Type) P N o (g : list A) (h : Z -> list A) : element_table P N o -> zlen g = N -> (forall q, 0 <= q < P -> h q = part g (at_ o q) (at_ o (q + 1))) -> gather P h = g.
Proof.
  intros T Hg H. assert (G : forall n, Z.of_nat n <= P -> flat_map h (zseq 0 n) = part g 0 (at_ o (Z.of_nat n))).
  { induction n as [|n IH]; intros Hn.
    - cbn [zseq flat_map]. change (Z.of_nat 0) with 0. rewrite (tab_0 T), part_nil by lia. reflexivity.
    - replace (S n) with (n + 1)%nat at 1 by lia. rewrite zseq_app, flat_map_app, IH by lia. cbn [zseq flat_map]. rewrite app_nil_r, H by lia.
      assert (R := @tab_range _ _ _ T (Z.of_nat n) ltac:(lia)). assert (S1 := @tab_step _ _ _ T (Z.of_nat n) ltac:(lia)). replace (0 + Z.of_nat n) with (Z.of_nat n) by lia. rewrite part_cat by lia. f_equal. f_equal. lia. }
  unfold gather. assert (1 <= P) by apply T. rewrite G by lia. replace (Z.of_nat (Z.to_nat P)) with P by lia. rewrite (tab_P T), <- Hg. apply part_all.
Qed.

(** The exchange is set up without error, runs to its end under every schedule, and ends in the right state. *)
Lemma exchange_elements (E : Type) P N oold onew (f : Z -> pforest E) :
  element_table P N oold -> element_table P N onew -> forests_on P oold f -> consecutive (global_sequence P f) ->
  exists sends srcs, let prog p := net_program p (sends p) (srcs p) in
    (forall p, 0 <= p < P -> partition_send P p (f p) oold onew = Ok (sends p) /\ partition_sources P p oold onew = Ok (srcs p)) /\
    (forall p q, 0 <= p < P -> 0 <= q < P -> (In q (map fst (sends p)) <-> In p (srcs q))) /\
    (forall p, 0 <= p < P -> NoDup (map fst (sends p)) /\ NoDup (srcs p)) /\
    never_stuck P prog /\
    (forall n s, nsteps P n (ninit prog) s -> finished P s ->
       (forall p q, 0 <= p < P -> 0 <= q < P -> chan s p q = []) /\
       exists f', forests_on P onew f' /\ forall q, 0 <= q < P ->
         partition_recv P q oold onew (inbox_of q (sends q) (nlog s q)) = Ok (f' q) /\
         tagged (f' q) = part (global_sequence P f) (at_ onew q) (at_ onew (q + 1))).
Proof.
  intros TO TN F C. unfold global_sequence in *.
  set (sends := fun p => match partition_send P p (f p) oold onew with Ok s => s | _ => [] end).
  set (srcs := fun p => match partition_sources P p oold onew with Ok s => s | _ => [] end).
  assert (A1 : forall p, 0 <= p < P -> partition_send P p (f p) oold onew = Ok (sends p) /\ NoDup (map fst (sends p)) /\ (forall q, In q (map fst (sends p)) <-> 0 <= q < P /\ ov oold onew p q) /\
    Forall (fun x => carries (snd x) (part (tagged (f p)) (lo_ oold onew p (fst x) - at_ oold p) (hi_ oold onew p (fst x) - at_ oold p))) (sends p)).
  { intros p Hp. destruct (F p Hp) as [LF Hn]. destruct (partition_send_spec TO TN Hp LF Hn) as (s & E1 & E2). unfold sends. rewrite E1. exact (conj eq_refl E2). }
  assert (A2 : forall q, 0 <= q < P -> partition_sources P q oold onew = Ok (srcs q) /\ NoDup (srcs q) /\ (forall p, In p (srcs q) <-> 0 <= p < P /\ ov oold onew p q)).
  { intros q Hq. destruct (sources_spec TO TN Hq) as (s & E1 & E2 & E3 & _). unfold srcs. rewrite E1. exact (conj eq_refl (conj E2 E3)). }
  assert (X1 : forall p, 0 <= p < P -> NoDup (map fst (sends p))) by (intros p Hp; apply A1, Hp).
  assert (X2 : forall p q, 0 <= p < P -> (In q (map fst (sends p)) <-> 0 <= q < P /\ ov oold onew p q)) by (intros p q Hp; apply A1, Hp).
  assert (X3 : forall q, 0 <= q < P -> NoDup (srcs q)) by (intros q Hq; apply A2, Hq).
  assert (X4 : forall p q, 0 <= q < P -> (In p (srcs q) <-> 0 <= p < P /\ ov oold onew p q)) by (intros p q Hq; apply A2, Hq).
  exists sends, srcs. split; [|split; [|split; [|split]]].
  - intros p Hp. exact (conj (proj1 (A1 p Hp)) (proj1 (A2 p Hp))).
  - intros p q Hp Hq. rewrite (X2 p q Hp), (X4 p q Hq). tauto.
  - intros p Hp. exact (conj (X1 p Hp) (X3 p Hp)).
  - intros n s H. assert (B := nsteps_bound H). assert (B' := @left_nonneg _ P (todo s)). split; [unfold num_actions; unfold left in B at 2; lia|]. exact (exchange_progress X1 X2 X3 X4 H).
  - intros n s H Fin. split; [intros p q Hp Hq; exact (proj1 (exchange_done X1 X2 X3 X4 H Fin Hp Hq))|].
    assert (G : forall q, 0 <= q < P -> exists g, partition_recv P q oold onew (inbox_of q (sends q) (nlog s q)) = Ok g /\ local_forest g /\ tagged g = part (gather P (fun p => tagged (f p))) (at_ onew q) (at_ onew (q + 1))).
    { intros q Hq. apply (partition_recv_spec TO TN Hq C (srcs := srcs q)); [apply A2, Hq|]. intros p Ip. assert (Hp : 0 <= p < P) by (apply X4 in Ip; tauto).
      destruct (proj2 (exchange_done X1 X2 X3 X4 H Fin Hp Hq) Ip) as (m & Em & Im). exists m. split; [exact Em|]. destruct (A1 p Hp) as (_ & _ & _ & Cm). rewrite Forall_forall in Cm. specialize (Cm _ Im). cbn [fst snd] in Cm.
      rewrite (piece_global TO F Hp) in Cm; [exact Cm|]. apply X4 in Ip; tauto. }
    exists (fun q => match partition_recv P q oold onew (inbox_of q (sends q) (nlog s q)) with Ok g => g | _ => PForest 0 (-1) 0 [] end).
    assert (L : forall p, 0 <= p < P -> zlen (tagged (f p)) = at_ oold (p + 1) - at_ oold p) by (intros r Hr; destruct (F r Hr) as [(_ & A & _) B]; lia).
    split.
    + intros q Hq. destruct (G q Hq) as (g & E1 & E2 & E3). rewrite E1. split; [exact E2|]. destruct E2 as (_ & E4 & _). rewrite E4, E3. assert (R := @tab_range _ _ _ TN q ltac:(lia)). assert (R' := @tab_range _ _ _ TN (q + 1) ltac:(lia)). assert (S1 := tab_step TN Hq).
      apply zlen_part; try lia. rewrite (gather_len TO L). lia.
    + intros q Hq. destruct (G q Hq) as (g & E1 & E2 & E3). rewrite E1. exact (conj eq_refl E3).
Qed.

(** C21: whatever the order in which the messages travel, the exchange ends, every rank has a well formed local forest with its share
    of the new table, and the global sequence of (tree, class, element) is the one from before. *)
Theorem C21_partition_preserves : forall (E : Type) P N oold onew (f : Z -> pforest E),
  element_table P N oold -> element_table P N onew -> forests_on P oold f -> consecutive (global_sequence P f) ->
  exists sends srcs, let prog p := net_program p (sends p) (srcs p) in
    (forall p, 0 <= p < P -> partition_send P p (f p) oold onew = Ok (sends p) /\ partition_sources P p oold onew = Ok (srcs p)) /\
    never_stuck P prog /\
    (forall n s, nsteps P n (ninit prog) s -> finished P s ->
       exists f', forests_on P onew f' /\ global_sequence P f' = global_sequence P f /\
         forall q, 0 <= q < P -> partition_recv P q oold onew (inbox_of q (sends q) (nlog s q)) = Ok (f' q)).
Proof.
  intros E P N oold onew f TO TN F C. destruct (exchange_elements TO TN F C) as (sends & srcs & A1 & _ & _ & A4 & A5). exists sends, srcs. split; [exact A1|]. split; [exact A4|].
  intros n s H Fin. destruct (A5 n s H Fin) as (_ & f' & B1 & B2). exists f'. split; [exact B1|]. split; [|intros q Hq; exact (proj1 (B2 q Hq))].
  assert (L : forall p, 0 <= p < P -> zlen (tagged (f p)) = at_ oold (p + 1) - at_ oold p) by (intros r Hr; destruct (F r Hr) as [(_ & A & _) B]; lia).
  exact (gather_parts TN (gather_len TO L) (fun q Hq => proj2 (B2 q Hq))).
Qed.
Print Assumptions C21_partition_preserves.
(** C21: the table of the old forest that the library builds (t8_forest_partition_create_offsets) is the right one *)
Theorem C21_create_offsets : forall nums : list Z, nums <> [] -> Forall (fun n => 0 <= n) nums ->
  let o := create_offsets (fold_right Z.add 0 nums) nums in
  element_table (zlen nums) (fold_right Z.add 0 nums) o /\ forall p, 0 <= p < zlen nums -> at_ o (p + 1) - at_ o p = nth (Z.to_nat p) nums 0.
Proof.
  intros nums NE F o.
  assert (LS : forall l a, length (scan_loop a l) = length l) by (induction l as [|x l IH]; intros a; cbn [scan_loop length]; [reflexivity|now rewrite IH]).
  assert (D : forall l a k, (k < length l)%nat -> nth (S k) (scan_loop a l ++ [a + fold_right Z.add 0 l]) 0 - nth k (scan_loop a l ++ [a + fold_right Z.add 0 l]) 0 = nth k l 0).
  { induction l as [|x l IH]; intros a k Hk; cbn [length] in Hk; [lia|]. cbn [scan_loop app fold_right]. destruct k as [|k].
    - destruct l as [|y l]; cbn [nth scan_loop app fold_right]; lia.
    - change (nth (S (S k)) (a + x - x :: (scan_loop (a + x) l ++ [a + (x + fold_right Z.add 0 l)])) 0) with (nth (S k) (scan_loop (a + x) l ++ [a + (x + fold_right Z.add 0 l)]) 0).
      change (nth (S k) (a + x - x :: (scan_loop (a + x) l ++ [a + (x + fold_right Z.add 0 l)])) 0) with (nth k (scan_loop (a + x) l ++ [a + (x + fold_right Z.add 0 l)]) 0).
      replace (a + (x + fold_right Z.add 0 l)) with (a + x + fold_right Z.add 0 l) by lia. rewrite IH by lia. reflexivity. }
  assert (DZ : forall p, 0 <= p < zlen nums -> at_ o (p + 1) - at_ o p = nth (Z.to_nat p) nums 0).
  { intros p Hp. unfold at_, o, create_offsets. replace (Z.to_nat (p + 1)) with (S (Z.to_nat p)) by lia. change (fold_right Z.add 0 nums) with (0 + fold_right Z.add 0 nums). apply D. unfold zlen in Hp. lia. }
  split; [|exact DZ]. split; [unfold zlen; destruct nums; [congruence|cbn [length]; lia]|]. split; [unfold o, create_offsets; rewrite zlen_app; unfold zlen; rewrite LS; cbn [length]; lia|].
  split; [unfold at_, o, create_offsets; destruct nums as [|z nums]; [congruence|cbn [Z.to_nat scan_loop app nth]; lia]|]. split; [unfold at_, o, create_offsets; rewrite app_nth2; rewrite LS; unfold zlen; [|lia]; replace (Z.to_nat (Z.of_nat (length nums)) - length nums)%nat with 0%nat by lia; reflexivity|].
  intros p Hp. assert (B := DZ p Hp). assert (0 <= nth (Z.to_nat p) nums 0); [|lia]. rewrite Forall_forall in F. apply F, nth_In. unfold zlen in Hp. lia.
Qed.
Print Assumptions C21_create_offsets.
(** C21: offsets given by the user (t8_forest_set_partition_offset) are a table if they start with 0, go up and stay in range *)
Theorem C21_custom_offsets : forall (N : Z) (firsts : list Z), 0 <= N -> firsts <> [] -> nth 0 firsts 0 = 0 ->
  (forall i, 0 <= i < zlen firsts -> znth 0 (firsts ++ [N]) i <= znth 0 (firsts ++ [N]) (i + 1)) ->
  element_table (zlen firsts) N (custom_offsets N firsts).
Proof.
  intros N firsts HN NE H0 HM. unfold custom_offsets. assert (1 <= zlen firsts) by (destruct firsts as [|x l]; [congruence|rewrite zlen_cons; assert (Q := zlen_ge0 l); lia]).
  destruct (Z.eqb_spec N 0) as [->|C].
  - assert (R : forall p, at_ (repeat 0 (length firsts + 1)) p = 0) by (intros p; unfold at_; apply nth_repeat). split; [assumption|]. split; [unfold zlen; rewrite repeat_length; lia|]. split; [apply R|]. split; [apply R|]. intros p Hp. rewrite !R. lia.
  - split; [assumption|]. split; [rewrite zlen_app; reflexivity|]. split; [unfold at_; destruct firsts; [congruence|exact H0]|]. split; [unfold at_, zlen; rewrite app_nth2 by lia; replace (Z.to_nat (Z.of_nat (length firsts)) - length firsts)%nat with 0%nat by lia; reflexivity|].
    intros p Hp. exact (HM p Hp).
Qed.
Print Assumptions C21_custom_offsets.
(** C21: t8_forest_new_gather puts everything on one rank *)
Theorem C21_gather : forall P N r, 0 <= N -> 0 <= r < P ->
  let o := custom_offsets N (map (gather_first N r) (zseq 0 (Z.to_nat P))) in
  element_table P N o /\ at_ o r = 0 /\ at_ o (r + 1) = N.
Proof.
  intros P N r HN Hr o. set (fs := map (gather_first N r) (zseq 0 (Z.to_nat P))).
  assert (Lf : length fs = Z.to_nat P) by (unfold fs; rewrite map_length, zseq_length; reflexivity). assert (Lz : zlen fs = P) by (unfold zlen; rewrite Lf; lia).
  assert (V : forall p, 0 <= p <= P -> znth 0 (fs ++ [N]) p = if p <=? r then 0 else N).
  { intros p Hp. unfold znth. destruct (Z.ltb_spec p P) as [C|C].
    - rewrite app_nth1 by lia. rewrite (nth_indep fs 0 (gather_first N r 0)) by lia. unfold fs. rewrite map_nth, nth_zseq by lia. replace (0 + Z.of_nat (Z.to_nat p)) with p by lia. reflexivity.
    - rewrite app_nth2 by lia. replace (Z.to_nat p - length fs)%nat with 0%nat by lia. cbn [nth]. destruct (Z.leb_spec p r); [lia|reflexivity]. }
  assert (T : element_table P N o).
  { rewrite <- Lz. apply C21_custom_offsets; [exact HN| | |].
    - intros Ef. fold fs in Ef. rewrite Ef in Lf. cbn [length] in Lf. lia.
    - fold fs. assert (V0 := V 0 ltac:(lia)). unfold znth in V0. change (Z.to_nat 0) with 0%nat in V0. rewrite app_nth1 in V0 by lia. rewrite V0. destruct (Z.leb_spec 0 r); [reflexivity|lia].
    - fold fs. rewrite Lz. intros i Hi. rewrite !V by lia. destruct (Z.leb_spec i r), (Z.leb_spec (i + 1) r); lia. }
  split; [exact T|]. unfold o, custom_offsets. fold fs. destruct (Z.eqb_spec N 0) as [->|C].
  - unfold at_. rewrite !nth_repeat. split; reflexivity.
  - assert (A := V r ltac:(lia)). assert (B := V (r + 1) ltac:(lia)). unfold znth in A, B. unfold at_. rewrite A, B. destruct (Z.leb_spec r r); [|lia]. destruct (Z.leb_spec (r + 1) r); [lia|]. split; reflexivity.
Qed.
Print Assumptions C21_gather.

(** C21 needs that no local tree is empty.  A forest from which all elements of a tree were removed keeps that tree with no
    elements; if it is the last tree of a rank it is not sent, and the receiver ends with fewer trees than its range of tree ids. *)
Definition ex_e (l : list Z) (off : Z) : ptree Z := PTree 0 off l.
Theorem C21_empty_tree_refuted : exists (f : Z -> pforest Z) oold onew,
  element_table 2 2 oold /\ element_table 2 2 onew /\
  (forall p, 0 <= p < 2 -> pf_num (f p) = at_ oold (p + 1) - at_ oold p /\ pf_num (f p) = zlen (tagged (f p)) /\ pf_last (f p) - pf_first (f p) + 1 = zlen (pf_trees (f p))) /\
  pf_last (f 0) + 1 = pf_first (f 1) /\
  exists s0 s1 g, partition_send 2 0 (f 0) oold onew = Ok [(0, s0)] /\ partition_send 2 1 (f 1) oold onew = Ok [(0, s1)] /\
    partition_recv 2 0 oold onew (inbox_of 0 [(0, s0)] [(1, s1)]) = Ok g /\ pf_last g - pf_first g + 1 <> zlen (pf_trees g).
Proof.
  exists (fun p => if p =? 0 then PForest 0 1 1 [ex_e [10] 0; ex_e [] 1] else PForest 2 2 1 [ex_e [11] 0]), [0; 1; 2], [0; 2; 2].
  assert (T : forall o, o = [0; 1; 2] \/ o = [0; 2; 2] -> element_table 2 2 o).
  { intros o [-> | ->]; (split; [lia|]; split; [reflexivity|]; split; [reflexivity|]; split; [reflexivity|]); intros p Hp; assert (Q : p = 0 \/ p = 1) by lia; destruct Q as [-> | ->]; vm_compute; discriminate. }
  split; [apply T; auto|]. split; [apply T; auto|]. split; [intros p Hp; assert (Q : p = 0 \/ p = 1) by lia; destruct Q as [-> | ->]; repeat split|]. split; [reflexivity|].
  eexists _, _, _. split; [vm_compute; reflexivity|]. split; [vm_compute; reflexivity|]. split; [vm_compute; reflexivity|]. vm_compute. discriminate.
Qed.
Print Assumptions C21_empty_tree_refuted.

(** C23: rank p sends a message to rank q exactly if q waits for one from p, never more than one, and exactly if some element moves
    from p to q; no schedule gets stuck, and at the end no message is left. *)
Theorem C23_send_recv_match : forall (E : Type) P N oold onew (f : Z -> pforest E),
  element_table P N oold -> element_table P N onew -> forests_on P oold f -> consecutive (global_sequence P f) ->
  exists sends srcs, let prog p := net_program p (sends p) (srcs p) in
    (forall p, 0 <= p < P -> partition_send P p (f p) oold onew = Ok (sends p) /\ partition_sources P p oold onew = Ok (srcs p)) /\
    (forall p, 0 <= p < P -> NoDup (map fst (sends p)) /\ NoDup (srcs p)) /\
    (forall p q, 0 <= p < P -> 0 <= q < P -> (In q (map fst (sends p)) <-> In p (srcs q))) /\
    (forall p q, 0 <= p < P -> 0 <= q < P -> (In p (srcs q) <-> exists g, at_ oold p <= g < at_ oold (p + 1) /\ at_ onew q <= g < at_ onew (q + 1))) /\
    never_stuck P prog /\
    (forall n s, nsteps P n (ninit prog) s -> finished P s -> forall p q, 0 <= p < P -> 0 <= q < P -> chan s p q = []).
Proof.
  intros E P N oold onew f TO TN F C. destruct (exchange_elements TO TN F C) as (sends & srcs & A1 & A2 & A3 & A4 & A5). exists sends, srcs. split; [exact A1|]. split; [exact A3|]. split; [exact A2|].
  split; [|split; [exact A4|intros n s H Fin; exact (proj1 (A5 n s H Fin))]]. intros p q Hp Hq. destruct (sources_spec TO TN Hq) as (s & E1 & _ & E3 & _). rewrite (proj2 (A1 q Hq)) in E1. injection E1 as <-. rewrite E3. unfold ov, lo_, hi_. split.
  - intros [_ H]. exists (Z.max (at_ oold p) (at_ onew q)). lia.
  - intros (g & H1 & H2). split; [exact Hp|lia].
Qed.
Print Assumptions C23_send_recv_match.

(** C24: t8_forest_partition_data, under every schedule: entry number k of the data of all ranks ends up as entry number k *)
Theorem C24_partition_data : forall (D : Type) P N oold onew (din dout : Z -> list D),
  element_table P N oold -> element_table P N onew ->
  (forall p, 0 <= p < P -> zlen (din p) = at_ oold (p + 1) - at_ oold p /\ zlen (dout p) = at_ onew (p + 1) - at_ onew p) ->
  exists sends srcs, let prog p := net_program p (sends p) (srcs p) in
    (forall p, 0 <= p < P -> partition_send_data P p (at_ oold (p + 1) - at_ oold p) (din p) oold onew = Ok (sends p) /\ partition_sources P p oold onew = Ok (srcs p)) /\
    never_stuck P prog /\
    (forall n s, nsteps P n (ninit prog) s -> finished P s ->
       exists res : Z -> list D, gather P res = gather P din /\ (forall q, 0 <= q < P -> zlen (res q) = at_ onew (q + 1) - at_ onew q) /\
         forall q, 0 <= q < P ->
           partition_recv_data P q (at_ onew (q + 1) - at_ onew q) (dout q) oold onew (inbox_of q (sends q) (nlog s q)) = Ok (res q)).
Proof.
  intros D P N oold onew din dout TO TN F.
  set (sends := fun p => match partition_send_data P p (at_ oold (p + 1) - at_ oold p) (din p) oold onew with Ok s => s | _ => [] end).
  set (srcs := fun p => match partition_sources P p oold onew with Ok s => s | _ => [] end).
  assert (A1 : forall p, 0 <= p < P -> partition_send_data P p (at_ oold (p + 1) - at_ oold p) (din p) oold onew = Ok (sends p) /\ NoDup (map fst (sends p)) /\ (forall q, In q (map fst (sends p)) <-> 0 <= q < P /\ ov oold onew p q) /\
    Forall (fun x => snd x = part (din p) (lo_ oold onew p (fst x) - at_ oold p) (hi_ oold onew p (fst x) - at_ oold p)) (sends p)).
  { intros p Hp. destruct (partition_send_data_spec TO TN Hp (proj1 (F p Hp))) as (s & E1 & E2). unfold sends. rewrite E1. exact (conj eq_refl E2). }
  assert (A2 : forall q, 0 <= q < P -> partition_sources P q oold onew = Ok (srcs q) /\ NoDup (srcs q) /\ (forall p, In p (srcs q) <-> 0 <= p < P /\ ov oold onew p q)).
  { intros q Hq. destruct (sources_spec TO TN Hq) as (s & E1 & E2 & E3 & _). unfold srcs. rewrite E1. exact (conj eq_refl (conj E2 E3)). }
  assert (X1 : forall p, 0 <= p < P -> NoDup (map fst (sends p))) by (intros p Hp; apply A1, Hp).
  assert (X2 : forall p q, 0 <= p < P -> (In q (map fst (sends p)) <-> 0 <= q < P /\ ov oold onew p q)) by (intros p q Hp; apply A1, Hp).
  assert (X3 : forall q, 0 <= q < P -> NoDup (srcs q)) by (intros q Hq; apply A2, Hq).
  assert (X4 : forall p q, 0 <= q < P -> (In p (srcs q) <-> 0 <= p < P /\ ov oold onew p q)) by (intros p q Hq; apply A2, Hq).
  assert (L : forall p, 0 <= p < P -> zlen (din p) = at_ oold (p + 1) - at_ oold p) by (intros p Hp; apply (F p Hp)).
  assert (LG := gather_len TO L).
  exists sends, srcs. split; [|split].
  - intros p Hp. exact (conj (proj1 (A1 p Hp)) (proj1 (A2 p Hp))).
  - intros n s H. assert (B := nsteps_bound H). assert (B' := @left_nonneg _ P (todo s)). split; [unfold num_actions; unfold left in B at 2; lia|]. exact (exchange_progress X1 X2 X3 X4 H).
  - intros n s H Fin. exists (fun q => part (gather P din) (at_ onew q) (at_ onew (q + 1))). split; [|split].
    + exact (gather_parts TN LG (fun q Hq => eq_refl)).
    + intros q Hq. assert (R := @tab_range _ _ _ TN q ltac:(lia)). assert (R' := @tab_range _ _ _ TN (q + 1) ltac:(lia)). assert (S1 := tab_step TN Hq). apply zlen_part; lia.
    + intros q Hq. apply (partition_recv_data_spec TO TN Hq LG (proj2 (F q Hq)) (srcs := srcs q)); [apply A2, Hq|]. intros p Ip. assert (Hp : 0 <= p < P) by (apply X4 in Ip; tauto).
      destruct (proj2 (exchange_done X1 X2 X3 X4 H Fin Hp Hq) Ip) as (m & Em & Im). rewrite Em. f_equal. destruct (A1 p Hp) as (_ & _ & _ & Cm). rewrite Forall_forall in Cm. specialize (Cm _ Im). cbn [fst snd] in Cm.
      rewrite Cm. apply (piece_data TO L Hp). apply X4 in Ip; tauto.
Qed.
Print Assumptions C24_partition_data.

(** ** example: three trees, nine elements on four ranks (rank 1 empty), moved to another partition with an empty rank *)
Definition exf (p : Z) : pforest Z :=
  if p =? 0 then PForest 0 1 4 [PTree 3 0 [100; 101; 102]; PTree 4 3 [110]]
  else if p =? 1 then PForest 0 (-1) 0 []
  else if p =? 2 then PForest 1 1 2 [PTree 4 0 [111; 112]]
  else PForest 1 2 3 [PTree 4 0 [113]; PTree 3 1 [120; 121]].
Definition exo := create_offsets 9 [4; 0; 2; 3].
Definition exn := [0; 2; 7; 7; 9].
Example ex_tables : element_table 4 9 exo /\ element_table 4 9 exn.
Proof.
  split; (split; [lia|]; split; [reflexivity|]; split; [reflexivity|]; split; [reflexivity|]); intros p Hp; assert (Q : p = 0 \/ p = 1 \/ p = 2 \/ p = 3) by lia; destruct Q as [-> | [-> | [-> | ->]]]; vm_compute; discriminate.
Qed.
Example ex_forests : forests_on 4 exo exf /\ consecutive (global_sequence 4 exf).
Proof.
  split; [|vm_compute; intuition].
  intros p Hp. assert (Q : p = 0 \/ p = 1 \/ p = 2 \/ p = 3) by lia; destruct Q as [-> | [-> | [-> | ->]]]; (split; [|reflexivity]); unfold local_forest; cbn; repeat split; discriminate.
Qed.
Definition ex_send (p : Z) : list (Z * msg Z) := match partition_send 4 p (exf p) exo exn with Ok s => s | _ => [] end.
Example ex_result : map (fun p => map fst (ex_send p)) [0; 1; 2; 3] = [[0; 1]; []; [1]; [1; 3]] /\
  map (fun p => partition_sources 4 p exo exn) [0; 1; 2; 3] = [Ok [0]; Ok [0; 2; 3]; Ok []; Ok [3]] /\
  (let inbox q p := match find (fun x => fst x =? q) (ex_send p) with Some x => Some (snd x) | None => None end in
   map (fun q => partition_recv 4 q exo exn (inbox q)) [0; 1; 2; 3] =
   [Ok (PForest 0 0 2 [PTree 3 0 [100; 101]]); Ok (PForest 0 1 5 [PTree 3 0 [102]; PTree 4 1 [110; 111; 112; 113]]);
    Ok (PForest 0 (-1) 0 []); Ok (PForest 2 2 2 [PTree 3 0 [120; 121]])]).
Proof. vm_compute. auto. Qed.

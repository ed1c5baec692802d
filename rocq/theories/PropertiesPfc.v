(** Property C37: partition for coarsening.  Vocabulary: PfcSpec.v (families and their places), PartitionSpec.v and NetModel.v.

    Setting of the theorems: a forest of K trees, tree t of class [cl t] with the leaves [lv t], distributed over P ranks by the
    element table [oold]; [onew] is any other table for the same elements (the one computed from the number of elements or the weights,
    C22 and C25).  [sch c] is the scheme of class c. *)
From Verif Require Import Prelude PathSpec SchemeModel SchemeSpec SchemeProofs SchemeInstances ExampleLine OffsetModel LineModel.
From Verif Require Import NetModel NetProofs PartitionModel PartitionSpec PartitionRangeProofs PartitionProofs PartitionMainProofs PropertiesPartition.
From Verif Require Import PfcModel PfcSpec PfcProofs PfcForestProofs PfcMainProofs PfcLocalProofs PfcTableProofs.
#[local] Arguments PfcSpec.family_at {sch} K {cl} lv {t} x s.

Definition setting {sch : Z -> scheme} (K : Z) (cl : Z -> Z) (lv : forall t, list (elt (sch (cl t)))) (P N : Z) (oold onew : list Z)
  (f : Z -> pforest {c : Z & elt (sch c)}) : Prop :=
  leaves_good K lv /\ element_table P N oold /\ element_table P N onew /\ forests_on P oold f /\
  global_sequence P f = leaf_sequence K cl lv /\ K <= 2 ^ 31.
#[local] Arguments setting {sch} K cl lv P N oold onew f.

(** the messages a rank has got at the end of the exchange *)
Lemma exchange_messages (sch : Z -> scheme) (K : Z) (cl : Z -> Z) (lv : forall t, list (elt (sch (cl t)))) P N oold onew (f : Z -> pforest {c : Z & elt (sch c)}) :
  setting K cl lv P N oold onew f ->
  exists sends srcs, let prog p := net_program p (sends p) (srcs p) in
    (forall p, 0 <= p < P -> pfc_exchange sch (f p) oold p P = Ok (sends p, srcs p)) /\ never_stuck P prog /\
    (forall n s, nsteps P n (ninit prog) s -> finished P s -> forall p, 0 <= p < P -> at_ oold p < at_ oold (p + 1) -> received P oold f p (nlog s p)).
Proof.
  intros (good & TO & TN & FO & SEQ & HK).
  set (sends := fun p => match pfc_exchange sch (f p) oold p P with Ok (a, _) => a | _ => [] end). set (srcs := fun p => match pfc_exchange sch (f p) oold p P with Ok (_, b) => b | _ => [] end).
  assert (A : forall p, 0 <= p < P -> pfc_exchange sch (f p) oold p P = Ok (sends p, srcs p) /\ map fst (sends p) = srcs p /\ NoDup (srcs p) /\ (forall q, In q (srcs p) <-> 0 <= q < P /\ near N oold p q) /\
    Forall (fun m => fill sch (f p) oold p (fst m) = Ok (snd m)) (sends p) /\ (at_ oold p < at_ oold (p + 1) -> partner_procs oold p P = Ok (srcs p))).
  { intros p Hp. destruct (exchange_spec good TO FO SEQ HK Hp) as (a & b & E & H). unfold sends, srcs. unfold PfcModel.celt in *. rewrite E. exact (conj eq_refl H). }
  exists sends, srcs.
  assert (X1 : forall p, 0 <= p < P -> NoDup (map fst (sends p))) by (intros p Hp; destruct (A p Hp) as (_ & E & ND & _); rewrite E; exact ND).
  assert (X2 : forall p q, 0 <= p < P -> (In q (map fst (sends p)) <-> 0 <= q < P /\ near N oold p q)) by (intros p q Hp; destruct (A p Hp) as (_ & E & _ & I & _); rewrite E; apply I).
  assert (X3 : forall q, 0 <= q < P -> NoDup (srcs q)) by (intros q Hq; apply A, Hq).
  assert (X4 : forall p q, 0 <= q < P -> (In p (srcs q) <-> 0 <= p < P /\ near N oold p q)).
  { intros p q Hq. destruct (A q Hq) as (_ & _ & _ & I & _). rewrite I. split; intros [Hp Nr]; (split; [exact Hp|]); now apply (near_sym TO). }
  split; [intros p Hp; apply A, Hp|]. split.
  - intros n s H. assert (B := nsteps_bound H). assert (B' := @left_nonneg _ P (todo s)). split; [unfold num_actions; unfold left in B at 2; lia|]. exact (exchange_progress X1 X2 X3 X4 H).
  - intros n s H Fin q Hq NE. assert (DL := fun p Hp => delivered (fun p _ => prog_first sends srcs p) (prog_range sends X4) (prog_matched X1 X2 X3 X4) (ninv_steps H) Fin (p := p) (q := q) Hp Hq).
    destruct (A q Hq) as (_ & _ & _ & I & _ & EP). destruct (DL q Hq) as (_ & _ & EM). rewrite (@sources_prog _ sends srcs q) in EM.
    assert (FS : filter (fun p => negb (p =? q)) (srcs q) = srcs q). { apply filter_all, Forall_forall. intros p Hp. apply I in Hp. destruct Hp as (_ & Np & _). destruct (Z.eqb_spec p q); [congruence|reflexivity]. }
    rewrite FS in EM. split; [rewrite EM; apply EP, NE|]. apply Forall_forall. intros [p m] Hm. cbn [fst snd].
    assert (Ip : In p (srcs q)) by (rewrite <- EM; exact (in_map fst _ _ Hm)). apply I in Ip. destruct Ip as (Hp & Np & _).
    destruct (DL p Hp) as (_ & EF & _). assert (IM : In m (from p (nlog s q))). { unfold from. apply in_map_iff. exists (p, m). split; [reflexivity|]. apply filter_In. split; [exact Hm|apply Z.eqb_refl]. }
    rewrite EF, sent_other in IM by congruence. apply in_map_iff in IM. destruct IM as ([q' m'] & E1 & I1). apply filter_In in I1. destruct I1 as [I1 I2]. cbn [fst snd] in *. apply Z.eqb_eq in I2. subst q' m'.
    destruct (A p Hp) as (_ & _ & _ & _ & FL & _). rewrite Forall_forall in FL. exact (FL _ I1).
Qed.

(** C37: the exchange of messages ends under every schedule; then the table is corrected without error, it is a table again, every
    border that was strictly inside a complete family is moved to the end of the family and every other border is kept, and no border
    is strictly inside a complete family any more. *)
Theorem C37_corrected_table : forall (sch : Z -> scheme) K cl (lv : forall t, list (elt (sch (cl t)))) P N oold onew f,
  setting K cl lv P N oold onew f ->
  exists sends srcs, let prog p := net_program p (sends p) (srcs p) in
    (forall p, 0 <= p < P -> pfc_exchange sch (f p) oold p P = Ok (sends p, srcs p)) /\
    never_stuck P prog /\
    (forall n s, nsteps P n (ninit prog) s -> finished P s ->
       exists locals ocor,
         (forall p, 0 <= p < P -> pfc_local sch (f p) oold onew p P (nlog s p) = Ok (locals p)) /\
         allgatherv_into onew (map locals (zseq 0 (Z.to_nat P))) = Ok ocor /\
         element_table P N ocor /\
         (forall q, 0 <= q <= P -> corrected K lv (at_ onew q) (at_ ocor q)) /\
         (forall q t (x : elt (sch (cl t))) a, 0 <= q <= P -> family_at K lv x a -> ~ (a < at_ ocor q < a + s_num_children x))).
Proof.
  intros sch K cl lv P N oold onew f ST. destruct (exchange_messages ST) as (sends & srcs & A1 & A2 & A3). destruct ST as (good & TO & TN & FO & SEQ & HK). exists sends, srcs. split; [exact A1|]. split; [exact A2|].
  intros n s H Fin. destruct (table_spec good TO TN FO SEQ HK (ms := nlog s) (A3 n s H Fin)) as (locals & ocor & B1 & B2 & B3 & B4). exists locals, ocor. split; [exact B1|]. split; [exact B2|]. split; [exact B3|]. split; [exact B4|].
  intros q t x a Hq F. exact (corrected_uncut good (B4 q Hq) F).
Qed.
Print Assumptions C37_corrected_table.
(** C37: the partition with the corrected table (C21) leaves every complete family on one rank *)
Theorem C37_no_family_split : forall (sch : Z -> scheme) K cl (lv : forall t, list (elt (sch (cl t)))) P N oold onew f,
  setting K cl lv P N oold onew f ->
  exists sends srcs, let prog p := net_program p (sends p) (srcs p) in
    (forall p, 0 <= p < P -> pfc_exchange sch (f p) oold p P = Ok (sends p, srcs p)) /\
    never_stuck P prog /\
    (forall n s, nsteps P n (ninit prog) s -> finished P s ->
       exists locals ocor,
         (forall p, 0 <= p < P -> pfc_local sch (f p) oold onew p P (nlog s p) = Ok (locals p)) /\
         allgatherv_into onew (map locals (zseq 0 (Z.to_nat P))) = Ok ocor /\
         exists sends' srcs', let prog' p := net_program p (sends' p) (srcs' p) in
           (forall p, 0 <= p < P -> partition_send P p (f p) oold ocor = Ok (sends' p) /\ partition_sources P p oold ocor = Ok (srcs' p)) /\
           never_stuck P prog' /\
           (forall n' s', nsteps P n' (ninit prog') s' -> finished P s' ->
              exists f', forests_on P ocor f' /\ global_sequence P f' = leaf_sequence K cl lv /\
                (forall q, 0 <= q < P -> partition_recv P q oold ocor (inbox_of q (sends' q) (nlog s' q)) = Ok (f' q)) /\
                forall t (x : elt (sch (cl t))), family K lv x -> on_one_rank P f' x)).
Proof.
  intros sch K cl lv P N oold onew f ST. destruct (exchange_messages ST) as (sends & srcs & A1 & A2 & A3). destruct ST as (good & TO & TN & FO & SEQ & HK). exists sends, srcs. split; [exact A1|]. split; [exact A2|].
  intros n s H Fin. destruct (table_spec good TO TN FO SEQ HK (ms := nlog s) (A3 n s H Fin)) as (locals & ocor & B1 & B2 & B3 & B4). exists locals, ocor. split; [exact B1|]. split; [exact B2|].
  assert (CS : consecutive (global_sequence P f)) by (rewrite SEQ; exact (sequence_consecutive good)).
  destruct (exchange_elements TO B3 FO CS) as (sends' & srcs' & C1 & _ & _ & C4 & C5). exists sends', srcs'. split; [exact C1|]. split; [exact C4|]. intros n' s' H' Fin'. destruct (C5 n' s' H' Fin') as (_ & f' & D1 & D2). rewrite SEQ in D2.
  exists f'. split; [exact D1|]. split; [apply (gather_parts B3 (zlen_G TO FO SEQ) (fun q Hq => proj2 (D2 q Hq)))|]. split; [intros q Hq; apply D2, Hq|].
  exact (kids_one_rank good TO FO SEQ B3 B4 (fun q Hq => proj2 (D2 q Hq))).
Qed.
Print Assumptions C37_no_family_split.
(** C37 does not hold for more than 2^31 trees: the number of the first local tree is stored in a 32 bit integer
    (t8_forest_pfc_helper.cxx:120), so a rank whose first tree has a larger number looks for its class outside of its trees *)
Theorem C37_many_trees_refuted : forall (sch : Z -> scheme) (f : pforest {c : Z & elt (sch c)}) o rank iproc,
  2 ^ 31 <= pf_first f < 2 ^ 32 -> zlen (pf_trees f) <= 2 ^ 31 -> forall m, fill sch f o rank iproc <> Ok m.
Proof.
  intros sch f o rank iproc H1 H2 m E. unfold fill in E. set (g := if iproc <=? rank then _ else _) in E. destruct (index_from_globalid sch f (ent o rank) g) as [[[[it T] i] e]| | |] eqn:EI; try discriminate. cbn [obind] in E.
  assert (Q : it < pf_first f).
  { unfold index_from_globalid in EI. unfold PfcModel.celt in *. destruct (LeafModel.get_leaf_element _ _ _ _) as [[[el lt]|]| | |]; try discriminate. cbn [obind] in EI. destruct (get_tree (pf_trees f) lt) as [T'| | |] eqn:ET; try discriminate. cbn [obind] in EI. injection EI as <- _ _ _.
    unfold get_tree in ET. destruct (Z.ltb_spec lt 0); [discriminate|]. destruct (nth_error (pf_trees f) (Z.to_nat lt)) eqn:EN; [|discriminate]. assert (LL : (Z.to_nat lt < length (pf_trees f))%nat) by (apply nth_error_Some; congruence). unfold zlen in H2.
    unfold i32. replace ((pf_first f + 2 ^ 31) mod 2 ^ 32) with (pf_first f + 2 ^ 31 - 2 ^ 32); [lia|]. apply Z.mod_unique with (q := 1); lia. }
  unfold PfcModel.celt in E. rewrite (proj2 (Z.leb_gt (pf_first f) it) Q) in E. cbn [andb] in E. discriminate.
Qed.
Print Assumptions C37_many_trees_refuted.

(** an example: a line with the leaves 00, 01, 10, 11 (two families) on three ranks with 1, 3 and 0 leaves; the new table 0, 1, 3, 4
    would cut both families *)
Definition ex_sch (c : Z) : scheme := line_scheme.
Definition ex_leaf (p : list Z) : {c : Z & elt (ex_sch c)} := existT (fun c => elt (ex_sch c)) 1 (ln p).
Definition ex_lv (t : Z) : list (elt (ex_sch ((fun _ => 1) t))) := map ln [[0; 0]; [0; 1]; [1; 0]; [1; 1]].
Definition ex_f (p : Z) : pforest {c : Z & elt (ex_sch c)} :=
  if p =? 0 then PForest 0 0 1 [PTree 1 0 [ex_leaf [0; 0]]]
  else if p =? 1 then PForest 0 0 3 [PTree 1 0 [ex_leaf [0; 1]; ex_leaf [1; 0]; ex_leaf [1; 1]]]
  else PForest 1 0 0 [].
Example ex_setting : setting (sch := ex_sch) 1 (fun _ => 1) ex_lv 3 4 [0; 1; 4; 4] [0; 1; 3; 4] ex_f.
Proof.
  assert (T : forall a b, 0 <= a <= b -> b <= 4 -> element_table 3 4 [0; a; b; 4]).
  { intros a b H1 H2. split; [lia|]. split; [reflexivity|]. split; [reflexivity|]. split; [reflexivity|]. intros p Hp. assert (p = 0 \/ p = 1 \/ p = 2) as [->|[->| ->]] by lia; [change (0 <= a)|change (a <= b)|change (b <= 4)]; lia. }
  split; [|split; [|split; [|split; [|split]]]].
  - intros t Ht. split; [exact line_laws|]. split; [vm_compute; discriminate|]. split; [apply leaf_paths_ordered; vm_compute; reflexivity|discriminate].
  - apply T; lia.
  - apply T; lia.
  - intros p Hp. assert (p = 0 \/ p = 1 \/ p = 2) as [->|[->| ->]] by lia; (split; [split; [|split]|reflexivity]); try reflexivity; cbn [ex_f Z.eqb Pos.eqb pf_trees trees_ok]; repeat split; discriminate.
  - reflexivity.
  - lia.
Qed.
Definition ex_msgs (p : Z) : list (Z * pmsg ex_sch) :=
  let get q := match pfc_exchange ex_sch (ex_f q) [0; 1; 4; 4] q 3 with Ok (a, _) => a | _ => [] end in
  flat_map (fun q => map (fun m => (q, snd m)) (filter (fun m => fst m =? p) (get q))) [0; 1; 2].
Example ex_table :
  (do l0 <- pfc_local ex_sch (ex_f 0) [0; 1; 4; 4] [0; 1; 3; 4] 0 3 (ex_msgs 0);
   do l1 <- pfc_local ex_sch (ex_f 1) [0; 1; 4; 4] [0; 1; 3; 4] 1 3 (ex_msgs 1);
   do l2 <- pfc_local ex_sch (ex_f 2) [0; 1; 4; 4] [0; 1; 3; 4] 2 3 (ex_msgs 2);
   allgatherv_into [0; 1; 3; 4] [l0; l1; l2]) = Ok [0; 2; 4; 4].
Proof. vm_compute. reflexivity. Qed.

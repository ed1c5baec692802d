(** C39: reference counts.  A program that keeps to the documented ownership protocol never touches freed memory, and an
    object lives exactly as long as the program can reach it. *)
From Coq Require Import Relations.
From Verif Require Import Prelude RefcountModel RefcountSpec RefcountProofs RefcountMainProofs RefcountForestProofs.
#[local] Unset Implicit Arguments.

(** At the start there are no objects and no references. *)
Definition nothing : heap := [].
Definition none : owns := fun _ => 0.

(** Every history of calls that keeps to the protocol runs without touching freed memory and without violating an
    assertion, and afterwards the living objects are those the program can reach.  As each beginning of such a history is
    one too, this holds after every call. *)
Theorem C39_protocol_safe : forall ks, keeps_protocol nothing none ks ->
  exists h, run nothing ks = Ok h /\ forall x, alive h x <-> reachable h (own_end nothing none ks) x.
Proof.
  intros ks P. destruct (run_ok ks _ _ Inv_start P) as (h & E & I & _). exists h. split; [exact E|].
  exact (alive_iff h _ I).
Qed.
Print Assumptions C39_protocol_safe.

(** The count of an object is the number of references to it: the program's own and those in living objects. *)
Theorem C39_counts : forall ks h x c, keeps_protocol nothing none ks -> run nothing ks = Ok h -> read h x = Ok c ->
  rc c = own_end nothing none ks x + cnt x (pointers h) /\ 1 <= rc c.
Proof.
  intros ks h x c P E Hr. destruct (run_ok ks _ _ Inv_start P) as (h' & E' & (_ & B & _) & _).
  assert (h' = h) by (unfold nothing in *; congruence). subst h'. destruct (B x c Hr) as (B1 & B2 & _). exact (conj B1 B2).
Qed.
Print Assumptions C39_counts.

(** A destroyed object stays destroyed. *)
Theorem C39_no_return : forall ks1 ks2 h1 x, keeps_protocol nothing none ks1 -> run nothing ks1 = Ok h1 ->
  keeps_protocol h1 (own_end nothing none ks1) ks2 -> 0 <= x < zlen h1 -> ~ alive h1 x ->
  exists h2, run h1 ks2 = Ok h2 /\ ~ alive h2 x.
Proof.
  intros ks1 ks2 h1 x P1 E1 P2 Hx Hd. destruct (run_ok ks1 _ _ Inv_start P1) as (h' & E' & I & _).
  assert (h' = h1) by (unfold nothing in *; congruence). subst h'. destruct (run_ok ks2 _ _ I P2) as (h2 & E2 & _ & _ & N).
  exists h2. split; [exact E2|]. intros Ha. exact (Hd (N x Hx Ha)).
Qed.
Print Assumptions C39_no_return.

(** A program that has given up all its references has released all memory. *)
Theorem C39_no_leak : forall ks h, keeps_protocol nothing none ks -> run nothing ks = Ok h ->
  (forall x, own_end nothing none ks x = 0) -> forall x, ~ alive h x.
Proof.
  intros ks h P E Z0 x Ha. destruct (C39_protocol_safe ks P) as (h' & E' & R).
  assert (h' = h) by (unfold nothing in *; congruence). subst h'. apply R in Ha. destruct Ha as (y & Hy & _). rewrite Z0 in Hy. now apply Hy.
Qed.
Print Assumptions C39_no_leak.

(** An unref destroys the object if its count was one; otherwise it only lowers the count.  (Whatever the history.) *)
Theorem C39_unref_exact : forall h k x h' n o, In k [SchemeUnref x; CmeshUnref x; ForestUnref x] -> exec h k = Ok h' ->
  read h x = Ok (Cell n o) -> (n = 1 -> ~ alive h' x) /\ (n <> 1 -> read h' x = Ok (Cell (n - 1) o)).
Proof.
  intros h k x h' n o Hk E Hr.
  assert (X : exact_unref h x h').
  { destruct Hk as [<-|[<-|[<-|[]]]]; cbn [exec] in E;
      [exact (scheme_unref_exact _ _ _ E)|exact (cmesh_unref_exact _ _ _ E)|exact (forest_unref_exact _ _ _ E)]. }
  destruct (X n o Hr) as [X1 X2]. split; [|exact X2]. intros Hn (c & Hc). rewrite (X1 Hn) in Hc. discriminate.
Qed.
Print Assumptions C39_unref_exact.

(** *** A program that keeps to the protocol *)

(** Scheme 0, coarse mesh 1 with geometry handler 2 and uniform partition; forest 3 on it (with a repartitioned coarse
    mesh 4), a second reference to it; forest 5 adapted, partitioned and balanced from it; a search on 5. *)
Definition ex_program : list call :=
  [SchemeNew; CmeshInit; CmeshRegisterGeometry 1; CmeshSetPartition 1; CmeshCommit 1;
   SchemeRef 0; ForestNewUniform 1 0; ForestRef 3;
   ForestInit; ForestSetAdapt 5 (Some 3); ForestSetPartition 5 None; ForestSetBalance 5 None false; ForestCommit 5 3;
   SearchNew 5; SearchUpdate 17 3; ForestUnref 3].
(** Run to its end: what is left. *)
Definition ex_rest : list call := [ForestUnref 5; SearchDelete 17; SchemeUnref 0].

Ltac owned := let x := fresh "x" in intros x; unfold own_after, cnt, none; cbn [given gotten ptr];
  repeat match goal with |- context [zlen ?h] => let v := eval vm_compute in (zlen h) in change (zlen h) with v end;
  cbn [count_occ]; repeat (match goal with |- context [Z.eq_dec ?a ?b] => destruct (Z.eq_dec a b) end); try lia.
Ltac own1 := unfold own_after, cnt, none; vm_compute; discriminate.
Ltac seen := eexists; vm_compute; reflexivity.
Ltac reached x := exists x; split; [own1|apply rt_refl].
Ltac next := let h1 := fresh "h" in let E := fresh "E" in intros h1 E; vm_compute in E; injection E as <-.

Example ex_program_ok : keeps_protocol nothing none (ex_program ++ ex_rest).
Proof.
  unfold ex_program, ex_rest. cbn [app].
  split; [split; [owned|exact Logic.I]|next].
  split; [split; [owned|exact Logic.I]|next].
  split; [split; [owned|split; [own1|eexists; split; [seen|reflexivity]]]|next].
  split; [split; [owned|split; [own1|eexists; split; [seen|reflexivity]]]|next].
  split; [split; [owned|split; [own1|eexists; split; [seen|reflexivity]]]|next].
  split; [split; [owned|split; [reached 0|seen]]|next].
  split; [split; [owned|split; [eexists; split; [seen|reflexivity]|seen]]|next].
  split; [split; [owned|split; [reached 3|eexists; seen]]|next].
  split; [split; [owned|exact Logic.I]|next].
  split; [split; [owned|split; [own1|eexists; split; [seen|]]]|next].
  { do 4 (split; [reflexivity|]). split; [|reflexivity]. eexists; split; [seen|reflexivity]. }
  split; [split; [owned|split; [own1|eexists; split; [seen|]]]|next].
  { do 3 (split; [reflexivity|]). exact Logic.I. }
  split; [split; [owned|split; [own1|eexists; split; [seen|]]]|next].
  { split; [reflexivity|]. exact Logic.I. }
  split; [split; [owned|split; [own1|split; [repeat constructor|eexists; split; [seen|]]]]|next].
  { split; [reflexivity|]. split; [reflexivity|]. split; [reflexivity|discriminate]. }
  split; [split; [owned|split; [reached 5|eexists; split; [seen|reflexivity]]]|next].
  split; [split; [owned|split; [own1|split; [eexists; seen|split; [own1|eexists; split; [seen|reflexivity]]]]]|next].
  split; [split; [owned|eexists; seen]|next].
  split; [split; [owned|eexists; seen]|next].
  split; [split; [owned|eexists; seen]|next].
  split; [split; [owned|seen]|next].
  exact Logic.I.
Qed.
(** The search keeps forest 3 alive; at the end nothing is left. *)
Example ex_program_lives : exists h, run nothing ex_program = Ok h /\ alive h 3 /\ alive h 17 /\ ~ alive h 1.
Proof.
  eexists. split; [vm_compute; reflexivity|]. split; [seen|]. split; [seen|]. intros [c Hc]. vm_compute in Hc. discriminate.
Qed.
Example ex_program_end : exists h, run nothing (ex_program ++ ex_rest) = Ok h /\ forallb (fun v => match v with None => true | _ => false end) h = true.
Proof. eexists. split; vm_compute; reflexivity. Qed.

(** *** What the protocol has to exclude although the code accepts it *)

Lemma own_end_step h own k r h1 y : exec h k = Ok h1 -> own_end h own (k :: r) y = own_end h1 (own_after h own k) r y.
Proof. intros E. cbn [own_end]. now rewrite E. Qed.
Ltac own0 := intros y; repeat (erewrite own_end_step; [|vm_compute; reflexivity]); cbn [own_end]; revert y; owned.

(** A second source forest replaces the first, whose reference is lost: all calls succeed, the program has given away or
    returned all its references, but forest 2 (with its coarse mesh and scheme) stays in memory. *)
Theorem C39_second_source_refuted : exists ks h, run nothing ks = Ok h /\ (forall y, own_end nothing none ks y = 0) /\
  alive h 2 /\ In (ForestSetPartition 4 (Some 2)) ks /\ In (ForestSetBalance 4 (Some 3) false) ks.
Proof.
  exists [SchemeNew; CmeshInit; CmeshCommit 1; ForestNewUniform 1 0; ForestRef 2; ForestNewAdapt 2; ForestInit;
          ForestSetPartition 4 (Some 2); ForestSetBalance 4 (Some 3) false; ForestUnref 4].
  eexists. split; [vm_compute; reflexivity|]. split; [own0|]. split; [seen|]. split; cbn; auto 10.
Qed.
Print Assumptions C39_second_source_refuted.

(** A second scheme for the uniform partition of a coarse mesh replaces the first, which stays in memory. *)
Theorem C39_second_partition_scheme_refuted : exists ks h, run nothing ks = Ok h /\ (forall y, own_end nothing none ks y = 0) /\
  alive h 0 /\ In (CmeshSetPartitionUniform 2 0) ks /\ In (CmeshSetPartitionUniform 2 1) ks.
Proof.
  exists [SchemeNew; SchemeNew; CmeshInit; CmeshSetPartitionUniform 2 0; CmeshSetPartitionUniform 2 1; CmeshUnref 2].
  eexists. split; [vm_compute; reflexivity|]. split; [own0|]. split; [seen|]. split; cbn; auto 10.
Qed.
Print Assumptions C39_second_partition_scheme_refuted.

(** Giving a search the forest that it alone still holds destroys the forest and then uses it, although the forest was
    reachable through the search. *)
Theorem C39_search_update_refuted : exists ks h, keeps_protocol nothing none ks /\ run nothing ks = Ok h /\
  reachable h (own_end nothing none ks) 2 /\ exec h (SearchUpdate 3 2) = Oob.
Proof.
  exists [SchemeNew; CmeshInit; CmeshCommit 1; ForestNewUniform 1 0; SearchNew 2; ForestUnref 2].
  eexists. split; [|split; [vm_compute; reflexivity|split; [|vm_compute; reflexivity]]].
  - split; [split; [owned|exact Logic.I]|next]. split; [split; [owned|exact Logic.I]|next].
    split; [split; [owned|split; [own1|eexists; split; [seen|reflexivity]]]|next].
    split; [split; [owned|split; [eexists; split; [seen|reflexivity]|seen]]|next].
    split; [split; [owned|split; [reached 2|eexists; split; [seen|reflexivity]]]|next].
    split; [split; [owned|eexists; seen]|next]. exact Logic.I.
  - exists 3. split; [vm_compute; discriminate|]. apply rt_step. eexists. split; [vm_compute; reflexivity|]. vm_compute. auto.
Qed.
Print Assumptions C39_search_update_refuted.

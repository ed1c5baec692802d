(** Forests, searches and whole programs keep the counts right. *)
From Coq Require Import Relations.
From Verif Require Import Prelude PathSpec SchemeProofs RefcountModel RefcountSpec RefcountProofs RefcountMainProofs.
#[local] Unset Implicit Arguments.

Lemma ref_isa h x h' : refcount_ref h x = Ok h' -> forall y k, isa h y k -> isa h' y k.
Proof.
  unfold refcount_ref. destruct (read h x) as [c| | |] eqn:Hr; cbn [obind]; try discriminate.
  destruct (0 <? rc c); [|discriminate]. intros [= <-] y k. now apply isa_rc.
Qed.

(** ** Setting the members of a forest *)

Lemma forest_modify h own x n f f' : Inv h own -> read h x = Ok (Cell n (OForest f)) -> f_committed f = false ->
  typed h (OForest f') -> (forall y, cnt y (refs (OForest f')) <= own y + cnt y (refs (OForest f))) ->
  Inv (put_forest h x n f') (minus (plus own (refs (OForest f))) (refs (OForest f'))) /\ keeps [x] h (put_forest h x n f') /\
  read (put_forest h x n f') x = Ok (Cell n (OForest f')).
Proof.
  intros I Hr Hc T Ho. destruct (read_get _ _ _ Hr) as [Hi _].
  assert (Hk : isa h x (KForest false)) by (rewrite <- Hc; apply (isa_intro _ _ _ _ Hr)).
  pose proof (unpointed h own x _ I Hk ltac:(auto)) as Hp.
  destruct (modify h own x n _ (OForest f') I Hr Hp T) as [A B]; auto.
  - apply (not_self h x _ _ Hk); auto.
  - discriminate.
  - split; [exact A|]. split; [exact B|]. unfold put_forest. now rewrite read_write_same.
Qed.

Lemma method_cases m : 0 <= m <= FROM_LAST -> In m [0; 1; 2; 3; 4; 5; 6; 7; 8].
Proof. unfold FROM_LAST. intros H. cbn [In]. lia. Qed.
Ltac methods H := apply method_cases in H; cbn [In] in H;
  repeat (destruct H as [H|H]; [|]); [.. | contradiction].

Lemma add_range m g : 0 <= m <= FROM_LAST -> In g [1; 2; 4] -> 0 <= add_method m g < FROM_LAST.
Proof.
  intros H Hg. cbn [In] in Hg. methods H; subst m; destruct Hg as [<-|[<-|[<-|[]]]]; vm_compute; split; congruence.
Qed.
Lemma add_adapt m g : 0 <= m <= FROM_LAST -> In g [2; 4] -> has (add_method m g) FROM_ADAPT = true -> has m FROM_ADAPT = true.
Proof.
  intros H Hg. cbn [In] in Hg. methods H; subst m; destruct Hg as [<-|[<-|[]]]; vm_compute; auto.
Qed.

Lemma ptr_overwrite old new y : match new with None => True | Some _ => old = None end ->
  cnt y (ptr (overwrite old new)) = cnt y (ptr old) + cnt y (ptr new).
Proof. destruct new as [z|]; cbn [overwrite]; intros H; [subst old|]; cbn [ptr]; rewrite cnt_nil; lia. Qed.
Lemma all_overwrite h old new k : all_are h old k -> all_are h new k -> all_are h (overwrite old new) k.
Proof. destruct new; cbn; auto. Qed.

Definition from_ok (h : heap) (f : forest) (from : option Z) : Prop :=
  all_are h from (KForest true) /\ match from with None => True | Some _ => f_set_from f = None end.

Ltac fields := cbn [refs typed f_set_from f_scheme f_cmesh f_committed f_from_method f_adapt_fn f_no_repartition ptr].
Ltac start_set Hr := rewrite (read_forest_ok _ _ _ _ Hr); cbn [obind fst snd].

Lemma set_adapt_ok h own x n f from : Inv h own -> read h x = Ok (Cell n (OForest f)) -> f_committed f = false ->
  f_cmesh f = None -> f_scheme f = None -> f_adapt_fn f = false -> from_ok h f from -> (forall y, cnt y (ptr from) <= own y) ->
  exists h', forest_set_adapt h x from = Ok h' /\ Inv h' (minus own (ptr from)) /\ keeps [x] h h' /\
    read h' x = Ok (Cell n (OForest (Forest false None None (overwrite (f_set_from f) from)
      (add_method (f_from_method f) FROM_ADAPT) true (f_no_repartition f)))).
Proof.
  intros I Hr Hc Hm Hs Ha [Hf Hf'] Ho.
  destruct (refs_cmesh_ok _ _ _ _ _ I Hr) as [T _]. cbn [typed] in T. destruct T as (T1 & T2 & T3 & T4 & T5).
  destruct (T5 Hc) as [T6 T7].
  unfold forest_set_adapt. start_set Hr. rewrite Hc, Hm, Hs, Ha. cbn [negb andb is_null check obind].
  set (f' := Forest false None None (overwrite (f_set_from f) from) (add_method (f_from_method f) FROM_ADAPT) true (f_no_repartition f)).
  destruct (forest_modify _ _ x n f f' I Hr Hc) as (A & B & C).
  - unfold f'. fields. split; [now apply all_overwrite|]. split; [intros z [=]|]. split; [intros z [=]|]. split; [discriminate|].
    intros _. split; [|reflexivity]. pose proof (add_range (f_from_method f) FROM_ADAPT T6 ltac:(cbn; auto)). lia.
  - intros y. unfold f'. fields. rewrite Hm, Hs. fields. rewrite !cnt_app, (ptr_overwrite _ _ y Hf'). specialize (Ho y). ow.
  - eexists. split; [reflexivity|]. split; [|split; [exact B|exact C]].
    eapply Inv_ext; [|exact A]. intros y. unfold minus, plus, f'. fields. rewrite Hm, Hs. fields.
    rewrite !cnt_app, (ptr_overwrite _ _ y Hf'). ow.
Qed.

Lemma set_forest_partition_ok h own x n f from : Inv h own -> read h x = Ok (Cell n (OForest f)) -> f_committed f = false ->
  f_cmesh f = None -> f_scheme f = None -> from_ok h f from -> (forall y, cnt y (ptr from) <= own y) ->
  exists h', forest_set_partition h x from = Ok h' /\ Inv h' (minus own (ptr from)) /\ keeps [x] h h' /\
    read h' x = Ok (Cell n (OForest (Forest false None None (overwrite (f_set_from f) from)
      (add_method (f_from_method f) FROM_PARTITION) (f_adapt_fn f) (f_no_repartition f)))).
Proof.
  intros I Hr Hc Hm Hs [Hf Hf'] Ho.
  destruct (refs_cmesh_ok _ _ _ _ _ I Hr) as [T _]. cbn [typed] in T. destruct T as (T1 & T2 & T3 & T4 & T5).
  destruct (T5 Hc) as [T6 T7].
  unfold forest_set_partition. start_set Hr. rewrite Hc, Hm, Hs. cbn [negb andb is_null check obind].
  set (f' := Forest false None None (overwrite (f_set_from f) from) (add_method (f_from_method f) FROM_PARTITION) (f_adapt_fn f) (f_no_repartition f)).
  destruct (forest_modify _ _ x n f f' I Hr Hc) as (A & B & C).
  - unfold f'. fields. split; [now apply all_overwrite|]. split; [intros z [=]|]. split; [intros z [=]|]. split; [discriminate|].
    intros _. split; [pose proof (add_range (f_from_method f) FROM_PARTITION T6 ltac:(cbn; auto)); lia|].
    intros Hh. apply T7. exact (add_adapt _ FROM_PARTITION T6 ltac:(cbn; auto) Hh).
  - intros y. unfold f'. fields. rewrite Hm, Hs. fields. rewrite !cnt_app, (ptr_overwrite _ _ y Hf'). specialize (Ho y). ow.
  - eexists. split; [reflexivity|]. split; [|split; [exact B|exact C]].
    eapply Inv_ext; [|exact A]. intros y. unfold minus, plus, f'. fields. rewrite Hm, Hs. fields.
    rewrite !cnt_app, (ptr_overwrite _ _ y Hf'). ow.
Qed.

Lemma set_balance_ok h own x n f from b : Inv h own -> read h x = Ok (Cell n (OForest f)) -> f_committed f = false ->
  from_ok h f from -> (forall y, cnt y (ptr from) <= own y) ->
  exists h', forest_set_balance h x from b = Ok h' /\ Inv h' (minus own (ptr from)) /\ keeps [x] h h'.
Proof.
  intros I Hr Hc [Hf Hf'] Ho.
  destruct (refs_cmesh_ok _ _ _ _ _ I Hr) as [T _]. cbn [typed] in T. destruct T as (T1 & T2 & T3 & T4 & T5).
  destruct (T5 Hc) as [T6 T7].
  unfold forest_set_balance. start_set Hr. rewrite Hc. cbn [negb andb is_null check obind].
  set (f' := Forest false (f_cmesh f) (f_scheme f) (overwrite (f_set_from f) from) (add_method (f_from_method f) FROM_BALANCE) (f_adapt_fn f) b).
  destruct (forest_modify _ _ x n f f' I Hr Hc) as (A & B & C).
  - unfold f'. fields. split; [now apply all_overwrite|]. split; [assumption|]. split; [assumption|]. split; [discriminate|].
    intros _. split; [pose proof (add_range (f_from_method f) FROM_BALANCE T6 ltac:(cbn; auto)); lia|].
    intros Hh. apply T7. exact (add_adapt _ FROM_BALANCE T6 ltac:(cbn; auto) Hh).
  - intros y. unfold f'. fields. rewrite !cnt_app, (ptr_overwrite _ _ y Hf'). specialize (Ho y). ow.
  - eexists. split; [reflexivity|]. split; [|exact B].
    eapply Inv_ext; [|exact A]. intros y. unfold minus, plus, f'. fields.
    rewrite !cnt_app, (ptr_overwrite _ _ y Hf'). ow.
Qed.

Lemma set_copy_ok h own x n f from : Inv h own -> read h x = Ok (Cell n (OForest f)) -> f_committed f = false ->
  f_cmesh f = None -> f_scheme f = None -> f_set_from f = None -> isa h from (KForest true) -> 1 <= own from ->
  exists h', forest_set_copy h x from = Ok h' /\ Inv h' (minus own [from]) /\ keeps [x] h h'.
Proof.
  intros I Hr Hc Hm Hs Hn Hf Ho.
  unfold forest_set_copy. start_set Hr. rewrite Hc, Hm, Hs, Hn. cbn [negb andb is_null check obind].
  set (f' := Forest false None None (Some from) 0 false false).
  destruct (forest_modify _ _ x n f f' I Hr Hc) as (A & B & C).
  - unfold f'. fields. split; [now apply all_are_Some|]. split; [intros z [=]|]. split; [intros z [=]|]. split; [discriminate|].
    intros _. split; [vm_compute; split; congruence|discriminate].
  - intros y. unfold f'. fields. rewrite Hm, Hs, Hn. fields. pose proof (own_ge0 _ _ y I).
    destruct (Z.eq_dec y from) as [->|N]; ow. rewrite (cnt_other y from) by assumption. lia.
  - eexists. split; [reflexivity|]. split; [|exact B].
    eapply Inv_ext; [|exact A]. intros y. unfold minus, plus, f'. fields. rewrite Hm, Hs, Hn. fields. ow.
Qed.

Lemma set_cmesh_ok h own x n f c : Inv h own -> read h x = Ok (Cell n (OForest f)) -> f_committed f = false ->
  f_cmesh f = None -> f_set_from f = None -> isa h c (KCmesh true) -> 1 <= own c ->
  exists h', forest_set_cmesh h x c = Ok h' /\ Inv h' (minus own [c]) /\ keeps [x] h h' /\
    read h' x = Ok (Cell n (OForest (Forest false (Some c) (f_scheme f) None (f_from_method f) (f_adapt_fn f) (f_no_repartition f)))).
Proof.
  intros I Hr Hc Hm Hn Hf Ho.
  destruct (refs_cmesh_ok _ _ _ _ _ I Hr) as [T _]. cbn [typed] in T. destruct T as (T1 & T2 & T3 & T4 & T5).
  unfold forest_set_cmesh. start_set Hr. rewrite Hc, Hm, Hn. cbn [negb andb is_null check obind].
  set (f' := Forest false (Some c) (f_scheme f) None (f_from_method f) (f_adapt_fn f) (f_no_repartition f)).
  destruct (forest_modify _ _ x n f f' I Hr Hc) as (A & B & C).
  - unfold f'. fields. split; [intros z [=]|]. split; [assumption|]. split; [now apply all_are_Some|]. split; [discriminate|].
    intros _. now apply T5.
  - intros y. unfold f'. fields. rewrite Hm, Hn. fields. pose proof (own_ge0 _ _ y I).
    destruct (Z.eq_dec y c) as [->|N]; ow. rewrite (cnt_other y c) by assumption. lia.
  - eexists. split; [reflexivity|]. split; [|split; [exact B|exact C]].
    eapply Inv_ext; [|exact A]. intros y. unfold minus, plus, f'. fields. rewrite Hm, Hn. fields. ow.
Qed.

Lemma set_scheme_ok h own x n f s : Inv h own -> read h x = Ok (Cell n (OForest f)) -> f_committed f = false ->
  f_scheme f = None -> f_set_from f = None -> isa h s KScheme -> 1 <= own s ->
  exists h', forest_set_scheme h x s = Ok h' /\ Inv h' (minus own [s]) /\ keeps [x] h h' /\
    read h' x = Ok (Cell n (OForest (Forest false (f_cmesh f) (Some s) None (f_from_method f) (f_adapt_fn f) (f_no_repartition f)))).
Proof.
  intros I Hr Hc Hm Hn Hf Ho.
  destruct (refs_cmesh_ok _ _ _ _ _ I Hr) as [T _]. cbn [typed] in T. destruct T as (T1 & T2 & T3 & T4 & T5).
  unfold forest_set_scheme. start_set Hr. rewrite Hc, Hm, Hn. cbn [negb andb is_null check obind].
  set (f' := Forest false (f_cmesh f) (Some s) None (f_from_method f) (f_adapt_fn f) (f_no_repartition f)).
  destruct (forest_modify _ _ x n f f' I Hr Hc) as (A & B & C).
  - unfold f'. fields. split; [intros z [=]|]. split; [now apply all_are_Some|]. split; [assumption|]. split; [discriminate|].
    intros _. now apply T5.
  - intros y. unfold f'. fields. rewrite Hm, Hn. fields. pose proof (own_ge0 _ _ y I).
    destruct (Z.eq_dec y s) as [->|N]; ow. rewrite (cnt_other y s) by assumption. lia.
  - eexists. split; [reflexivity|]. split; [|split; [exact B|exact C]].
    eapply Inv_ext; [|exact A]. intros y. unfold minus, plus, f'. fields. rewrite Hm, Hn. fields. ow.
Qed.

(** ** New objects *)

Lemma alloc_ok h own o : Inv h own -> refs o = [] -> typed h o ->
  Inv (alloc h o) (plus own [zlen h]) /\ keeps [] h (alloc h o) /\ read (alloc h o) (zlen h) = Ok (Cell 1 o).
Proof.
  intros I Hr T. split; [|split; [apply keeps_alloc|apply read_alloc_new]].
  eapply Inv_ext; [|apply (new_object h own o I); [|exact T]].
  - intros y. unfold plus. rewrite Hr, cnt_nil. lia.
  - intros y. rewrite Hr, cnt_nil. apply (own_ge0 _ _ _ I).
Qed.

Definition fresh_forest : forest := Forest false None None None FROM_LAST false false.
Lemma forest_init_ok h own : Inv h own ->
  Inv (forest_init h) (plus own [zlen h]) /\ keeps [] h (forest_init h) /\
  read (forest_init h) (zlen h) = Ok (Cell 1 (OForest fresh_forest)).
Proof.
  intros I. apply alloc_ok; [assumption|reflexivity|]. fields. split; [intros z [=]|]. split; [intros z [=]|].
  split; [intros z [=]|]. split; [discriminate|]. intros _. split; [vm_compute; split; congruence|discriminate].
Qed.
Definition fresh_cmesh : cmesh := Cmesh false None None None false.
Lemma cmesh_init_ok h own : Inv h own ->
  Inv (cmesh_init h) (plus own [zlen h]) /\ keeps [] h (cmesh_init h) /\
  read (cmesh_init h) (zlen h) = Ok (Cell 1 (OCmesh fresh_cmesh)).
Proof.
  intros I. apply alloc_ok; [assumption|reflexivity|]. cbn. split; [intros z [=]|]. split; [intros z [=]|].
  split; [intros z [=]|]. discriminate.
Qed.

Lemma keeps_fresh h h' : keeps [zlen h] h h' -> keeps [] h h'.
Proof. apply keeps_weaken. intros y Hi [<-|[]]. unfold inside in Hi. lia. Qed.

(** t8_forest_partition_cmesh *)
Lemma partition_cmesh_ok h own c : Inv h own -> isa h c (KCmesh true) -> 1 <= own c ->
  exists h' x, partition_cmesh h c = Ok (h', x) /\ Inv h' (plus (minus own [c]) [x]) /\ keeps [] h h' /\ isa h' x (KCmesh true).
Proof.
  intros I Hc Ho. unfold partition_cmesh.
  destruct (cmesh_init_ok h own I) as (I1 & K1 & R1). set (h1 := cmesh_init h) in *.
  assert (C1 : isa h1 c (KCmesh true)).
  { apply (keeps_isa [] h h1 _ c _ I1 K1 ltac:(intros [])); [|exact Hc]. unfold plus. ow. }
  destruct (set_derive_ok h1 _ (zlen h) 1 fresh_cmesh (Some c) I1 R1 eq_refl) as (h2 & E2 & I2 & K2 & R2).
  { now apply all_are_Some. }
  { intros y. unfold plus. cbn [ptr]. pose proof (own_ge0 _ _ y I). destruct (Z.eq_dec y c) as [->|N]; ow.
    rewrite (cnt_other y c) by assumption. lia. }
  rewrite E2. cbn [obind].
  destruct (set_partition_ok h2 _ (zlen h) 1 _ I2 R2 eq_refl) as (h3 & E3 & I3 & K3 & R3). rewrite E3. cbn [obind].
  destruct (cmesh_commit_ok h3 _ (zlen h) 1 _ I3 R3 eq_refl) as (h4 & E4 & I4 & K4 & R4). rewrite E4. cbn [obind].
  exists h4, (zlen h). split; [reflexivity|]. split; [|split; [|exact R4]].
  - eapply Inv_ext; [|exact I4]. intros y. unfold minus, plus. cbn [ptr]. lia.
  - apply keeps_fresh. apply (keeps_trans [zlen h] [zlen h] h h3); [|exact K4|auto].
    apply (keeps_trans [zlen h] [zlen h] h h2); [|exact K3|auto].
    apply (keeps_trans [zlen h] [zlen h] h h1); [|exact K2|auto]. apply (keeps_weaken []); [intros y _ []|exact K1].
Qed.

(** ** Commit *)

Definition commit_ok (commit : heap -> Z -> outcome heap) (good : forest -> Prop) : Prop :=
  forall h own x n f, Inv h own -> read h x = Ok (Cell n (OForest f)) -> f_committed f = false -> ready f -> good f ->
    exists h', commit h x = Ok h' /\ Inv h' own /\ keeps [x] h h' /\ isa h' x (KForest true).

(** Forests built by one method. *)
Definition single (f : forest) : Prop := f_from_method f = FROM_ADAPT \/ f_from_method f = FROM_PARTITION.

(** An intermediate forest is derived by adaptation or partition. *)
Lemma temp_adapt commit h own temp from n : commit_ok commit single -> Inv h own ->
  read h temp = Ok (Cell n (OForest fresh_forest)) -> isa h from (KForest true) -> 1 <= own from ->
  exists h1 h2, forest_set_adapt h temp (Some from) = Ok h1 /\ commit h1 temp = Ok h2 /\ Inv h2 (minus own [from]) /\
    keeps [temp] h h2 /\ isa h2 temp (KForest true).
Proof.
  intros C I Hr Hf Ho.
  destruct (set_adapt_ok h own temp n fresh_forest (Some from) I Hr) as (h1 & E1 & I1 & K1 & R1); try reflexivity.
  { split; [now apply all_are_Some|reflexivity]. }
  { intros y. cbn [ptr]. pose proof (own_ge0 _ _ y I). destruct (Z.eq_dec y from) as [->|N]; ow.
    rewrite (cnt_other y from) by assumption. lia. }
  destruct (C h1 _ temp n _ I1 R1 eq_refl) as (h2 & E2 & I2 & K2 & R2).
  { unfold ready. cbn. split; [reflexivity|]. split; [reflexivity|]. vm_compute. discriminate. }
  { now left. }
  exists h1, h2. split; [exact E1|]. split; [exact E2|]. split; [exact I2|]. split; [|exact R2].
  apply (keeps_trans [temp] [temp] h h1); auto.
Qed.
Lemma temp_partition commit h own temp from n : commit_ok commit single -> Inv h own ->
  read h temp = Ok (Cell n (OForest fresh_forest)) -> isa h from (KForest true) -> 1 <= own from ->
  exists h1 h2, forest_set_partition h temp (Some from) = Ok h1 /\ commit h1 temp = Ok h2 /\ Inv h2 (minus own [from]) /\
    keeps [temp] h h2 /\ isa h2 temp (KForest true).
Proof.
  intros C I Hr Hf Ho.
  destruct (set_forest_partition_ok h own temp n fresh_forest (Some from) I Hr) as (h1 & E1 & I1 & K1 & R1); try reflexivity.
  { split; [now apply all_are_Some|reflexivity]. }
  { intros y. cbn [ptr]. pose proof (own_ge0 _ _ y I). destruct (Z.eq_dec y from) as [->|N]; ow.
    rewrite (cnt_other y from) by assumption. lia. }
  destruct (C h1 _ temp n _ I1 R1 eq_refl) as (h2 & E2 & I2 & K2 & R2).
  { unfold ready. cbn. split; [reflexivity|]. split; [reflexivity|]. vm_compute. discriminate. }
  { now right. }
  exists h1, h2. split; [exact E1|]. split; [exact E2|]. split; [exact I2|]. split; [|exact R2].
  apply (keeps_trans [temp] [temp] h h1); auto.
Qed.

(** t8_forest_balance *)
Lemma balance_loop_ok commit rep : commit_ok commit single -> forall rounds h own from, Inv h own -> isa h from (KForest true) ->
  1 <= own from -> exists h' t, balance_loop commit rep rounds h from = Ok (h', t) /\ Inv h' (plus (minus own [from]) [t]) /\
    keeps [] h h' /\ isa h' t (KForest true).
Proof.
  intros C. induction rounds as [|rounds IH]; intros h own from I Hf Ho.
  - exists h, from. split; [reflexivity|]. split; [|split; [apply keeps_refl|assumption]].
    eapply Inv_ext; [|exact I]. intros y. unfold plus, minus. lia.
  - cbn [balance_loop]. destruct (isa_forest _ _ _ Hf) as (n & f & Hr & _). rewrite (read_forest_ok _ _ _ _ Hr). cbn [obind].
    destruct (forest_init_ok h own I) as (I1 & K1 & R1). set (h1 := forest_init h) in *.
    assert (F1 : isa h1 from (KForest true)).
    { apply (keeps_isa [] h h1 _ from _ I1 K1 ltac:(intros [])); [unfold plus; ow|exact Hf]. }
    destruct (temp_adapt commit h1 _ (zlen h) from 1 C I1 R1 F1) as (h2 & h3 & E2 & E3 & I3 & K3 & R3); [unfold plus; ow|].
    rewrite E2. cbn [obind]. rewrite E3. cbn [obind].
    assert (K03 : keeps [] h h3).
    { apply keeps_fresh. apply (keeps_trans [zlen h] [zlen h] h h1); [|exact K3|auto]. apply (keeps_weaken []); [intros y _ []|exact K1]. }
    assert (S : exists h4 t, (if rep && negb (Nat.eqb rounds 0) then
               let part := zlen h3 in
               do h3 <- forest_set_partition (forest_init h3) part (Some (zlen h)); do h4 <- commit h3 part; Ok (h4, part)
             else Ok (h3, zlen h)) = Ok (h4, t) /\ Inv h4 (plus (minus own [from]) [t]) /\ keeps [] h3 h4 /\ isa h4 t (KForest true)).
    { destruct (rep && negb (Nat.eqb rounds 0)).
      - destruct (forest_init_ok h3 _ I3) as (I4 & K4 & R4). set (h4 := forest_init h3) in *.
        assert (OT : 1 <= plus (minus (plus own [zlen h]) [from]) [zlen h3] (zlen h)).
        { unfold plus, minus. pose proof (own_ge0 _ _ (zlen h) I). assert (N : zlen h <> from).
          { pose proof (isa_inside _ _ _ Hf) as Hi. unfold inside in Hi. lia. }
          rewrite (cnt_other _ _ N). ow. }
        assert (T4 : isa h4 (zlen h) (KForest true)).
        { apply (keeps_isa [] h3 h4 _ (zlen h) _ I4 K4 ltac:(intros [])); [exact OT|exact R3]. }
        destruct (temp_partition commit h4 _ (zlen h3) (zlen h) 1 C I4 R4 T4 OT) as (h5 & h6 & E5 & E6 & I6 & K6 & R6).
        cbn beta zeta. rewrite E5. cbn [obind]. rewrite E6. cbn [obind]. exists h6, (zlen h3). split; [reflexivity|].
        split; [|split; [|exact R6]].
        + eapply Inv_ext; [|exact I6]. intros y. unfold plus, minus. lia.
        + apply keeps_fresh. apply (keeps_trans [zlen h3] [zlen h3] h3 h4); [|exact K6|auto].
          apply (keeps_weaken []); [intros y _ []|exact K4].
      - exists h3, (zlen h). split; [reflexivity|]. split; [|split; [apply keeps_refl|exact R3]].
        eapply Inv_ext; [|exact I3]. intros y. unfold plus, minus. lia. }
    destruct S as (h4 & t & E4 & I4 & K4 & R4). cbn beta zeta in E4 |- *. rewrite E4. cbn [obind fst snd].
    assert (OT : 1 <= plus (minus own [from]) [t] t).
    { unfold plus, minus. pose proof (own_ge0 _ _ t I). destruct (Z.eq_dec t from) as [->|N]; [|rewrite (cnt_other _ _ N)]; ow. }
    destruct (IH h4 _ t I4 R4 OT) as (h5 & t' & E5 & I5 & K5 & R5). exists h5, t'. split; [exact E5|].
    split; [|split; [|exact R5]].
    + eapply Inv_ext; [|exact I5]. intros y. unfold plus, minus. lia.
    + exact (keeps_trans0 _ _ _ _ (keeps_trans0 _ _ _ _ K03 K4) K5).
Qed.

Lemma balance_ok commit rep rounds h own from : commit_ok commit single -> Inv h own -> isa h from (KForest true) -> 1 <= own from ->
  exists h', balance commit rep rounds h from = Ok h' /\ Inv h' own /\ keeps [] h h'.
Proof.
  intros C I Hf Ho. unfold balance. destruct (isa_forest _ _ _ Hf) as (n & f & Hr & _). rewrite (read_forest_ok _ _ _ _ Hr). cbn [obind].
  destruct (ref_ok h own from _ I Hf ltac:(discriminate)) as (h1 & E1 & I1 & K1). rewrite E1. cbn [obind].
  assert (F1 : isa h1 from (KForest true)).
  { apply (keeps_isa [] h h1 _ from _ I1 K1 ltac:(intros [])); [unfold plus; ow|exact Hf]. }
  destruct (balance_loop_ok commit rep C rounds h1 _ from I1 F1) as (h2 & t & E2 & I2 & K2 & R2); [unfold plus; ow|].
  rewrite E2. cbn [obind fst snd]. destruct (isa_forest _ _ _ R2) as (nt & ft & Ht & _). rewrite (read_forest_ok _ _ _ _ Ht). cbn [obind].
  assert (F : releases (forest_unref forest_fuel) (KForest true)) by (apply forest_unref_ok; unfold forest_fuel; lia).
  destruct (F h2 _ t I2 R2) as (h3 & E3 & I3 & K3).
  { unfold plus, minus. pose proof (own_ge0 _ _ t I). ow. }
  exists h3. split; [exact E3|]. split; [|exact (keeps_trans0 _ _ _ _ (keeps_trans0 _ _ _ _ K1 K2) K3)].
  eapply Inv_ext; [|exact I3]. intros y. unfold plus, minus. lia.
Qed.

Definition extra (from from3 : Z) : list Z := if from =? from3 then [] else [from3].

(** The methods left over. *)
Lemma bits m : 0 <= m < FROM_LAST ->
  let m3 := if has m FROM_ADAPT then m - FROM_ADAPT else m in
  let m4 := if has m3 FROM_PARTITION then m3 - FROM_PARTITION else m3 in
  0 <= m4 /\ (has m4 FROM_BALANCE = true -> m4 = FROM_BALANCE).
Proof.
  intros H. assert (H' : 0 <= m <= FROM_LAST) by lia. clear H. methods H'; subst m; vm_compute; split; congruence.
Qed.
(** Only a combination of methods needs intermediate forests. *)
Definition simple (m : Z) : Prop := m = 0 \/ m = FROM_ADAPT \/ m = FROM_PARTITION.
Lemma simple_no_temp m : simple m ->
  (has m FROM_ADAPT && (0 <? m - FROM_ADAPT)) = false /\
  (let m3 := if has m FROM_ADAPT then m - FROM_ADAPT else m in
   (has m3 FROM_PARTITION && (0 <? m3 - FROM_PARTITION)) = false /\
   has (if has m3 FROM_PARTITION then m3 - FROM_PARTITION else m3) FROM_BALANCE = false).
Proof. intros [->|[->| ->]]; vm_compute; auto. Qed.

Section Commit.
  Variables (D : owns) (from c s : Z).
  Hypothesis HD : forall y, 0 <= D y.
  Let L (from3 : Z) : list Z := [from; c; s] ++ extra from from3.

  Lemma L_from f3 : 1 <= plus D (L f3) from.
  Proof. unfold plus, L. specialize (HD from). ow. Qed.
  Lemma L_from3 f3 : 1 <= plus D (L f3) f3.
  Proof.
    unfold plus, L, extra. destruct (Z.eqb_spec from f3) as [->|N]; specialize (HD f3); ow.
  Qed.

  (** Lines 3407-3415. *)
  Lemma stage_release h5 from4 : Inv h5 (plus D (L from4)) -> isa h5 from4 (KForest true) -> isa h5 from (KForest true) ->
    exists h6 h7, (if from =? from4 then Ok h5 else forest_unref forest_fuel h5 from4) = Ok h6 /\
      forest_unref forest_fuel h6 from = Ok h7 /\ Inv h7 (plus D [c; s]) /\ keeps [] h5 h7.
  Proof.
    intros I5 H4 Hf5.
    assert (F : releases (forest_unref forest_fuel) (KForest true)) by (apply forest_unref_ok; unfold forest_fuel; lia).
    assert (S : exists h6, (if from =? from4 then Ok h5 else forest_unref forest_fuel h5 from4) = Ok h6 /\
        Inv h6 (plus D [from; c; s]) /\ keeps [] h5 h6).
    { destruct (Z.eqb_spec from from4) as [<-|N].
      - exists h5. split; [reflexivity|]. split; [|apply keeps_refl]. eapply Inv_ext; [|exact I5].
        intros y. unfold plus, L, extra. now rewrite Z.eqb_refl, app_nil_r.
      - destruct (F h5 _ from4 I5 H4 (L_from3 from4)) as (h6 & E6 & I6 & K6). exists h6. split; [exact E6|]. split; [|exact K6].
        eapply Inv_ext; [|exact I6]. intros y. unfold plus, minus, L, extra. destruct (Z.eqb_spec from from4); [contradiction|]. ow. }
    destruct S as (h6 & E6 & I6 & K6). exists h6.
    assert (O6 : 1 <= plus D [from; c; s] from) by (unfold plus; specialize (HD from); ow).
    assert (F6 : isa h6 from (KForest true)).
    { apply (keeps_isa [] h5 h6 _ from _ I6 K6 ltac:(intros [])); assumption. }
    destruct (F h6 _ from I6 F6 O6) as (h7 & E7 & I7 & K7). exists h7. split; [exact E6|]. split; [exact E7|].
    split; [|exact (keeps_trans0 _ _ _ _ K6 K7)]. eapply Inv_ext; [|exact I7]. intros y. unfold plus, minus. ow.
  Qed.

  Variables (commit : heap -> Z -> outcome heap) (m : Z).
  Definition m3 : Z := if has m FROM_ADAPT then m - FROM_ADAPT else m.
  Definition m4 : Z := if has m3 FROM_PARTITION then m3 - FROM_PARTITION else m3.

  Hypothesis Hi : simple m \/ commit_ok commit single.

  Lemma stage_partition h3 from3 : Inv h3 (plus D (L from3)) -> isa h3 from3 (KForest true) -> isa h3 from (KForest true) ->
    exists h4 from4,
    (if has m3 FROM_PARTITION then
       if 0 <? m3 - FROM_PARTITION then
         let temp := zlen h3 in
         do k1 <- (if from =? from3 then refcount_ref (forest_init h3) from3 else Ok (forest_init h3));
         do k2 <- forest_set_partition k1 temp (Some from3);
         do k3 <- commit k2 temp;
         Ok (k3, (temp, m3 - FROM_PARTITION))
       else do _ <- read_forest h3 from3; Ok (h3, (from3, m3 - FROM_PARTITION))
     else Ok (h3, (from3, m3))) = Ok (h4, (from4, m4)) /\
    Inv h4 (plus D (L from4)) /\ keeps [] h3 h4 /\ isa h4 from4 (KForest true).
  Proof.
    intros I3 H3 Hf3. unfold m4. destruct (has m3 FROM_PARTITION) eqn:Eh.
    - destruct (Z.ltb_spec 0 (m3 - FROM_PARTITION)) as [Lt|Ge].
      + assert (C : commit_ok commit single).
        { destruct Hi as [Hs|C]; [|exact C]. destruct (simple_no_temp m Hs) as (_ & E & _). fold m3 in E. rewrite Eh in E.
          destruct (Z.ltb_spec 0 (m3 - FROM_PARTITION)); [discriminate E|lia]. }
        destruct (forest_init_ok h3 _ I3) as (J1 & K1 & R1). set (k0 := forest_init h3) in *. cbn zeta.
        assert (O3 : forall l, 1 <= plus (plus D (L from3)) l from3).
        { intros l. pose proof (L_from3 from3). unfold plus in *. ow. }
        assert (F1 : isa k0 from3 (KForest true)).
        { apply (keeps_isa [] h3 k0 _ from3 _ J1 K1 ltac:(intros [])); [apply O3|exact H3]. }
        assert (Nz : forall y, isa h3 y (KForest true) -> y <> zlen h3).
        { intros y Hy. pose proof (isa_inside _ _ _ Hy) as Hin. unfold inside in Hin. lia. }
        assert (S : exists k1 nt, (if from =? from3 then refcount_ref k0 from3 else Ok k0) = Ok k1 /\
            Inv k1 (plus (plus D (L from3)) ([zlen h3] ++ (if from =? from3 then [from3] else []))) /\ keeps [] k0 k1 /\
            isa k1 from3 (KForest true) /\ read k1 (zlen h3) = Ok (Cell nt (OForest fresh_forest))).
        { destruct (from =? from3).
          - destruct (ref_ok k0 _ from3 _ J1 F1 ltac:(discriminate)) as (k1 & E1 & J2 & K2).
            assert (J2' : Inv k1 (plus (plus D (L from3)) ([zlen h3] ++ [from3]))).
            { eapply Inv_ext; [|exact J2]. intros y. unfold plus. ow. }
            assert (OT : 1 <= plus (plus D (L from3)) ([zlen h3] ++ [from3]) (zlen h3)) by (unfold plus; specialize (HD (zlen h3)); ow).
            destruct (keeps_read [] k0 k1 _ (zlen h3) _ J2' K2 ltac:(intros []) OT R1) as ([nt ot] & R2 & Eo).
            cbn [obj] in Eo. rewrite Eo in R2. exists k1, nt. split; [exact E1|]. split; [exact J2'|]. split; [exact K2|].
            split; [|exact R2]. apply (keeps_isa [] k0 k1 _ from3 _ J2' K2 ltac:(intros [])); [apply O3|exact F1].
          - exists k0, 1. split; [reflexivity|]. split; [rewrite app_nil_r; exact J1|]. split; [apply keeps_refl|]. split; assumption. }
        destruct S as (k1 & nt & E1 & J2 & K2 & F2 & R2). rewrite E1. cbn [obind].
        destruct (temp_partition commit k1 _ (zlen h3) from3 nt C J2 R2 F2 (O3 _)) as (k2 & k3 & E2 & E3 & J3 & K3 & R3).
        rewrite E2. cbn [obind]. rewrite E3. cbn [obind]. exists k3, (zlen h3). split; [reflexivity|].
        split; [|split; [|exact R3]].
        * eapply Inv_ext; [|exact J3]. intros y. unfold plus, minus, L, extra.
          destruct (Z.eqb_spec from (zlen h3)) as [Ez|_]; [exfalso; now apply (Nz from Hf3)|].
          destruct (Z.eqb_spec from from3) as [->|N]; ow.
        * apply keeps_fresh. apply (keeps_trans [zlen h3] [zlen h3] h3 k1); [|exact K3|auto].
          apply (keeps_weaken []); [intros y _ []|exact (keeps_trans0 _ _ _ _ K1 K2)].
      + destruct (isa_forest _ _ _ H3) as (n & f & Hr & _). rewrite (read_forest_ok _ _ _ _ Hr). cbn [obind].
        exists h3, from3. split; [reflexivity|]. split; [exact I3|]. split; [apply keeps_refl|exact H3].
    - exists h3, from3. split; [reflexivity|]. split; [exact I3|]. split; [apply keeps_refl|exact H3].
  Qed.

  Hypothesis Hm : 0 <= m < FROM_LAST.

  Lemma stage_balance rep rounds h4 from4 : Inv h4 (plus D (L from4)) -> isa h4 from4 (KForest true) ->
    exists h5,
    (if has m4 FROM_BALANCE then do _ <- check (m4 - FROM_BALANCE =? 0); balance commit rep rounds h4 from4 else Ok h4) = Ok h5 /\
    Inv h5 (plus D (L from4)) /\ keeps [] h4 h5.
  Proof.
    intros I4 H4. destruct (has m4 FROM_BALANCE) eqn:Eh.
    - assert (C : commit_ok commit single).
      { destruct Hi as [Hs|C]; [|exact C]. destruct (simple_no_temp m Hs) as (_ & _ & E). fold m3 m4 in E. congruence. }
      destruct (bits m Hm) as [_ B]. fold m3 m4 in B. rewrite (B Eh). rewrite Z.sub_diag, Z.eqb_refl. cbn [check obind].
      exact (balance_ok commit rep rounds h4 _ from4 C I4 H4 (L_from3 from4)).
    - exists h4. split; [reflexivity|]. split; [exact I4|apply keeps_refl].
  Qed.

  Variable h2 : heap.
  Hypothesis Hf : isa h2 from (KForest true).
  Hypothesis I2 : Inv h2 (plus D (L from)).

  Lemma stage_adapt fn : (has m FROM_ADAPT = true -> fn = true) ->
    exists h3 from3,
    (if has m FROM_ADAPT then
       do _ <- check fn;
       if 0 <? m - FROM_ADAPT then
         let temp := zlen h2 in
         do k1 <- refcount_ref (forest_init h2) from;
         do k2 <- forest_set_adapt k1 temp (Some from);
         do k3 <- commit k2 temp;
         Ok (k3, (temp, m - FROM_ADAPT))
       else do _ <- read_forest h2 from; Ok (h2, (from, m - FROM_ADAPT))
     else Ok (h2, (from, m))) = Ok (h3, (from3, m3)) /\
    Inv h3 (plus D (L from3)) /\ keeps [] h2 h3 /\ isa h3 from3 (KForest true).
  Proof.
    intros Ha. destruct (has m FROM_ADAPT) eqn:Eh.
    - rewrite (Ha eq_refl). cbn [check obind]. unfold m3. rewrite Eh. destruct (Z.ltb_spec 0 (m - FROM_ADAPT)) as [Lt|Ge].
      + assert (C : commit_ok commit single).
        { destruct Hi as [Hs|C]; [|exact C]. destruct (simple_no_temp m Hs) as [E _]. rewrite Eh in E.
          destruct (Z.ltb_spec 0 (m - FROM_ADAPT)); [discriminate E|lia]. }
        destruct (forest_init_ok h2 _ I2) as (J1 & K1 & R1). set (k0 := forest_init h2) in *. cbn zeta.
        assert (F1 : isa k0 from (KForest true)).
        { apply (keeps_isa [] h2 k0 _ from _ J1 K1 ltac:(intros [])); [|exact Hf]. pose proof (L_from from). unfold plus in *. ow. }
        destruct (ref_ok k0 _ from _ J1 F1 ltac:(discriminate)) as (k1 & E1 & J2 & K2). rewrite E1. cbn [obind].
        assert (F2 : isa k1 from (KForest true)).
        { apply (keeps_isa [] k0 k1 _ from _ J2 K2 ltac:(intros [])); [|exact F1]. pose proof (L_from from). unfold plus in *. ow. }
        assert (OT : 1 <= plus (plus (plus D (L from)) [zlen h2]) [from] (zlen h2)) by (unfold plus; specialize (HD (zlen h2)); ow).
        destruct (keeps_read [] k0 k1 _ (zlen h2) _ J2 K2 ltac:(intros []) OT R1) as ([nt ot] & R2 & Eo).
        cbn [obj] in Eo. rewrite Eo in R2.
        destruct (temp_adapt commit k1 _ (zlen h2) from nt C J2 R2 F2) as (k2 & k3 & E2 & E3 & J3 & K3 & R3).
        { pose proof (L_from from). unfold plus in *. ow. }
        rewrite E2. cbn [obind]. rewrite E3. cbn [obind]. exists k3, (zlen h2). split; [reflexivity|].
        assert (N : from <> zlen h2).
        { pose proof (isa_inside _ _ _ Hf) as Hin. unfold inside in Hin. lia. }
        split; [|split; [|exact R3]].
        * eapply Inv_ext; [|exact J3]. intros y. unfold plus, minus, L, extra. rewrite Z.eqb_refl.
          destruct (Z.eqb_spec from (zlen h2)); [contradiction|]. ow.
        * apply keeps_fresh. apply (keeps_trans [zlen h2] [zlen h2] h2 k1); [|exact K3|auto].
          apply (keeps_weaken []); [intros y _ []|exact (keeps_trans0 _ _ _ _ K1 K2)].
      + destruct (isa_forest _ _ _ Hf) as (n & f & Hr & _). rewrite (read_forest_ok _ _ _ _ Hr). cbn [obind].
        exists h2, from. split; [reflexivity|]. split; [exact I2|]. split; [apply keeps_refl|exact Hf].
    - exists h2, from. unfold m3. rewrite Eh. split; [reflexivity|]. split; [exact I2|]. split; [apply keeps_refl|exact Hf].
  Qed.
End Commit.

Lemma commit_body fuel rounds : commit_ok (forest_commit (S fuel) rounds)
  (fun f => simple (f_from_method f) \/ commit_ok (forest_commit fuel rounds) single).
Proof.
  intros h own x n f I Hr Hc Hready Hsimple. destruct (read_get _ _ _ Hr) as [Hin _].
  destruct (refs_cmesh_ok _ _ _ _ _ I Hr) as [T Hn]. cbn [typed] in T. destruct T as (T1 & T2 & T3 & T4 & T5).
  destruct (T5 Hc) as [T6 T7].
  cbn [forest_commit]. rewrite (read_forest_ok _ _ _ _ Hr). cbn [obind fst snd]. rewrite Hc.
  destruct (Z.ltb_spec 0 n); [|lia]. cbn [andb negb check obind]. unfold ready in Hready.
  destruct (f_set_from f) as [from|] eqn:Ef.
  - destruct Hready as (Rm & Rs & Rl). rewrite Rm, Rs. cbn [is_null andb].
    assert (Hm : 0 <= f_from_method f < FROM_LAST) by lia.
    destruct (Z.leb_spec 0 (f_from_method f)); [|lia]. destruct (Z.ltb_spec (f_from_method f) FROM_LAST); [|lia].
    cbn [andb check obind].
    assert (Hk : isa h x (KForest false)) by (rewrite <- Hc; apply (isa_intro _ _ _ _ Hr)).
    pose proof (unpointed h own x _ I Hk ltac:(auto)) as Hp.
    destruct (take' h own x n _ I Hr Hp) as (I0 & Ox & _ & K0). cbn [refs] in I0. rewrite Ef, Rm, Rs in I0. cbn [ptr app] in I0.
    set (h0 := write h x None) in *. set (D := drop own x) in *.
    assert (HD : forall y, 0 <= D y) by (intros y; apply (drop_ge0 h own x y I)).
    assert (F0 : isa h0 from (KForest true)).
    { apply (keeps_isa [] h h0 _ from _ I0 K0 ltac:(intros [])); [unfold plus; specialize (HD from); ow|now apply T1]. }
    destruct (isa_forest _ _ _ F0) as (ng & g & Hg & Hgc). rewrite (read_forest_ok _ _ _ _ Hg). cbn [obind snd]. rewrite Hgc.
    cbn [check obind].
    destruct (refs_cmesh_ok _ _ _ _ _ I0 Hg) as [Tg _]. cbn [typed] in Tg. destruct Tg as (_ & G2 & G3 & G4 & _).
    destruct (G4 Hgc) as (_ & Gs & Gc).
    destruct (f_cmesh g) as [c|]; [|contradiction]. destruct (f_scheme g) as [s|]; [|contradiction]. cbn [nonnull obind].
    destruct (ref_ok h0 _ c _ I0 (G3 c eq_refl) ltac:(discriminate)) as (h1 & E1 & I1 & K1). rewrite E1. cbn [obind].
    pose proof (ref_isa _ _ _ E1 _ _ (G2 s eq_refl)) as S1.
    destruct (ref_ok h1 _ s _ I1 S1 ltac:(discriminate)) as (h2 & E2 & I2 & K2). rewrite E2. cbn [obind].
    assert (I2' : Inv h2 (plus D ([from; c; s] ++ extra from from))).
    { eapply Inv_ext; [|exact I2]. intros y. unfold plus, extra. rewrite Z.eqb_refl. ow. }
    pose proof (ref_isa _ _ _ E2 _ _ (ref_isa _ _ _ E1 _ _ F0)) as F2.
    pose proof (ref_isa _ _ _ E2 _ _ S1) as S2. pose proof (ref_isa _ _ _ E2 _ _ (ref_isa _ _ _ E1 _ _ (G3 c eq_refl))) as C2.
    destruct (stage_adapt D from c s HD (forest_commit fuel rounds) (f_from_method f) Hsimple h2 F2 I2' (f_adapt_fn f) T7)
      as (h3 & from3 & E3 & I3 & K3 & F3).
    cbn zeta in E3 |- *. rewrite E3. cbn [obind].
    assert (Of : forall f3, 1 <= plus D ([from; c; s] ++ extra from f3) from) by (intros f3; apply L_from; exact HD).
    assert (Ff3 : isa h3 from (KForest true)).
    { apply (keeps_isa [] h2 h3 _ from _ I3 K3 ltac:(intros [])); [apply Of|exact F2]. }
    destruct (stage_partition D from c s HD (forest_commit fuel rounds) (f_from_method f) Hsimple h3 from3 I3 F3 Ff3)
      as (h4 & from4 & E4 & I4 & K4 & F4).
    cbn zeta in E4 |- *. rewrite E4. cbn [obind].
    destruct (stage_balance D from c s HD (forest_commit fuel rounds) (f_from_method f) Hsimple Hm (negb (f_no_repartition f)) rounds h4 from4 I4 F4)
      as (h5 & E5 & I5 & K5).
    rewrite E5. cbn [obind].
    assert (F45 : isa h5 from4 (KForest true)).
    { apply (keeps_isa [] h4 h5 _ from4 _ I5 K5 ltac:(intros [])); [apply L_from3; exact HD|exact F4]. }
    assert (Ff5 : isa h5 from (KForest true)).
    { apply (keeps_isa [] h3 h5 _ from _ I5 (keeps_trans0 _ _ _ _ K4 K5) ltac:(intros [])); [apply Of|exact Ff3]. }
    destruct (stage_release D from c s HD h5 from4 I5 F45 Ff5) as (h6 & h7 & E6 & E7 & I7 & K7).
    rewrite E6. cbn [obind]. rewrite E7. cbn [obind].
    pose proof (keeps_trans0 _ _ _ _ (keeps_trans0 _ _ _ _ (keeps_trans0 _ _ _ _ K3 K4) K5) K7) as K27.
    pose proof (keeps_trans0 _ _ _ _ (keeps_trans0 _ _ _ _ K1 K2) K27) as K07.
    assert (C7 : isa h7 c (KCmesh true)).
    { apply (keeps_isa [] h2 h7 _ c _ I7 K27 ltac:(intros [])); [unfold plus; specialize (HD c); ow|exact C2]. }
    assert (S7 : isa h7 s KScheme).
    { apply (keeps_isa [] h2 h7 _ s _ I7 K27 ltac:(intros [])); [unfold plus; specialize (HD s); ow|exact S2]. }
    destruct (isa_cmesh _ _ _ C7) as (nc & d & Hd & _). rewrite (read_cmesh_ok _ _ _ _ Hd). cbn [obind snd].
    assert (P : exists h8 r, (if c_set_partition d && has (m3 (f_from_method f)) FROM_PARTITION then partition_cmesh h7 c else Ok (h7, c)) = Ok (h8, r) /\
        Inv h8 (plus D [s; r]) /\ keeps [] h7 h8 /\ isa h8 r (KCmesh true)).
    { destruct (c_set_partition d && has (m3 (f_from_method f)) FROM_PARTITION).
      - destruct (partition_cmesh_ok h7 _ c I7 C7) as (h8 & r & E8 & I8 & K8 & R8); [unfold plus; specialize (HD c); ow|].
        exists h8, r. split; [exact E8|]. split; [|split; assumption]. eapply Inv_ext; [|exact I8]. intros y. unfold plus, minus. ow.
      - exists h7, c. split; [reflexivity|]. split; [|split; [apply keeps_refl|assumption]]. eapply Inv_ext; [|exact I7].
        intros y. unfold plus. ow. }
    destruct P as (h8 & r & E8 & I8 & K8 & R8). rewrite E8. cbn [obind fst snd].
    pose proof (keeps_trans0 _ _ _ _ K07 K8) as K08.
    assert (Hi8 : inside h8 x) by exact (keeps_inside _ _ _ _ (keeps_trans0 _ _ _ _ K0 K08) Hin).
    assert (Hr8 : read h8 x = Oob).
    { apply (keeps_dead h0 h8 x K08); [unfold h0; now apply write_inside|apply read_freed]. }
    assert (S8 : isa h8 s KScheme).
    { apply (keeps_isa [] h7 h8 _ s _ I8 K8 ltac:(intros [])); [unfold plus; specialize (HD s); ow|exact S7]. }
    set (o' := OForest (Forest true (Some r) (Some s) None 0 (f_adapt_fn f) (f_no_repartition f))).
    eexists. split; [reflexivity|]. unfold put_forest. fold o'. split; [|split].
    + eapply Inv_ext; [|apply (put' h8 own x n _ o' I8 Hi8 Ox Hn Hr8)].
      * intros z. unfold minus, plus, o'. fields. ow.
      * unfold o'. fields. split; [intros z [=]|]. split; [now apply all_are_Some|]. split; [now apply all_are_Some|].
        split; [intros _; split; [reflexivity|split; discriminate]|discriminate].
      * intros z. unfold plus, o'. fields. specialize (HD z). unfold D in *. ow.
      * discriminate.
    + apply (keeps_trans [x] [x] h h8); [|now apply keeps_write|auto].
      apply (keeps_weaken [] [x]); [intros z _ []|exact (keeps_trans0 _ _ _ _ K0 K08)].
    + exists (Cell n o'). split; [now rewrite read_write_same|reflexivity].
  - destruct Hready as (Rm & Rs & Rl). rewrite Rl. rewrite Z.eqb_refl. cbn [check obind].
    destruct (f_cmesh f) as [c|] eqn:Em; [|contradiction]. destruct (f_scheme f) as [s|] eqn:Es; [|contradiction]. cbn [nonnull obind].
    destruct (isa_cmesh _ _ _ (T3 c eq_refl)) as (nc & d & Hd & _). rewrite (read_cmesh_ok _ _ _ _ Hd). cbn [obind].
    destruct (T2 s eq_refl) as (cs & Hs & _). rewrite Hs. cbn [obind].
    set (f' := Forest true (Some c) (Some s) None FROM_LAST (f_adapt_fn f) (f_no_repartition f)).
    destruct (forest_modify _ _ x n f f' I Hr Hc) as (A & B & C).
    + unfold f'. fields. split; [intros z [=]|]. split; [assumption|]. split; [assumption|].
      split; [intros _; split; [reflexivity|split; discriminate]|discriminate].
    + intros y. unfold f'. fields. rewrite Em, Es, Ef. fields. pose proof (own_ge0 _ _ y I). ow.
    + eexists. split; [reflexivity|]. split; [|split; [exact B|exists (Cell n (OForest f')); split; [exact C|reflexivity]]].
      eapply Inv_ext; [|exact A]. intros y. unfold minus, plus, f'. fields. rewrite Em, Es, Ef. fields. ow.
Qed.

Lemma commit_single fuel rounds : commit_ok (forest_commit (S fuel) rounds) single.
Proof.
  intros h own x n f I Hr Hc Hy Hs. apply (commit_body fuel rounds h own x n f I Hr Hc Hy). left. unfold simple.
  destruct Hs as [-> | ->]; auto.
Qed.
Lemma commit_any rounds : commit_ok (forest_commit commit_fuel rounds) (fun _ => True).
Proof.
  intros h own x n f I Hr Hc Hy _. apply (commit_body 1 rounds h own x n f I Hr Hc Hy). right. apply commit_single.
Qed.

(** ** Shortcuts *)

Lemma new_adapt_ok h own from : Inv h own -> isa h from (KForest true) -> 1 <= own from ->
  exists h', forest_new_adapt h from = Ok h' /\ Inv h' (plus (minus own [from]) [zlen h]) /\ keeps [] h h'.
Proof.
  intros I Hf Ho. unfold forest_new_adapt.
  destruct (forest_init_ok h own I) as (I1 & K1 & R1). set (h1 := forest_init h) in *.
  assert (F1 : isa h1 from (KForest true)).
  { apply (keeps_isa [] h h1 _ from _ I1 K1 ltac:(intros [])); [unfold plus; ow|exact Hf]. }
  assert (O1 : 1 <= plus own [zlen h] from) by (unfold plus; ow).
  destruct (temp_adapt (forest_commit commit_fuel 1) h1 _ (zlen h) from 1 (commit_single 1 1) I1 R1 F1 O1)
    as (h2 & h3 & E2 & E3 & I3 & K3 & _).
  rewrite E2. cbn [obind]. rewrite E3. exists h3. split; [reflexivity|]. split.
  - eapply Inv_ext; [|exact I3]. intros y. unfold plus, minus. lia.
  - apply keeps_fresh. apply (keeps_trans [zlen h] [zlen h] h h1); [|exact K3|auto].
    apply (keeps_weaken []); [intros y _ []|exact K1].
Qed.

Lemma new_uniform_ok h own c s : Inv h own -> isa h c (KCmesh true) -> isa h s KScheme -> (forall y, cnt y [c; s] <= own y) ->
  exists h', forest_new_uniform h c s = Ok h' /\ Inv h' (plus (minus own [c; s]) [zlen h]) /\ keeps [] h h'.
Proof.
  intros I Hc Hs Ho. unfold forest_new_uniform.
  destruct (isa_cmesh _ _ _ Hc) as (nc & d & Hd & Hdc). rewrite (read_cmesh_ok _ _ _ _ Hd). cbn [obind snd]. rewrite Hdc.
  cbn [check obind].
  destruct (forest_init_ok h own I) as (I1 & K1 & R1). set (h0 := forest_init h) in *.
  assert (Oc : 1 <= own c) by (specialize (Ho c); revert Ho; ow).
  assert (Os : 1 <= own s) by (specialize (Ho s); revert Ho; ow).
  assert (Ni : forall y k, isa h y k -> y <> zlen h).
  { intros y k Hy. apply isa_inside in Hy. unfold inside in Hy. lia. }
  assert (C0 : isa h0 c (KCmesh true)).
  { apply (keeps_isa [] h h0 _ c _ I1 K1 ltac:(intros [])); [unfold plus; ow|exact Hc]. }
  assert (S0 : isa h0 s KScheme).
  { apply (keeps_isa [] h h0 _ s _ I1 K1 ltac:(intros [])); [unfold plus; ow|exact Hs]. }
  assert (P : exists h1 r n, (if c_set_partition d then
             let u := zlen h0 in
             do h1 <- cmesh_set_derive (cmesh_init h0) u (Some c); do h2 <- refcount_ref h1 s;
             do h3 <- cmesh_set_partition_uniform h2 u s; do h4 <- cmesh_commit h3 u; Ok (h4, u)
           else Ok (h0, c)) = Ok (h1, r) /\
       Inv h1 (plus (minus own [c]) [zlen h; r]) /\ keeps [] h0 h1 /\ isa h1 r (KCmesh true) /\
       isa h1 s KScheme /\ read h1 (zlen h) = Ok (Cell n (OForest fresh_forest))).
  { destruct (c_set_partition d).
    - destruct (cmesh_init_ok h0 _ I1) as (J1 & L1 & Q1). set (k0 := cmesh_init h0) in *. cbn zeta. set (u := zlen h0) in *.
      assert (C1 : isa k0 c (KCmesh true)).
      { apply (keeps_isa [] h0 k0 _ c _ J1 L1 ltac:(intros [])); [unfold plus; ow|exact C0]. }
      destruct (set_derive_ok k0 _ u 1 fresh_cmesh (Some c) J1 Q1 eq_refl) as (k1 & E1 & J2 & L2 & Q2).
      { now apply all_are_Some. }
      { intros y. unfold plus. cbn [ptr]. specialize (Ho y). revert Ho. ow. }
      rewrite E1. cbn [obind]. cbn [ptr] in J2.
      assert (Nu : forall y k, isa h0 y k -> y <> u).
      { intros y k Hy. apply isa_inside in Hy. unfold inside in Hy. unfold u. lia. }
      assert (L02 : keeps [u] h0 k1).
      { apply (keeps_trans [u] [u] h0 k0); [|exact L2|auto]. apply (keeps_weaken []); [intros y _ []|exact L1]. }
      assert (Nin : forall y k, isa h0 y k -> ~ In y [u]) by (intros y k Hy [E|[]]; now apply (Nu y k Hy)).
      assert (S1 : isa k1 s KScheme).
      { apply (keeps_isa [u] h0 k1 _ s _ J2 L02 (Nin _ _ S0)); [|exact S0]. unfold plus, minus. specialize (Ho s). revert Ho. ow. }
      destruct (ref_ok k1 _ s _ J2 S1 ltac:(discriminate)) as (k2 & E2 & J3 & L3). rewrite E2. cbn [obind].
      assert (OU : 1 <= plus (minus (plus (plus own [zlen h]) [u]) [c]) [s] u).
      { unfold plus, minus. specialize (Ho u). revert Ho. ow. }
      destruct (keeps_read [] k1 k2 _ u _ J3 L3 ltac:(intros []) OU Q2) as ([nu ou] & Q3 & Eo). cbn [obj] in Eo. rewrite Eo in Q3.
      pose proof (ref_isa _ _ _ E2 _ _ S1) as S2.
      destruct (set_partition_uniform_ok k2 _ u nu _ s J3 Q3 eq_refl eq_refl S2) as (k3 & E3 & J4 & L4 & Q4).
      { unfold plus, minus. specialize (Ho s). revert Ho. ow. }
      rewrite E3. cbn [obind].
      destruct (cmesh_commit_ok k3 _ u nu _ J4 Q4 eq_refl) as (k4 & E4 & J5 & L5 & Q5). rewrite E4. cbn [obind].
      assert (L04 : keeps [u] h0 k4).
      { apply (keeps_trans [u] [u] h0 k3); [|exact L5|auto]. apply (keeps_trans [u] [u] h0 k2); [|exact L4|auto].
        exact (keeps_trans0 _ _ _ _ L02 L3). }
      assert (J5' : Inv k4 (plus (minus own [c]) [zlen h; u])).
      { eapply Inv_ext; [|exact J5]. intros y. unfold plus, minus. ow. }
      assert (Zf : isa h0 (zlen h) (KForest false)) by (exists (Cell 1 (OForest fresh_forest)); split; [exact R1|reflexivity]).
      assert (OZ : 1 <= plus (minus own [c]) [zlen h; u] (zlen h)).
      { unfold plus, minus. specialize (Ho (zlen h)). revert Ho. ow. }
      destruct (keeps_read [u] h0 k4 _ (zlen h) _ J5' L04 (Nin _ _ Zf) OZ R1) as ([nz oz] & Q6 & Eo6). cbn [obj] in Eo6. rewrite Eo6 in Q6.
      exists k4, u, nz. split; [reflexivity|]. split; [exact J5'|]. split; [apply keeps_fresh; exact L04|]. split; [exact Q5|].
      split; [|exact Q6]. apply (keeps_isa [u] h0 k4 _ s _ J5' L04 (Nin _ _ S0)); [|exact S0].
      unfold plus, minus. specialize (Ho s). revert Ho. ow.
    - exists h0, c, 1. split; [reflexivity|]. split; [|split; [apply keeps_refl|split; [exact C0|split; [exact S0|exact R1]]]].
      eapply Inv_ext; [|exact I1]. intros y. unfold plus, minus. ow. }
  destruct P as (h1 & r & n & E1 & I2 & K2 & C1 & S1 & R2). cbn zeta in E1 |- *. rewrite E1. cbn [obind fst snd].
  destruct (set_cmesh_ok h1 _ (zlen h) n fresh_forest r I2 R2) as (h5 & E5 & I5 & K5 & R5); try reflexivity; [exact C1| |].
  { unfold plus, minus. specialize (Ho r). revert Ho. ow. }
  rewrite E5. cbn [obind].
  assert (Nz : ~ In s [zlen h]) by (intros [E|[]]; now apply (Ni s _ Hs)).
  assert (O5 : 1 <= minus (plus (minus own [c]) [zlen h; r]) [r] s).
  { unfold plus, minus. specialize (Ho s). revert Ho. ow. }
  destruct (set_scheme_ok h5 _ (zlen h) n _ s I5 R5) as (h6 & E6 & I6 & K6 & R6); try reflexivity.
  { apply (keeps_isa [zlen h] h1 h5 _ s _ I5 K5 Nz O5 S1). }
  { exact O5. }
  rewrite E6. cbn [obind].
  destruct (commit_any 1 h6 _ (zlen h) n _ I6 R6 eq_refl) as (h7 & E7 & I7 & K7 & _); [|exact Logic.I|].
  { unfold ready. cbn. split; [discriminate|]. split; [discriminate|reflexivity]. }
  exists h7. split; [exact E7|]. split.
  - eapply Inv_ext; [|exact I7]. intros y. unfold plus, minus. ow.
  - apply keeps_fresh. apply (keeps_trans [zlen h] [zlen h] h h6); [|exact K7|auto].
    apply (keeps_trans [zlen h] [zlen h] h h5); [|exact K6|auto]. apply (keeps_trans [zlen h] [zlen h] h h1); [|exact K5|auto].
    apply (keeps_weaken []); [intros y _ []|exact (keeps_trans0 _ _ _ _ K1 K2)].
Qed.

(** ** Searches *)

Lemma search_new_ok h own f : Inv h own -> isa h f (KForest true) ->
  exists h', search_new h f = Ok h' /\ Inv h' (plus own [zlen h]) /\ keeps [] h h'.
Proof.
  intros I Hf. unfold search_new. destruct (ref_ok h own f _ I Hf ltac:(discriminate)) as (h1 & E1 & I1 & K1). rewrite E1. cbn [obind].
  pose proof (ref_isa _ _ _ E1 _ _ Hf) as F1. destruct (isa_forest _ _ _ F1) as (n & g & Hg & Hgc).
  rewrite (read_forest_ok _ _ _ _ Hg). cbn [obind snd]. rewrite Hgc. cbn [check obind].
  assert (Lz : zlen h1 = zlen h).
  { revert E1. unfold refcount_ref. destruct (read h f) as [c| | |]; cbn [obind]; try discriminate.
    destruct (0 <? rc c); [|discriminate]. intros [= <-]. apply write_zlen. }
  eexists. split; [reflexivity|]. split; [|exact (keeps_trans0 _ _ _ _ K1 (keeps_alloc _ _))].
  eapply Inv_ext; [|apply (new_object h1 _ (OSearch (Some f)) I1)].
  - intros y. unfold plus. cbn [refs ptr]. rewrite Lz. lia.
  - intros y. unfold plus. cbn [refs ptr]. pose proof (own_ge0 _ _ y I). lia.
  - cbn [typed]. now apply all_are_Some.
Qed.

Lemma isa_search h x : is_search h x -> exists n p, read h x = Ok (Cell n (OSearch p)).
Proof. auto. Qed.

Lemma search_delete_ok h own x : Inv h own -> is_search h x ->
  exists h', search_delete h x = Ok h' /\ Inv h' (minus own [x]) /\ keeps [] h h'.
Proof.
  intros I (n & p & Hr). unfold search_delete, read_search. rewrite Hr. cbn [obind obj].
  assert (Hk : isa h x KSearch) by apply (isa_intro _ _ _ _ Hr).
  pose proof (unpointed h own x _ I Hk ltac:(auto)) as Hp.
  destruct (take' h own x n _ I Hr Hp) as (I0 & Ox & Hn & K0). cbn [refs] in I0.
  pose proof I as (_ & B & _). destruct (B _ _ Hr) as (_ & _ & T & S). cbn [typed obj kind_of rc] in T, S. specialize (S eq_refl).
  assert (F : releases (forest_unref forest_fuel) (KForest true)) by (apply forest_unref_ok; unfold forest_fuel; lia).
  assert (HD : forall y, 0 <= drop own x y) by (intros y; apply (drop_ge0 h own x y I)).
  destruct (if_nonnull_ok _ _ _ _ p F I0) as (h1 & E1 & I1 & K1).
  { apply (keeps_all [] h _ _ _ _ I0 K0); auto. intros y. unfold plus. specialize (HD y). lia. }
  { intros y. unfold plus. specialize (HD y). lia. }
  rewrite E1. exists h1. split; [reflexivity|]. split; [|exact (keeps_trans0 _ _ _ _ K0 K1)].
  eapply Inv_ext; [|exact I1]. intros y. unfold plus, minus. destruct (Z.eq_dec y x) as [->|N].
  - rewrite drop_self, cnt_self. lia.
  - rewrite drop_other, (cnt_other y x) by assumption. lia.
Qed.

Lemma search_update_ok h own x f : Inv h own -> is_search h x -> isa h f (KForest true) -> 1 <= own f ->
  exists h', search_update h x f = Ok h' /\ Inv h' own /\ keeps [x] h h'.
Proof.
  intros I (n & p & Hr) Hf Ho. unfold search_update, read_search. rewrite Hr. cbn [obind obj].
  destruct (read_get _ _ _ Hr) as [Hin _].
  assert (Hk : isa h x KSearch) by apply (isa_intro _ _ _ _ Hr).
  pose proof (unpointed h own x _ I Hk ltac:(auto)) as Hp.
  destruct (take' h own x n _ I Hr Hp) as (I0 & Ox & Hn & K0). cbn [refs] in I0.
  pose proof I as (_ & B & _). destruct (B _ _ Hr) as (_ & _ & T & S). cbn [typed obj kind_of rc] in T, S. specialize (S eq_refl).
  assert (F : releases (forest_unref forest_fuel) (KForest true)) by (apply forest_unref_ok; unfold forest_fuel; lia).
  assert (HD : forall y, 0 <= drop own x y) by (intros y; apply (drop_ge0 h own x y I)).
  assert (Nx : f <> x) by (intros ->; pose proof (isa_fun _ _ _ _ Hk Hf); discriminate).
  destruct (if_nonnull_ok _ _ _ _ p F I0) as (h1 & E1 & I1 & K1).
  { apply (keeps_all [] h _ _ _ _ I0 K0); auto. intros y. unfold plus. specialize (HD y). lia. }
  { intros y. unfold plus. specialize (HD y). lia. }
  rewrite E1. cbn [obind]. pose proof (keeps_trans0 _ _ _ _ K0 K1) as K01.
  assert (I1' : Inv h1 (drop own x)) by (eapply Inv_ext; [|exact I1]; intros y; unfold plus, minus; lia).
  assert (F1 : isa h1 f (KForest true)).
  { apply (keeps_isa [] h h1 _ f _ I1' K01 ltac:(intros [])); [rewrite drop_other; assumption|exact Hf]. }
  destruct (isa_forest _ _ _ F1) as (nf & g & Hg & Hgc). rewrite (read_forest_ok _ _ _ _ Hg). cbn [obind snd]. rewrite Hgc.
  cbn [check obind].
  destruct (ref_ok h1 _ f _ I1' F1 ltac:(discriminate)) as (h2 & E2 & I2 & K2). rewrite E2. cbn [obind].
  pose proof (keeps_trans0 _ _ _ _ K01 K2) as K02.
  eexists. split; [reflexivity|]. split.
  - rewrite <- S. eapply Inv_ext; [|apply (put' h2 own x n [f] (OSearch (Some f)) I2)]; auto.
    + intros y. unfold minus, plus. cbn [refs ptr]. lia.
    + exact (keeps_inside _ _ _ _ K02 Hin).
    + apply (keeps_dead (write h x None) h2 x (keeps_trans0 _ _ _ _ K1 K2)); [now apply write_inside|apply read_freed].
    + cbn [typed]. apply all_are_Some. exact (ref_isa _ _ _ E2 _ _ F1).
    + intros y. unfold plus. cbn [refs ptr]. specialize (HD y). lia.
  - apply (keeps_trans [x] [x] h h2); [|apply keeps_write; exact (keeps_inside _ _ _ _ K02 Hin)|auto].
    apply (keeps_weaken [] [x]); [intros z _ []|exact K02].
Qed.

(** ** All calls *)

(** Freed objects do not come back. *)
Definition no_return (h h' : heap) : Prop := zlen h <= zlen h' /\ forall y, inside h y -> alive h' y -> alive h y.

Lemma keeps_no_return X h h' : keeps X h h' -> (forall y, In y X -> alive h y) -> no_return h h'.
Proof.
  intros [L K] HX. split; [assumption|]. intros y Hi [c Hc]. destruct (in_dec Z.eq_dec y X) as [Hy|Hy]; [now apply HX|].
  destruct (K y c Hi Hy Hc) as (d & Hd & _). now exists d.
Qed.

Lemma committed_cmesh_isa h x : committed_cmesh h x -> isa h x (KCmesh true).
Proof. intros (c & (n & Hr) & Hc). rewrite <- Hc. apply (isa_intro _ _ _ _ Hr). Qed.
Lemma committed_forest_isa h x : committed_forest h x -> isa h x (KForest true).
Proof. intros (c & (n & Hr) & Hc). rewrite <- Hc. apply (isa_intro _ _ _ _ Hr). Qed.
Lemma is_scheme_isa h x : is_scheme h x -> isa h x KScheme.
Proof. intros (n & Hr). apply (isa_intro _ _ _ _ Hr). Qed.

Lemma may_from h f from : may_set_from h f from -> from_ok h f from.
Proof.
  destruct from as [g|]; [|split; [intros z [=]|exact Logic.I]]. intros [H N]. split; [|exact N].
  apply all_are_Some. now apply committed_forest_isa.
Qed.

Theorem exec_ok h own k : Inv h own -> allowed h own k ->
  exists h', exec h k = Ok h' /\ Inv h' (own_after h own k) /\ no_return h h'.
Proof.
  intros I [G Sok]. unfold own_after.
  assert (W : forall X own', (exists h', exec h k = Ok h' /\ Inv h' own' /\ keeps X h h') ->
      (forall y, own' y = own y - cnt y (given k) + cnt y (gotten h k)) -> (forall y, In y X -> alive h y) ->
      exists h', exec h k = Ok h' /\ Inv h' (fun y => own y - cnt y (given k) + cnt y (gotten h k)) /\ no_return h h').
  { intros X own' (h' & E & I' & K) Eo HX. exists h'. split; [exact E|]. split; [exact (Inv_ext _ _ _ Eo I')|].
    exact (keeps_no_return _ _ _ K HX). }
  assert (One : forall x, In x (given k) -> 1 <= own x).
  { intros x Hx. apply cnt_pos in Hx. specialize (G x). lia. }
  assert (Nil : forall y, In y (@nil Z) -> alive h y) by (intros y []).
  assert (Self : forall x c, read h x = Ok c -> forall y, In y [x] -> alive h y) by (intros x c Hx y [<-|[]]; now exists c).
  destruct k; cbn [exec given gotten] in *; cbn [state_ok] in Sok.
  - (* SchemeNew *)
    destruct (alloc_ok h own OScheme I eq_refl Logic.I) as (A & B & _).
    apply (W [] (plus own [zlen h])); auto; [eexists; split; [reflexivity|split; assumption]|]. intros y. unfold plus. rewrite cnt_nil. lia.
  - destruct Sok as (_ & Hs). apply is_scheme_isa in Hs.
    apply (W [] (plus own [s])); auto; [exact (ref_ok h own s _ I Hs ltac:(discriminate))|]. intros y. unfold plus. rewrite cnt_nil. lia.
  - apply is_scheme_isa in Sok.
    apply (W [] (minus own [s])); auto; [apply (scheme_unref_ok h own s I Sok); apply One; now left|].
    intros y. unfold minus. rewrite cnt_nil. lia.
  - (* CmeshInit *)
    destruct (cmesh_init_ok h own I) as (A & B & _).
    apply (W [] (plus own [zlen h])); auto; [eexists; split; [reflexivity|split; assumption]|]. intros y. unfold plus. rewrite cnt_nil. lia.
  - destruct Sok as (_ & m & n & Hr). pose proof (isa_intro _ _ _ _ Hr) as Hs.
    apply (W [] (plus own [c])); auto; [exact (ref_ok h own c _ I Hs ltac:(discriminate))|]. intros y. unfold plus. rewrite cnt_nil. lia.
  - destruct Sok as (m & n & Hr). pose proof (isa_intro _ _ _ _ Hr) as Hs.
    apply (W [] (minus own [c])); auto.
    + assert (F : releases (cmesh_unref cmesh_fuel) (KCmesh (c_committed m))) by (apply cmesh_unref_ok; unfold cmesh_fuel; destruct (c_committed m); lia).
      apply (F h own c I Hs). apply One. now left.
    + intros y. unfold minus. rewrite cnt_nil. lia.
  - destruct Sok as (m & Hr). pose proof (isa_intro _ _ _ _ Hr) as Hs.
    apply (W [] (minus own [c])); auto.
    + unfold cmesh_destroy. rewrite (read_cmesh_ok _ _ _ _ Hr). cbn [obind fst Z.eqb check].
      assert (F : releases (cmesh_unref cmesh_fuel) (KCmesh (c_committed m))) by (apply cmesh_unref_ok; unfold cmesh_fuel; destruct (c_committed m); lia).
      apply (F h own c I Hs). apply One. now left.
    + intros y. unfold minus. rewrite cnt_nil. lia.
  - (* CmeshSetDerive *)
    destruct Sok as (_ & (m & (n & Hr) & Hc) & Hd).
    destruct (set_derive_ok h own c n m from I Hr Hc) as (h' & E & I' & K' & _); auto.
    { destruct from as [z|]; [apply all_are_Some; now apply committed_cmesh_isa|intros z [=]]. }
    apply (W [c] (minus own (ptr from))); [exists h'; auto| |exact (Self _ _ Hr)]. intros y. unfold minus. rewrite cnt_nil. lia.
  - destruct Sok as (_ & m & (n & Hr) & Hc).
    destruct (register_geometry_ok h own c n m I Hr Hc) as (h' & E & I' & K' & _).
    apply (W [c] own); [exists h'; auto| |exact (Self _ _ Hr)]. intros y. rewrite cnt_nil. lia.
  - destruct Sok as (_ & (m & (n & Hr) & Hc & Hp) & Hs). apply is_scheme_isa in Hs.
    destruct (set_partition_uniform_ok h own c n m s I Hr Hc Hp Hs) as (h' & E & I' & K' & _); [apply One; now left|].
    apply (W [c] (minus own [s])); [exists h'; auto| |exact (Self _ _ Hr)]. intros y. unfold minus. rewrite cnt_nil. lia.
  - destruct Sok as (_ & m & (n & Hr) & Hc).
    destruct (set_partition_ok h own c n m I Hr Hc) as (h' & E & I' & K' & _).
    apply (W [c] own); [exists h'; auto| |exact (Self _ _ Hr)]. intros y. rewrite cnt_nil. lia.
  - destruct Sok as (_ & m & (n & Hr) & Hc).
    destruct (cmesh_commit_ok h own c n m I Hr Hc) as (h' & E & I' & K' & _).
    apply (W [c] own); [exists h'; auto| |exact (Self _ _ Hr)]. intros y. rewrite cnt_nil. lia.
  - (* ForestInit *)
    destruct (forest_init_ok h own I) as (A & B & _).
    apply (W [] (plus own [zlen h])); auto; [eexists; split; [reflexivity|split; assumption]|]. intros y. unfold plus. rewrite cnt_nil. lia.
  - destruct Sok as (_ & m & n & Hr). pose proof (isa_intro _ _ _ _ Hr) as Hs.
    apply (W [] (plus own [f])); auto; [exact (ref_ok h own f _ I Hs ltac:(discriminate))|]. intros y. unfold plus. rewrite cnt_nil. lia.
  - destruct Sok as (m & n & Hr). pose proof (isa_intro _ _ _ _ Hr) as Hs.
    apply (W [] (minus own [f])); auto.
    + assert (F : releases (forest_unref forest_fuel) (KForest (f_committed m))) by (apply forest_unref_ok; unfold forest_fuel; destruct (f_committed m); lia).
      apply (F h own f I Hs). apply One. now left.
    + intros y. unfold minus. rewrite cnt_nil. lia.
  - destruct Sok as (_ & Hs & g & (n & Hr) & Hc & Hm & Hn). apply committed_cmesh_isa in Hs.
    destruct (set_cmesh_ok h own f n g c I Hr Hc Hm Hn Hs) as (h' & E & I' & K' & _); [apply One; now left|].
    apply (W [f] (minus own [c])); [exists h'; auto| |exact (Self _ _ Hr)]. intros y. unfold minus. rewrite cnt_nil. lia.
  - destruct Sok as (_ & Hs & g & (n & Hr) & Hc & Hm & Hn). apply is_scheme_isa in Hs.
    destruct (set_scheme_ok h own f n g s I Hr Hc Hm Hn Hs) as (h' & E & I' & K' & _); [apply One; now left|].
    apply (W [f] (minus own [s])); [exists h'; auto| |exact (Self _ _ Hr)]. intros y. unfold minus. rewrite cnt_nil. lia.
  - destruct Sok as (_ & Hs & g & (n & Hr) & Hc & Hm & Hsc & Hn). apply committed_forest_isa in Hs.
    destruct (set_copy_ok h own f n g from I Hr Hc Hm Hsc Hn Hs) as (h' & E & I' & K'); [apply One; now left|].
    apply (W [f] (minus own [from])); [exists h'; auto| |exact (Self _ _ Hr)]. intros y. unfold minus. rewrite cnt_nil. lia.
  - destruct Sok as (_ & g & (n & Hr) & Hc & Hm & Hsc & Ha & Hf). apply may_from in Hf.
    destruct (set_adapt_ok h own f n g from I Hr Hc Hm Hsc Ha Hf G) as (h' & E & I' & K' & _).
    apply (W [f] (minus own (ptr from))); [exists h'; auto| |exact (Self _ _ Hr)]. intros y. unfold minus. rewrite cnt_nil. lia.
  - destruct Sok as (_ & g & (n & Hr) & Hc & Hm & Hsc & Hf). apply may_from in Hf.
    destruct (set_forest_partition_ok h own f n g from I Hr Hc Hm Hsc Hf G) as (h' & E & I' & K' & _).
    apply (W [f] (minus own (ptr from))); [exists h'; auto| |exact (Self _ _ Hr)]. intros y. unfold minus. rewrite cnt_nil. lia.
  - destruct Sok as (_ & g & (n & Hr) & Hc & Hf). apply may_from in Hf.
    destruct (set_balance_ok h own f n g from no_repartition I Hr Hc Hf G) as (h' & E & I' & K').
    apply (W [f] (minus own (ptr from))); [exists h'; auto| |exact (Self _ _ Hr)]. intros y. unfold minus. rewrite cnt_nil. lia.
  - destruct Sok as (_ & _ & g & (n & Hr) & Hc & Hy).
    destruct (commit_any rounds h own f n g I Hr Hc Hy Logic.I) as (h' & E & I' & K' & _).
    apply (W [f] own); [exists h'; auto| |exact (Self _ _ Hr)]. intros y. rewrite cnt_nil. lia.
  - destruct Sok as (Hc & Hs). apply committed_cmesh_isa in Hc. apply is_scheme_isa in Hs.
    apply (W [] (plus (minus own [c; s]) [zlen h])); auto. now apply new_uniform_ok.
  - apply committed_forest_isa in Sok.
    apply (W [] (plus (minus own [from]) [zlen h])); auto. apply new_adapt_ok; auto. apply One. now left.
  - destruct Sok as (_ & Hf). apply committed_forest_isa in Hf.
    apply (W [] (plus own [zlen h])); auto; [now apply search_new_ok|]. intros y. unfold plus. rewrite cnt_nil. lia.
  - destruct Sok as (_ & Hs & Ho & Hf). apply committed_forest_isa in Hf.
    apply (W [x] own); [now apply search_update_ok| |]; [intros y; rewrite cnt_nil; lia|].
    destruct Hs as (n & p & Hr). exact (Self _ _ Hr).
  - apply (W [] (minus own [x])); auto; [now apply search_delete_ok|]. intros y. unfold minus. rewrite cnt_nil. lia.
Qed.

(** ** The invariant and reachability *)

Definition rank (k : kind) : nat :=
  match k with KScheme | KGeometry => 0 | KCmesh true => 1 | KCmesh false => 2 | KForest true => 3 | _ => 4 end.

Lemma typed_rank h o y k : typed h o -> In y (refs o) -> isa h y k -> (rank k < rank (kind_of o))%nat.
Proof.
  assert (P : forall p k', all_are h p k' -> In y (ptr p) -> isa h y k -> k = k').
  { intros [x|] k' Ha Hi Hk; cbn [ptr] in Hi; [destruct Hi as [<-|[]]; exact (isa_fun _ _ _ _ Hk (Ha _ eq_refl))|contradiction]. }
  destruct o as [| |c|f|p]; cbn [typed refs kind_of]; try contradiction.
  - intros (A & B & C & N) H Hk. rewrite !in_app_iff in H. destruct H as [H|[H|H]].
    + rewrite (P _ _ A H Hk). destruct (c_committed c); [rewrite (N eq_refl) in H; contradiction|cbn; lia].
    + rewrite (P _ _ B H Hk). destruct (c_committed c); cbn; lia.
    + rewrite (P _ _ C H Hk). destruct (c_committed c); cbn; lia.
  - intros (A & B & C & N & _) H Hk. rewrite !in_app_iff in H. destruct H as [H|[H|H]].
    + rewrite (P _ _ A H Hk). destruct (f_committed f); [destruct (N eq_refl) as [N' _]; rewrite N' in H; contradiction|cbn; lia].
    + rewrite (P _ _ B H Hk). destruct (f_committed f); cbn; lia.
    + rewrite (P _ _ C H Hk). destruct (f_committed f); cbn; lia.
  - intros A H Hk. rewrite (P _ _ A H Hk). cbn. lia.
Qed.

Lemma alive_reachable h own : Inv h own -> forall d x k, isa h x k -> (4 - rank k <= d)%nat -> reachable h own x.
Proof.
  intros I. pose proof I as (A & B & C). induction d as [|d IH]; intros x k Hk Hd.
  all: destruct (Hk) as (c & Hr & Ek); destruct (B _ _ Hr) as (B1 & B2 & _);
    (destruct (Z.le_gt_cases 1 (own x)) as [Ho|Ho]; [exists x; split; [exact Ho|apply rt_refl]|]);
    assert (Hp : In x (pointers h)) by (apply cnt_pos; specialize (A x); lia);
    destruct (in_pointers _ _ Hp) as (z & cz & Hz & Hx); destruct (B _ _ Hz) as (_ & _ & Tz & _);
    pose proof (typed_rank _ _ _ _ Tz Hx Hk) as Hrk.
  - exfalso. assert (rank (kind_of (obj cz)) <= 4)%nat by (destruct (kind_of (obj cz)) as [| |[]|[]|]; cbn; lia). lia.
  - destruct (IH z (kind_of (obj cz))) as (y & Hy & P); [now exists cz|lia|].
    exists y. split; [exact Hy|]. apply (rt_trans _ _ _ z); [exact P|]. apply rt_step. now exists cz.
Qed.

Lemma alive_iff h own : Inv h own -> forall x, alive h x <-> reachable h own x.
Proof.
  intros I x. split.
  - intros [c Hc]. apply (alive_reachable h own I 4 x (kind_of (obj c))); [now exists c|lia].
  - intros (y & Hy & P). pose proof I as (_ & B & C). apply C in Hy. clear C.
    induction P as [a b (c & Hc & Hb)| |a b c P1 IH1 P2 IH2]; auto.
    destruct (B _ _ Hc) as (_ & _ & T & _). destruct (typed_isa _ _ _ T Hb) as (k & Hk & _). exact (isa_read _ _ _ Hk).
Qed.

Lemma run_ok : forall ks h own, Inv h own -> keeps_protocol h own ks ->
  exists h', run h ks = Ok h' /\ Inv h' (own_end h own ks) /\ no_return h h'.
Proof.
  induction ks as [|k r IH]; intros h own I P.
  - exists h. split; [reflexivity|]. split; [exact I|]. split; [lia|auto].
  - destruct P as [Ha P]. destruct (exec_ok h own k I Ha) as (h1 & E & I1 & L1 & N1).
    destruct (IH h1 _ I1 (P h1 E)) as (h2 & E2 & I2 & L2 & N2). exists h2. cbn [run own_end]. rewrite E. cbn [obind].
    split; [exact E2|]. split; [exact I2|]. split; [lia|]. intros y Hi Ha2. apply N1; [exact Hi|]. apply N2; [|exact Ha2].
    unfold inside in *. lia.
Qed.

Lemma Inv_start : Inv [] (fun _ => 0).
Proof.
  split; [intros x; lia|]. split; [|intros x Hx; lia]. intros x c Hr. unfold read in Hr. destruct (x <? 0); [discriminate|].
  destruct (Z.to_nat x); discriminate.
Qed.

(** ** An unref destroys exactly when the count was one *)

Lemma unref_dead h x r y : refcount_unref h x = Ok r -> read h y = Oob -> read (fst r) y = Oob /\ read (write (fst r) x None) y = Oob.
Proof.
  unfold refcount_unref. destruct (read h x) as [c| | |] eqn:Hr; cbn [obind]; try discriminate.
  destruct (0 <? rc c); [|discriminate]. intros [= <-] Hy. cbn [fst]. destruct (read_get _ _ _ Hr) as [Hi _].
  assert (N : x <> y) by congruence. unfold inside in Hi. rewrite write_write. now rewrite !read_write_other by (auto; lia).
Qed.
Lemma scheme_unref_dead h x h' y : scheme_unref h x = Ok h' -> read h y = Oob -> read h' y = Oob.
Proof.
  unfold scheme_unref. intros H Hy. destruct (read h x) as [c| | |]; cbn [obind] in H; try discriminate.
  destruct (obj c); try discriminate. destruct (refcount_unref h x) as [r| | |] eqn:E; cbn [obind] in H; try discriminate.
  injection H as <-. destruct (unref_dead _ _ _ _ E Hy). now destruct (snd r).
Qed.
Lemma geometry_unref_dead h x h' y : geometry_unref h x = Ok h' -> read h y = Oob -> read h' y = Oob.
Proof.
  unfold geometry_unref. intros H Hy. destruct (read h x) as [c| | |]; cbn [obind] in H; try discriminate.
  destruct (obj c); try discriminate. destruct (refcount_unref h x) as [r| | |] eqn:E; cbn [obind] in H; try discriminate.
  injection H as <-. destruct (unref_dead _ _ _ _ E Hy). now destruct (snd r).
Qed.
Lemma if_nonnull_dead p f h h' y : (forall x h1, f x = Ok h1 -> read h1 y = Oob) -> if_nonnull p f h = Ok h' -> read h y = Oob -> read h' y = Oob.
Proof. destruct p as [x|]; cbn [if_nonnull]; intros F E; [intros _; exact (F x h' E)|now injection E as <-]. Qed.

Lemma cmesh_unref_dead : forall fuel h x h' y, cmesh_unref fuel h x = Ok h' -> read h y = Oob -> read h' y = Oob.
Proof.
  induction fuel as [|fuel IH]; intros h x h' y H Hy; cbn [cmesh_unref] in H; [discriminate|].
  destruct (read_cmesh h x) as [[n m]| | |]; cbn [obind] in H; try discriminate.
  destruct (refcount_unref h x) as [[h1 b]| | |] eqn:E; cbn [obind fst snd] in H; try discriminate.
  destruct (unref_dead _ _ _ _ E Hy) as [D1 D2]. cbn [fst] in D1, D2. destruct b; cbn [negb] in H; [|now injection H as <-].
  destruct (if negb (c_committed m) then _ else _) as [h2| | |] eqn:E2; cbn [obind] in H; try discriminate.
  assert (D3 : read h2 y = Oob).
  { destruct (negb (c_committed m)).
    - apply (if_nonnull_dead _ _ _ _ y) in E2; auto. intros z h3 Hz. exact (IH _ _ _ _ Hz D2).
    - destruct (check _); cbn [obind] in E2; try discriminate. now injection E2 as <-. }
  destruct (if_nonnull (c_geometry_handler m) _ _) as [h3| | |] eqn:E3; cbn [obind] in H; try discriminate.
  apply (if_nonnull_dead _ _ _ _ y) in E3; auto; [|intros z h4 Hz; exact (geometry_unref_dead _ _ _ _ Hz D3)].
  apply (if_nonnull_dead _ _ _ _ y) in H; auto. intros z h4 Hz. exact (scheme_unref_dead _ _ _ _ Hz E3).
Qed.
Lemma forest_unref_dead : forall fuel h x h' y, forest_unref fuel h x = Ok h' -> read h y = Oob -> read h' y = Oob.
Proof.
  induction fuel as [|fuel IH]; intros h x h' y H Hy; cbn [forest_unref] in H; [discriminate|].
  destruct (read_forest h x) as [[n m]| | |]; cbn [obind] in H; try discriminate.
  destruct (refcount_unref h x) as [[h1 b]| | |] eqn:E; cbn [obind fst snd] in H; try discriminate.
  destruct (unref_dead _ _ _ _ E Hy) as [D1 D2]. cbn [fst] in D1, D2. destruct b; cbn [negb] in H; [|now injection H as <-].
  destruct (if negb (f_committed m) then _ else _) as [h2| | |] eqn:E2; cbn [obind] in H; try discriminate.
  assert (D3 : read h2 y = Oob).
  { destruct (negb (f_committed m)).
    - apply (if_nonnull_dead _ _ _ _ y) in E2; auto. intros z h3 Hz. exact (IH _ _ _ _ Hz D2).
    - destruct (check _); cbn [obind] in E2; try discriminate. now injection E2 as <-. }
  destruct (if_nonnull (f_scheme m) _ _) as [h3| | |] eqn:E3; cbn [obind] in H; try discriminate.
  apply (if_nonnull_dead _ _ _ _ y) in E3; auto; [|intros z h4 Hz; exact (scheme_unref_dead _ _ _ _ Hz D3)].
  apply (if_nonnull_dead _ _ _ _ y) in H; auto. intros z h4 Hz. exact (cmesh_unref_dead _ _ _ _ _ Hz E3).
Qed.

Definition exact_unref (h : heap) (x : Z) (h' : heap) : Prop :=
  forall n o, read h x = Ok (Cell n o) -> (n = 1 -> read h' x = Oob) /\ (n <> 1 -> read h' x = Ok (Cell (n - 1) o)).

Lemma unref_count h x n o r : read h x = Ok (Cell n o) -> refcount_unref h x = Ok r ->
  r = (write h x (Some (Cell (n - 1) o)), n - 1 =? 0) /\ inside h x.
Proof.
  intros Hr H. split; [|now apply read_get in Hr]. unfold refcount_unref in H. rewrite Hr in H. cbn [obind rc obj] in H.
  destruct (0 <? n); [|discriminate]. now injection H as <-.
Qed.

Lemma scheme_unref_exact h x h' : scheme_unref h x = Ok h' -> exact_unref h x h'.
Proof.
  intros H n o Hr. unfold scheme_unref in H. rewrite Hr in H. cbn [obind obj] in H. destruct o; try discriminate.
  destruct (refcount_unref h x) as [r| | |] eqn:E; cbn [obind] in H; try discriminate. injection H as <-.
  destruct (unref_count _ _ _ _ _ Hr E) as [-> Hi]. cbn [fst snd]. split; intros Hn.
  - subst n. apply read_freed.
  - replace (n - 1 =? 0) with false by (symmetry; apply Z.eqb_neq; lia). now apply read_write_same.
Qed.
Lemma cmesh_unref_exact h x h' : cmesh_unref cmesh_fuel h x = Ok h' -> exact_unref h x h'.
Proof.
  intros H n o Hr. unfold cmesh_fuel in H. cbn [cmesh_unref] in H. fold (cmesh_unref 1) in H. unfold read_cmesh in H. rewrite Hr in H. cbn [obind obj rc] in H.
  destruct o as [| |m| |]; try discriminate. cbn [obind snd] in H.
  destruct (refcount_unref h x) as [r| | |] eqn:E; cbn [obind] in H; try discriminate.
  destruct (unref_count _ _ _ _ _ Hr E) as [-> Hi]. cbn [fst snd] in H. split; intros Hn.
  - subst n. cbn [Z.sub Z.eqb Z.add Z.opp Z.pos_sub negb] in H.
    assert (D2 : read (write (write h x (Some (Cell 0 (OCmesh m)))) x None) x = Oob) by apply read_freed.
    destruct (if negb (c_committed m) then _ else _) as [h2| | |] eqn:E2 in H; cbn [obind] in H; try discriminate.
    assert (D3 : read h2 x = Oob).
    { destruct (negb (c_committed m)).
      - apply (if_nonnull_dead _ _ _ _ x) in E2; auto. intros z h3 Hz. exact (cmesh_unref_dead 1 _ _ _ _ Hz D2).
      - destruct (check _); cbn [obind] in E2; try discriminate. now injection E2 as <-. }
    destruct (if_nonnull (c_geometry_handler m) _ _) as [h3| | |] eqn:E3; cbn [obind] in H; try discriminate.
    apply (if_nonnull_dead _ _ _ _ x) in E3; auto; [|intros z h4 Hz; exact (geometry_unref_dead _ _ _ _ Hz D3)].
    apply (if_nonnull_dead _ _ _ _ x) in H; auto. intros z h4 Hz. exact (scheme_unref_dead _ _ _ _ Hz E3).
  - replace (n - 1 =? 0) with false in H by (symmetry; apply Z.eqb_neq; lia). cbn [negb] in H. injection H as <-. now apply read_write_same.
Qed.
Lemma forest_unref_exact h x h' : forest_unref forest_fuel h x = Ok h' -> exact_unref h x h'.
Proof.
  intros H n o Hr. unfold forest_fuel in H. cbn [forest_unref] in H. fold (forest_unref 1) in H. unfold read_forest in H at 1. rewrite Hr in H. cbn [obind obj rc] in H.
  destruct o as [| | |m|]; try discriminate. cbn [obind snd] in H.
  destruct (refcount_unref h x) as [r| | |] eqn:E; cbn [obind] in H; try discriminate.
  destruct (unref_count _ _ _ _ _ Hr E) as [-> Hi]. cbn [fst snd] in H. split; intros Hn.
  - subst n. cbn [Z.sub Z.eqb Z.add Z.opp Z.pos_sub negb] in H.
    assert (D2 : read (write (write h x (Some (Cell 0 (OForest m)))) x None) x = Oob) by apply read_freed.
    destruct (if negb (f_committed m) then _ else _) as [h2| | |] eqn:E2 in H; cbn [obind] in H; try discriminate.
    assert (D3 : read h2 x = Oob).
    { destruct (negb (f_committed m)).
      - apply (if_nonnull_dead _ _ _ _ x) in E2; auto. intros z h3 Hz. exact (forest_unref_dead 1 _ _ _ _ Hz D2).
      - destruct (check _); cbn [obind] in E2; try discriminate. now injection E2 as <-. }
    destruct (if_nonnull (f_scheme m) _ _) as [h3| | |] eqn:E3; cbn [obind] in H; try discriminate.
    apply (if_nonnull_dead _ _ _ _ x) in E3; auto; [|intros z h4 Hz; exact (scheme_unref_dead _ _ _ _ Hz D3)].
    apply (if_nonnull_dead _ _ _ _ x) in H; auto. intros z h4 Hz. exact (cmesh_unref_dead _ _ _ _ _ Hz E3).
  - replace (n - 1 =? 0) with false in H by (symmetry; apply Z.eqb_neq; lia). cbn [negb] in H. injection H as <-. now apply read_write_same.
Qed.

(** Property C32: t8_forest_iterate_replace.  Vocabulary: SchemeSpec.v, ReplaceSpec.v, AdaptSpec.v. *)
From Verif Require Import Prelude PathSpec LineModel SchemeModel SchemeSpec SchemeProofs SchemeOrderProofs SchemeInstances ExampleLine.
From Verif Require Import AdaptModel AdaptSpec AdaptFamilyProofs AdaptProofs AdaptMainProofs ReplaceModel ReplaceSpec ReplaceProofs.

(** C32: if the new leaves of each tree arise from the old ones by keeping, refining, coarsening and removing leaves, then
    t8_forest_iterate_replace ends and reports exactly these changes, with the right indices ([inc], [inc_old]: the new, the old
    forest may have holes; without holes nothing is removed and the coarsened families are complete) *)
Theorem C32_reports_changes : forall (inc inc_old : bool) (ts : list tree_pair),
  (inc = false -> inc_old = false) ->
  Forall (fun t => laws (tp_class t) /\ ordered (tp_old t) /\ exists cs, changes (tp_old t) (tp_new t) cs /\ (inc = false -> Forall complete cs)) ts ->
  exists l, iterate_replace inc inc_old ts = Ok l /\ reported (fun S c => inc = false -> complete c) 0 ts l.
Proof. intros inc inc_old ts HI H. exact (replace_spec 0 HI H). Qed.
Print Assumptions C32_reports_changes.

(** C32: in particular after one (not recursive) adaptation step with any callback; [removed] are the flags of all processes, from
    which the new forest learns whether it has holes, [ts] the trees of one process before and [out] after the step *)
Theorem C32_reports_adaptation : forall (St : Type) (cb : callback St) (A : aenv) fuel (st st' : St) ts out n rem removed,
  a_recursive A = false -> (forall S, cb_ok (cb S)) ->
  (forall t, In t ts -> laws (t_scheme t) /\ a_maxlevel A <= s_maxlevel (t_scheme t) /\ leaves_ok A (t_elems t) /\ zlen (t_elems t) <= Z.of_nat fuel) ->
  adapt_forest cb A fuel st ts = Ok (st', out, n, rem) -> In rem removed ->
  let inc := new_incomplete (a_incomplete A) removed in
  exists ps l, map old_tree ps = ts /\ map new_tree ps = map fst out /\
    iterate_replace inc (a_incomplete A) ps = Ok l /\ reported (fun S c => inc = false -> complete c) 0 ps l.
Proof.
  intros St cb A fuel st st' ts out n rem removed RE CB HT H IR inc. destruct (adapt_changes RE CB HT H) as (ps & P1 & P2 & P3 & _).
  assert (I : inc = false -> a_incomplete A = false /\ rem = false).
  { unfold inc, new_incomplete. intros Q. apply orb_false_elim in Q. destruct Q as [Q1 Q2]. split; [exact Q1|]. destruct rem; [|reflexivity].
    rewrite <- Q2. symmetry. apply existsb_exists. exists true. auto. }
  destruct (C32_reports_changes (inc := inc) (inc_old := a_incomplete A) (ts := ps)) as (l & L1 & L2); [intros Q; apply (I Q)| |].
  - revert P3. apply Forall_impl. intros t (X1 & X2 & cs & X3 & X4). split; [exact X1|]. split; [exact X2|]. exists cs. split; [exact X3|]. intros Q. destruct (I Q) as [Q1 Q2]. exact (X4 Q1 Q2).
  - exact (ex_intro _ ps (ex_intro _ l (conj P1 (conj P2 (conj L1 L2))))).
Qed.
Print Assumptions C32_reports_adaptation.

(** C32: the reports of a tree mention each old and each new element exactly once, in order *)
Theorem C32_each_once : forall (S : scheme) (old new : list (elt S)) cs itree,
  laws S -> ordered old -> changes old new cs ->
  flat_map (fun r => zseq (rp_first_old r) (Z.to_nat (rp_num_old r))) (reports itree 0 0 cs) = zseq 0 (length old) /\
  flat_map (fun r => zseq (rp_first_new r) (Z.to_nat (rp_num_new r))) (reports itree 0 0 cs) = zseq 0 (length new).
Proof.
  intros S old new cs itree LW O (-> & -> & P). rewrite Forall_forall in P. split.
  - refine (@reports_old S itree cs 0 0 _). intros c Hc. destruct c as [e|e|p fam|e]; cbn; try discriminate. destruct (P _ Hc) as (_ & _ & NE & _). exact NE.
  - refine (@reports_new S LW itree cs 0 0 _). intros c e Hc ->. pose proof (ordered_valid O) as V. rewrite Forall_forall in V. apply V, in_flat_map. exists (Refined e). exact (conj Hc (or_introl eq_refl)).
Qed.
Print Assumptions C32_each_once.

(** an example: six leaves of a line with a hole: the first is kept, the second refined, the third removed, the next two (a family)
    coarsened, the last removed *)
Definition ex_old : list (elt line_scheme) := map ln [[0; 0; 0]; [0; 0; 1]; [0; 1]; [1; 0; 0]; [1; 0; 1]; [1; 1; 1]].
Definition ex_changes : list (change (elt line_scheme)) :=
  [Kept (ln [0; 0; 0]); Refined (ln [0; 0; 1]); Removed (ln [0; 1]); Coarsened (ln [1; 0]) [ln [1; 0; 0]; ln [1; 0; 1]]; Removed (ln [1; 1; 1])].
Definition ex_new : list (elt line_scheme) := map ln [[0; 0; 0]; [0; 0; 1; 0]; [0; 0; 1; 1]; [1; 0]].
Example ex_changes_ok : ordered ex_old /\ changes ex_old ex_new ex_changes.
Proof.
  assert (O : ordered ex_old) by (apply leaf_paths_ordered; vm_compute; reflexivity). split; [exact O|]. split; [reflexivity|]. split; [vm_compute; reflexivity|].
  assert (V : valid (ln [1; 0])) by (apply valid_walk, ln_path; vm_compute; reflexivity).
  unfold ex_changes. apply Forall_cons; [exact I|]. apply Forall_cons; [vm_compute; reflexivity|]. apply Forall_cons; [exact I|]. apply Forall_cons; [|apply Forall_cons; [exact I|apply Forall_nil]].
  cbn [possible]. split; [exact V|]. split; [vm_compute; reflexivity|]. split; [discriminate|]. split.
  { apply Forall_cons; [left; vm_compute; reflexivity|]. apply Forall_cons; [right; left; vm_compute; reflexivity|apply Forall_nil]. }
  intros x Hx B. assert (Vx : valid x) by (pose proof (ordered_valid O) as VO; rewrite Forall_forall in VO; auto).
  apply (is_ancestor_below line_laws V Vx) in B.
  repeat (destruct Hx as [<-|Hx]; [first [left; reflexivity|right; left; reflexivity|vm_compute in B; discriminate]|]). destruct Hx.
Qed.
Example ex_replace : iterate_replace true true [@TreePair line_scheme ex_old ex_new] =
  Ok [Report 0 0 1 0 1 0; Report 0 1 1 1 2 1; Report 0 (-2) 1 2 0 (-1); Report 0 (-1) 2 3 1 3; Report 0 (-2) 1 5 0 (-1)].
Proof. vm_compute. reflexivity. Qed.

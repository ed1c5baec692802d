(** Concrete leaf lists of the line scheme, for the examples beside the theorems: a list of paths is checked by computation. *)
From Verif Require Import Prelude PathSpec LineModel SchemeModel SchemeSpec SchemeProofs SchemeOrderProofs SchemeInstances.
From Coq Require Import Sorted.

Definition ln (p : list Z) : elt line_scheme := gwalk line_scheme p.
Lemma ln_path p : forallb (fun i => (0 <=? i) && (i <? 2)) p && (zlen p <=? 30) = true -> gpath line_scheme p.
Proof.
  intros H. apply line_path. apply andb_prop in H. destruct H as [H HL]. split; [|cbv [LMAX]; lia]. rewrite forallb_forall in H. apply Forall_forall. intros i Hi. specialize (H i Hi). lia.
Qed.
Fixpoint left_of (p q : list Z) : bool :=
  match p, q with i :: p', j :: q' => (i <? j) || ((i =? j) && left_of p' q') | _, _ => false end.
Lemma left_of_spec p q : left_of p q = true -> exists c i j p' q', p = c ++ i :: p' /\ q = c ++ j :: q' /\ i < j.
Proof.
  revert q. induction p as [|i p IH]; intros [|j q] H; try discriminate. cbn [left_of] in H. destruct (Z.ltb_spec i j) as [C|C].
  - exists [], i, j, p, q. auto.
  - cbn [orb] in H. apply andb_prop in H. destruct H as [H1 H2]. apply Z.eqb_eq in H1. subst j. destruct (IH q H2) as (c & a & b & p' & q' & -> & -> & L).
    exists (i :: c), a, b, p', q'. auto.
Qed.
Fixpoint leaf_paths (ps : list (list Z)) : bool :=
  match ps with [] => true | p :: r => forallb (fun i => (0 <=? i) && (i <? 2)) p && (zlen p <=? 30) && forallb (left_of p) r && leaf_paths r end.
Lemma leaf_paths_ordered ps : leaf_paths ps = true -> ordered (map ln ps).
Proof.
  assert (P : forall ps, leaf_paths ps = true -> Forall (gpath line_scheme) ps).
  { induction ps0 as [|p r IH]; intros H; [constructor|]. cbn [leaf_paths] in H. rewrite !andb_true_iff in H. constructor; [|apply IH, H]. apply ln_path. rewrite andb_true_iff. tauto. }
  intros H. assert (Q := P _ H). induction ps as [|p r IH]; [apply (ordered_iff line_laws); split; constructor|].
  cbn [leaf_paths] in H. rewrite !andb_true_iff in H. destruct H as ((_ & H1) & H2). inversion Q as [|? ? Q1 Q2]; subst. cbn [map]. apply (ordered_cons line_laws).
  split; [now apply valid_walk|]. split; [now apply IH|]. apply Forall_forall. intros x Hx. apply in_map_iff in Hx. destruct Hx as (q & <- & Hq).
  rewrite forallb_forall in H1. specialize (H1 q Hq). apply left_of_spec in H1. destruct H1 as (c & i & j & p' & q' & -> & -> & L).
  apply (diverge_before line_laws); auto. exact (proj1 (Forall_forall _ _) Q2 _ Hq).
Qed.

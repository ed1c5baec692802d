(** Specification vocabulary for partition tables (independent of the model).

    A table for P ranks and K trees has P+1 entries.  An entry e >= 0 of rank p says "my first tree is e and no lower rank
    has it"; an entry e < 0 says "my first tree is -e-1 and I share it with a lower rank".  The trees of rank p go up to
    the tree before the first tree of rank p+1, or up to and including it if rank p+1 declares it shared. *)
From Verif Require Import Prelude.

Definition entry (o : list Z) (p : Z) : Z := nth (Z.to_nat p) o 0.
Definition shared_entry (e : Z) : Prop := e < 0.
Definition first_tree_of (e : Z) : Z := if e <? 0 then - e - 1 else e.
(** one past the last tree of the rank before an entry *)
Definition end_before (e : Z) : Z := if e <? 0 then - e else e.

Definition owns (o : list Z) (p t : Z) : Prop :=
  first_tree_of (entry o p) <= t < end_before (entry o (p + 1)).
Definition no_trees (o : list Z) (p : Z) : Prop := forall t, ~ owns o p t.

(** A valid table: ranges are well formed and a rank without trees does not claim a shared tree. *)
Definition valid_table (P K : Z) (o : list Z) : Prop :=
  1 <= P /\ length o = Z.to_nat (P + 1) /\ entry o 0 = 0 /\ entry o P = K /\ 0 <= K /\
  forall p, 0 <= p < P ->
    first_tree_of (entry o p) <= end_before (entry o (p + 1)) /\
    (no_trees o p -> ~ shared_entry (entry o p)).

(** Rank p is an owner of t in 0..P-1 *)
Definition owner (P : Z) (o : list Z) (p t : Z) : Prop := 0 <= p < P /\ owns o p t.

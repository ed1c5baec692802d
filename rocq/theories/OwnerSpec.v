(** Specification vocabulary for the leaves of a distributed forest (independent of the model). *)
From Verif Require Import Prelude SchemeModel SchemeSpec PartitionSpec.

(** a list of leaves covers its tree: every finest cell of the root, in order, exactly once *)
Definition covers {S : scheme} (l : list (elt S)) : Prop := Forall valid l /\ region l = cells (s_root S).

Section forest.
(** the element scheme of each tree *)
Variable cls : Z -> scheme.
Notation leaf := {t : Z & elt (cls t)}.
(** the leaves of trees 0, ..., K-1 one after the other *)
Definition all_leaves (K : Z) (lv : forall t, list (elt (cls t))) : list leaf :=
  flat_map (fun t => map (fun e => existT (fun t => elt (cls t)) t e) (lv t)) (zseq 0 (Z.to_nat K)).
(** A forest of K trees on P processes, process p storing the leaves [loc p]: the leaves of each tree cover it and have at most the
    level ml, and the processes' leaves one after the other are all leaves *)
Definition distributed (P K ml : Z) (lv : forall t, list (elt (cls t))) (loc : Z -> list leaf) : Prop :=
  1 <= P /\ 1 <= K /\
  (forall t, 0 <= t < K -> laws (cls t) /\ 0 <= ml <= s_maxlevel (cls t) /\ covers (lv t) /\ Forall (fun e => s_level e <= ml) (lv t)) /\
  gather P loc = all_leaves K lv.
(** process p stores a leaf of tree t *)
Definition has_tree (loc : Z -> list leaf) (p t : Z) : Prop := exists e, In (existT (fun t => elt (cls t)) t e) (loc p).
(** process p stores the leaf that contains the element x of tree t *)
Definition stores (loc : Z -> list leaf) (p t : Z) (x : elt (cls t)) : Prop :=
  exists e, In (existT (fun t => elt (cls t)) t e) (loc p) /\ below e x.
End forest.
Arguments all_leaves {cls}.
Arguments distributed {cls}.
Arguments has_tree {cls}.
Arguments stores {cls}.

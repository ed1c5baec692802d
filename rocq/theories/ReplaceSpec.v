(** What t8_forest_iterate_replace reports: the changes that lead from the old leaves of a tree to the new ones. *)
From Verif Require Import Prelude SchemeModel SchemeSpec ReplaceModel.

Inductive change (E : Type) :=
| Kept (e : E)                       (** e stays *)
| Refined (e : E)                    (** e is replaced by its children *)
| Coarsened (p : E) (fam : list E)   (** the leaves fam, children of p, are replaced by p *)
| Removed (e : E).                   (** e is removed *)
Arguments Kept {E}.
Arguments Refined {E}.
Arguments Coarsened {E}.
Arguments Removed {E}.

Section spec.
Variable S : scheme.
Notation elt := (elt S).
Definition olds (c : change elt) : list elt :=
  match c with Kept e => [e] | Refined e => [e] | Coarsened _ fam => fam | Removed e => [e] end.
Definition news (c : change elt) : list elt :=
  match c with Kept e => [e] | Refined e => s_children e | Coarsened p _ => [p] | Removed _ => [] end.
(** a change is possible in a forest with the old leaves [old]: an element is refined below the maximum level, and a family is
    coarsened only if it consists of children of p and contains all leaves in p *)
Definition possible (old : list elt) (c : change elt) : Prop :=
  match c with
  | Refined e => s_level e < s_maxlevel S
  | Coarsened p fam => valid p /\ s_level p < s_maxlevel S /\ fam <> [] /\ Forall (fun f => In f (s_children p)) fam /\
      forall x, In x old -> below p x -> In x fam
  | _ => True
  end.
(** the changes, in order, lead from [old] to [new] *)
Definition changes (old new : list elt) (cs : list (change elt)) : Prop :=
  old = flat_map olds cs /\ new = flat_map news cs /\ Forall (possible old) cs.
(** without removal and with complete families *)
Definition complete (c : change elt) : Prop :=
  match c with Removed _ => False | Coarsened p fam => fam = s_children p | _ => True end.
(** the report of a change, given the indices of its first old and first new element *)
Definition report_of (itree iold inew : Z) (c : change elt) : report :=
  match c with
  | Kept _ => Report itree 0 1 iold 1 inew
  | Refined e => Report itree 1 1 iold (s_num_children e) inew
  | Coarsened _ fam => Report itree (-1) (zlen fam) iold 1 inew
  | Removed _ => Report itree (-2) 1 iold 0 (-1)
  end.
Fixpoint reports (itree iold inew : Z) (cs : list (change elt)) : list report :=
  match cs with
  | [] => []
  | c :: r => report_of itree iold inew c :: reports itree (iold + zlen (olds c)) (inew + zlen (news c)) r
  end.
End spec.
Arguments olds {S}.
Arguments news {S}.
Arguments possible {S}.
Arguments changes {S}.
Arguments complete {S}.
Arguments report_of {S}.
Arguments reports {S}.
(** the reports for the trees [ts] with their changes *)
Inductive reported (ok : forall S : scheme, change (elt S) -> Prop) : Z -> list tree_pair -> list report -> Prop :=
| rp_nil itree : reported ok itree [] []
| rp_cons itree t ts cs l : changes (tp_old t) (tp_new t) cs -> Forall (ok (tp_class t)) cs -> reported ok (itree + 1) ts l ->
    reported ok itree (t :: ts) (reports itree 0 0 cs ++ l).

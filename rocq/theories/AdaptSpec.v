(** What one (non-recursive) adaptation step of a tree is supposed to do, without the loops, buffers and tests of the code. *)
From Verif Require Import Prelude PathSpec SchemeModel SchemeSpec AdaptModel.

Section spec.
Variable S : scheme.
Notation elt := (elt S).
Notation M := (s_maxlevel S).
Variable St : Type.
Variable cb : St -> Z -> Z -> bool -> list elt -> St * Z.
Variable A : aenv.
Variable ltree : Z.

(** the leaves of p before [fam] (after it) may be on the previous (next) process *)
Definition cut_before (pre fam : list elt) : Prop :=
  0 < a_rank A /\ ltree = 0 /\ pre = [] /\ exists e r, fam = e :: r /\ 0 < s_child_id e.
Definition cut_after (p : elt) (rest : list elt) : Prop :=
  a_rank A < a_size A - 1 /\ ltree = a_num_trees A - 1 /\ zlen rest < s_num_children p.

(** [pre ++ rest] are the leaves of the tree.  [rest] starts with the family [fam] of children of p.  In a complete forest this
    means: all children of p.  In an incomplete forest: some children of p such that no other local leaf lies in p. *)
Definition family_at (pre rest : list elt) (p : elt) (fam : list elt) : Prop :=
  valid p /\ s_level p < M /\ exists r, rest = fam ++ r /\
  if a_incomplete A then
    fam <> [] /\ Forall (fun f => In f (s_children p)) fam /\ Forall (fun x => ~ below p x) (pre ++ r) /\
    ~ cut_before pre fam /\ ~ cut_after p rest
  else fam = s_children p.

(** what the callback is shown: the family if there is one, otherwise the single element *)
Inductive shown (pre rest : list elt) : bool -> list elt -> Prop :=
| shown_family p fam : family_at pre rest p fam -> shown pre rest true fam
| shown_single e r : rest = e :: r -> (forall p fam, ~ family_at pre rest p fam) -> shown pre rest false [e].

(** [adapts pre rest st st' new rem]: the leaves [rest] (after [pre] were treated) become [new]; [rem]: an element was removed *)
Inductive adapts : list elt -> list elt -> St -> St -> list elt -> bool -> Prop :=
| ad_end pre st : adapts pre [] st st [] false
| ad_refine pre e r st st1 st2 b fam new rem :
    shown pre (e :: r) b fam -> cb st ltree (zlen pre) b fam = (st1, 1) -> s_level e < a_maxlevel A ->
    adapts (pre ++ [e]) r st1 st2 new rem -> adapts pre (e :: r) st st2 (s_children e ++ new) rem
| ad_keep pre e r st st1 st2 b fam a new rem :
    shown pre (e :: r) b fam -> cb st ltree (zlen pre) b fam = (st1, a) -> a = 0 \/ (0 < a /\ a_maxlevel A <= s_level e) ->
    adapts (pre ++ [e]) r st1 st2 new rem -> adapts pre (e :: r) st st2 (e :: new) rem
| ad_coarsen pre p fam r st st1 st2 new rem :
    family_at pre (fam ++ r) p fam -> cb st ltree (zlen pre) true fam = (st1, -1) ->
    adapts (pre ++ fam) r st1 st2 new rem -> adapts pre (fam ++ r) st st2 (p :: new) rem
| ad_remove pre e r st st1 st2 b fam new rem :
    shown pre (e :: r) b fam -> cb st ltree (zlen pre) b fam = (st1, -2) ->
    adapts (pre ++ [e]) r st1 st2 new rem -> adapts pre (e :: r) st st2 new true.

(** recursive refinement: the callback is asked about every new element (as a single element of leaf number [lelement]) until it
    says neither 1 nor -1 *)
Inductive refines (lelement : Z) : list elt -> St -> St -> list elt -> bool -> Prop :=
| rf_end st : refines lelement [] st st [] false
| rf_keep e l st st1 st2 new rem :
    cb st ltree lelement false [e] = (st1, 0) -> refines lelement l st1 st2 new rem -> refines lelement (e :: l) st st2 (e :: new) rem
| rf_refine e l st st1 st2 new rem :
    cb st ltree lelement false [e] = (st1, 1) -> s_level e < a_maxlevel A -> refines lelement (s_children e ++ l) st1 st2 new rem ->
    refines lelement (e :: l) st st2 new rem
| rf_remove e l st st1 st2 new rem :
    cb st ltree lelement false [e] = (st1, -2) -> refines lelement l st1 st2 new rem -> refines lelement (e :: l) st st2 new true.
(** the callback was not asked, or it was asked about a family (and did not ask to coarsen it) *)
Definition declined (lelement : Z) (st st' : St) : Prop := st' = st \/ exists fam, st' = fst (cb st ltree lelement true fam).
(** the recursive step for a callback that never asks to coarsen; after an element was kept the callback may be asked about the family
    that ends with it *)
Inductive adapts_rec : list elt -> list elt -> St -> St -> list elt -> bool -> Prop :=
| ar_end pre st : adapts_rec pre [] st st [] false
| ar_refine pre e r st st1 st2 st3 b fam new1 rem1 new rem :
    shown pre (e :: r) b fam -> cb st ltree (zlen pre) b fam = (st1, 1) -> s_level e < a_maxlevel A ->
    refines (zlen pre) (s_children e) st1 st2 new1 rem1 -> adapts_rec (pre ++ [e]) r st2 st3 new rem ->
    adapts_rec pre (e :: r) st st3 (new1 ++ new) (rem1 || rem)
| ar_keep pre e r st st1 st1' st2 b fam a new rem :
    shown pre (e :: r) b fam -> cb st ltree (zlen pre) b fam = (st1, a) -> a = 0 \/ (0 < a /\ a_maxlevel A <= s_level e) ->
    declined (zlen pre) st1 st1' -> adapts_rec (pre ++ [e]) r st1' st2 new rem -> adapts_rec pre (e :: r) st st2 (e :: new) rem
| ar_remove pre e r st st1 st2 b fam new rem :
    shown pre (e :: r) b fam -> cb st ltree (zlen pre) b fam = (st1, -2) ->
    adapts_rec (pre ++ [e]) r st1 st2 new rem -> adapts_rec pre (e :: r) st st2 new true.

(** the leaves of a tree before the step: without gaps in a complete forest, ordered in an incomplete one *)
Definition leaves_ok (from : list elt) : Prop := if a_incomplete A then ordered from else contiguous from.
(** the callback only returns -2,...,1, and -1 only for a family *)
Definition cb_ok : Prop := forall st t i b l, let r := snd (cb st t i b l) in -2 <= r <= 1 /\ (r = -1 -> b = true).
(** the callback asks for the refinement of a single element only below the maximum level *)
Definition cb_respects_maxlevel : Prop := forall st t i e, snd (cb st t i false [e]) = 1 -> s_level e < a_maxlevel A.
(** the callback never asks to coarsen *)
Definition cb_no_coarsen : Prop := forall st t i b l, snd (cb st t i b l) <> -1.
(** the callback never removes elements *)
Definition cb_keeps : Prop := forall st t i b l, snd (cb st t i b l) <> -2.
End spec.

(** a relation between the old and the new leaves of a tree (the class stays the same) *)
Definition trees_rel (R : forall S : scheme, list (elt S) -> list (elt S) -> Prop) (t : tree) (t' : tree) : Prop :=
  exists S (l l' : list (elt S)), t = Tree l /\ t' = Tree l' /\ R S l l'.

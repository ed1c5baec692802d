(** Specification vocabulary: convex hulls of elements given by their (integer) vertex coordinates.
    Points have rational coordinates.  Nothing here depends on the modelled code. *)
From Verif Require Import Prelude.
From Coq Require Import QArith.
#[global] Open Scope Z_scope.

Definition pt := (Q * Q * Q)%type.
Definition ipt := (Z * Z * Z)%type.
Definition px (P : pt) : Q := fst (fst P).
Definition py (P : pt) : Q := snd (fst P).
Definition pz (P : pt) : Q := snd P.
Definition ix (v : ipt) : Z := fst (fst v).
Definition iy (v : ipt) : Z := snd (fst v).
Definition iz (v : ipt) : Z := snd v.

(** sum of w_i * x_i *)
Fixpoint wsum (ws : list Q) (xs : list Z) : Q :=
  match ws, xs with w :: ws', x :: xs' => (w * inject_Z x + wsum ws' xs')%Q | _, _ => 0%Q end.
Definition sumQ (ws : list Q) : Q := fold_right Qplus 0%Q ws.
Definition combination (ws : list Q) (vs : list ipt) (P : pt) : Prop :=
  length ws = length vs /\ (sumQ ws == 1)%Q /\
  (px P == wsum ws (map ix vs))%Q /\ (py P == wsum ws (map iy vs))%Q /\ (pz P == wsum ws (map iz vs))%Q.

(** P is in the closed element with vertices vs: a convex combination of the vertices *)
Definition hull (vs : list ipt) (P : pt) : Prop := exists ws, combination ws vs P /\ Forall (fun w => (0 <= w)%Q) ws.
(** P is in its interior (relative to its dimension): a convex combination with positive weights *)
Definition interior (vs : list ipt) (P : pt) : Prop := exists ws, combination ws vs P /\ Forall (fun w => (0 < w)%Q) ws.

(** point m is the midpoint of a and b *)
Definition midpoint (m a b : ipt) : Prop :=
  2 * ix m = ix a + ix b /\ 2 * iy m = iy a + iy b /\ 2 * iz m = iz a + iz b.

(** Common imports, arithmetic set-up and small helpers shared by all model files. *)
From Coq Require Export List Arith ZArith Lia Bool.
From Coq Require Export ZifyBool ZifyNat.
Export ListNotations.
#[global] Open Scope Z_scope.
#[global] Set Implicit Arguments.
#[global] Unset Strict Implicit.
#[global] Unset Printing Implicit Defensive.

Ltac Zify.zify_post_hook ::= Z.div_mod_to_equations.

(** Result of a modelled C function that may misbehave.  [Ok] is a normal return, [Oob] a read outside an array,
    [AssertFail] a violated T8_ASSERT / SC_ABORT, [OutOfFuel] means that the (fuelled) loop did not finish. *)
Inductive outcome (A : Type) : Type :=
| Ok (a : A) | Oob | AssertFail | OutOfFuel.
Arguments Ok {A} a.
Arguments Oob {A}.
Arguments AssertFail {A}.
Arguments OutOfFuel {A}.

Definition obind {A B} (x : outcome A) (f : A -> outcome B) : outcome B :=
  match x with Ok a => f a | Oob => Oob | AssertFail => AssertFail | OutOfFuel => OutOfFuel end.
Notation "'do' x <- e ; f" := (obind e (fun x => f)) (at level 200, x name, e at level 100, f at level 200).

(** Array access with a Z index. *)
Definition znth {A} (d : A) (l : list A) (i : Z) : A := nth (Z.to_nat i) l d.
Definition zlen {A} (l : list A) : Z := Z.of_nat (length l).

(** The integers lo, lo+1, ..., lo+n-1. *)
Fixpoint zseq (lo : Z) (n : nat) : list Z :=
  match n with O => [] | S n' => lo :: zseq (lo + 1) n' end.

Lemma zseq_length lo n : length (zseq lo n) = n.
Proof. revert lo; induction n as [|n IH]; intros lo; simpl; auto. Qed.

Lemma in_zseq x lo n : In x (zseq lo n) <-> lo <= x < lo + Z.of_nat n.
Proof.
  revert lo; induction n as [|n IH]; intros lo; cbn [zseq In].
  - lia.
  - rewrite IH. lia.
Qed.

Lemma zseq_app lo n m : zseq lo (n + m) = zseq lo n ++ zseq (lo + Z.of_nat n) m.
Proof.
  revert lo; induction n as [|n IH]; intros lo.
  - simpl. f_equal. lia.
  - cbn [zseq Nat.add app]. rewrite IH. do 3 f_equal. lia.
Qed.

Lemma nth_zseq d lo n i : (i < n)%nat -> nth i (zseq lo n) d = lo + Z.of_nat i.
Proof.
  revert lo i; induction n as [|n IH]; intros lo i Hi; [lia|].
  destruct i as [|i]; cbn [zseq nth]; [lia|]. rewrite IH by lia. lia.
Qed.

(** Conversion to a signed 64 bit integer (t8_gloidx_t) and to an unsigned one (t8_linearidx_t, uint64_t). *)
Definition i64 (z : Z) : Z := (z + 2 ^ 63) mod 2 ^ 64 - 2 ^ 63.
Definition u64 (z : Z) : Z := z mod 2 ^ 64.
Lemma i64_small z : - 2 ^ 63 <= z < 2 ^ 63 -> i64 z = z.
Proof. intros H. unfold i64. rewrite Z.mod_small by lia. lia. Qed.
Lemma u64_small z : 0 <= z < 2 ^ 64 -> u64 z = z.
Proof. intros H. unfold u64. now apply Z.mod_small. Qed.

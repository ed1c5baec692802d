(** Messages between processes with receives from any source.  A process first posts its sends and then receives a known number of
    messages, each from any source with MPI_Probe (MPI_ANY_SOURCE) (t8_forest_ghost.cxx:931-1043 t8_forest_ghost_send_start,
    1301-1502 t8_forest_ghost_receive, whose loop ends after num_remotes messages).  The sends are not blocking (sc_MPI_Isend).
    The order in which messages of different processes, or of one process, are received is arbitrary; a message may also be received
    before the receiver has posted all its sends (as in 1798-1885 t8_forest_ghost_exchange_begin, where the receives are not blocking). *)
From Verif Require Import Prelude.

Section net.
Variable M : Type.
(** for each process: the sends (destination, message) still to post, the number of messages still to receive and those received
    (source, message); the messages under way as (source, destination, message) *)
Record anet := ANet { a_todo : Z -> list (Z * M); a_want : Z -> nat; a_got : Z -> list (Z * M); a_air : list (Z * Z * M) }.
Definition upd {A} (f : Z -> A) (p : Z) (x : A) (q : Z) : A := if q =? p then x else f q.
(** one step of one of the P processes *)
Inductive astep (P : Z) (s : anet) : anet -> Prop :=
| astep_send p q m r : 0 <= p < P -> a_todo s p = (q, m) :: r ->
    astep P s (ANet (upd (a_todo s) p r) (a_want s) (a_got s) (a_air s ++ [(p, q, m)]))
| astep_recv p q m a b n : 0 <= p < P -> a_want s p = S n -> a_air s = a ++ (q, p, m) :: b ->
    astep P s (ANet (a_todo s) (upd (a_want s) p n) (upd (a_got s) p (a_got s p ++ [(q, m)])) (a ++ b)).
Inductive asteps (P : Z) (s : anet) : anet -> Prop :=
| asteps_refl : asteps P s s
| asteps_step s' s'' : asteps P s s' -> astep P s' s'' -> asteps P s s''.
Definition adone (P : Z) (s : anet) : Prop := forall p, 0 <= p < P -> a_todo s p = [] /\ a_want s p = 0%nat.
(** the start: [out p] are the messages of process p, which expects [n p] messages *)
Definition astart (out : Z -> list (Z * M)) (n : Z -> nat) : anet := ANet out n (fun _ => []) [].
End net.
Arguments ANet {M}.
Arguments a_todo {M}.
Arguments a_want {M}.
Arguments a_got {M}.
Arguments a_air {M}.
Arguments astep {M}.
Arguments asteps {M}.
Arguments adone {M}.
Arguments astart {M}.

(** Point-to-point message passing between P processes, as used by the library: every process runs a sequence of actions; a send
    (sc_MPI_Isend) never blocks and appends to the channel of its pair of processes; a receive (sc_MPI_Probe + sc_MPI_Recv from a fixed
    source and tag) waits until the channel from that source is nonempty and takes the first message (MPI messages of one pair of
    processes and one tag do not overtake each other).  The processes run in any interleaving. *)
From Verif Require Import Prelude.

Section net.
Variable M : Type.
Inductive action := Send (dst : Z) (m : M) | Recv (src : Z).
Record nstate := NState {
  todo : Z -> list action;          (** the actions each process has still to do *)
  chan : Z -> Z -> list M;          (** chan p q: sent by p to q, not yet received *)
  nlog : Z -> list (Z * M)          (** what each process has received, in order, with the source *)
}.
Definition ninit (prog : Z -> list action) : nstate := NState prog (fun _ _ => []) (fun _ => []).

(** one step of one process *)
Inductive nstep (P : Z) (s s' : nstate) : Prop :=
| nstep_send p q m r : 0 <= p < P -> todo s p = Send q m :: r ->
    todo s' p = r -> (forall p', p' <> p -> todo s' p' = todo s p') ->
    chan s' p q = chan s p q ++ [m] -> (forall a b, ~ (a = p /\ b = q) -> chan s' a b = chan s a b) ->
    (forall a, nlog s' a = nlog s a) -> nstep P s s'
| nstep_recv p q m rest r : 0 <= p < P -> todo s p = Recv q :: r -> chan s q p = m :: rest ->
    todo s' p = r -> (forall p', p' <> p -> todo s' p' = todo s p') ->
    chan s' q p = rest -> (forall a b, ~ (a = q /\ b = p) -> chan s' a b = chan s a b) ->
    nlog s' p = nlog s p ++ [(q, m)] -> (forall a, a <> p -> nlog s' a = nlog s a) -> nstep P s s'.
Inductive nsteps (P : Z) : nat -> nstate -> nstate -> Prop :=
| nsteps_0 s : nsteps P 0 s s
| nsteps_S n s s' s'' : nsteps P n s s' -> nstep P s' s'' -> nsteps P (S n) s s''.

Definition finished (P : Z) (s : nstate) : Prop := forall p, 0 <= p < P -> todo s p = [].
(** the messages to q in a program, in order; the sources a program receives from, in order *)
Fixpoint sent_to (q : Z) (l : list action) : list M :=
  match l with [] => [] | Send d m :: r => if d =? q then m :: sent_to q r else sent_to q r | Recv _ :: r => sent_to q r end.
Fixpoint sources (l : list action) : list Z :=
  match l with [] => [] | Send _ _ :: r => sources r | Recv s :: r => s :: sources r end.
(** the messages from p in a log *)
Definition from (p : Z) (l : list (Z * M)) : list M := map snd (filter (fun x => fst x =? p) l).
(** programs that send everything before they receive anything *)
Definition sends_first (l : list action) : Prop :=
  exists a b, l = map (fun x : Z * M => Send (fst x) (snd x)) a ++ map Recv b.
End net.
Arguments Send {M}.
Arguments Recv {M}.

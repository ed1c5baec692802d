(** What a top-down search reports, without recursion: in terms of the log of the calls of the callbacks. *)
From Coq Require Import Sorting.Sorted.
From Verif Require Import Prelude SchemeModel SchemeSpec AdaptModel SearchModel.

(** one call of a callback in a tree: the element callback, or the query callback for one active query; the arguments are the
    element, is_leaf, the leaves and the index of the first leaf, and [ret] is what the callback returned *)
Inductive event (E : Type) :=
| Called (e : E) (is_leaf : bool) (leaves : list E) (index : Z) (ret : bool)
| Asked (e : E) (is_leaf : bool) (leaves : list E) (index : Z) (query : Z) (ret : bool).
Arguments Called {E}.
Arguments Asked {E}.

Section spec.
Variable S : scheme.
Notation elt := (elt S).
(** the leaves searched, the tree index of the first of them, the element at which the search starts and the numbers of the queries,
    in increasing order (None: a search without queries) *)
Variables (l : list elt) (base : Z) (top : elt) (qs : option (list Z)).

(** a callback gets the right arguments: [leaves] are exactly the leaves in e, index is the index of the first of them, and is_leaf
    says whether e is a leaf *)
Definition right_args (e : elt) (is_leaf : bool) (leaves : list elt) (index : Z) : Prop :=
  (exists pre post, l = pre ++ leaves ++ post /\ index = base + zlen pre /\
    Forall (below e) leaves /\ Forall (fun x => ~ below e x) (pre ++ post)) /\
  (is_leaf = true <-> In e l).
(** the element callback was called for e / returned true *)
Definition called (log : list (event elt)) (e : elt) : Prop := exists b ls i r, In (Called e b ls i r) log.
Definition accepted (log : list (event elt)) (e : elt) : Prop := exists b ls i, In (Called e b ls i true) log.
(** the query callback was called for e and q / returned true *)
Definition asked (log : list (event elt)) (e : elt) (q : Z) : Prop := exists b ls i r, In (Asked e b ls i q r) log.
Definition matched (log : list (event elt)) (e : elt) (q : Z) : Prop := exists b ls i, In (Asked e b ls i q true) log.
(** a is an element strictly between the start of the search (included) and e (excluded) *)
Definition between (a e : elt) : Prop := below top a /\ below a e /\ a <> e.
(** the query q is active at e: it matched all elements above e *)
Definition active (log : list (event elt)) (e : elt) (q : Z) : Prop :=
  (exists n, qs = Some n /\ In q n) /\ forall a, between a e -> matched log a q.
(** the order of the calls: elements in the order of the tree (ancestors first), for each element the element callback and then the
    queries in order *)
Definition ev_elem (v : event elt) : elt := match v with Called e _ _ _ _ => e | Asked e _ _ _ _ _ => e end.
Definition ev_rank (v : event elt) : Z := match v with Called _ _ _ _ _ => -1 | Asked _ _ _ _ q _ => q end.
Definition earlier (v w : event elt) : Prop :=
  s_compare (ev_elem v) (ev_elem w) < 0 \/ (ev_elem v = ev_elem w /\ ev_rank v < ev_rank w).

Record search_ok (log : list (event elt)) : Prop := {
  (** all calls have the right arguments *)
  so_called_args : forall e b ls i r, In (Called e b ls i r) log -> right_args e b ls i;
  so_asked_args : forall e b ls i q r, In (Asked e b ls i q r) log -> right_args e b ls i;
  (** the element callback is called for exactly the elements that contain a leaf, all of whose ancestors were accepted and, in a
      search with queries, for which a query is active *)
  so_called : forall e, called log e <->
    below top e /\ (exists x, In x l /\ below e x) /\ (forall a, between a e -> accepted log a) /\ (qs <> None -> exists q, active log e q);
  (** the query callback is called for exactly the accepted elements and the queries that are active there *)
  so_asked : forall e q, asked log e q <-> accepted log e /\ active log e q;
  (** each call happens once, in order *)
  so_order : StronglySorted earlier log
}.
(** the elements that were reported as leaves, in the order of the calls *)
Definition leaves_reported (log : list (event elt)) : list elt :=
  flat_map (fun v => match v with Called e true _ _ _ => [e] | _ => [] end) log.
(** the search of a tree starts at the smallest element that contains all its leaves *)
Definition smallest_around (ls : list elt) (t : elt) : Prop := Forall (below t) ls /\ forall g, Forall (below g) ls -> below g t.
End spec.
Arguments smallest_around {S}.
Arguments leaves_reported {S}.
Arguments search_ok {S}.
Arguments ev_elem {S}.
Arguments ev_rank {S}.

(** Recording the calls: callbacks that do what [cb] does and append to a log.  The log entry of tree t is tagged with t and the class. *)
Record entry := Entry { en_tree : Z; en_class : scheme; en_event : event (elt en_class) }.
Section record.
Variable St : Type.
Definition record_cb (cb : element_callback St) : element_callback (St * list entry) :=
  fun S st lt e b ls i => let (s, r) := cb S (fst st) lt e b ls i in ((s, snd st ++ [@Entry lt S (Called e b ls i r)]), r).
Definition record_query (cb : query_callback St) : query_callback (St * list entry) :=
  fun S st lt e b ls i q => let (s, r) := cb S (fst st) lt e b ls i q in ((s, snd st ++ [@Entry lt S (Asked e b ls i q r)]), r).
Definition record_batched (cb : batched_callback St) : batched_callback (St * list entry) :=
  fun S st lt e b ls i act => let (s, m) := cb S (fst st) lt e b ls i act in
    ((s, snd st ++ map (fun q => @Entry lt S (Asked e b ls i q (m q))) act), m).
Definition record (Q : queries St) : queries (St * list entry) :=
  match Q with QNone => QNone | QSingle n cb => QSingle n (record_query cb) | QBatched n cb => QBatched n (record_batched cb) end.
(** the query callback of the C interface: the i-th result belongs to the i-th active query *)
Definition record_c (fn : c_query_fn St) : c_query_fn (St * list entry) :=
  fun S st lt e b ls i act => let (s, m) := fn S (fst st) lt e b ls i act in
    ((s, snd st ++ map (fun p : nat * Z => @Entry lt S (Asked e b ls i (snd p) (m (fst p)))) (combine (seq 0 (length act)) act)), m).
(** the numbers of the queries *)
Definition all_queries (Q : queries St) : option (list Z) :=
  match Q with QNone => None | QSingle n _ | QBatched n _ => Some (zseq 0 n) end.
End record.
(** what the search of the trees [ts], from local tree [itree] on, reports: one tree after the other, each with all queries *)
Inductive trees_searched (qs : option (list Z)) : Z -> list tree -> list entry -> Prop :=
| ts_nil itree : trees_searched qs itree [] []
| ts_cons itree t ts top seg log :
    smallest_around (t_elems t) top -> search_ok (t_elems t) 0 top qs seg -> trees_searched qs (itree + 1) ts log ->
    trees_searched qs itree (t :: ts) (map (@Entry itree (t_scheme t)) seg ++ log).
(** the trees a search is defined for: those of a committed forest of which every local tree has a leaf *)
Definition searchable (ts : list tree) : Prop := Forall (fun t => laws (t_scheme t) /\ ordered (t_elems t) /\ t_elems t <> []) ts.

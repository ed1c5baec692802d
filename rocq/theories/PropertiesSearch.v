(** Property C31: the top-down search.  Vocabulary: SchemeSpec.v, SearchSpec.v. *)
From Coq Require Import Sorting.Sorted.
From Verif Require Import Prelude PathSpec LineModel SchemeModel SchemeSpec SchemeProofs SchemeOrderProofs SchemeInstances.
From Verif Require Import ExampleLine LeafModel AdaptModel SearchModel SearchSpec SplitProofs SearchProofs SearchMainProofs.

(** C31: t8_forest_split_array: for ordered leaves that lie strictly in an element, the leaves between offset i and offset i+1 are
    exactly those in child i *)
Theorem C31_split_array : forall (S : scheme) (e : elt S) (ls : list (elt S)),
  laws S -> valid e -> ordered ls -> Forall (below e) ls -> ~ In e ls ->
  exists offs, split_array e ls = Ok offs /\ zlen offs = s_num_children e + 1 /\
    forall i a b, 0 <= i < s_num_children e -> nth_error offs (Z.to_nat i) = Some a -> nth_error offs (Z.to_nat (i + 1)) = Some b ->
      forall k x, nth_error ls k = Some x -> (below (s_child e i) x <-> a <= Z.of_nat k < b).
Proof.
  intros S e ls LW V O B N. destruct (split_array_spec LW V O B N) as (offs & E & OK). exists offs. split; [exact E|]. split; [apply OK|].
  intros i a b Hi Ha Hb k x Hx. destruct (portion_spec LW V O B N OK Hi Ha Hb) as (Ra & Rb & pre & post & EL & LP & F1 & F2).
  set (por := firstn (Z.to_nat (b - a)) (skipn (Z.to_nat a) ls)) in *. rewrite EL in Hx. rewrite Forall_forall in F1, F2.
  assert (LPor : zlen por = Z.max 0 (b - a)) by (unfold por, zlen in *; rewrite firstn_length, skipn_length; lia).
  destruct (Z.lt_ge_cases (Z.of_nat k) a) as [C|C].
  - rewrite nth_error_app1 in Hx by (unfold zlen in LP; lia). split; [|lia]. intros Q. exfalso. apply (F2 x); [|exact Q]. apply in_app_iff. left. eapply nth_error_In; eauto.
  - rewrite nth_error_app2 in Hx by (unfold zlen in LP; lia). destruct (Z.lt_ge_cases (Z.of_nat k) b) as [D|D].
    + rewrite nth_error_app1 in Hx by (unfold zlen in *; lia). split; [intros _; lia|]. intros _. apply F1. eapply nth_error_In; eauto.
    + rewrite nth_error_app2 in Hx by (unfold zlen in *; lia). split; [|lia]. intros Q. exfalso. apply (F2 x); [|exact Q]. apply in_app_iff. right. eapply nth_error_In; eauto.
Qed.
Print Assumptions C31_split_array.

(** C31: the search classes (t8_search, with queries, with batched queries), for every committed forest whose local trees have leaves,
    every element callback and every query callback (with arbitrary state): the run ends without errors, and the calls it made are the
    right ones: see search_ok in SearchSpec.v.  The calls are observed by callbacks that record them; C31_recording says that the
    recording does not change the run. *)
Theorem C31_search : forall (St : Type) (cb : element_callback St) (Q : queries St) (ts : list tree) (st : St),
  searchable ts ->
  exists st' act' log, do_search (record_cb cb) (record Q) 0 ts ((st, []), []) = Ok ((st', log), act') /\
    trees_searched (all_queries Q) 0 ts log.
Proof. intros St cb Q ts st H. exact (do_search_spec cb Q H 0 st [] []). Qed.
Print Assumptions C31_search.
Theorem C31_recording : forall (St : Type) (cb : element_callback St) (Q : queries St) (ts : list tree) (st st' : St) act act' log0 log,
  do_search (record_cb cb) (record Q) 0 ts ((st, log0), act) = Ok ((st', log), act') -> do_search cb Q 0 ts (st, act) = Ok (st', act').
Proof. intros St cb Q ts st st' act act' log0 log H. exact (erase_search H). Qed.
Print Assumptions C31_recording.
(** C31: the C function t8_forest_search does the same *)
Theorem C31_c_search : forall (St : Type) (cb : element_callback St) (fn : option (c_query_fn St)) (n : nat) (ts : list tree) (st : St),
  searchable ts ->
  exists st' log, c_search (record_cb cb) (option_map (@record_c St) fn) n ts (st, []) = Ok (st', log) /\
    trees_searched (match fn with None => None | Some _ => Some (zseq 0 n) end) 0 ts log.
Proof. intros St cb fn n ts st H. exact (c_search_spec cb fn n H st). Qed.
Print Assumptions C31_c_search.
(** C31: the meaning of search_ok for a search without queries in which the element callback always returns true: the leaves are
    reported as leaves, all of them, each once and in their order *)
Theorem C31_all_leaves : forall (S : scheme) (l : list (elt S)) base top log,
  laws S -> ordered l -> smallest_around l top -> search_ok l base top None log ->
  (forall e b ls i r, In (Called e b ls i r) log -> r = true) -> leaves_reported log = l.
Proof. intros S l base top log LW O [B _] OK H. exact (leaves_all LW O B OK H). Qed.
Print Assumptions C31_all_leaves.
(** C31 does not hold for a forest with a local tree without leaves (possible for a forest with holes): the search reads the first and
    the last leaf of the tree without checking that there is one *)
Theorem C31_empty_tree_refuted : forall (St : Type) (cb : element_callback St) (Q : queries St) (S : scheme) (st : St) (ts : list tree),
  do_search cb Q 0 (@Tree S [] :: ts) (st, []) = Oob /\ c_search cb None 0 (@Tree S [] :: ts) st = Oob.
Proof. intros St cb Q S st ts. exact (conj eq_refl eq_refl). Qed.
Print Assumptions C31_empty_tree_refuted.

(** an example: five leaves of a line and one of another; the callback counts its calls and rejects the element with x = 2^29 and
    level 1 of tree 0; query 0 always matches, query 1 only elements of level 0, query 2 none *)
Definition ex_trees : list tree :=
  [@Tree line_scheme (map ln [[0; 0]; [0; 1; 0]; [0; 1; 1]; [1; 0]; [1; 1]]); @Tree line_scheme (map ln [[1; 0]])].
Example ex_searchable : searchable ex_trees.
Proof.
  repeat (apply Forall_cons || apply Forall_nil); (split; [exact line_laws|split; [apply leaf_paths_ordered; vm_compute; reflexivity|discriminate]]).
Qed.
Definition ex_cb : element_callback Z := fun S st lt e b ls i => (st + 1, negb ((lt =? 0) && (s_level e =? 1) && (2 <=? i))).
Definition ex_query : query_callback Z := fun S st lt e b ls i q => (st, (q =? 0) || ((q =? 1) && (s_level e =? 0))).
Definition ex_show (v : entry) : Z * Z * bool * Z * Z * Z * bool :=
  match en_event v with
  | Called e b ls i r => (en_tree v, s_level e, b, zlen ls, i, -1, r)
  | Asked e b ls i q r => (en_tree v, s_level e, b, zlen ls, i, q, r)
  end.
Example ex_search :
  (match do_search (record_cb ex_cb) (record (QSingle 3 ex_query)) 0 ex_trees ((0, []), []) with
   | Ok ((n, log), _) => Some (n, map ex_show log)
   | _ => None
   end) = Some (8,
    [(0, 0, false, 5, 0, -1, true); (0, 0, false, 5, 0, 0, true); (0, 0, false, 5, 0, 1, true); (0, 0, false, 5, 0, 2, false);
     (0, 1, false, 3, 0, -1, true); (0, 1, false, 3, 0, 0, true); (0, 1, false, 3, 0, 1, false);
     (0, 2, true, 1, 0, -1, true); (0, 2, true, 1, 0, 0, true);
     (0, 2, false, 2, 1, -1, true); (0, 2, false, 2, 1, 0, true);
     (0, 3, true, 1, 1, -1, true); (0, 3, true, 1, 1, 0, true);
     (0, 3, true, 1, 2, -1, true); (0, 3, true, 1, 2, 0, true);
     (0, 1, false, 2, 3, -1, false);
     (1, 2, true, 1, 0, -1, true); (1, 2, true, 1, 0, 0, true); (1, 2, true, 1, 0, 1, false); (1, 2, true, 1, 0, 2, false)]).
Proof. vm_compute. reflexivity. Qed.

(** Properties C26, C27, C28: partition tables.  See OffsetSpec.v for the vocabulary. *)
From Verif Require Import Prelude OffsetModel OffsetSpec OffsetProofs OffsetSendProofs.
From Coq Require Import Sorted.

(** A 5-rank table for 5 trees used in the examples: rank 2 is empty, tree 1 is shared by ranks 0,1 and tree 2 by ranks 1,3. *)
Definition ex_table : list Z := [0; -2; 3; -3; 4; 5].
(** Another table of the same trees: tree 3 is shared by ranks 0, 1 and 2; rank 4 is empty. *)
Definition ex_table2 : list Z := [0; -4; -4; 4; 5; 5].

Example ex_table_valid : valid_table 5 5 ex_table.
Proof. apply consistent_iff; vm_compute; congruence. Qed.
Example ex_table2_valid : valid_table 5 5 ex_table2.
Proof. apply consistent_iff; vm_compute; congruence. Qed.

(** The hypothesis [valid_table] is exactly what the library's own debug check accepts. *)
Theorem C26_valid_table_is_the_library_check : forall P K o,
  1 <= P -> length o = Z.to_nat (P + 1) -> 0 <= K ->
  (t8_offset_consistent P o K = Ok true <-> valid_table P K o).
Proof. intros P K o HP HL HK. exact (consistent_iff HP HL HK). Qed.
Print Assumptions C26_valid_table_is_the_library_check.

(** C26: from any start rank the search terminates, stays inside the table and returns an owner. *)
Theorem C26_any_owner_of_tree : forall P K o t start fuel,
  valid_table P K o -> 0 <= t < K -> 0 <= start < P -> P <= Z.of_nat fuel ->
  exists p, t8_offset_any_owner_of_tree_ext fuel P start t o = Ok p /\ owner P o p t.
Proof. intros P K o t start fuel V. exact (any_owner_ext_ok V (t:=t) (start:=start) (fuel:=fuel)). Qed.
Print Assumptions C26_any_owner_of_tree.

Theorem C26_any_owner_of_tree_default_start : forall P K o t fuel,
  valid_table P K o -> 0 <= t < K -> P <= Z.of_nat fuel ->
  exists p, t8_offset_any_owner_of_tree fuel P t o = Ok p /\ owner P o p t.
Proof. intros P K o t fuel V. exact (any_owner_ok V (t:=t) (fuel:=fuel)). Qed.
Print Assumptions C26_any_owner_of_tree_default_start.
Example C26_ex : valid_table 5 5 ex_table /\ 0 <= 2 < 5 /\ 0 <= 4 < 5 /\
  t8_offset_any_owner_of_tree_ext 5 5 4 2 ex_table = Ok 1.
Proof. split; [apply ex_table_valid|]. split; [lia|]. split; [lia|]. reflexivity. Qed.

(** C26: smallest and greatest owner; a known owner may be passed as a hint. *)
Theorem C26_first_owner_of_tree : forall P K o t fuel some,
  valid_table P K o -> 0 <= t < K -> (some < 0 \/ owner P o some t) -> 2 * P + 3 < Z.of_nat fuel ->
  exists p, t8_offset_first_owner_of_tree fuel P t o some = Ok p /\ owner P o p t /\
            (forall q, owner P o q t -> p <= q).
Proof. intros P K o t fuel some V. exact (first_owner_ok V (t:=t) (some:=some) (fuel:=fuel)). Qed.
Print Assumptions C26_first_owner_of_tree.

Theorem C26_last_owner_of_tree : forall P K o t fuel some,
  valid_table P K o -> 0 <= t < K -> (some < 0 \/ owner P o some t) -> 2 * P + 3 < Z.of_nat fuel ->
  exists p, t8_offset_last_owner_of_tree fuel P t o some = Ok p /\ owner P o p t /\
            (forall q, owner P o q t -> q <= p).
Proof. intros P K o t fuel some V. exact (last_owner_ok V (t:=t) (some:=some) (fuel:=fuel)). Qed.
Print Assumptions C26_last_owner_of_tree.
Example C26_ex2 : t8_offset_first_owner_of_tree 20 5 2 ex_table 3 = Ok 1 /\
                  t8_offset_last_owner_of_tree 20 5 2 ex_table (-1) = Ok 3 /\ owner 5 ex_table 3 2.
Proof. split; [reflexivity|]. split; [reflexivity|]. unfold owner, owns; vm_compute; intuition congruence. Qed.

Theorem C26_next_nonempty_rank : forall P K o rank fuel,
  valid_table P K o -> -1 <= rank < P -> P < Z.of_nat fuel ->
  exists q, t8_offset_next_nonempty_rank fuel rank o = Ok q /\ rank < q <= P /\
    (forall r, rank < r < q -> no_trees o r) /\ (q < P -> ~ no_trees o q).
Proof. intros P K o rank fuel V. exact (next_nonempty_ok V (fuel:=fuel) (rank:=rank)). Qed.
Print Assumptions C26_next_nonempty_rank.

(** C27: the neighbouring owners and the complete list of owners. *)
Theorem C27_next_owner_of_tree : forall P K o t fuel cur,
  valid_table P K o -> owner P o cur t -> P < Z.of_nat fuel ->
  exists p, t8_offset_next_owner_of_tree fuel P t o cur = Ok p /\
    ((p = -1 /\ forall q, cur < q -> ~ owner P o q t) \/
     (cur < p /\ owner P o p t /\ forall q, cur < q < p -> ~ owner P o q t)).
Proof. intros P K o t fuel cur V. exact (next_owner_ok V (t:=t) (fuel:=fuel) (cur:=cur)). Qed.
Print Assumptions C27_next_owner_of_tree.

Theorem C27_prev_owner_of_tree : forall P K o t fuel cur,
  valid_table P K o -> owner P o cur t -> P < Z.of_nat fuel ->
  exists p, t8_offset_prev_owner_of_tree fuel P t o cur = Ok p /\
    ((p = -1 /\ forall q, q < cur -> ~ owner P o q t) \/
     (0 <= p < cur /\ owner P o p t /\ forall q, p < q < cur -> ~ owner P o q t)).
Proof. intros P K o t fuel cur V. exact (prev_owner_ok V (t:=t) (fuel:=fuel) (cur:=cur)). Qed.
Print Assumptions C27_prev_owner_of_tree.

Theorem C27_all_owners_of_tree : forall P K o t fuel,
  valid_table P K o -> 0 <= t < K -> 2 * P + 3 < Z.of_nat fuel ->
  exists l, t8_offset_all_owners_of_tree fuel P t o = Ok l /\ StronglySorted Z.lt l /\
            (forall q, In q l <-> owner P o q t).
Proof. intros P K o t fuel V. exact (all_owners_ok V (t:=t) (fuel:=fuel)). Qed.
Print Assumptions C27_all_owners_of_tree.
Example C27_ex : t8_offset_all_owners_of_tree 20 5 2 ex_table = Ok [1; 3].
Proof. reflexivity. Qed.

(** C28: every tree of every new range is sent to that rank by exactly one rank, which owned it before. *)
Theorem C28_unique_sender : forall P K ofrom oto b t,
  valid_table P K ofrom -> valid_table P K oto -> owner P oto b t ->
  exists a, (0 <= a < P /\ t8_offset_sendstree a b t ofrom oto = true) /\
            forall a', 0 <= a' < P -> t8_offset_sendstree a' b t ofrom oto = true -> a' = a.
Proof. intros P K ofrom oto b t Vf Vt. exact (unique_sender Vf Vt (b:=b) (t:=t)). Qed.
Print Assumptions C28_unique_sender.

Theorem C28_senders_own_and_receivers_need : forall P K ofrom oto a b t,
  valid_table P K ofrom -> valid_table P K oto -> 0 <= a < P -> 0 <= b < P ->
  t8_offset_sendstree a b t ofrom oto = true -> owner P ofrom a t /\ owner P oto b t.
Proof.
  intros P K ofrom oto a b t Vf Vt Ha Hb H.
  exact (match proj1 (@sends_iff P K ofrom oto Vf a b t Ha Hb) H with conj H1 (conj H2 _) => conj H1 H2 end).
Qed.
Print Assumptions C28_senders_own_and_receivers_need.

(** C28: the rank-level test says "sends" exactly when there is a tree to send. *)
Theorem C28_sendsto_iff_some_tree : forall P K ofrom oto a b,
  valid_table P K ofrom -> valid_table P K oto -> 0 <= a < P -> 0 <= b < P ->
  (t8_offset_sendsto a b ofrom oto = true <-> exists t, t8_offset_sendstree a b t ofrom oto = true).
Proof. intros P K ofrom oto a b Vf Vt. exact (sendsto_iff Vf Vt (a:=a) (b:=b)). Qed.
Print Assumptions C28_sendsto_iff_some_tree.

(** C28: a rank is declared silent exactly when it sends nothing to anybody. *)
Theorem C28_nosend_iff_nothing_to_send : forall P K ofrom oto a fuel,
  valid_table P K ofrom -> valid_table P K oto -> 0 <= a < P -> 2 * P + 3 < Z.of_nat fuel ->
  exists r, t8_offset_nosend fuel a P ofrom oto = Ok r /\
    (r = true <-> forall b t, 0 <= b < P -> t8_offset_sendstree a b t ofrom oto = false).
Proof. intros P K ofrom oto a fuel Vf Vt. exact (nosend_iff Vf Vt (a:=a) (fuel:=fuel)). Qed.
Print Assumptions C28_nosend_iff_nothing_to_send.

(** C28: the number of messages a rank waits for is the number of ranks that send to it. *)
Theorem C28_range_send_counts_senders : forall P ofrom oto b, 0 <= b < P ->
  t8_offset_range_send 0 (P - 1) b ofrom oto =
  zlen (filter (fun a => t8_offset_sendsto a b ofrom oto) (zseq 0 (Z.to_nat P))).
Proof. intros P ofrom oto b. exact (range_send_ok (P:=P) ofrom oto (b:=b)). Qed.
Print Assumptions C28_range_send_counts_senders.
Example C28_ex : valid_table 5 5 ex_table /\ valid_table 5 5 ex_table2 /\ owner 5 ex_table2 2 3 /\
  t8_offset_sendstree 3 2 3 ex_table ex_table2 = true /\ t8_offset_nosend 20 2 5 ex_table ex_table2 = Ok true.
Proof.
  split; [apply ex_table_valid|]. split; [apply ex_table2_valid|].
  split; [unfold owner, owns; vm_compute; intuition congruence|]. split; reflexivity.
Qed.

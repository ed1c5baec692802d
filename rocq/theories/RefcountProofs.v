(** Proofs about reference counts. *)
From Coq Require Import Relations.
From Verif Require Import Prelude PathSpec SchemeProofs RefcountModel RefcountSpec.
#[local] Unset Implicit Arguments.

(** ** Reading and writing *)

Definition inside (h : heap) (x : Z) : Prop := 0 <= x < zlen h.

Lemma read_get h x c : read h x = Ok c -> inside h x /\ nth_error h (Z.to_nat x) = Some (Some c).
Proof.
  unfold read, inside. destruct (Z.ltb_spec x 0) as [L|L]; [discriminate|].
  destruct (nth (Z.to_nat x) h None) as [c'|] eqn:E; [|discriminate]. intros H. injection H as ->.
  assert (Hl : (Z.to_nat x < length h)%nat).
  { destruct (Nat.lt_ge_cases (Z.to_nat x) (length h)) as [?|G]; [assumption|].
    rewrite nth_overflow in E by assumption. discriminate. }
  split; [unfold zlen; lia|]. rewrite (nth_error_nth' h None Hl). now rewrite E.
Qed.

Lemma set_nth_length h : forall i v, length (set_nth h i v) = length h.
Proof. induction h as [|a r IH]; intros [|i] v; cbn; auto. Qed.
Lemma write_zlen h x v : zlen (write h x v) = zlen h.
Proof. unfold zlen, write. now rewrite set_nth_length. Qed.
Lemma write_inside h x v y : inside h y -> inside (write h x v) y.
Proof. unfold inside. now rewrite write_zlen. Qed.

Lemma nth_set_nth h : forall i j v, nth j (set_nth h i v) None =
  if Nat.eqb i j then (if Nat.ltb i (length h) then v else None) else nth j h None.
Proof.
  induction h as [|a r IH]; intros i j v.
  - cbn [set_nth length]. destruct (Nat.eqb i j); [destruct i|]; destruct j; reflexivity.
  - destruct i as [|i], j as [|j]; cbn [set_nth nth Nat.eqb length]; try reflexivity. rewrite IH.
    destruct (Nat.eqb_spec i j); [|reflexivity].
    destruct (Nat.ltb_spec i (length r)), (Nat.ltb_spec (S i) (S (length r))); try reflexivity; lia.
Qed.

Lemma read_write_same h x c : inside h x -> read (write h x (Some c)) x = Ok c.
Proof.
  unfold inside, read, write, zlen. intros H. destruct (Z.ltb_spec x 0); [lia|]. rewrite nth_set_nth, Nat.eqb_refl.
  destruct (Nat.ltb_spec (Z.to_nat x) (length h)); [reflexivity|lia].
Qed.
Lemma read_freed h x : read (write h x None) x = Oob.
Proof.
  unfold read, write. destruct (Z.ltb_spec x 0); [reflexivity|]. rewrite nth_set_nth, Nat.eqb_refl.
  now destruct (Nat.ltb (Z.to_nat x) (length h)).
Qed.
Lemma read_write_other h x y v : x <> y -> 0 <= x -> read (write h x v) y = read h y.
Proof.
  unfold read, write. intros H Hx. destruct (Z.ltb_spec y 0); [reflexivity|]. rewrite nth_set_nth.
  destruct (Nat.eqb_spec (Z.to_nat x) (Z.to_nat y)); [lia|reflexivity].
Qed.
Lemma write_write h : forall x v w, write (write h x v) x w = write h x w.
Proof.
  intros x v w. unfold write. generalize (Z.to_nat x). clear x. induction h as [|a r IH]; intros [|i]; cbn; auto. now rewrite IH.
Qed.

Lemma read_alloc_old h o x : inside h x -> read (alloc h o) x = read h x.
Proof.
  unfold inside, read, alloc, zlen. intros H. destruct (Z.ltb_spec x 0); [reflexivity|]. now rewrite app_nth1 by lia.
Qed.
Lemma read_alloc_new h o : read (alloc h o) (zlen h) = Ok (Cell 1 o).
Proof.
  unfold read, alloc, zlen. destruct (Z.ltb_spec (Z.of_nat (length h)) 0); [lia|].
  rewrite app_nth2 by lia. rewrite Nat2Z.id, Nat.sub_diag. reflexivity.
Qed.
Lemma read_outside h x : ~ inside h x -> read h x = Oob.
Proof.
  unfold inside, read, zlen. intros H. destruct (Z.ltb_spec x 0); [reflexivity|]. now rewrite nth_overflow by lia.
Qed.
Lemma alloc_zlen h o : zlen (alloc h o) = zlen h + 1.
Proof. unfold alloc. rewrite zlen_app. reflexivity. Qed.

(** ** Counting pointers *)

Lemma cnt_app x a b : cnt x (a ++ b) = cnt x a + cnt x b.
Proof. unfold cnt. rewrite count_occ_app. lia. Qed.
Lemma cnt_nil x : cnt x [] = 0.
Proof. reflexivity. Qed.
Lemma cnt_ge0 x l : 0 <= cnt x l.
Proof. unfold cnt. lia. Qed.
Lemma cnt_cons x y l : cnt x (y :: l) = cnt x [y] + cnt x l.
Proof. change (y :: l) with ([y] ++ l). apply cnt_app. Qed.
Lemma cnt_self x : cnt x [x] = 1.
Proof. unfold cnt. cbn. destruct (Z.eq_dec x x); [reflexivity|congruence]. Qed.
Lemma cnt_other x y : x <> y -> cnt x [y] = 0.
Proof. unfold cnt. cbn. destruct (Z.eq_dec y x); [congruence|reflexivity]. Qed.
Lemma cnt_pos x l : 1 <= cnt x l <-> In x l.
Proof. unfold cnt. rewrite (count_occ_In Z.eq_dec). lia. Qed.

Definition cell_refs (v : option cell) : list Z := match v with Some c => refs (obj c) | None => [] end.

Lemma cnt_flat_set : forall h i v x, (i < length h)%nat ->
  cnt x (flat_map cell_refs (set_nth h i v)) + cnt x (cell_refs (nth i h None))
  = cnt x (flat_map cell_refs h) + cnt x (cell_refs v).
Proof.
  induction h as [|a r IH]; intros [|i] v x Hi; cbn [length] in Hi; try lia; cbn [set_nth flat_map nth].
  - rewrite !cnt_app. lia.
  - rewrite !cnt_app. specialize (IH i v x). lia.
Qed.

Lemma pointers_write h x v c y : read h x = Ok c ->
  cnt y (pointers (write h x v)) = cnt y (pointers h) - cnt y (refs (obj c)) + cnt y (cell_refs v).
Proof.
  intros Hr. destruct (read_get _ _ _ Hr) as [Hi Hn]. unfold inside, zlen in Hi.
  pose proof (cnt_flat_set h (Z.to_nat x) v y ltac:(lia)) as E.
  rewrite (nth_error_nth h (Z.to_nat x) None Hn) in E. change (cell_refs (Some c)) with (refs (obj c)) in E.
  change (pointers (write h x v)) with (flat_map cell_refs (set_nth h (Z.to_nat x) v)).
  change (pointers h) with (flat_map cell_refs h). lia.
Qed.
Lemma pointers_fill h x v y : inside h x -> read h x = Oob ->
  cnt y (pointers (write h x v)) = cnt y (pointers h) + cnt y (cell_refs v).
Proof.
  intros Hi Hr. unfold inside, zlen in Hi.
  pose proof (cnt_flat_set h (Z.to_nat x) v y ltac:(lia)) as E.
  assert (En : nth (Z.to_nat x) h None = None).
  { unfold read in Hr. destruct (Z.ltb_spec x 0); [lia|]. now destruct (nth (Z.to_nat x) h None). }
  rewrite En in E. change (cell_refs None) with (@nil Z) in E. rewrite cnt_nil in E.
  change (pointers (write h x v)) with (flat_map cell_refs (set_nth h (Z.to_nat x) v)).
  change (pointers h) with (flat_map cell_refs h). lia.
Qed.
Lemma pointers_alloc h o y : cnt y (pointers (alloc h o)) = cnt y (pointers h) + cnt y (refs o).
Proof. unfold pointers, alloc. rewrite flat_map_app, cnt_app. cbn [flat_map obj]. now rewrite app_nil_r. Qed.

Lemma in_pointers h y : In y (pointers h) -> exists x c, read h x = Ok c /\ In y (refs (obj c)).
Proof.
  unfold pointers. intros H. apply in_flat_map in H as (v & Hv & Hy). destruct v as [c|]; [|contradiction].
  apply (In_nth _ _ None) in Hv as (i & Hi & E). exists (Z.of_nat i), c. split; [|exact Hy].
  unfold read. destruct (Z.ltb_spec (Z.of_nat i) 0); [lia|]. now rewrite Nat2Z.id, E.
Qed.

(** ** Kinds *)

Inductive kind := KScheme | KGeometry | KCmesh (committed : bool) | KForest (committed : bool) | KSearch.
Definition kind_of (o : object) : kind :=
  match o with OScheme => KScheme | OGeometry => KGeometry | OCmesh c => KCmesh (c_committed c)
  | OForest f => KForest (f_committed f) | OSearch _ => KSearch end.
Definition isa (h : heap) (x : Z) (k : kind) : Prop := exists c, read h x = Ok c /\ kind_of (obj c) = k.

Definition all_are (h : heap) (p : option Z) (k : kind) : Prop := forall x, p = Some x -> isa h x k.

(** What an object's members point to, and which combinations occur. *)
Definition typed (h : heap) (o : object) : Prop :=
  match o with
  | OScheme | OGeometry => True
  | OCmesh c => all_are h (c_set_from c) (KCmesh true) /\ all_are h (c_geometry_handler c) KGeometry /\
                all_are h (c_partition_scheme c) KScheme /\ (c_committed c = true -> c_set_from c = None)
  | OForest f => all_are h (f_set_from f) (KForest true) /\ all_are h (f_scheme f) KScheme /\
                 all_are h (f_cmesh f) (KCmesh true) /\
                 (f_committed f = true -> f_set_from f = None /\ f_scheme f <> None /\ f_cmesh f <> None) /\
                 (f_committed f = false -> 0 <= f_from_method f <= FROM_LAST /\
                    (has (f_from_method f) FROM_ADAPT = true -> f_adapt_fn f = true))
  | OSearch p => all_are h p (KForest true)
  end.

Lemma typed_isa h o y : typed h o -> In y (refs o) -> exists k, isa h y k /\ (k = KScheme \/ k = KGeometry \/ k = KCmesh true \/ k = KForest true).
Proof.
  assert (P : forall p k, all_are h p k -> In y (ptr p) -> isa h y k).
  { intros [x|] k Ha Hi; cbn [ptr] in Hi; [destruct Hi as [<-|[]]; now apply Ha|contradiction]. }
  destruct o as [| |c|f|p]; cbn [typed refs]; try contradiction.
  - intros (A & B & C & _) H. rewrite !in_app_iff in H.
    destruct H as [H|[H|H]]; [exists (KCmesh true)|exists KGeometry|exists KScheme]; split; eauto.
  - intros (A & B & C & _) H. rewrite !in_app_iff in H.
    destruct H as [H|[H|H]]; [exists (KForest true)|exists KScheme|exists (KCmesh true)]; split; eauto.
  - intros A H. exists (KForest true). split; eauto.
Qed.

Lemma typed_ext h h' o : (forall y k, In y (refs o) -> isa h y k -> isa h' y k) -> typed h o -> typed h' o.
Proof.
  intros E.
  assert (P : forall p k, (forall x, p = Some x -> In x (refs o)) -> all_are h p k -> all_are h' p k).
  { intros p k Hp Ha x Hx. apply E; [now apply Hp|now apply Ha]. }
  assert (Q : forall p x, p = Some x -> In x (ptr p)) by (intros p x ->; now left).
  destruct o as [| |c|f|p]; cbn [typed]; auto.
  - intros (A & B & C & D). split; [|split; [|split]]; auto; apply P; auto; intros x Hx; cbn [refs]; rewrite !in_app_iff;
      apply Q in Hx; auto.
  - intros (A & B & C & D). split; [|split; [|split]]; auto; apply P; auto; intros x Hx; cbn [refs]; rewrite !in_app_iff;
      apply Q in Hx; auto.
  - apply P. intros x Hx. cbn [refs]. now apply Q.
Qed.

Lemma isa_read h x k : isa h x k -> alive h x.
Proof. intros (c & H & _). now exists c. Qed.
Lemma isa_inside h x k : isa h x k -> inside h x.
Proof. intros (c & H & _). now apply read_get in H. Qed.
Lemma isa_fun h x k k' : isa h x k -> isa h x k' -> k = k'.
Proof. intros (c & H & <-) (c' & H' & <-). congruence. Qed.
Lemma isa_read_kind h x k c : isa h x k -> read h x = Ok c -> kind_of (obj c) = k.
Proof. intros (c' & H' & <-) H. congruence. Qed.

(** ** The invariant *)

Definition Inv (h : heap) (own : owns) : Prop :=
  (forall x, 0 <= own x) /\
  (forall x c, read h x = Ok c ->
     rc c = own x + cnt x (pointers h) /\ 1 <= rc c /\ typed h (obj c) /\ (kind_of (obj c) = KSearch -> rc c = 1)) /\
  (forall x, 1 <= own x -> alive h x).

Lemma Inv_ext h own own' : (forall x, own x = own' x) -> Inv h own -> Inv h own'.
Proof.
  intros E (A & B & C). split; [|split].
  - intros x. rewrite <- E. apply A.
  - intros x c Hr. rewrite <- E. now apply B.
  - intros x. rewrite <- E. apply C.
Qed.

Lemma alive_or h x : alive h x \/ read h x = Oob.
Proof.
  unfold alive, read. destruct (x <? 0); [now right|]. destruct (nth (Z.to_nat x) h None) as [c|]; [left; now exists c|now right].
Qed.

Lemma pointed_alive h own y : Inv h own -> In y (pointers h) -> exists k, isa h y k /\
  (k = KScheme \/ k = KGeometry \/ k = KCmesh true \/ k = KForest true).
Proof.
  intros (_ & B & _) H. destruct (in_pointers _ _ H) as (x & c & Hr & Hy).
  destruct (B _ _ Hr) as (_ & _ & T & _). exact (typed_isa _ _ _ T Hy).
Qed.

Lemma cnt0 h y : ~ In y (pointers h) -> cnt y (pointers h) = 0.
Proof. intros H. pose proof (cnt_ge0 y (pointers h)). pose proof (cnt_pos y (pointers h)). destruct (Z.eq_dec (cnt y (pointers h)) 0); [assumption|]. exfalso; apply H, H1; lia. Qed.

Lemma dead_unpointed h own y : Inv h own -> read h y = Oob -> cnt y (pointers h) = 0.
Proof.
  intros I H. apply cnt0. intros Hi. destruct (pointed_alive _ _ _ I Hi) as (k & (c & Hr & _) & _). congruence.
Qed.

(** Objects under construction and searches are not pointed to. *)
Lemma unpointed h own y k : Inv h own -> isa h y k -> k = KCmesh false \/ k = KForest false \/ k = KSearch ->
  cnt y (pointers h) = 0.
Proof.
  intros I H Hk. apply cnt0. intros Hi. destruct (pointed_alive _ _ _ I Hi) as (k' & H' & Hk').
  pose proof (isa_fun _ _ _ _ H H'). subst k'. destruct Hk as [ -> |[ -> | -> ]]; destruct Hk' as [|[|[|]]]; congruence.
Qed.

(** An object changes its count, nothing else. *)
Lemma isa_rc h x c n y k : read h x = Ok c -> isa h y k <-> isa (write h x (Some (Cell n (obj c)))) y k.
Proof.
  intros Hr. destruct (read_get _ _ _ Hr) as [Hi _]. unfold isa. destruct (Z.eq_dec x y) as [<-|N].
  - rewrite Hr, read_write_same by assumption. split; intros (c' & E & K); injection E as <-; eexists; (split; [reflexivity|]); exact K.
  - rewrite read_write_other by (unfold inside in Hi; auto; lia). reflexivity.
Qed.

Lemma set_rc h own x c n : Inv h own -> read h x = Ok c -> 1 <= n -> 0 <= own x + n - rc c -> kind_of (obj c) <> KSearch ->
  Inv (write h x (Some (Cell n (obj c)))) (fun y => own y + (n - rc c) * cnt y [x]).
Proof.
  intros (A & B & C) Hr Hn Ho Hs. destruct (read_get _ _ _ Hr) as [Hi _].
  assert (E : forall y, cnt y (pointers (write h x (Some (Cell n (obj c))))) = cnt y (pointers h)).
  { intros y. rewrite (pointers_write _ _ _ _ _ Hr). cbn [cell_refs obj]. lia. }
  assert (T : forall o, typed h o -> typed (write h x (Some (Cell n (obj c)))) o).
  { intros o. apply typed_ext. intros y k _. now apply isa_rc. }
  split; [|split].
  - intros y. destruct (Z.eq_dec y x) as [->|N]; [rewrite cnt_self; lia|rewrite (cnt_other _ _ N); specialize (A y); lia].
  - intros y d Hd. rewrite E. destruct (Z.eq_dec x y) as [<-|N].
    + rewrite read_write_same in Hd by assumption. injection Hd as <-. cbn [rc obj]. destruct (B _ _ Hr) as (B1 & B2 & B3 & B4).
      rewrite cnt_self. split; [lia|]. split; [lia|]. split; [now apply T|]. intros K. contradiction.
    + rewrite read_write_other in Hd by (unfold inside in Hi; auto; lia). destruct (B _ _ Hd) as (B1 & B2 & B3 & B4).
      rewrite cnt_other by auto. split; [lia|]. split; [lia|]. split; [now apply T|exact B4].
  - intros y Hy. destruct (Z.eq_dec x y) as [<-|N].
    + eexists. now apply read_write_same.
    + rewrite cnt_other in Hy by auto. destruct (C y ltac:(lia)) as [d Hd]. exists d.
      now rewrite read_write_other by (unfold inside in Hi; auto; lia).
Qed.

(** An object that nothing points to is taken from the heap; its pointers become the program's. *)
Lemma take h own x c : Inv h own -> read h x = Ok c -> cnt x (pointers h) = 0 ->
  Inv (write h x None) (fun y => own y + cnt y (refs (obj c)) - rc c * cnt y [x]) /\ own x = rc c /\ cnt x (refs (obj c)) = 0.
Proof.
  intros (A & B & C) Hr Hp. destruct (read_get _ _ _ Hr) as [Hi _].
  assert (E : forall y, cnt y (pointers (write h x None)) = cnt y (pointers h) - cnt y (refs (obj c))).
  { intros y. rewrite (pointers_write _ _ _ _ _ Hr). cbn [cell_refs]. rewrite cnt_nil. lia. }
  destruct (B _ _ Hr) as (B1 & B2 & B3 & B4).
  assert (R0 : cnt x (refs (obj c)) = 0).
  { pose proof (cnt_ge0 x (refs (obj c))). pose proof (cnt_ge0 x (pointers (write h x None))). specialize (E x). lia. }
  assert (Ox : own x = rc c) by lia.
  assert (Ne : forall y, In y (pointers h) -> y <> x).
  { intros y Hy ->. apply cnt_pos in Hy. lia. }
  assert (K : forall y k, y <> x -> isa h y k -> isa (write h x None) y k).
  { intros y k N (d & Hd & Hk). exists d. split; [|exact Hk]. rewrite read_write_other; auto. unfold inside in Hi. lia. }
  assert (Pin : forall z d y, read h z = Ok d -> In y (refs (obj d)) -> In y (pointers h)).
  { intros z d y Hz Hy. apply cnt_pos. pose proof (pointers_write h z None d y Hz) as P. cbn [cell_refs] in P.
    rewrite cnt_nil in P. pose proof (cnt_ge0 y (pointers (write h z None))). apply cnt_pos in Hy. lia. }
  split; [|split; [exact Ox|exact R0]]. split; [|split].
  - intros y. destruct (Z.eq_dec y x) as [->|N]; [rewrite cnt_self; lia|rewrite (cnt_other _ _ N)].
    pose proof (cnt_ge0 y (refs (obj c))). specialize (A y). lia.
  - intros y d Hd. destruct (Z.eq_dec x y) as [<-|N]; [rewrite read_freed in Hd; discriminate|].
    rewrite read_write_other in Hd by (unfold inside in Hi; auto; lia). destruct (B _ _ Hd) as (D1 & D2 & D3 & D4).
    rewrite E, (cnt_other y x) by auto. split; [lia|]. split; [lia|]. split; [|exact D4].
    apply (typed_ext h); [|exact D3]. intros z k Hz. apply K. apply Ne. exact (Pin _ _ _ Hd Hz).
  - intros y Hy. assert (N : y <> x) by (intros ->; rewrite cnt_self in Hy; lia). rewrite (cnt_other _ _ N) in Hy.
    assert (Ya : alive h y).
    { destruct (Z.eq_dec (own y) 0) as [Z0|Z0].
      - assert (Hin : In y (refs (obj c))) by (apply cnt_pos; lia).
        destruct (typed_isa _ _ _ B3 Hin) as (k & Hk & _). exact (isa_read _ _ _ Hk).
      - apply C. specialize (A y). lia. }
    destruct Ya as [d Hd]. exists d. rewrite read_write_other; auto. unfold inside in Hi. lia.
Qed.

(** An object is placed in the heap; the program's references to what it points to become its own. *)
Lemma put h own x n o : Inv h own -> inside h x -> read h x = Oob -> 1 <= n -> typed (write h x (Some (Cell n o))) o ->
  (forall y, cnt y (refs o) <= own y) -> (kind_of o = KSearch -> n = 1) ->
  Inv (write h x (Some (Cell n o))) (fun y => own y - cnt y (refs o) + n * cnt y [x]).
Proof.
  intros I Hi Hr Hn Ht Ho Hs. pose proof I as (A & B & C).
  assert (O0 : own x = 0).
  { specialize (A x). destruct (Z.eq_dec (own x) 0); [assumption|]. destruct (C x ltac:(lia)) as [d Hd]. congruence. }
  pose proof (dead_unpointed _ _ _ I Hr) as P0.
  assert (E : forall y, cnt y (pointers (write h x (Some (Cell n o)))) = cnt y (pointers h) + cnt y (refs o)).
  { intros y. now rewrite (pointers_fill _ _ _ _ Hi Hr). }
  assert (K : forall y k, isa h y k -> isa (write h x (Some (Cell n o))) y k).
  { intros y k (d & Hd & Hk). exists d. split; [|exact Hk]. rewrite read_write_other; auto; [congruence|unfold inside in Hi; lia]. }
  split; [|split].
  - intros y. pose proof (cnt_ge0 y [x]). specialize (Ho y). nia.
  - intros y d Hd. rewrite E. destruct (Z.eq_dec x y) as [<-|N].
    + rewrite read_write_same in Hd by assumption. injection Hd as <-. cbn [rc obj]. rewrite cnt_self.
      split; [lia|]. split; [lia|]. split; [exact Ht|exact Hs].
    + rewrite read_write_other in Hd by (unfold inside in Hi; auto; lia). destruct (B _ _ Hd) as (D1 & D2 & D3 & D4).
      rewrite (cnt_other y x) by auto. split; [lia|]. split; [lia|]. split; [|exact D4].
      apply (typed_ext h); [|exact D3]. intros z k _. apply K.
  - intros y Hy. destruct (Z.eq_dec x y) as [<-|N]; [eexists; now apply read_write_same|].
    rewrite (cnt_other y x) in Hy by auto. pose proof (cnt_ge0 y (refs o)). destruct (C y ltac:(lia)) as [d Hd].
    exists d. now rewrite read_write_other by (unfold inside in Hi; auto; lia).
Qed.

(** A new object. *)
Lemma new_object h own o : Inv h own -> (forall y, cnt y (refs o) <= own y) -> typed h o ->
  Inv (alloc h o) (fun y => own y - cnt y (refs o) + cnt y [zlen h]).
Proof.
  intros I Hr Ht. pose proof I as (A & B & C).
  assert (Oo : ~ inside h (zlen h)) by (unfold inside; lia).
  pose proof (read_outside _ _ Oo) as Rn.
  assert (O0 : own (zlen h) = 0).
  { specialize (A (zlen h)). destruct (Z.eq_dec (own (zlen h)) 0); [assumption|].
    destruct (C (zlen h) ltac:(lia)) as [d Hd]. congruence. }
  pose proof (dead_unpointed _ _ _ I Rn) as P0.
  assert (E : forall y, cnt y (pointers (alloc h o)) = cnt y (pointers h) + cnt y (refs o)).
  { intros y. apply pointers_alloc. }
  assert (K : forall y k, isa h y k -> isa (alloc h o) y k).
  { intros y k (d & Hd & Hk). exists d. split; [|exact Hk]. rewrite read_alloc_old; [exact Hd|]. now apply read_get in Hd. }
  assert (R : forall y d, read (alloc h o) y = Ok d -> y = zlen h /\ d = Cell 1 o \/ inside h y /\ read h y = Ok d).
  { intros y d Hd. destruct (read_get _ _ _ Hd) as [Hi _]. unfold inside in Hi. rewrite alloc_zlen in Hi.
    destruct (Z.eq_dec y (zlen h)) as [->|N]; [left; rewrite read_alloc_new in Hd; injection Hd as <-; auto|].
    right. assert (Hj : inside h y) by (unfold inside; lia). rewrite read_alloc_old in Hd by assumption. auto. }
  split; [|split].
  - intros y. pose proof (cnt_ge0 y [zlen h]). specialize (A y). specialize (Hr y). lia.
  - intros y d Hd. rewrite E. destruct (R _ _ Hd) as [[-> ->]|[Hi Hd']].
    + cbn [rc obj]. rewrite cnt_self. split; [lia|]. split; [lia|]. split; [|auto]. apply (typed_ext h); [|exact Ht]. intros z k _. apply K.
    + destruct (B _ _ Hd') as (D1 & D2 & D3 & D4). rewrite cnt_other by (unfold inside in Hi; lia).
      split; [lia|]. split; [lia|]. split; [|exact D4]. apply (typed_ext h); [|exact D3]. intros z k _. apply K.
  - intros y Hy. destruct (Z.eq_dec y (zlen h)) as [->|N]; [eexists; apply read_alloc_new|].
    rewrite (cnt_other _ _ N) in Hy. pose proof (cnt_ge0 y (refs o)). destruct (C y ltac:(lia)) as [d Hd]. exists d. rewrite read_alloc_old; [exact Hd|].
    now apply read_get in Hd.
Qed.

(** Every call of the model keeps the counts right. *)
From Coq Require Import Relations.
From Verif Require Import Prelude PathSpec SchemeProofs RefcountModel RefcountSpec RefcountProofs.
#[local] Unset Implicit Arguments.

Ltac ow := rewrite ?cnt_app, ?cnt_nil;
  repeat match goal with |- context [cnt ?x (?y :: ?l)] =>
    lazymatch l with nil => fail | _ => rewrite (cnt_cons x y l) end end; rewrite ?cnt_app, ?cnt_nil;
  repeat match goal with |- context [cnt ?x [?x]] => rewrite (cnt_self x) end;
  repeat match goal with |- context [cnt ?x ?l] =>
    lazymatch goal with H : 0 <= cnt x l |- _ => fail | _ => pose proof (cnt_ge0 x l) end end; try lia.

(** The heap after a call: old objects have gone or are as before. *)
Definition keeps (X : list Z) (h h' : heap) : Prop :=
  zlen h <= zlen h' /\
  forall y c', inside h y -> ~ In y X -> read h' y = Ok c' -> exists c, read h y = Ok c /\ obj c = obj c'.

Lemma keeps_refl X h : keeps X h h.
Proof. split; [lia|]. intros y c' _ _ H. now exists c'. Qed.
Lemma keeps_trans X Y h1 h2 h3 : keeps X h1 h2 -> keeps Y h2 h3 -> (forall y, inside h1 y -> In y Y -> In y X) -> keeps X h1 h3.
Proof.
  intros [L1 K1] [L2 K2] S. split; [lia|]. intros y c' Hi Hx Hr.
  destruct (K2 y c') as (c2 & H2 & E2); auto; [unfold inside in *; lia|].
  destruct (K1 y c2 Hi Hx H2) as (c1 & H1 & E1). exists c1. split; congruence.
Qed.
Lemma keeps_trans0 X h1 h2 h3 : keeps X h1 h2 -> keeps [] h2 h3 -> keeps X h1 h3.
Proof. intros A B. apply (keeps_trans _ _ _ _ _ A B). intros y _ []. Qed.
Lemma keeps_weaken X Y h h' : (forall y, inside h y -> In y X -> In y Y) -> keeps X h h' -> keeps Y h h'.
Proof. intros S [L K]. split; [assumption|]. intros y c' Hi Hx. apply K; auto. Qed.
Lemma keeps_write h x v : inside h x -> keeps [x] h (write h x v).
Proof.
  intros Hi. split; [rewrite write_zlen; lia|]. intros y c' _ Hx Hr. rewrite read_write_other in Hr.
  - now exists c'.
  - intros ->. apply Hx. now left.
  - unfold inside in Hi. lia.
Qed.
Lemma keeps_free h x : inside h x -> keeps [] h (write h x None).
Proof.
  intros Hi. split; [rewrite write_zlen; lia|]. intros y c' _ _ Hr.
  destruct (Z.eq_dec x y) as [<-|N]; [rewrite read_freed in Hr; discriminate|].
  rewrite read_write_other in Hr by (unfold inside in Hi; auto; lia). now exists c'.
Qed.
Lemma keeps_rc h x c n : read h x = Ok c -> keeps [] h (write h x (Some (Cell n (obj c)))).
Proof.
  intros Hx. destruct (read_get _ _ _ Hx) as [Hi _]. split; [rewrite write_zlen; lia|]. intros y c' _ _ Hr.
  destruct (Z.eq_dec x y) as [<-|N].
  - rewrite read_write_same in Hr by assumption. injection Hr as <-. now exists c.
  - rewrite read_write_other in Hr by (unfold inside in Hi; auto; lia). now exists c'.
Qed.
Lemma keeps_alloc h o : keeps [] h (alloc h o).
Proof. split; [rewrite alloc_zlen; lia|]. intros y c' Hi _ Hr. rewrite read_alloc_old in Hr by assumption. now exists c'. Qed.

Lemma keeps_read X h h' own' y c : Inv h' own' -> keeps X h h' -> ~ In y X -> 1 <= own' y -> read h y = Ok c ->
  exists c', read h' y = Ok c' /\ obj c' = obj c.
Proof.
  intros (_ & _ & C) [_ K] Hx Ho Hr. destruct (C y Ho) as [c' Hc']. exists c'. split; [assumption|].
  destruct (K y c') as (c0 & H0 & E); auto; [now apply read_get in Hr|]. congruence.
Qed.
Lemma keeps_isa X h h' own' y k : Inv h' own' -> keeps X h h' -> ~ In y X -> 1 <= own' y -> isa h y k -> isa h' y k.
Proof.
  intros I K Hx Ho (c & Hr & Hk). destruct (keeps_read X h h' own' y c I K Hx Ho Hr) as (c' & H' & E).
  exists c'. split; [assumption|]. now rewrite E.
Qed.

Definition minus (own : owns) (l : list Z) : owns := fun y => own y - cnt y l.
Definition plus (own : owns) (l : list Z) : owns := fun y => own y + cnt y l.

Lemma own_ge0 h own x : Inv h own -> 0 <= own x.
Proof. intros (A & _). apply A. Qed.

(** ** ref and unref *)

Lemma ref_ok h own x k : Inv h own -> isa h x k -> k <> KSearch ->
  exists h', refcount_ref h x = Ok h' /\ Inv h' (plus own [x]) /\ keeps [] h h'.
Proof.
  intros I (c & Hr & Hk) Hs. pose proof I as (A & B & C). destruct (B _ _ Hr) as (B1 & B2 & _).
  unfold refcount_ref. rewrite Hr. cbn [obind]. destruct (Z.ltb_spec 0 (rc c)); [|lia].
  eexists. split; [reflexivity|]. split; [|now apply keeps_rc].
  eapply Inv_ext; [|apply (set_rc h own x c (rc c + 1) I Hr); [lia|specialize (A x); lia|congruence]].
  intros y. unfold plus. cbn beta. lia.
Qed.

(** sc_refcount_unref and freeing. *)
Lemma release h own x c : Inv h own -> read h x = Ok c -> 1 <= own x -> kind_of (obj c) <> KSearch ->
  (exists h1, refcount_unref h x = Ok (h1, false) /\ Inv h1 (minus own [x]) /\ keeps [] h h1) \/
  (exists h1, refcount_unref h x = Ok (h1, true) /\ Inv (write h1 x None) (plus (minus own [x]) (refs (obj c))) /\
              keeps [] h (write h1 x None)).
Proof.
  intros I Hr Ho Hs. pose proof I as (A & B & C). destruct (B _ _ Hr) as (B1 & B2 & _).
  destruct (read_get _ _ _ Hr) as [Hi _].
  unfold refcount_unref. rewrite Hr. cbn [obind]. destruct (Z.ltb_spec 0 (rc c)); [|lia].
  destruct (Z.eq_dec (rc c) 1) as [E1|N1].
  - right. eexists. split; [replace (rc c - 1 =? 0) with true by (symmetry; apply Z.eqb_eq; lia); reflexivity|].
    rewrite write_write. split; [|now apply keeps_free].
    assert (P0 : cnt x (pointers h) = 0) by (pose proof (cnt_ge0 x (pointers h)); lia).
    destruct (take h own x c I Hr P0) as (T & _ & _). eapply Inv_ext; [|exact T].
    intros y. unfold plus, minus. cbn beta. rewrite E1. lia.
  - left. eexists. split; [replace (rc c - 1 =? 0) with false by (symmetry; apply Z.eqb_neq; lia); reflexivity|].
    split; [|now apply keeps_rc].
    eapply Inv_ext; [|apply (set_rc h own x c (rc c - 1) I Hr); [lia|specialize (A x); lia|assumption]].
    intros y. unfold minus. cbn beta. lia.
Qed.

Definition releases (f : heap -> Z -> outcome heap) (k : kind) : Prop :=
  forall h own x, Inv h own -> isa h x k -> 1 <= own x ->
    exists h', f h x = Ok h' /\ Inv h' (minus own [x]) /\ keeps [] h h'.

Lemma Inv_plus_nil h own own' : Inv h (plus own []) -> (forall y, own y = own' y) -> Inv h own'.
Proof. intros I E. eapply Inv_ext; [|exact I]. intros y. unfold plus. rewrite cnt_nil. rewrite E. lia. Qed.

Lemma scheme_unref_ok : releases scheme_unref KScheme.
Proof.
  intros h own x I (c & Hr & Hk) Ho. unfold scheme_unref. rewrite Hr. cbn [obind].
  destruct (obj c) eqn:Eo; try discriminate Hk.
  destruct (release h own x c I Hr Ho) as [(h1 & E & I1 & K1)|(h1 & E & I1 & K1)]; [rewrite Eo; discriminate| |];
    rewrite E; cbn [obind fst snd]; eexists; (split; [reflexivity|]); (split; [|assumption]); [assumption|].
  rewrite Eo in I1. cbn [refs] in I1. apply (Inv_plus_nil _ _ _ I1). reflexivity.
Qed.
Lemma geometry_unref_ok : releases geometry_unref KGeometry.
Proof.
  intros h own x I (c & Hr & Hk) Ho. unfold geometry_unref. rewrite Hr. cbn [obind].
  destruct (obj c) eqn:Eo; try discriminate Hk.
  destruct (release h own x c I Hr Ho) as [(h1 & E & I1 & K1)|(h1 & E & I1 & K1)]; [rewrite Eo; discriminate| |];
    rewrite E; cbn [obind fst snd]; eexists; (split; [reflexivity|]); (split; [|assumption]); [assumption|].
  rewrite Eo in I1. cbn [refs] in I1. apply (Inv_plus_nil _ _ _ I1). reflexivity.
Qed.

(** An optional member. *)
Lemma if_nonnull_ok f k h own p : releases f k -> Inv h own -> all_are h p k -> (forall y, cnt y (ptr p) <= own y) ->
  exists h', if_nonnull p (f h) h = Ok h' /\ Inv h' (minus own (ptr p)) /\ keeps [] h h'.
Proof.
  intros F I Ha Ho. destruct p as [x|]; cbn [if_nonnull ptr].
  - apply F; auto. specialize (Ho x). cbn [ptr] in Ho. rewrite cnt_self in Ho. lia.
  - exists h. split; [reflexivity|]. split; [|apply keeps_refl]. eapply Inv_ext; [|exact I]. intros y. unfold minus.
    rewrite cnt_nil. lia.
Qed.

Lemma keeps_all X h h' own' p k : Inv h' own' -> keeps X h h' -> (forall y, In y (ptr p) -> ~ In y X) ->
  (forall y, cnt y (ptr p) <= own' y) -> all_are h p k -> all_are h' p k.
Proof.
  intros I K Hx Ho Ha y ->. apply (keeps_isa X h h' own' y k I K).
  - apply Hx. now left.
  - specialize (Ho y). cbn [ptr] in Ho. now rewrite cnt_self in Ho.
  - now apply Ha.
Qed.

Lemma read_cmesh_ok h x n m : read h x = Ok (Cell n (OCmesh m)) -> read_cmesh h x = Ok (n, m).
Proof. intros H. unfold read_cmesh. now rewrite H. Qed.
Lemma read_forest_ok h x n f : read h x = Ok (Cell n (OForest f)) -> read_forest h x = Ok (n, f).
Proof. intros H. unfold read_forest. now rewrite H. Qed.

Lemma isa_cmesh h x b : isa h x (KCmesh b) -> exists n m, read h x = Ok (Cell n (OCmesh m)) /\ c_committed m = b.
Proof. intros ([n o] & Hr & Hk). cbn [obj] in Hk. destruct o; try discriminate Hk. injection Hk as Hk. eauto. Qed.
Lemma isa_forest h x b : isa h x (KForest b) -> exists n f, read h x = Ok (Cell n (OForest f)) /\ f_committed f = b.
Proof. intros ([n o] & Hr & Hk). cbn [obj] in Hk. destruct o; try discriminate Hk. injection Hk as Hk. eauto. Qed.

(** t8_cmesh_unref *)
Lemma cmesh_unref_ok : forall fuel b, ((if b : bool then 1 else 2) <= fuel)%nat -> releases (cmesh_unref fuel) (KCmesh b).
Proof.
  induction fuel as [|fuel IH]; intros b Hf h own x I Hk Ho; [destruct b; lia|].
  destruct (isa_cmesh _ _ _ Hk) as (n & m & Hr & Hb).
  pose proof I as (_ & B & _). destruct (B _ _ Hr) as (_ & _ & T & _). cbn [typed obj] in T. destruct T as (T1 & T2 & T3 & T4).
  cbn [cmesh_unref]. rewrite (read_cmesh_ok _ _ _ _ Hr). cbn [obind].
  destruct (release h own x _ I Hr Ho) as [(h1 & E & I1 & K1)|(h1 & E & I1 & K1)]; [discriminate| |];
    rewrite E; cbn [obind fst snd negb].
  - eexists. split; [reflexivity|]. split; assumption.
  - set (h0 := write h1 x None) in *. cbn [obj refs] in I1.
    assert (O1 : forall y, 0 <= minus own [x] y).
    { intros y. unfold minus. destruct (Z.eq_dec y x) as [->|N]; [rewrite cnt_self; lia|rewrite cnt_other by assumption].
      pose proof (own_ge0 _ _ y I). lia. }
    assert (S1 : exists h2, (if negb (c_committed m) then if_nonnull (c_set_from m) (fun y => cmesh_unref fuel h0 y) h0
        else do _ <- check (is_null (c_set_from m)); Ok h0) = Ok h2 /\
        Inv h2 (plus (minus own [x]) (ptr (c_geometry_handler m) ++ ptr (c_partition_scheme m))) /\ keeps [] h0 h2).
    { destruct b; rewrite Hb; cbn [negb].
      - rewrite (T4 Hb) in I1 |- *. cbn [is_null check obind ptr app] in I1 |- *. exists h0. split; [reflexivity|].
        split; [assumption|apply keeps_refl].
      - change (fun y => cmesh_unref fuel h0 y) with (cmesh_unref fuel h0).
        assert (F : releases (cmesh_unref fuel) (KCmesh true)) by (apply IH; lia).
        destruct (if_nonnull_ok _ _ h0 _ (c_set_from m) F I1) as (h2 & E2 & I2 & K2).
        + apply (keeps_all [] h h0 _ _ _ I1 K1); auto. intros y. unfold plus. specialize (O1 y). ow.
        + intros y. unfold plus. specialize (O1 y). ow.
        + exists h2. split; [exact E2|]. split; [|exact K2]. eapply Inv_ext; [|exact I2]. intros y. unfold plus, minus. ow. }
    destruct S1 as (h2 & E2 & I2 & K2). rewrite E2. cbn [obind]. pose proof (keeps_trans0 _ _ _ _ K1 K2) as K02.
    destruct (if_nonnull_ok _ _ h2 _ (c_geometry_handler m) geometry_unref_ok I2) as (h3 & E3 & I3 & K3).
    + apply (keeps_all [] h h2 _ _ _ I2 K02); auto. intros y. unfold plus. specialize (O1 y). ow.
    + intros y. unfold plus. specialize (O1 y). ow.
    + rewrite E3. cbn [obind]. pose proof (keeps_trans0 _ _ _ _ K02 K3) as K03.
      destruct (if_nonnull_ok _ _ h3 _ (c_partition_scheme m) scheme_unref_ok I3) as (h4 & E4 & I4 & K4).
      * apply (keeps_all [] h h3 _ _ _ I3 K03); auto. intros y. unfold plus, minus at 1. specialize (O1 y). ow.
      * intros y. unfold plus, minus at 1. specialize (O1 y). ow.
      * rewrite E4. eexists. split; [reflexivity|]. split; [|exact (keeps_trans0 _ _ _ _ K03 K4)].
        eapply Inv_ext; [|exact I4]. intros y. unfold plus, minus. ow.
Qed.

(** t8_forest_unref *)
Lemma forest_unref_ok : forall fuel b, ((if b : bool then 1 else 2) <= fuel)%nat -> releases (forest_unref fuel) (KForest b).
Proof.
  induction fuel as [|fuel IH]; intros b Hf h own x I Hk Ho; [destruct b; lia|].
  destruct (isa_forest _ _ _ Hk) as (n & m & Hr & Hb).
  pose proof I as (_ & B & _). destruct (B _ _ Hr) as (_ & _ & T & _). cbn [typed obj] in T. destruct T as (T1 & T2 & T3 & T4 & _).
  cbn [forest_unref]. rewrite (read_forest_ok _ _ _ _ Hr). cbn [obind].
  destruct (release h own x _ I Hr Ho) as [(h1 & E & I1 & K1)|(h1 & E & I1 & K1)]; [discriminate| |];
    rewrite E; cbn [obind fst snd negb].
  - eexists. split; [reflexivity|]. split; assumption.
  - set (h0 := write h1 x None) in *. cbn [obj refs] in I1.
    assert (O1 : forall y, 0 <= minus own [x] y).
    { intros y. unfold minus. destruct (Z.eq_dec y x) as [->|N]; [rewrite cnt_self; lia|rewrite cnt_other by assumption].
      pose proof (own_ge0 _ _ y I). lia. }
    assert (S1 : exists h2, (if negb (f_committed m) then if_nonnull (f_set_from m) (fun y => forest_unref fuel h0 y) h0
        else do _ <- check (is_null (f_set_from m)); Ok h0) = Ok h2 /\
        Inv h2 (plus (minus own [x]) (ptr (f_scheme m) ++ ptr (f_cmesh m))) /\ keeps [] h0 h2).
    { destruct b; rewrite Hb; cbn [negb].
      - destruct (T4 Hb) as (T5 & _). rewrite T5 in I1 |- *. cbn [is_null check obind ptr app] in I1 |- *. exists h0. split; [reflexivity|].
        split; [assumption|apply keeps_refl].
      - change (fun y => forest_unref fuel h0 y) with (forest_unref fuel h0).
        assert (F : releases (forest_unref fuel) (KForest true)) by (apply IH; lia).
        destruct (if_nonnull_ok _ _ h0 _ (f_set_from m) F I1) as (h2 & E2 & I2 & K2).
        + apply (keeps_all [] h h0 _ _ _ I1 K1); auto. intros y. unfold plus. specialize (O1 y). ow.
        + intros y. unfold plus. specialize (O1 y). ow.
        + exists h2. split; [exact E2|]. split; [|exact K2]. eapply Inv_ext; [|exact I2]. intros y. unfold plus, minus. ow. }
    destruct S1 as (h2 & E2 & I2 & K2). rewrite E2. cbn [obind]. pose proof (keeps_trans0 _ _ _ _ K1 K2) as K02.
    destruct (if_nonnull_ok _ _ h2 _ (f_scheme m) scheme_unref_ok I2) as (h3 & E3 & I3 & K3).
    + apply (keeps_all [] h h2 _ _ _ I2 K02); auto. intros y. unfold plus. specialize (O1 y). ow.
    + intros y. unfold plus. specialize (O1 y). ow.
    + rewrite E3. cbn [obind]. pose proof (keeps_trans0 _ _ _ _ K02 K3) as K03.
      change (fun y => cmesh_unref cmesh_fuel h3 y) with (cmesh_unref cmesh_fuel h3).
      assert (F : releases (cmesh_unref cmesh_fuel) (KCmesh true)) by (apply cmesh_unref_ok; unfold cmesh_fuel; lia).
      destruct (if_nonnull_ok _ _ h3 _ (f_cmesh m) F I3) as (h4 & E4 & I4 & K4).
      * apply (keeps_all [] h h3 _ _ _ I3 K03); auto. intros y. unfold plus, minus at 1. specialize (O1 y). ow.
      * intros y. unfold plus, minus at 1. specialize (O1 y). ow.
      * rewrite E4. eexists. split; [reflexivity|]. split; [|exact (keeps_trans0 _ _ _ _ K03 K4)].
        eapply Inv_ext; [|exact I4]. intros y. unfold plus, minus. ow.
Qed.

(** ** Changing an object that nothing points to *)

Lemma put_typed h x n o : typed h o -> ~ In x (refs o) -> 0 <= x -> typed (write h x (Some (Cell n o))) o.
Proof.
  intros T N Hx. apply (typed_ext h); [|exact T]. intros y k Hy (c & Hr & Hk). exists c. split; [|exact Hk].
  rewrite read_write_other; auto. intros ->. contradiction.
Qed.

Lemma modify h own x n o o' : Inv h own -> read h x = Ok (Cell n o) -> cnt x (pointers h) = 0 -> typed h o' ->
  ~ In x (refs o') -> (forall y, cnt y (refs o') <= own y + cnt y (refs o)) -> kind_of o' <> KSearch ->
  Inv (write h x (Some (Cell n o'))) (minus (plus own (refs o)) (refs o')) /\ keeps [x] h (write h x (Some (Cell n o'))).
Proof.
  intros I Hr Hp T N Ho Hs. destruct (read_get _ _ _ Hr) as [Hi _].
  split; [|now apply keeps_write].
  destruct (take h own x _ I Hr Hp) as (T0 & Ox & Rx). cbn [rc obj] in T0, Ox, Rx.
  pose proof I as (_ & B & _). destruct (B _ _ Hr) as (_ & B2 & _). cbn [rc] in B2.
  rewrite <- (write_write h x None (Some (Cell n o'))).
  assert (Z0 : cnt x (refs o') = 0).
  { pose proof (cnt_ge0 x (refs o')). pose proof (cnt_pos x (refs o')). destruct (Z.eq_dec (cnt x (refs o')) 0); [assumption|].
    exfalso. apply N, H0. lia. }
  eapply Inv_ext; [|apply (put _ _ x n o' T0)].
  - intros y. unfold minus, plus. cbn beta. lia.
  - now apply write_inside.
  - apply read_freed.
  - assumption.
  - rewrite write_write. apply put_typed; auto. unfold inside in Hi. lia.
  - intros y. cbn beta. destruct (Z.eq_dec y x) as [->|Ny]; [rewrite Z0, Rx, cnt_self; lia|].
    rewrite (cnt_other y x) by assumption. specialize (Ho y). lia.
  - intros K. contradiction.
Qed.

Lemma not_self h x o b : isa h x b -> b = KCmesh false \/ b = KForest false -> typed h o -> ~ In x (refs o).
Proof.
  intros H Hb T Hi. destruct (typed_isa _ _ _ T Hi) as (k & Hk & Hd). pose proof (isa_fun _ _ _ _ H Hk). subst k.
  destruct Hb as [-> | ->]; destruct Hd as [|[|[|]]]; discriminate.
Qed.

(** ** Taking an object from the heap for a while *)

Definition drop (own : owns) (x : Z) : owns := fun y => if y =? x then 0 else own y.
Lemma drop_other own x y : y <> x -> drop own x y = own y.
Proof. intros H. unfold drop. now destruct (Z.eqb_spec y x). Qed.
Lemma drop_self own x : drop own x x = 0.
Proof. unfold drop. now rewrite Z.eqb_refl. Qed.
Lemma drop_ge0 h own x y : Inv h own -> 0 <= drop own x y.
Proof. intros I. unfold drop. pose proof (own_ge0 _ _ y I). destruct (y =? x); lia. Qed.

Lemma take' h own x n o : Inv h own -> read h x = Ok (Cell n o) -> cnt x (pointers h) = 0 ->
  Inv (write h x None) (plus (drop own x) (refs o)) /\ own x = n /\ 1 <= n /\ keeps [] h (write h x None).
Proof.
  intros I Hr Hp. destruct (read_get _ _ _ Hr) as [Hi _]. destruct (take h own x _ I Hr Hp) as (T & Ox & Rx).
  pose proof I as (_ & B & _). destruct (B _ _ Hr) as (_ & B2 & _). cbn [rc obj] in *.
  split; [|split; [assumption|split; [assumption|now apply keeps_free]]]. eapply Inv_ext; [|exact T].
  intros y. unfold plus. cbn beta. destruct (Z.eq_dec y x) as [->|N].
  - rewrite drop_self, cnt_self. lia.
  - rewrite drop_other, (cnt_other y x) by assumption. lia.
Qed.

Lemma dead_not_in h o x : typed h o -> read h x = Oob -> ~ In x (refs o).
Proof. intros T Hr Hi. destruct (typed_isa _ _ _ T Hi) as (k & (c & Hc & _) & _). congruence. Qed.

Lemma put' h1 own x n L o' : Inv h1 (plus (drop own x) L) -> inside h1 x -> own x = n -> 1 <= n -> read h1 x = Oob ->
  typed h1 o' -> (forall y, cnt y (refs o') <= plus (drop own x) L y) -> (kind_of o' = KSearch -> n = 1) ->
  Inv (write h1 x (Some (Cell n o'))) (minus (plus own L) (refs o')).
Proof.
  intros I Hi Ox Hn Hr T Ho Hs.
  eapply Inv_ext; [|apply (put h1 _ x n o' I); auto].
  - intros y. unfold minus, plus. destruct (Z.eq_dec y x) as [->|N].
    + rewrite drop_self, cnt_self. lia.
    + rewrite drop_other, (cnt_other y x) by assumption. lia.
  - apply put_typed; auto; [now apply (dead_not_in h1)|unfold inside in Hi; lia].
Qed.

Lemma keeps_dead h0 h1 x : keeps [] h0 h1 -> inside h0 x -> read h0 x = Oob -> read h1 x = Oob.
Proof.
  intros [_ K] Hi Hr. destruct (alive_or h1 x) as [[c Hc]|]; [|assumption].
  destruct (K x c Hi ltac:(intros []) Hc) as (d & Hd & _). congruence.
Qed.
Lemma keeps_inside X h h' x : keeps X h h' -> inside h x -> inside h' x.
Proof. intros [L _]. unfold inside. lia. Qed.

(** ** Coarse meshes *)

Lemma refs_cmesh_ok h own x n o : Inv h own -> read h x = Ok (Cell n o) -> typed h o /\ 1 <= n.
Proof. intros (_ & B & _) Hr. destruct (B _ _ Hr) as (_ & B2 & T & _). split; assumption. Qed.

Lemma isa_intro h x n o : read h x = Ok (Cell n o) -> isa h x (kind_of o).
Proof. intros H. now exists (Cell n o). Qed.

Lemma set_derive_ok h own x n m from : Inv h own -> read h x = Ok (Cell n (OCmesh m)) -> c_committed m = false ->
  all_are h from (KCmesh true) -> (forall y, cnt y (ptr from) <= own y) ->
  exists h', cmesh_set_derive h x from = Ok h' /\ Inv h' (minus own (ptr from)) /\ keeps [x] h h' /\
    read h' x = Ok (Cell n (OCmesh (Cmesh false from (c_geometry_handler m) (c_partition_scheme m) (c_set_partition m)))).
Proof.
  intros I Hr Hc Hf Ho. destruct (read_get _ _ _ Hr) as [Hi _].
  destruct (refs_cmesh_ok _ _ _ _ _ I Hr) as [T _]. cbn [typed] in T. destruct T as (T1 & T2 & T3 & T4).
  assert (Hk : isa h x (KCmesh false)) by (rewrite <- Hc; apply (isa_intro _ _ _ _ Hr)).
  pose proof (unpointed h own x _ I Hk ltac:(auto)) as Hp.
  destruct (take' h own x n _ I Hr Hp) as (I0 & Ox & Hn & K0). cbn [refs] in I0.
  unfold cmesh_set_derive. rewrite (read_cmesh_ok _ _ _ _ Hr). cbn [obind fst snd]. rewrite Hc. cbn [negb check obind].
  assert (E0 : match from with None => Ok tt | Some y => do d <- read_cmesh h y; check (c_committed (snd d)) end = Ok tt).
  { destruct from as [y|]; [|reflexivity]. destruct (isa_cmesh _ _ _ (Hf y eq_refl)) as (n' & d & Hd & Hdc).
    rewrite (read_cmesh_ok _ _ _ _ Hd). cbn [obind snd]. now rewrite Hdc. }
  rewrite E0. cbn [obind]. set (h0 := write h x None) in *.
  change (fun y => cmesh_unref cmesh_fuel h0 y) with (cmesh_unref cmesh_fuel h0).
  assert (F : releases (cmesh_unref cmesh_fuel) (KCmesh true)) by (apply cmesh_unref_ok; unfold cmesh_fuel; lia).
  assert (D : forall y, 0 <= drop own x y) by (intros y; apply (drop_ge0 h own x y I)).
  assert (Nf : forall y, In y (ptr from) -> y <> x).
  { intros y Hy ->. destruct from as [z|]; cbn in Hy; [destruct Hy as [->|[]]|contradiction].
    pose proof (isa_fun _ _ _ _ Hk (Hf x eq_refl)). discriminate. }
  assert (Df : forall y, cnt y (ptr from) <= drop own x y).
  { intros y. destruct (Z.eq_dec y x) as [->|N]; [|rewrite drop_other by assumption; apply Ho].
    specialize (D x). destruct (Z.eq_dec (cnt x (ptr from)) 0) as [->|Nz]; [assumption|].
    exfalso. apply (Nf x); [|reflexivity]. apply cnt_pos. pose proof (cnt_ge0 x (ptr from)). lia. }
  destruct (if_nonnull_ok _ _ h0 _ (c_set_from m) F I0) as (h1 & E1 & I1 & K1).
  { apply (keeps_all [] h h0 _ _ _ I0 K0); auto. intros y. unfold plus. specialize (D y). ow. }
  { intros y. unfold plus. specialize (D y). ow. }
  rewrite E1. cbn [obind fst snd]. pose proof (keeps_trans0 _ _ _ _ K0 K1) as K01.
  assert (I1' : Inv h1 (plus (drop own x) (ptr (c_geometry_handler m) ++ ptr (c_partition_scheme m)))).
  { eapply Inv_ext; [|exact I1]. intros y. unfold plus, minus. ow. }
  assert (Hi1 : inside h1 x) by exact (keeps_inside _ _ _ _ K01 Hi).
  assert (Hr1 : read h1 x = Oob).
  { apply (keeps_dead h0 h1 x K1); [unfold h0; now apply write_inside|apply read_freed]. }
  eexists. split; [reflexivity|]. unfold put_cmesh.
  set (o' := OCmesh (Cmesh false from (c_geometry_handler m) (c_partition_scheme m) (c_set_partition m))).
  split; [|split].
  - eapply Inv_ext; [|apply (put' h1 own x n _ o' I1' Hi1 Ox Hn Hr1)].
    + intros y. unfold minus, plus, o'. cbn [refs c_set_from c_geometry_handler c_partition_scheme]. ow.
    + cbn [typed o' c_set_from c_geometry_handler c_partition_scheme c_committed].
      split; [|split; [|split]]; [| | |discriminate];
        apply (keeps_all [] h h1 _ _ _ I1' K01); auto; intros y; unfold plus; specialize (Df y); specialize (D y); ow.
    + intros y. unfold plus, o'. cbn [refs c_set_from c_geometry_handler c_partition_scheme]. specialize (Df y). ow.
    + discriminate.
  - apply (keeps_trans [x] [x] h h1); [|now apply keeps_write|auto].
    apply (keeps_weaken [] [x]); [intros y _ []|exact K01].
  - now rewrite read_write_same.
Qed.

Lemma cmesh_modify h own x n m m' : Inv h own -> read h x = Ok (Cell n (OCmesh m)) -> c_committed m = false ->
  typed h (OCmesh m') -> (forall y, cnt y (refs (OCmesh m')) <= own y + cnt y (refs (OCmesh m))) ->
  Inv (put_cmesh h x n m') (minus (plus own (refs (OCmesh m))) (refs (OCmesh m'))) /\ keeps [x] h (put_cmesh h x n m') /\
  read (put_cmesh h x n m') x = Ok (Cell n (OCmesh m')).
Proof.
  intros I Hr Hc T Ho. destruct (read_get _ _ _ Hr) as [Hi _].
  assert (Hk : isa h x (KCmesh false)) by (rewrite <- Hc; apply (isa_intro _ _ _ _ Hr)).
  pose proof (unpointed h own x _ I Hk ltac:(auto)) as Hp.
  destruct (modify h own x n _ (OCmesh m') I Hr Hp T) as [A B]; auto.
  - apply (not_self h x _ _ Hk); auto.
  - discriminate.
  - split; [exact A|]. split; [exact B|]. unfold put_cmesh. now rewrite read_write_same.
Qed.

Lemma register_geometry_ok h own x n m : Inv h own -> read h x = Ok (Cell n (OCmesh m)) -> c_committed m = false ->
  exists h', cmesh_register_geometry h x = Ok h' /\ Inv h' own /\ keeps [x] h h' /\ isa h' x (KCmesh false).
Proof.
  intros I Hr Hc. destruct (read_get _ _ _ Hr) as [Hi _].
  destruct (refs_cmesh_ok _ _ _ _ _ I Hr) as [T _]. cbn [typed] in T. destruct T as (T1 & T2 & T3 & T4).
  unfold cmesh_register_geometry. rewrite (read_cmesh_ok _ _ _ _ Hr). cbn [obind fst snd].
  destruct (c_geometry_handler m) as [g|] eqn:Eg; cbn [is_null].
  - exists h. split; [reflexivity|]. split; [assumption|]. split; [apply keeps_refl|]. rewrite <- Hc. apply (isa_intro _ _ _ _ Hr).
  - assert (I1 : Inv (alloc h OGeometry) (plus own [zlen h])).
    { eapply Inv_ext; [|apply (new_object h own OGeometry I); [|exact Logic.I]].
      - intros y. unfold plus. cbn [refs]. rewrite cnt_nil. lia.
      - intros y. cbn [refs]. rewrite cnt_nil. apply (own_ge0 _ _ _ I). }
    assert (Hr1 : read (alloc h OGeometry) x = Ok (Cell n (OCmesh m))) by now rewrite read_alloc_old.
    assert (K : forall y k, isa h y k -> isa (alloc h OGeometry) y k).
    { intros y k (d & Hd & Hk). exists d. split; [|exact Hk]. rewrite read_alloc_old; [exact Hd|]. now apply read_get in Hd. }
    set (m' := Cmesh (c_committed m) (c_set_from m) (Some (zlen h)) (c_partition_scheme m) (c_set_partition m)).
    destruct (cmesh_modify _ _ x n m m' I1 Hr1 Hc) as (A & B & C).
    + cbn [typed m' c_set_from c_geometry_handler c_partition_scheme c_committed].
      split; [|split; [|split]]; [| | |exact T4].
      * intros y Hy. apply K. now apply T1.
      * intros y [= <-]. exists (Cell 1 OGeometry). split; [apply read_alloc_new|reflexivity].
      * intros y Hy. apply K. now apply T3.
    + intros y. cbn [refs m' c_set_from c_geometry_handler c_partition_scheme ptr]. unfold plus. rewrite Eg. cbn [ptr].
      pose proof (own_ge0 _ _ y I). ow.
    + eexists. split; [reflexivity|]. split; [|split].
      * eapply Inv_ext; [|exact A]. intros y. unfold minus, plus. cbn [refs m' c_set_from c_geometry_handler c_partition_scheme ptr].
        rewrite Eg. cbn [ptr]. ow.
      * apply (keeps_trans [x] [x] h (alloc h OGeometry)); [|exact B|auto].
        apply (keeps_weaken [] [x]); [intros y _ []|apply keeps_alloc].
      * exists (Cell n (OCmesh m')). split; [exact C|]. cbn [obj kind_of m' c_committed]. now rewrite Hc.
Qed.

Lemma set_partition_uniform_ok h own x n m s : Inv h own -> read h x = Ok (Cell n (OCmesh m)) -> c_committed m = false ->
  c_partition_scheme m = None -> isa h s KScheme -> 1 <= own s ->
  exists h', cmesh_set_partition_uniform h x s = Ok h' /\ Inv h' (minus own [s]) /\ keeps [x] h h' /\
    read h' x = Ok (Cell n (OCmesh (Cmesh false (c_set_from m) (c_geometry_handler m) (Some s) true))).
Proof.
  intros I Hr Hc Hp Hs Ho.
  destruct (refs_cmesh_ok _ _ _ _ _ I Hr) as [T _]. cbn [typed] in T. destruct T as (T1 & T2 & T3 & T4).
  unfold cmesh_set_partition_uniform. rewrite (read_cmesh_ok _ _ _ _ Hr). cbn [obind fst snd]. rewrite Hc. cbn [negb check obind].
  set (m' := Cmesh false (c_set_from m) (c_geometry_handler m) (Some s) true).
  destruct (cmesh_modify _ _ x n m m' I Hr Hc) as (A & B & C).
  - cbn [typed m' c_set_from c_geometry_handler c_partition_scheme c_committed].
    split; [assumption|]. split; [assumption|]. split; [|discriminate]. now intros y [= <-].
  - intros y. cbn [refs m' c_set_from c_geometry_handler c_partition_scheme ptr]. rewrite Hp. cbn [ptr].
    pose proof (own_ge0 _ _ y I). destruct (Z.eq_dec y s) as [->|N]; ow. rewrite (cnt_other y s) by assumption. lia.
  - eexists. split; [reflexivity|]. split; [|split; [exact B|exact C]].
    eapply Inv_ext; [|exact A]. intros y. unfold minus, plus. cbn [refs m' c_set_from c_geometry_handler c_partition_scheme ptr].
    rewrite Hp. cbn [ptr]. ow.
Qed.

Lemma set_partition_ok h own x n m : Inv h own -> read h x = Ok (Cell n (OCmesh m)) -> c_committed m = false ->
  exists h', cmesh_set_partition h x = Ok h' /\ Inv h' own /\ keeps [x] h h' /\
    read h' x = Ok (Cell n (OCmesh (Cmesh false (c_set_from m) (c_geometry_handler m) (c_partition_scheme m) true))).
Proof.
  intros I Hr Hc.
  destruct (refs_cmesh_ok _ _ _ _ _ I Hr) as [T _]. cbn [typed] in T. destruct T as (T1 & T2 & T3 & T4).
  unfold cmesh_set_partition. rewrite (read_cmesh_ok _ _ _ _ Hr). cbn [obind fst snd]. rewrite Hc. cbn [negb check obind].
  set (m' := Cmesh false (c_set_from m) (c_geometry_handler m) (c_partition_scheme m) true).
  destruct (cmesh_modify _ _ x n m m' I Hr Hc) as (A & B & C).
  - cbn [typed m' c_set_from c_geometry_handler c_partition_scheme c_committed]. split; [assumption|]. split; [assumption|].
    split; [assumption|discriminate].
  - intros y. cbn [refs m' c_set_from c_geometry_handler c_partition_scheme ptr].
    pose proof (own_ge0 _ _ y I). ow.
  - eexists. split; [reflexivity|]. split; [|split; [exact B|exact C]].
    eapply Inv_ext; [|exact A]. intros y. unfold minus, plus. cbn [refs m' c_set_from c_geometry_handler c_partition_scheme ptr]. ow.
Qed.

Lemma all_are_Some h y k : isa h y k -> all_are h (Some y) k.
Proof. now intros H z [= <-]. Qed.

Lemma cmesh_commit_ok h own x n m : Inv h own -> read h x = Ok (Cell n (OCmesh m)) -> c_committed m = false ->
  exists h', cmesh_commit h x = Ok h' /\ Inv h' own /\ keeps [x] h h' /\ isa h' x (KCmesh true).
Proof.
  intros I Hr Hc. destruct (read_get _ _ _ Hr) as [Hi _].
  destruct (refs_cmesh_ok _ _ _ _ _ I Hr) as [T _]. cbn [typed] in T. destruct T as (T1 & T2 & T3 & T4).
  unfold cmesh_commit. rewrite (read_cmesh_ok _ _ _ _ Hr). cbn [obind fst snd]. rewrite Hc. cbn [negb check obind].
  destruct (c_set_from m) as [y|] eqn:Ef.
  - assert (Hk : isa h x (KCmesh false)) by (rewrite <- Hc; apply (isa_intro _ _ _ _ Hr)).
    pose proof (unpointed h own x _ I Hk ltac:(auto)) as Hp.
    destruct (take' h own x n _ I Hr Hp) as (I0 & Ox & Hn & K0). cbn [refs] in I0. rewrite Ef in I0. cbn [ptr] in I0.
    set (h0 := write h x None) in *.
    assert (D : forall z, 0 <= drop own x z) by (intros z; apply (drop_ge0 h own x z I)).
    assert (Y0 : isa h0 y (KCmesh true)).
    { apply (keeps_isa [] h h0 _ y _ I0 K0 ltac:(intros [])); [unfold plus; specialize (D y); ow|now apply T1]. }
    destruct (isa_cmesh _ _ _ Y0) as (ny & d & Hd & Hdc). rewrite (read_cmesh_ok _ _ _ _ Hd). cbn [obind snd].
    destruct (refs_cmesh_ok _ _ _ _ _ I0 Hd) as [Td _]. cbn [typed] in Td. destruct Td as (U1 & U2 & U3 & U4).
    assert (S1 : exists h1 g, (match c_geometry_handler m, c_geometry_handler d with
               | None, Some g => do h1 <- refcount_ref h0 g; Ok (h1, Some g) | g, _ => Ok (h0, g) end) = Ok (h1, g) /\
             Inv h1 (plus (drop own x) ([y] ++ ptr g ++ ptr (c_partition_scheme m))) /\ keeps [] h0 h1 /\ all_are h1 g KGeometry).
    { destruct (c_geometry_handler m) as [g|] eqn:Eg.
      - exists h0, (Some g). split; [reflexivity|]. split; [exact I0|]. split; [apply keeps_refl|].
        apply (keeps_all [] h h0 _ _ _ I0 K0); auto. intros z. unfold plus. specialize (D z). ow.
      - destruct (c_geometry_handler d) as [g|] eqn:Eg'.
        + assert (G0 : isa h0 g KGeometry) by now apply U2.
          destruct (ref_ok h0 _ g _ I0 G0 ltac:(discriminate)) as (h1 & E1 & I1 & K1). rewrite E1. cbn [obind].
          exists h1, (Some g). split; [reflexivity|].
          assert (I1' : Inv h1 (plus (drop own x) ([y] ++ ptr (Some g) ++ ptr (c_partition_scheme m)))).
          { eapply Inv_ext; [|exact I1]. intros z. unfold plus. cbn [ptr app]. ow. }
          split; [exact I1'|]. split; [exact K1|]. apply all_are_Some.
          apply (keeps_isa [] h0 h1 _ g _ I1' K1 ltac:(intros [])); [|exact G0]. unfold plus. specialize (D g). cbn [ptr]. ow.
        + exists h0, None. split; [reflexivity|]. split; [exact I0|]. split; [apply keeps_refl|]. intros z [=]. }
    destruct S1 as (h1 & g & E1 & I1 & K1 & G1). rewrite E1. cbn [obind fst snd].
    pose proof (keeps_trans0 _ _ _ _ K0 K1) as K01.
    assert (Y1 : isa h1 y (KCmesh true)).
    { apply (keeps_isa [] h h1 _ y _ I1 K01 ltac:(intros [])); [unfold plus; specialize (D y); ow|now apply T1]. }
    destruct (isa_cmesh _ _ _ Y1) as (ny1 & d1 & Hd1 & _). rewrite (read_cmesh_ok _ _ _ _ Hd1). cbn [obind].
    assert (P1 : all_are h1 (c_partition_scheme m) KScheme).
    { apply (keeps_all [] h h1 _ _ _ I1 K01); auto. intros z. unfold plus. specialize (D z). ow. }
    assert (E2 : match c_partition_scheme m with None => Ok tt | Some s => do _ <- read h1 s; Ok tt end = Ok tt).
    { destruct (c_partition_scheme m) as [s|]; [|reflexivity]. destruct (P1 s eq_refl) as (cs & Hs & _). now rewrite Hs. }
    rewrite E2. cbn [obind].
    assert (F : releases (cmesh_unref cmesh_fuel) (KCmesh true)) by (apply cmesh_unref_ok; unfold cmesh_fuel; lia).
    destruct (F h1 _ y I1 Y1) as (h3 & E3 & I3 & K3); [unfold plus; specialize (D y); ow|].
    rewrite E3. cbn [obind]. pose proof (keeps_trans0 _ _ _ _ K1 K3) as K13. pose proof (keeps_trans0 _ _ _ _ K01 K3) as K03.
    assert (I3' : Inv h3 (plus (drop own x) (ptr g ++ ptr (c_partition_scheme m)))).
    { eapply Inv_ext; [|exact I3]. intros z. unfold plus, minus. ow. }
    assert (Hi3 : inside h3 x) by exact (keeps_inside _ _ _ _ K03 Hi).
    assert (Hr3 : read h3 x = Oob).
    { apply (keeps_dead h0 h3 x K13); [unfold h0; now apply write_inside|apply read_freed]. }
    set (o' := OCmesh (Cmesh true None g (c_partition_scheme m) (c_set_partition m))).
    eexists. split; [reflexivity|]. unfold put_cmesh. fold o'. split; [|split].
    + eapply Inv_ext; [|apply (put' h3 own x n _ o' I3' Hi3 Ox Hn Hr3)].
      * intros z. unfold minus, plus, o'. cbn [refs c_set_from c_geometry_handler c_partition_scheme ptr]. ow.
      * cbn [typed o' c_set_from c_geometry_handler c_partition_scheme c_committed].
        split; [intros z [=]|]. split; [|split; [|reflexivity]].
        -- apply (keeps_all [] h1 h3 _ _ _ I3' K3); auto. intros z. unfold plus. specialize (D z). ow.
        -- apply (keeps_all [] h1 h3 _ _ _ I3' K3); auto. intros z. unfold plus. specialize (D z). ow.
      * intros z. unfold plus, o'. cbn [refs c_set_from c_geometry_handler c_partition_scheme ptr]. specialize (D z). ow.
      * discriminate.
    + apply (keeps_trans [x] [x] h h3); [|now apply keeps_write|auto].
      apply (keeps_weaken [] [x]); [intros z _ []|exact K03].
    + exists (Cell n o'). split; [now rewrite read_write_same|reflexivity].
  - set (m' := Cmesh true None (c_geometry_handler m) (c_partition_scheme m) (c_set_partition m)).
    destruct (cmesh_modify _ _ x n m m' I Hr Hc) as (A & B & C).
    + cbn [typed m' c_set_from c_geometry_handler c_partition_scheme c_committed]. split; [intros z [=]|]. split; [assumption|].
      split; [assumption|reflexivity].
    + intros y. cbn [refs m' c_set_from c_geometry_handler c_partition_scheme ptr].
      pose proof (own_ge0 _ _ y I). ow.
    + eexists. split; [reflexivity|]. split; [|split; [exact B|exists (Cell n (OCmesh m')); split; [exact C|reflexivity]]].
      eapply Inv_ext; [|exact A]. intros y. unfold minus, plus. cbn [refs m' c_set_from c_geometry_handler c_partition_scheme ptr].
      rewrite Ef. cbn [ptr]. ow.
Qed.

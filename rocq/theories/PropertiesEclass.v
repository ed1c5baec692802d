(** C38: the tables of the element classes. *)
From Verif Require Import Prelude EclassModel EclassSpec.

Definition upto (n : Z) (p : Z -> bool) : bool := forallb p (zseq 0 (Z.to_nat n)).
Lemma upto_spec n p : upto n p = true -> forall i, 0 <= i < n -> p i = true.
Proof. intros H i Hi. unfold upto in H. rewrite forallb_forall in H. apply H, in_zseq. lia. Qed.
Ltac classes H := let K := fresh in
  match type of H with is_class ?c =>
    assert (K : c = 0 \/ c = 1 \/ c = 2 \/ c = 3 \/ c = 4 \/ c = 5 \/ c = 6 \/ c = 7) by (unfold is_class, ECLASS_COUNT in H; lia);
    destruct K as [->|[->|[->|[->|[->|[->|[->| ->]]]]]]] end.
Ltac small_cases H := match type of H with 0 <= ?x < ?n => let n' := eval vm_compute in n in
  let rec go k := match k with
    | Z0 => exfalso; change n with n' in H; lia
    | _ => let j := eval vm_compute in (k - 1) in destruct (Z.eq_dec x j) as [->|]; [|go j] end in go n' end.
Ltac shape H := unfold is_corner, is_face in H; small_cases H.

(** C38: the faces of a class have a class of one dimension less, and list their corners once each, in increasing order *)
Theorem C38_face_lists : forall c f, is_class c -> is_face c f ->
  is_class (eclass_face_types c f) /\ eclass_to_dimension (eclass_face_types c f) = eclass_to_dimension c - 1 /\
  zlen (table_face c f) = eclass_num_vertices (eclass_face_types c f) /\ increasing (table_face c f) /\ forall v, In v (table_face c f) -> is_corner c v.
Proof.
  intros c f Hc Hf.
  assert (A : upto 8 (fun c => upto (eclass_num_faces c) (fun f => let t := eclass_face_types c f in let l := table_face c f in
      (0 <=? t) && (t <? 8) && (eclass_to_dimension t =? eclass_to_dimension c - 1) && (zlen l =? eclass_num_vertices t) &&
      forallb (fun v => (0 <=? v) && (v <? eclass_num_vertices c)) l &&
      upto (zlen l) (fun j => upto j (fun i => znth 0 l i <? znth 0 l j)))) = true) by (vm_compute; reflexivity).
  assert (B := upto_spec (upto_spec A Hc) Hf). cbv zeta in B. rewrite !andb_true_iff in B. destruct B as (((((B1 & B2) & B3) & B4) & B5) & B6).
  split; [unfold is_class, ECLASS_COUNT; lia|]. split; [lia|]. split; [lia|]. split.
  - intros i j Hij. assert (Q := upto_spec (upto_spec B6 (i := Z.of_nat j) ltac:(unfold zlen; lia)) (i := Z.of_nat i) ltac:(lia)).
    unfold znth in Q. rewrite !Nat2Z.id in Q. lia.
  - intros v Hv. rewrite forallb_forall in B5. specialize (B5 v Hv). unfold is_corner. lia.
Qed.
Print Assumptions C38_face_lists.

(** the planes of the faces, as in the proof of the next theorem *)
Definition planes c : list (point * Z) := znth []
  [ []; [((1, 0, 0), 0); ((-1, 0, 0), 1)]; [((1, 0, 0), 0); ((-1, 0, 0), 1); ((0, 1, 0), 0); ((0, -1, 0), 1)];
    [((-1, 0, 0), 1); ((1, -1, 0), 0); ((0, 1, 0), 0)];
    [((1, 0, 0), 0); ((-1, 0, 0), 1); ((0, 1, 0), 0); ((0, -1, 0), 1); ((0, 0, 1), 0); ((0, 0, -1), 1)];
    [((-1, 0, 0), 1); ((1, 0, -1), 0); ((0, -1, 1), 0); ((0, 1, 0), 0)];
    [((-1, 0, 0), 1); ((1, -1, 0), 0); ((0, 1, 0), 0); ((0, 0, 1), 0); ((0, 0, -1), 1)];
    [((1, 0, -1), 0); ((-1, 0, 0), 1); ((0, 1, -1), 0); ((0, -1, 0), 1); ((0, 0, 1), 0)] ] c.

(** C38: the listed faces are exactly the largest proper faces of the reference shape *)
Theorem C38_faces : forall c, is_class c ->
  (forall f, is_face c f -> proper_face c (fun v => In v (table_face c f))) /\
  (1 <= eclass_to_dimension c -> forall U, proper_face c U -> exists f, is_face c f /\ forall v, is_corner c v -> U v -> In v (table_face c f)) /\
  (forall f g, is_face c f -> is_face c g -> (forall v, In v (table_face c f) -> In v (table_face c g)) -> f = g).
Proof.
  intros c Hc. split; [|split].
  - intros f Hf. set (pl := znth ((0, 0, 0), 0) (planes c) f). exists (fst pl), (snd pl).
    assert (A : upto 8 (fun c => upto (eclass_num_faces c) (fun f => let '(n, k) := znth ((0, 0, 0), 0) (planes c) f in
      upto (eclass_num_vertices c) (fun v => (0 <=? affine n k (corner_ref_coords c v)) && eqb (existsb (Z.eqb v) (table_face c f)) (affine n k (corner_ref_coords c v) =? 0)) &&
      negb (upto (eclass_num_vertices c) (fun v => affine n k (corner_ref_coords c v) =? 0)))) = true) by (vm_compute; reflexivity).
    assert (B := upto_spec (upto_spec A Hc) Hf). cbv beta in B. fold pl in B. destruct pl as [n k]. cbn [fst snd]. rewrite andb_true_iff in B. destruct B as [B1 B2].
    split; [split|].
    + intros v Hv. assert (Q := upto_spec B1 Hv). cbv beta in Q. lia.
    + apply negb_true_iff in B2. unfold upto in B2. assert (N : ~ Forall (fun v => affine n k (corner_ref_coords c v) = 0) (zseq 0 (Z.to_nat (eclass_num_vertices c)))).
      { intros F. rewrite Forall_forall in F. assert (T : forallb (fun v => affine n k (corner_ref_coords c v) =? 0) (zseq 0 (Z.to_nat (eclass_num_vertices c))) = true)
          by (apply forallb_forall; intros v Hv; rewrite (F v Hv); reflexivity). rewrite T in B2. discriminate B2. }
      apply Exists_Forall_neg in N; [|intros v; destruct (Z.eq_dec (affine n k (corner_ref_coords c v)) 0); auto].
      apply Exists_exists in N. destruct N as (v & Hv & Nv). apply in_zseq in Hv. assert (Hv' : is_corner c v) by (unfold is_corner; lia).
      exists v. split; [exact Hv'|]. assert (Q := upto_spec B1 Hv'). cbv beta in Q. lia.
    + intros v Hv. assert (Q := upto_spec B1 Hv). cbv beta in Q. apply andb_true_iff in Q. destruct Q as [_ Q]. apply eqb_prop in Q. rewrite <- Z.eqb_eq, <- Q.
      rewrite existsb_exists. split; [intros I; exists v; split; [exact I|apply Z.eqb_refl]|intros (w & I & E); apply Z.eqb_eq in E; now subst].
  - intros Hd U (n & k & (P & v0 & Hv0 & P0) & E).
    enough (Q : exists f, is_face c f /\ forall v, is_corner c v -> ~ In v (table_face c f) -> 0 < affine n k (corner_ref_coords c v)).
    { destruct Q as (f & Hf & Q). exists f. split; [exact Hf|]. intros v Hv Uv. destruct (in_dec Z.eq_dec v (table_face c f)) as [I|I]; [exact I|].
      specialize (Q v Hv I). apply E in Uv; [lia|exact Hv]. }
    clear E U. destruct n as [[a b] d].
    unfold is_corner in Hv0.
    Local Ltac give f := exists f; split; [split; vm_compute; congruence|];
      let v := fresh "v" in let Hv := fresh in let Nv := fresh in intros v Hv Nv; unfold is_corner in Hv; small_cases Hv;
      first [exfalso; apply Nv; vm_compute; tauto | cbv -[Z.add Z.mul Z.lt]; lia].
    classes Hc; [exfalso; revert Hd; vm_compute; congruence|..].
    + assert (R0 := P 0 ltac:(split; vm_compute; congruence)). assert (R1 := P 1 ltac:(split; vm_compute; congruence)).
      cbv -[Z.add Z.mul Z.le] in R0, R1. clear P. small_cases Hv0; cbv -[Z.add Z.mul Z.lt] in P0.
      all: destruct (Z_lt_le_dec a 0); [give 1|give 0].
    + assert (R0 := P 0 ltac:(split; vm_compute; congruence)). assert (R1 := P 1 ltac:(split; vm_compute; congruence)). assert (R2 := P 2 ltac:(split; vm_compute; congruence)). assert (R3 := P 3 ltac:(split; vm_compute; congruence)).
      cbv -[Z.add Z.mul Z.le] in R0, R1, R2, R3. clear P. small_cases Hv0; cbv -[Z.add Z.mul Z.lt] in P0.
      all: destruct (Z_lt_le_dec a 0); [give 1|]; destruct (Z_lt_le_dec 0 a); [give 0|]; destruct (Z_lt_le_dec b 0); [give 3|]; destruct (Z_lt_le_dec 0 b); [give 2|]; give 0.
    + assert (R0 := P 0 ltac:(split; vm_compute; congruence)). assert (R1 := P 1 ltac:(split; vm_compute; congruence)). assert (R2 := P 2 ltac:(split; vm_compute; congruence)).
      cbv -[Z.add Z.mul Z.le] in R0, R1, R2. clear P. small_cases Hv0; cbv -[Z.add Z.mul Z.lt] in P0.
      all: first [give 0 | give 1 | give 2].
    + assert (R0 := P 0 ltac:(split; vm_compute; congruence)). assert (R1 := P 1 ltac:(split; vm_compute; congruence)). assert (R2 := P 2 ltac:(split; vm_compute; congruence)). assert (R3 := P 3 ltac:(split; vm_compute; congruence)). assert (R4 := P 4 ltac:(split; vm_compute; congruence)). assert (R5 := P 5 ltac:(split; vm_compute; congruence)). assert (R6 := P 6 ltac:(split; vm_compute; congruence)). assert (R7 := P 7 ltac:(split; vm_compute; congruence)).
      cbv -[Z.add Z.mul Z.le] in R0, R1, R2, R3, R4, R5, R6, R7. clear P. small_cases Hv0; cbv -[Z.add Z.mul Z.lt] in P0.
      all: destruct (Z_lt_le_dec a 0); [give 1|]; destruct (Z_lt_le_dec 0 a); [give 0|]; destruct (Z_lt_le_dec b 0); [give 3|]; destruct (Z_lt_le_dec 0 b); [give 2|]; destruct (Z_lt_le_dec d 0); [give 5|give 4].
    + assert (R0 := P 0 ltac:(split; vm_compute; congruence)). assert (R1 := P 1 ltac:(split; vm_compute; congruence)). assert (R2 := P 2 ltac:(split; vm_compute; congruence)). assert (R3 := P 3 ltac:(split; vm_compute; congruence)).
      cbv -[Z.add Z.mul Z.le] in R0, R1, R2, R3. clear P. small_cases Hv0; cbv -[Z.add Z.mul Z.lt] in P0.
      all: first [give 0 | give 1 | give 2 | give 3].
    + assert (R0 := P 0 ltac:(split; vm_compute; congruence)). assert (R1 := P 1 ltac:(split; vm_compute; congruence)). assert (R2 := P 2 ltac:(split; vm_compute; congruence)). assert (R3 := P 3 ltac:(split; vm_compute; congruence)). assert (R4 := P 4 ltac:(split; vm_compute; congruence)). assert (R5 := P 5 ltac:(split; vm_compute; congruence)).
      cbv -[Z.add Z.mul Z.le] in R0, R1, R2, R3, R4, R5. clear P. small_cases Hv0; cbv -[Z.add Z.mul Z.lt] in P0.
      all: destruct (Z_lt_le_dec d 0); [give 4|]; destruct (Z_lt_le_dec 0 d); [give 3|]; first [give 0 | give 1 | give 2].
    + assert (R0 := P 0 ltac:(split; vm_compute; congruence)). assert (R1 := P 1 ltac:(split; vm_compute; congruence)). assert (R2 := P 2 ltac:(split; vm_compute; congruence)). assert (R3 := P 3 ltac:(split; vm_compute; congruence)). assert (R4 := P 4 ltac:(split; vm_compute; congruence)).
      cbv -[Z.add Z.mul Z.le] in R0, R1, R2, R3, R4. clear P. small_cases Hv0; cbv -[Z.add Z.mul Z.lt] in P0.
      all: destruct (Z_lt_le_dec 0 (a * 1 + b * 1 + d * 1 + k)); [give 4|]; destruct (Z_lt_le_dec a 0); [give 1|]; destruct (Z_lt_le_dec 0 a); [give 0|]; destruct (Z_lt_le_dec b 0); [give 3|]; destruct (Z_lt_le_dec 0 b); [give 2|]; give 0.
  - intros f g Hf Hg S.
    assert (A : upto 8 (fun c => upto (eclass_num_faces c) (fun f => upto (eclass_num_faces c) (fun g =>
      (f =? g) || negb (forallb (fun v => existsb (Z.eqb v) (table_face c g)) (table_face c f))))) = true) by (vm_compute; reflexivity).
    assert (B := upto_spec (upto_spec (upto_spec A Hc) Hf) Hg). cbv beta in B. apply orb_true_iff in B. destruct B as [B|B]; [lia|].
    apply negb_true_iff in B. exfalso. rewrite <- not_true_iff_false in B. apply B, forallb_forall. intros v Hv. apply existsb_exists. exists v. split; [now apply S|apply Z.eqb_refl].
Qed.
Print Assumptions C38_faces.

(** ** edges *)
(** the edges of the shapes, all of them, including those the tables leave out *)
Definition edge_list c : list (Z * Z) := znth []
  [ []; []; [(0, 2); (1, 3); (0, 1); (2, 3)]; [(1, 2); (0, 2); (0, 1)];
    [(0, 1); (2, 3); (4, 5); (6, 7); (0, 2); (1, 3); (4, 6); (5, 7); (0, 4); (1, 5); (2, 6); (3, 7)];
    [(0, 1); (0, 2); (0, 3); (1, 2); (1, 3); (2, 3)];
    [(1, 2); (0, 2); (0, 1); (4, 5); (3, 5); (3, 4); (1, 4); (2, 5); (0, 3)];
    [(0, 1); (0, 2); (1, 3); (2, 3); (0, 4); (1, 4); (2, 4); (3, 4)] ] c.
Definition in_pairs (v w : Z) (l : list (Z * Z)) : bool := existsb (fun p => (fst p =? v) && (snd p =? w)) l.
Lemma in_pairs_spec v w l : in_pairs v w l = true <-> In (v, w) l.
Proof.
  unfold in_pairs. rewrite existsb_exists. split.
  - intros ([x y] & I & E). cbn [fst snd] in E. replace v with x by lia. replace w with y by lia. exact I.
  - intros I. exists (v, w). cbn [fst snd]. split; [exact I|lia].
Qed.
(** a supporting function of an edge: the sum of those of the faces through it *)
Definition edge_plane c v w : point * Z :=
  fold_left (fun '(n, k) f => let '((a, b, d), k') := znth ((0, 0, 0), 0) (planes c) f in let '(x, y, z) := n in
    if existsb (Z.eqb v) (table_face c f) && existsb (Z.eqb w) (table_face c f) then ((x + a, y + b, z + d), k + k') else (n, k))
    (zseq 0 (Z.to_nat (eclass_num_faces c))) ((0, 0, 0), 0).

Lemma edge_list_ok c v w : is_class c -> 2 <= eclass_to_dimension c -> v < w -> (In (v, w) (edge_list c) <-> is_edge c v w).
Proof.
  intros Hc Hd Hvw. split.
  - intros I. assert (A : upto 8 (fun c => forallb (fun p => let '(v, w) := p in let '(n, k) := edge_plane c v w in
      (0 <=? v) && (v <? w) && (w <? eclass_num_vertices c) &&
      upto (eclass_num_vertices c) (fun u => (0 <=? affine n k (corner_ref_coords c u)) && eqb ((u =? v) || (u =? w)) (affine n k (corner_ref_coords c u) =? 0)) &&
      existsb (fun u => 0 <? affine n k (corner_ref_coords c u)) (zseq 0 (Z.to_nat (eclass_num_vertices c)))) (edge_list c)) = true) by (vm_compute; reflexivity).
    assert (B := upto_spec A Hc). cbv beta in B. rewrite forallb_forall in B. specialize (B _ I). cbv beta iota in B. destruct (edge_plane c v w) as [n k].
    rewrite !andb_true_iff in B. destruct B as ((((B1 & B2) & B3) & B4) & B5).
    split; [unfold is_corner; lia|]. split; [unfold is_corner; lia|]. split; [lia|]. exists n, k. split; [split|].
    + intros u Hu. assert (Q := upto_spec B4 Hu). cbv beta in Q. lia.
    + apply existsb_exists in B5. destruct B5 as (u & Iu & Pu). apply in_zseq in Iu. exists u. unfold is_corner. lia.
    + intros u Hu. assert (Q := upto_spec B4 Hu). cbv beta in Q. apply andb_true_iff in Q. destruct Q as [_ Q]. apply eqb_prop in Q. lia.
  - intros (Hv & Hw & Hn & n & k & (P & _) & E). destruct n as [[a b] d].
    assert (Ev := proj1 (E v Hv) (or_introl eq_refl)). assert (Ew := proj1 (E w Hw) (or_intror eq_refl)).
    assert (NZ : forall u, is_corner c u -> u <> v -> u <> w -> affine (a, b, d) k (corner_ref_coords c u) <> 0) by (intros u Hu N1 N2 Z0; apply (E u Hu) in Z0; lia).
    clear E. apply in_pairs_spec.
    destruct (in_pairs v w (edge_list c)) eqn:N; [reflexivity|exfalso].
    unfold is_corner in *.
    Local Ltac corner P u := let R := fresh "R" in assert (R := P u ltac:(vm_compute; split; congruence)); cbv -[Z.add Z.mul Z.le] in R.
    Local Ltac other NZ u := let R := fresh "N" in first [assert (R := NZ u ltac:(vm_compute; split; congruence) ltac:(lia) ltac:(lia)); cbv -[Z.add Z.mul] in R | idtac].
    classes Hc; try (exfalso; revert Hd; vm_compute; congruence).
    1: corner P 0; corner P 1; corner P 2; corner P 3; clear P.
    2: corner P 0; corner P 1; corner P 2; clear P.
    3: corner P 0; corner P 1; corner P 2; corner P 3; corner P 4; corner P 5; corner P 6; corner P 7; clear P.
    4: corner P 0; corner P 1; corner P 2; corner P 3; clear P.
    5: corner P 0; corner P 1; corner P 2; corner P 3; corner P 4; corner P 5; clear P.
    6: corner P 0; corner P 1; corner P 2; corner P 3; corner P 4; clear P.
    all: small_cases Hv; small_cases Hw; try lia; try discriminate N; cbv -[Z.add Z.mul] in Ev, Ew;
      other NZ 0; other NZ 1; other NZ 2; other NZ 3; other NZ 4; other NZ 5; other NZ 6; other NZ 7; clear NZ; lia.
Qed.

(** C38: the number of edges of a class, and the edge table.  (For pyramids the table is not filled in.) *)
Theorem C38_num_edges : forall c, is_class c -> 2 <= eclass_to_dimension c ->
  exists l, NoDup l /\ zlen l = eclass_num_edges c /\ forall v w, v < w -> (In (v, w) l <-> is_edge c v w).
Proof.
  intros c Hc Hd. exists (edge_list c). split; [|split; [|intros v w H; exact (edge_list_ok Hc Hd H)]].
  - classes Hc; repeat constructor; cbn; intuition congruence.
  - classes Hc; try reflexivity. exfalso; revert Hd; vm_compute; congruence.
Qed.
Print Assumptions C38_num_edges.
Theorem C38_edges : forall c, is_class c -> 2 <= eclass_to_dimension c -> c <> PYRAMID ->
  (forall e, 0 <= e < eclass_num_edges c -> fst (table_edge c e) < snd (table_edge c e) /\ is_edge c (fst (table_edge c e)) (snd (table_edge c e))) /\
  (forall v w, v < w -> is_edge c v w -> exists! e, 0 <= e < eclass_num_edges c /\ table_edge c e = (v, w)).
Proof.
  intros c Hc Hd Hp.
  assert (A : upto 7 (fun c => (c <? 2) || upto (eclass_num_edges c) (fun e => (fst (table_edge c e) <? snd (table_edge c e)) && in_pairs (fst (table_edge c e)) (snd (table_edge c e)) (edge_list c) &&
     (upto e (fun e' => negb ((fst (table_edge c e) =? fst (table_edge c e')) && (snd (table_edge c e) =? snd (table_edge c e'))))))
     && forallb (fun p => existsb (fun e => (fst (table_edge c e) =? fst p) && (snd (table_edge c e) =? snd p)) (zseq 0 (Z.to_nat (eclass_num_edges c)))) (edge_list c)) = true) by (vm_compute; reflexivity).
  assert (Hc' : 0 <= c < 7) by (unfold is_class, ECLASS_COUNT, PYRAMID in *; lia). assert (B := upto_spec A Hc'). cbv beta in B.
  assert (N2 : c <? 2 = false) by (assert (c <> 0 /\ c <> 1) by (split; intros ->; revert Hd; vm_compute; congruence); lia). rewrite N2 in B. cbn [orb] in B.
  apply andb_true_iff in B. destruct B as [B1 B2]. split.
  - intros e He. assert (Q := upto_spec B1 He). cbv beta in Q. rewrite !andb_true_iff in Q. destruct Q as ((Q1 & Q2) & _).
    split; [lia|]. apply edge_list_ok; [exact Hc|exact Hd|lia|]. now apply in_pairs_spec.
  - intros v w Hvw E. apply (edge_list_ok Hc Hd Hvw) in E. rewrite forallb_forall in B2. specialize (B2 _ E). apply existsb_exists in B2. cbn [fst snd] in B2.
    destruct B2 as (e & Ie & Qe). apply in_zseq in Ie. assert (He : 0 <= e < eclass_num_edges c) by lia. assert (Te : table_edge c e = (v, w)) by (destruct (table_edge c e); cbn [fst snd] in Qe; f_equal; lia).
    exists e. split; [split; assumption|]. intros e' (He' & Te').
    destruct (Z.lt_trichotomy e e') as [L|[L|L]]; [|exact L|]; exfalso.
    + assert (Q := upto_spec B1 He'). cbv beta in Q. rewrite !andb_true_iff in Q. destruct Q as (_ & Q). assert (Q' := upto_spec Q (i := e) ltac:(lia)). cbv beta in Q'. rewrite Te, Te' in Q'. cbn [fst snd] in Q'. lia.
    + assert (Q := upto_spec B1 He). cbv beta in Q. rewrite !andb_true_iff in Q. destruct Q as (_ & Q). assert (Q' := upto_spec Q (i := e') ltac:(lia)). cbv beta in Q'. rewrite Te, Te' in Q'. cbn [fst snd] in Q'. lia.
Qed.
Print Assumptions C38_edges.

Lemma table_face_in c f v : existsb (Z.eqb v) (table_face c f) = true <-> In v (table_face c f).
Proof. rewrite existsb_exists. split; [intros (w & I & E); apply Z.eqb_eq in E; now subst|intros I; exists v; split; [exact I|apply Z.eqb_refl]]. Qed.
Definition edge_in_faceb c e f : bool := existsb (Z.eqb (fst (table_edge c e))) (table_face c f) && existsb (Z.eqb (snd (table_edge c e))) (table_face c f).
Lemma edge_in_faceb_spec c e f : edge_in_faceb c e f = true <-> edge_in_face c e f.
Proof. unfold edge_in_faceb, edge_in_face. rewrite andb_true_iff, !table_face_in. tauto. Qed.

(** C38: incidence of edges and faces.  In two dimensions the edge number e is the face number e. *)
Theorem C38_edge_faces : forall c, is_class c -> c <> PYRAMID ->
  (eclass_to_dimension c = 3 -> forall e f, 0 <= e < eclass_num_edges c -> is_face c f ->
     (edge_in_face c e f <-> f = edge_to_face c e 0 \/ f = edge_to_face c e 1) /\ edge_to_face c e 0 < edge_to_face c e 1 < eclass_num_faces c /\ 0 <= edge_to_face c e 0) /\
  (eclass_to_dimension c = 2 -> forall e f, 0 <= e < eclass_num_edges c -> is_face c f -> (edge_in_face c e f <-> f = edge_to_face c e 0) /\ edge_to_face c e 0 = e).
Proof.
  intros c Hc Hp. split; intros Hd e f He Hf.
  - assert (A : upto 7 (fun c => negb (eclass_to_dimension c =? 3) || upto (eclass_num_edges c) (fun e => upto (eclass_num_faces c) (fun f =>
      eqb (edge_in_faceb c e f) ((f =? edge_to_face c e 0) || (f =? edge_to_face c e 1)) && (edge_to_face c e 0 <? edge_to_face c e 1) && (edge_to_face c e 1 <? eclass_num_faces c) && (0 <=? edge_to_face c e 0)))) = true) by (vm_compute; reflexivity).
    assert (B := upto_spec A (i := c) ltac:(unfold is_class, ECLASS_COUNT, PYRAMID in *; lia)). cbv beta in B. rewrite Hd in B. cbn [negb orb Z.eqb Pos.eqb] in B.
    assert (Q := upto_spec (upto_spec B He) Hf). cbv beta in Q. rewrite !andb_true_iff in Q. destruct Q as (((Q1 & Q2) & Q3) & Q4). apply eqb_prop in Q1.
    split; [|lia]. rewrite <- edge_in_faceb_spec, Q1. lia.
  - assert (A : upto 7 (fun c => negb (eclass_to_dimension c =? 2) || upto (eclass_num_edges c) (fun e => upto (eclass_num_faces c) (fun f =>
      eqb (edge_in_faceb c e f) (f =? edge_to_face c e 0) && (edge_to_face c e 0 =? e)))) = true) by (vm_compute; reflexivity).
    assert (B := upto_spec A (i := c) ltac:(unfold is_class, ECLASS_COUNT, PYRAMID in *; lia)). cbv beta in B. rewrite Hd in B. cbn [negb orb Z.eqb Pos.eqb] in B.
    assert (Q := upto_spec (upto_spec B He) Hf). cbv beta in Q. rewrite !andb_true_iff in Q. destruct Q as (Q1 & Q2). apply eqb_prop in Q1.
    split; [|lia]. rewrite <- edge_in_faceb_spec, Q1. lia.
Qed.
Print Assumptions C38_edge_faces.

(** C38: the edges of a face, listed without repetition *)
Definition table_face_edges c f : list Z := map (face_edge_to_tree_edge c f) (zseq 0 (Z.to_nat (eclass_num_edges (eclass_face_types c f)))).
Theorem C38_face_edges : forall c f, is_class c -> 2 <= eclass_to_dimension c -> c <> PYRAMID -> is_face c f ->
  NoDup (table_face_edges c f) /\ forall e, In e (table_face_edges c f) <-> 0 <= e < eclass_num_edges c /\ edge_in_face c e f.
Proof.
  intros c f Hc Hd Hp Hf.
  assert (A : upto 7 (fun c => (c <? 2) || upto (eclass_num_faces c) (fun f => let l := table_face_edges c f in
     forallb (fun e => (0 <=? e) && (e <? eclass_num_edges c)) l && upto (zlen l) (fun j => upto j (fun i => negb (znth 0 l i =? znth 0 l j))) &&
     upto (eclass_num_edges c) (fun e => eqb (existsb (Z.eqb e) l) (edge_in_faceb c e f)))) = true) by (vm_compute; reflexivity).
  assert (B := upto_spec A (i := c) ltac:(unfold is_class, ECLASS_COUNT, PYRAMID in *; lia)). cbv beta in B.
  assert (N2 : c <? 2 = false) by (assert (c <> 0 /\ c <> 1) by (split; intros ->; revert Hd; vm_compute; congruence); unfold is_class in Hc; lia). rewrite N2 in B. cbn [orb] in B.
  assert (Q := upto_spec B Hf). cbv beta zeta in Q. rewrite !andb_true_iff in Q. destruct Q as ((Q1 & Q2) & Q3). split.
  - apply NoDup_nth with (d := 0). intros i j Hi Hj E. destruct (Nat.lt_trichotomy i j) as [L|[L|L]]; [|exact L|]; exfalso.
    + assert (R := upto_spec (upto_spec Q2 (i := Z.of_nat j) ltac:(unfold zlen; lia)) (i := Z.of_nat i) ltac:(lia)). cbv beta in R. unfold znth in R. rewrite !Nat2Z.id in R. lia.
    + assert (R := upto_spec (upto_spec Q2 (i := Z.of_nat i) ltac:(unfold zlen; lia)) (i := Z.of_nat j) ltac:(lia)). cbv beta in R. unfold znth in R. rewrite !Nat2Z.id in R. lia.
  - intros e. rewrite forallb_forall in Q1. split.
    + intros I. assert (He : 0 <= e < eclass_num_edges c) by (specialize (Q1 e I); lia). split; [exact He|]. apply edge_in_faceb_spec.
      assert (R := upto_spec Q3 He). cbv beta in R. apply eqb_prop in R. rewrite <- R. apply existsb_exists. exists e. split; [exact I|apply Z.eqb_refl].
    + intros (He & F). assert (R := upto_spec Q3 He). cbv beta in R. apply eqb_prop in R. apply edge_in_faceb_spec in F. rewrite F in R. apply existsb_exists in R. destruct R as (e' & I & E). apply Z.eqb_eq in E. now subst.
Qed.
Print Assumptions C38_face_edges.

(** C38: the edge at a face corner that leaves the face.  False of prisms (next theorem); the table has no entries for pyramids, which
    have two such edges at the corners of a side *)
Definition edge_neighbor_ok c := forall f i, is_face c f -> 0 <= i < zlen (table_face c f) -> forall e, 0 <= e < eclass_num_edges c ->
  (e = face_to_edge_neighbor c f i <-> corner_on_edge c (znth 0 (table_face c f) i) e /\ ~ edge_in_face c e f).
Theorem C38_edge_neighbors_partial : forall c, c = TRIANGLE \/ c = QUAD \/ c = HEX \/ c = TET -> edge_neighbor_ok c.
Proof.
  intros c Hc f i Hf Hi e He.
  assert (A : forallb (fun c => upto (eclass_num_faces c) (fun f => upto (zlen (table_face c f)) (fun i => upto (eclass_num_edges c) (fun e =>
     eqb (e =? face_to_edge_neighbor c f i) (((znth 0 (table_face c f) i =? fst (table_edge c e)) || (znth 0 (table_face c f) i =? snd (table_edge c e))) && negb (edge_in_faceb c e f)))))) [TRIANGLE; QUAD; HEX; TET] = true) by (vm_compute; reflexivity).
  rewrite forallb_forall in A. assert (Ic : In c [TRIANGLE; QUAD; HEX; TET]) by (cbn [In]; tauto || (destruct Hc as [->|[->|[->| ->]]]; cbn [In]; tauto)).
  assert (Q := upto_spec (upto_spec (upto_spec (A c Ic) Hf) Hi) He). cbv beta in Q. apply eqb_prop in Q.
  rewrite <- Z.eqb_eq, Q, andb_true_iff, orb_true_iff, !Z.eqb_eq, negb_true_iff, <- not_true_iff_false, edge_in_faceb_spec. reflexivity.
Qed.
Print Assumptions C38_edge_neighbors_partial.
(** C38 fails for the edge neighbours of prisms: no entry of the table is an edge that touches the corner of the face it is listed for *)
Theorem C38_prism_edge_neighbors_refuted : ~ edge_neighbor_ok PRISM /\
  (forall f i, is_face PRISM f -> 0 <= i < zlen (table_face PRISM f) -> ~ corner_on_edge PRISM (znth 0 (table_face PRISM f) i) (face_to_edge_neighbor PRISM f i)).
Proof.
  assert (K : forall f i, is_face PRISM f -> 0 <= i < zlen (table_face PRISM f) -> ~ corner_on_edge PRISM (znth 0 (table_face PRISM f) i) (face_to_edge_neighbor PRISM f i)).
  { intros f i Hf Hi.
    assert (A : upto (eclass_num_faces PRISM) (fun f => upto (zlen (table_face PRISM f)) (fun i => let e := table_edge PRISM (face_to_edge_neighbor PRISM f i) in
      negb ((znth 0 (table_face PRISM f) i =? fst e) || (znth 0 (table_face PRISM f) i =? snd e)))) = true) by (vm_compute; reflexivity).
    assert (Q := upto_spec (upto_spec A Hf) Hi). cbv beta zeta in Q. unfold corner_on_edge. lia. }
  split; [|exact K]. intros H. apply (K 0 0); [split; vm_compute; congruence|split; vm_compute; congruence|].
  apply (H 0 0); [split; vm_compute; congruence|split; vm_compute; congruence|split; vm_compute; congruence|reflexivity].
Qed.
Print Assumptions C38_prism_edge_neighbors_refuted.
(** C38 fails for the edge of a line: the table gives the corner 0 twice *)
Theorem C38_line_edge_refuted : eclass_num_edges LINE = 1 /\ table_edge LINE 0 = (0, 0).
Proof. split; reflexivity. Qed.
Print Assumptions C38_line_edge_refuted.

(** C38: orientation.  The normal of a face is the cross product of the vectors from its first corner to the second and third; the face
    is 0 oriented if the normal points to the side of the element, and 1 oriented if it points away.  Lower dimensions: 0 *)
Definition face_normal c f : point :=
  let p i := corner_ref_coords c (znth 0 (table_face c f) i) in cross (vec (p 0) (p 1)) (vec (p 0) (p 2)).
Theorem C38_orientation : forall c f, is_class c -> is_face c f ->
  (eclass_to_dimension c <= 2 -> eclass_face_orientation c f = 0) /\
  (eclass_to_dimension c = 3 ->
     (eclass_face_orientation c f = 0 /\ forall v, is_corner c v -> ~ In v (table_face c f) -> 0 < dot (face_normal c f) (vec (corner_ref_coords c (znth 0 (table_face c f) 0)) (corner_ref_coords c v))) \/
     (eclass_face_orientation c f = 1 /\ forall v, is_corner c v -> ~ In v (table_face c f) -> dot (face_normal c f) (vec (corner_ref_coords c (znth 0 (table_face c f) 0)) (corner_ref_coords c v)) < 0)).
Proof.
  intros c f Hc Hf.
  assert (A : upto 8 (fun c => upto (eclass_num_faces c) (fun f => if eclass_to_dimension c <=? 2 then eclass_face_orientation c f =? 0 else
    let s := eclass_face_orientation c f in ((s =? 0) || (s =? 1)) && upto (eclass_num_vertices c) (fun v => existsb (Z.eqb v) (table_face c f) ||
      (0 <? (1 - 2 * s) * dot (face_normal c f) (vec (corner_ref_coords c (znth 0 (table_face c f) 0)) (corner_ref_coords c v)))))) = true) by (vm_compute; reflexivity).
  assert (Q := upto_spec (upto_spec A Hc) Hf). cbv beta zeta in Q. split; intros Hd.
  - rewrite (proj2 (Z.leb_le _ _) Hd) in Q. lia.
  - rewrite Hd in Q. change (3 <=? 2) with false in Q. cbv iota in Q. apply andb_true_iff in Q. destruct Q as [Q1 Q2].
    assert (R : forall v, is_corner c v -> ~ In v (table_face c f) -> 0 < (1 - 2 * eclass_face_orientation c f) * dot (face_normal c f) (vec (corner_ref_coords c (znth 0 (table_face c f) 0)) (corner_ref_coords c v))).
    { intros v Hv Nv. assert (T := upto_spec Q2 Hv). cbv beta in T. apply orb_true_iff in T. destruct T as [T|T]; [apply table_face_in in T; contradiction|lia]. }
    apply orb_true_iff in Q1. destruct Q1 as [Q1|Q1]; apply Z.eqb_eq in Q1; rewrite Q1 in R; [left|right]; (split; [exact Q1|]); intros v Hv Nv; specialize (R v Hv Nv); lia.
Qed.
Print Assumptions C38_orientation.

(** C38: the reference normals of the tetrahedron are orthogonal to their face and point to the opposite corner, which has the face's number *)
Theorem C38_tet_normals : forall f, is_face TET f ->
  let n := (reference_face_normal_tet f 0, reference_face_normal_tet f 1, reference_face_normal_tet f 2) in
  forall v w, is_corner TET v -> is_corner TET w -> In w (table_face TET f) ->
    let d := dot n (vec (corner_ref_coords TET w) (corner_ref_coords TET v)) in (v <> f -> In v (table_face TET f) /\ d = 0) /\ (v = f -> ~ In v (table_face TET f) /\ 0 < d).
Proof.
  intros f Hf n v w Hv Hw I d. apply table_face_in in I.
  assert (A : upto 4 (fun f => upto 4 (fun v => upto 4 (fun w => let n := (reference_face_normal_tet f 0, reference_face_normal_tet f 1, reference_face_normal_tet f 2) in
    let d := dot n (vec (corner_ref_coords TET w) (corner_ref_coords TET v)) in
    negb (existsb (Z.eqb w) (table_face TET f)) || (if v =? f then negb (existsb (Z.eqb v) (table_face TET f)) && (0 <? d) else existsb (Z.eqb v) (table_face TET f) && (d =? 0))))) = true) by (vm_compute; reflexivity).
  assert (Q := upto_spec (upto_spec (upto_spec A Hf) Hv) Hw). cbv beta zeta in Q. fold n in Q. fold d in Q. rewrite I in Q. cbn [negb orb] in Q.
  destruct (v =? f) eqn:E; apply andb_true_iff in Q; destruct Q as [Q1 Q2].
  - split; [lia|]. intros _. split; [|lia]. rewrite <- table_face_in. destruct (existsb (Z.eqb v) (table_face TET f)); [discriminate Q1|discriminate].
  - split; [|lia]. intros _. split; [now apply table_face_in|lia].
Qed.
Print Assumptions C38_tet_normals.

(** C38: the boundary counts are the numbers of faces of each class, of edges and of corners; Euler's formula; the maxima over a dimension *)
Definition count_faces c t : Z := zlen (filter (fun f => eclass_face_types c f =? t) (zseq 0 (Z.to_nat (eclass_num_faces c)))).
Theorem C38_counts : forall c t, is_class c -> is_class t ->
  eclass_boundary_count c t =
    (if eclass_to_dimension c <=? eclass_to_dimension t then 0
     else if eclass_to_dimension t =? 0 then eclass_num_vertices c
     else if eclass_to_dimension t =? 1 then eclass_num_edges c
     else count_faces c t) /\
  (eclass_to_dimension c = eclass_to_dimension t + 1 -> eclass_boundary_count c t = count_faces c t) /\
  (eclass_to_dimension c = 3 -> eclass_num_vertices c - eclass_num_edges c + eclass_num_faces c = 2) /\
  (eclass_to_dimension c = 2 -> eclass_num_vertices c = eclass_num_edges c /\ eclass_num_faces c = eclass_num_edges c).
Proof.
  intros c t Hc Ht. split; [|split; [|split]].
  - classes Hc; classes Ht; reflexivity.
  - classes Hc; classes Ht; intros H; try reflexivity; exfalso; revert H; vm_compute; congruence.
  - clear t Ht. classes Hc; intros H; try reflexivity; exfalso; revert H; vm_compute; congruence.
  - clear t Ht. classes Hc; intros H; try (split; reflexivity); exfalso; revert H; vm_compute; congruence.
Qed.
Print Assumptions C38_counts.
Theorem C38_maxima : (forall c, is_class c -> eclass_num_faces c <= eclass_max_num_faces (eclass_to_dimension c)) /\
  (forall d, 0 <= d <= 3 -> exists c, is_class c /\ eclass_to_dimension c = d /\ eclass_num_faces c = eclass_max_num_faces d) /\
  (forall c, is_class c -> 0 <= eclass_to_dimension c <= 3 /\ (c <> PYRAMID -> eclass_max_num_children c = 2 ^ eclass_to_dimension c)).
Proof.
  split; [|split].
  - intros c Hc. classes Hc; vm_compute; congruence.
  - intros d Hd. assert (K : d = 0 \/ d = 1 \/ d = 2 \/ d = 3) by lia. destruct K as [->|[->|[->| ->]]]; [exists VERTEX|exists LINE|exists QUAD|exists HEX];
      (split; [split; vm_compute; congruence|split; reflexivity]).
  - intros c Hc. split; [classes Hc; split; vm_compute; congruence|]. intros Hp. classes Hc; try reflexivity. now elim Hp.
Qed.
Print Assumptions C38_maxima.
Lemma count_boundary_fold c m l : forall sum per,
  let g t := if m <=? eclass_to_dimension t then eclass_boundary_count c t else 0 in
  fold_left (fun '(sum, per) t =>
    if m <=? eclass_to_dimension t then (sum + eclass_boundary_count c t, per ++ [eclass_boundary_count c t])
    else (sum, per ++ [0])) l (sum, per) = (sum + fold_right Z.add 0 (map g l), per ++ map g l).
Proof.
  induction l as [|t l IH]; intros sum per g; cbn [fold_left map fold_right].
  - rewrite app_nil_r, Z.add_0_r. reflexivity.
  - unfold g at 1 3. destruct (m <=? eclass_to_dimension t); rewrite IH, <- app_assoc; cbn [app]; f_equal; fold g; lia.
Qed.
(** C38: t8_eclass_count_boundary *)
Theorem C38_count_boundary : forall c min_dim,
  let '(sum, per) := eclass_count_boundary c min_dim in
  zlen per = ECLASS_COUNT /\ (forall t, is_class t -> znth 0 per t = if min_dim <=? eclass_to_dimension t then eclass_boundary_count c t else 0) /\ sum = fold_right Z.add 0 per.
Proof.
  intros c m. unfold eclass_count_boundary. rewrite count_boundary_fold. cbn [app]. split; [reflexivity|]. split; [|reflexivity].
  intros t Ht. classes Ht; reflexivity.
Qed.
Print Assumptions C38_count_boundary.

(** C38: the order of the classes of one dimension is a total order, and the documented one *)
Definition rank_of c : Z := if c =? TRIANGLE then 0 else if c =? QUAD then 1 else if c =? TET then 0 else if c =? HEX then 1 else if c =? PRISM then 2 else if c =? PYRAMID then 3 else 0.
Theorem C38_compare : forall c1 c2, is_class c1 -> is_class c2 -> eclass_to_dimension c1 = eclass_to_dimension c2 ->
  exists r, eclass_compare c1 c2 = Ok r /\ (r = -1 <-> rank_of c1 < rank_of c2) /\ (r = 0 <-> c1 = c2) /\ (r = 1 <-> rank_of c2 < rank_of c1) /\ (r = -1 \/ r = 0 \/ r = 1).
Proof.
  intros c1 c2 H1 H2 Hd. exists (Z.sgn (rank_of c1 - rank_of c2)).
  assert (A : upto 8 (fun c1 => upto 8 (fun c2 => negb (eclass_to_dimension c1 =? eclass_to_dimension c2) ||
     (match eclass_compare c1 c2 with Ok r => r =? Z.sgn (rank_of c1 - rank_of c2) | _ => false end && eqb (rank_of c1 =? rank_of c2) (c1 =? c2)))) = true) by (vm_compute; reflexivity).
  assert (Q := upto_spec (upto_spec A H1) H2). cbv beta in Q. rewrite Hd, Z.eqb_refl in Q. cbn [negb orb] in Q. apply andb_true_iff in Q. destruct Q as [Q1 Q2]. apply eqb_prop in Q2.
  split; [destruct (eclass_compare c1 c2); try discriminate Q1; f_equal; lia|]. clear Q1. lia.
Qed.
Print Assumptions C38_compare.
Theorem C38_is_valid : forall c, 0 <= c -> (eclass_is_valid c = true <-> is_class c).
Proof. intros c Hc. unfold eclass_is_valid, is_class. lia. Qed.
Print Assumptions C38_is_valid.

(** C38: the corner numbers of t8code and of VTK are inverse to each other *)
Theorem C38_vtk_corners : forall c i, is_class c ->
  (is_corner c i -> is_corner c (eclass_vtk_to_t8_corner_number c i) /\ is_corner c (eclass_t8_to_vtk_corner_number c i) /\
     eclass_t8_to_vtk_corner_number c (eclass_vtk_to_t8_corner_number c i) = i /\ eclass_vtk_to_t8_corner_number c (eclass_t8_to_vtk_corner_number c i) = i) /\
  (eclass_num_vertices c <= i < 8 -> eclass_vtk_to_t8_corner_number c i = -1 /\ eclass_t8_to_vtk_corner_number c i = -1).
Proof.
  intros c i Hc. assert (A : upto 8 (fun c => upto 8 (fun i => let a := eclass_vtk_to_t8_corner_number c i in let b := eclass_t8_to_vtk_corner_number c i in
    if i <? eclass_num_vertices c then (0 <=? a) && (a <? eclass_num_vertices c) && (0 <=? b) && (b <? eclass_num_vertices c) && (eclass_t8_to_vtk_corner_number c a =? i) && (eclass_vtk_to_t8_corner_number c b =? i)
    else (a =? -1) && (b =? -1))) = true) by (vm_compute; reflexivity).
  assert (N : 0 < eclass_num_vertices c <= 8) by (clear A; classes Hc; vm_compute; split; congruence). split.
  - intros Hi. unfold is_corner in *. assert (Q := upto_spec (upto_spec A Hc) (i := i) ltac:(lia)). cbv beta zeta in Q. rewrite (proj2 (Z.ltb_lt _ _) (proj2 Hi)) in Q. lia.
  - intros Hi. assert (Q := upto_spec (upto_spec A Hc) (i := i) ltac:(lia)). cbv beta zeta in Q. rewrite (proj2 (Z.ltb_ge _ _) (proj1 Hi)) in Q. lia.
Qed.
Print Assumptions C38_vtk_corners.

(** ** examples *)
Example ex_pyramid : is_class PYRAMID /\ is_face PYRAMID 4 /\ table_face PYRAMID 4 = [0; 1; 2; 3] /\ face_normal PYRAMID 4 = (0, 0, 1) /\ eclass_face_orientation PYRAMID 4 = 0.
Proof. repeat split; vm_compute; congruence. Qed.
Example ex_prism_edges : is_class PRISM /\ 2 <= eclass_to_dimension PRISM /\ table_edge PRISM 6 = (1, 4) /\ is_face PRISM 2 /\ table_face_edges PRISM 2 = [2; 6; 5; 8].
Proof. repeat split; vm_compute; congruence. Qed.
Example ex_prism_neighbor : table_face PRISM 3 = [0; 1; 2] /\ table_edge PRISM (face_to_edge_neighbor PRISM 3 0) = (1, 4).
Proof. split; reflexivity. Qed.
Example ex_boundary : eclass_count_boundary PYRAMID 1 = (13, [0; 8; 1; 4; 0; 0; 0; 0]).
Proof. reflexivity. Qed.

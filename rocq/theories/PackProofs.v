(** Proofs about packing. *)
From Verif Require Import Prelude PathSpec SchemeProofs SimplexModel LineModel PackModel PackSpec.
#[local] Unset Implicit Arguments.

(** ** Bytes *)

Lemma to_bytes_length n v : length (to_bytes n v) = n.
Proof. unfold to_bytes. now rewrite map_length, seq_length. Qed.

Lemma from_to n : forall v, from_bytes (to_bytes n v) = v mod 256 ^ Z.of_nat n.
Proof.
  induction n as [|n IH]; intros v.
  - cbn. now rewrite Z.mod_1_r.
  - assert (E : to_bytes (S n) v = (v mod 256) :: to_bytes n (v / 256)).
    { unfold to_bytes. cbn [seq map]. f_equal.
      - unfold byte_of. cbn [Z.of_nat]. now rewrite Z.pow_0_r, Z.div_1_r.
      - rewrite <- seq_shift, map_map. apply map_ext. intros i. unfold byte_of.
        rewrite Nat2Z.inj_succ, Z.pow_succ_r by lia. rewrite Z.div_div by (try lia; apply Z.pow_pos_nonneg; lia). reflexivity. }
    rewrite E. cbn [from_bytes]. rewrite IH.
    rewrite Nat2Z.inj_succ, Z.pow_succ_r by lia.
    pose proof (Z.pow_pos_nonneg 256 (Z.of_nat n) ltac:(lia) ltac:(lia)) as Hp.
    rewrite (Z.rem_mul_r v 256 (256 ^ Z.of_nat n)) by lia. reflexivity.
Qed.

Lemma signed_back n v : (0 < n)%nat -> - 2 ^ (8 * Z.of_nat n - 1) <= v < 2 ^ (8 * Z.of_nat n - 1) ->
  as_signed n (v mod 256 ^ Z.of_nat n) = v.
Proof.
  intros Hn Hv. unfold as_signed.
  assert (E : 256 ^ Z.of_nat n = 2 * 2 ^ (8 * Z.of_nat n - 1)).
  { change 256 with (2 ^ 8). rewrite <- Z.pow_mul_r by lia. rewrite <- Z.pow_succ_r by lia. f_equal. lia. }
  assert (E2 : 2 ^ (8 * Z.of_nat n) = 2 * 2 ^ (8 * Z.of_nat n - 1)).
  { rewrite <- Z.pow_succ_r by lia. f_equal. lia. }
  rewrite E, E2. set (h := 2 ^ (8 * Z.of_nat n - 1)) in *.
  destruct (Z.ltb_spec v 0) as [L|L].
  - assert (M : v mod (2 * h) = v + 2 * h).
    { symmetry. apply (Z.mod_unique v (2 * h) (-1)); lia. }
    rewrite M. destruct (Z.ltb_spec (v + 2 * h) h); lia.
  - rewrite Z.mod_small by lia. destruct (Z.ltb_spec v h); lia.
Qed.

(** ** Writers and readers *)

(** [f] overwrites the next bytes by [bs]. *)
Definition writes (f : list Z * Z -> outcome (list Z * Z)) (bs : list Z) : Prop :=
  forall pre mid post, length mid = length bs ->
    f (pre ++ mid ++ post, zlen pre) = Ok (pre ++ bs ++ post, zlen pre + zlen bs).
(** [f] reads [bs] as [v]. *)
Definition reads A (f : list Z -> Z -> outcome (A * Z)) (bs : list Z) (v : A) : Prop :=
  forall pre post, f (pre ++ bs ++ post) (zlen pre) = Ok (v, zlen pre + zlen bs).

Lemma writes_nil : writes (fun st => Ok st) [].
Proof.
  intros pre mid post Hm. destruct mid; [|discriminate]. cbn [app]. unfold zlen at 2. cbn [length].
  now rewrite Z.add_0_r.
Qed.

Lemma writes_seq f g b1 b2 : writes f b1 -> writes g b2 -> writes (fun st => do s <- f st; g s) (b1 ++ b2).
Proof.
  intros Hf Hg pre mid post Hm. rewrite app_length in Hm.
  assert (E : mid = firstn (length b1) mid ++ skipn (length b1) mid) by now rewrite firstn_skipn.
  assert (L1 : length (firstn (length b1) mid) = length b1) by (rewrite firstn_length; lia).
  assert (L2 : length (skipn (length b1) mid) = length b2) by (rewrite skipn_length; lia).
  rewrite E, <- app_assoc, (Hf pre _ _ L1). cbn [obind].
  replace (pre ++ b1 ++ skipn (length b1) mid ++ post) with ((pre ++ b1) ++ skipn (length b1) mid ++ post)
    by now rewrite <- app_assoc.
  rewrite <- zlen_app, (Hg _ _ _ L2). rewrite !zlen_app, <- !app_assoc. now rewrite Z.add_assoc.
Qed.

Lemma writes_ext f g bs : (forall st, f st = g st) -> writes f bs -> writes g bs.
Proof. intros E H pre mid post Hm. rewrite <- E. now apply H. Qed.

Lemma mpi_pack_writes t v : writes (mpi_pack t v) (to_bytes (tsize t) v).
Proof.
  intros pre mid post Hm. rewrite to_bytes_length in Hm. unfold mpi_pack, mpi_pack_size.
  assert (T : zlen pre >= 0) by (unfold zlen; lia).
  assert (Q : zlen (pre ++ mid ++ post) >= zlen pre + Z.of_nat (tsize t)).
  { rewrite !zlen_app. unfold zlen. lia. }
  destruct (Z.ltb_spec (zlen pre) 0); [lia|].
  destruct (Z.ltb_spec (zlen (pre ++ mid ++ post)) (zlen pre + Z.of_nat (tsize t))); [lia|]. cbn [orb].
  f_equal. f_equal.
  - unfold zlen. rewrite Nat2Z.id. rewrite firstn_app, Nat.sub_diag, firstn_all, firstn_O, app_nil_r.
    f_equal. f_equal. rewrite <- Hm, <- app_length, app_assoc.
    rewrite skipn_app, skipn_all, Nat.sub_diag. reflexivity.
  - unfold zlen. rewrite to_bytes_length. reflexivity.
Qed.

Lemma mpi_unpack_reads t v : reads Z (mpi_unpack t) (to_bytes (tsize t) v) (v mod 256 ^ Z.of_nat (tsize t)).
Proof.
  intros pre post. unfold mpi_unpack, mpi_pack_size.
  assert (T : zlen pre >= 0) by (unfold zlen; lia).
  assert (Q : zlen (pre ++ to_bytes (tsize t) v ++ post) >= zlen pre + Z.of_nat (tsize t)).
  { rewrite !zlen_app. unfold zlen at 2. rewrite to_bytes_length. unfold zlen. lia. }
  destruct (Z.ltb_spec (zlen pre) 0); [lia|].
  destruct (Z.ltb_spec (zlen (pre ++ to_bytes (tsize t) v ++ post)) (zlen pre + Z.of_nat (tsize t))); [lia|]. cbn [orb].
  f_equal. f_equal.
  - unfold zlen. rewrite Nat2Z.id. rewrite skipn_app, skipn_all, Nat.sub_diag. cbn [app skipn].
    rewrite firstn_app, to_bytes_length, Nat.sub_diag, firstn_O, app_nil_r.
    rewrite <- (to_bytes_length (tsize t) v) at 1. rewrite firstn_all. apply from_to.
  - unfold zlen at 3. now rewrite to_bytes_length.
Qed.

Definition holds (t : ctype) (v : Z) : Prop :=
  match t with MPI_INT8 => int8 v | MPI_INT => int32 v | MPI_GLOIDX => int64 v end.

Lemma unpack_signed_reads t v : holds t v -> reads Z (unpack_signed t) (to_bytes (tsize t) v) v.
Proof.
  intros Hv pre post. unfold unpack_signed. rewrite (mpi_unpack_reads t v pre post). cbn [obind fst snd].
  f_equal. f_equal. apply signed_back.
  - destruct t; cbn; lia.
  - destruct t; exact Hv || (unfold holds, int8 in Hv; cbn [tsize]; change (8 * Z.of_nat 1 - 1) with 7; lia).
Qed.

Lemma unpack_unsigned_reads v : uint8 v -> reads Z (unpack_unsigned MPI_INT8) (to_bytes 1 v) v.
Proof.
  intros Hv pre post. unfold unpack_unsigned. change 1%nat with (tsize MPI_INT8).
  rewrite (mpi_unpack_reads MPI_INT8 v pre post). f_equal. f_equal. apply Z.mod_small.
  unfold uint8 in Hv. cbn [tsize]. change (256 ^ Z.of_nat 1) with 256. lia.
Qed.

Lemma reads_seq A B (f : list Z -> Z -> outcome (A * Z)) (g : A -> list Z -> Z -> outcome (B * Z)) b1 b2 v w :
  reads A f b1 v -> reads B (g v) b2 w ->
  reads B (fun buf pos => do x <- f buf pos; g (fst x) buf (snd x)) (b1 ++ b2) w.
Proof.
  intros Hf Hg pre post. rewrite <- app_assoc, (Hf pre (b2 ++ post)). cbn [obind fst snd].
  replace (pre ++ b1 ++ b2 ++ post) with ((pre ++ b1) ++ b2 ++ post) by now rewrite <- app_assoc.
  rewrite <- zlen_app, (Hg (pre ++ b1) post). rewrite !zlen_app. now rewrite Z.add_assoc.
Qed.

Lemma reads_ret A B (f : list Z -> Z -> outcome (A * Z)) (h : A -> B) bs v :
  reads A f bs v -> reads B (fun buf pos => do x <- f buf pos; Ok (h (fst x), snd x)) bs (h v).
Proof. intros Hf pre post. rewrite (Hf pre post). reflexivity. Qed.

Lemma reads_nil A (v : A) : reads A (fun _ pos => Ok (v, pos)) [] v.
Proof. intros pre post. unfold zlen at 3. cbn [length]. now rewrite Z.add_0_r. Qed.

(** ** Bytes of each class *)

Definition I (v : Z) := to_bytes 4 v.
Definition B (v : Z) := to_bytes 1 v.
Definition simplex_image (tet : bool) (t : simp) : list Z :=
  I (sx t) ++ I (sy t) ++ (if tet then I (sz t) else []) ++ B (ty t) ++ B (lv t).
Definition image (e : element) : list Z :=
  match e with
  | EVertex v => B v
  | ELine l => I (lx l) ++ B (ll l)
  | EQuad q => I (qx q) ++ I (qy q) ++ B (qlevel q)
  | ETri t => simplex_image false t
  | EHex h => I (hx h) ++ I (hy h) ++ I (hz h) ++ B (hlevel h)
  | ETet t => simplex_image true t
  | EPrism p => I (lx (pline p)) ++ I (sx (ptri p)) ++ I (sy (ptri p)) ++ B (ty (ptri p)) ++ B (ll (pline p))
  | EPyra p => simplex_image true (ptet p) ++ B (pswitch p)
  end.

Lemma image_length e : zlen (image e) = element_bytes (class_of e).
Proof.
  destruct e as [| | |t| |t| |[t s]]; cbn [image class_of]; unfold simplex_image, I, B, zlen;
    rewrite ?app_length, ?to_bytes_length; reflexivity.
Qed.

Lemma wI v : writes (mpi_pack MPI_INT v) (I v).
Proof. apply (mpi_pack_writes MPI_INT). Qed.
Lemma wB v : writes (mpi_pack MPI_INT8 v) (B v).
Proof. apply (mpi_pack_writes MPI_INT8). Qed.

Lemma simplex_pack_writes tet t : writes (simplex_pack tet t) (simplex_image tet t).
Proof.
  unfold simplex_pack, simplex_image. apply writes_seq with (f := mpi_pack MPI_INT (sx t)); [apply wI|].
  apply writes_seq with (f := mpi_pack MPI_INT (sy t)); [apply wI|].
  apply writes_seq with (f := fun s2 => if tet then mpi_pack MPI_INT (sz t) s2 else Ok s2).
  { destruct tet; [apply wI|apply writes_nil]. }
  apply writes_seq with (f := mpi_pack MPI_INT8 (ty t)); apply wB.
Qed.

Ltac wr := repeat first [ apply wI | apply wB
  | lazymatch goal with
    | |- writes (fun st => do s <- mpi_pack ?t ?v st; _) (_ ++ _) => apply writes_seq with (f := mpi_pack t v)
    end ].

Lemma pack1_writes e : is_element e -> writes (element_pack1 (class_of e) e) (image e).
Proof.
  intros He. unfold element_pack1. rewrite Z.eqb_refl. cbn [negb].
  destruct e as [v|l|q|t|h|t|p|p]; cbn [image].
  - apply wB.
  - unfold line_pack. wr.
  - unfold quad_pack. wr.
  - apply simplex_pack_writes.
  - unfold hex_pack. wr.
  - apply simplex_pack_writes.
  - unfold prism_pack. cbn [is_element] in He. rewrite He, Z.eqb_refl. cbn [negb]. wr.
  - unfold pyra_pack. apply writes_seq with (f := simplex_pack true (ptet p)); [apply simplex_pack_writes|apply wB].
Qed.

Lemma rI v : int32 v -> reads Z (unpack_signed MPI_INT) (I v) v.
Proof. intros H. now apply (unpack_signed_reads MPI_INT). Qed.
Lemma rB v : int8 v -> reads Z (unpack_signed MPI_INT8) (B v) v.
Proof. intros H. now apply (unpack_signed_reads MPI_INT8). Qed.

(** One reading step: the value is known, the position moves behind the bytes read. *)
Lemma read_step A R (f : list Z -> Z -> outcome (A * Z)) b v (K : A * Z -> outcome R) pre r :
  reads A f b v -> obind (f (pre ++ b ++ r) (zlen pre)) K = K (v, zlen (pre ++ b)).
Proof. intros H. rewrite (H pre r). cbn [obind]. now rewrite zlen_app. Qed.

Ltac rd H :=
  lazymatch goal with
  | |- obind (_ (?pre ++ ?b ++ ?r) (zlen ?pre)) _ = _ =>
      rewrite (read_step _ _ _ b _ _ pre r H); cbn [fst snd]; rewrite ?(app_assoc pre b r)
  end.
Ltac rdend := apply (f_equal (@Ok _)); apply f_equal2; [|rewrite !zlen_app; lia].

Lemma simplex_unpack_reads tet t old :
  simplex_stored t -> (tet = false -> sz old = sz t) ->
  reads simp (fun buf pos => simplex_unpack tet buf pos old) (simplex_image tet t) t.
Proof.
  intros (H1 & H2 & H3 & H4 & H5) Hz pre post. unfold simplex_unpack, simplex_image. cbn [lv ty sx sy sz].
  destruct tet; cbn [app]; rewrite <- !app_assoc.
  - rd (rI _ H3). rd (rI _ H4). rd (rI _ H5). rd (rB _ H2). rd (rB _ H1). rdend. now destruct t.
  - rd (rI _ H3). rd (rI _ H4). cbn [obind fst snd]. rd (rB _ H2). rd (rB _ H1). rdend. rewrite Hz by easy. now destruct t.
Qed.

(** An element that differs from [e] in its members only. *)
Definition same_kind (e old : element) : Prop := class_of old = class_of e /\ stored old.

Lemma unpack1_reads e old : stored e -> is_element e -> same_kind e old ->
  reads element (fun buf pos => element_unpack1 (class_of e) buf pos old) (image e) e.
Proof.
  intros He Hi [Hc Ho] pre post. unfold element_unpack1. rewrite Hc, Z.eqb_refl. cbn [negb].
  destruct e as [v|l|q|t|h|t|p|p], old as [v'|l'|q'|t'|h'|t'|p'|p']; try discriminate Hc; cbn [image stored] in *;
    unfold omap_fst.
  - unfold vertex_unpack. rd (unpack_unsigned_reads v He). rdend. reflexivity.
  - destruct He as [H1 H2]. unfold line_unpack. cbn [ll lx]. rewrite <- !app_assoc.
    assert (E : forall (x : outcome (dline * Z)) y, x = y -> obind x (fun x0 => Ok (ELine (fst x0), snd x0)) =
      obind y (fun x0 => Ok (ELine (fst x0), snd x0))) by now intros ? ? ->.
    eassert (E2 : _ = Ok (l, zlen pre + zlen (I (lx l) ++ B (ll l)))).
    2: { rewrite E2. reflexivity. }
    rd (rI _ H2). rd (rB _ H1). rdend. now destruct l.
  - destruct He as (H1 & H2 & H3). unfold quad_unpack. cbn [qx qy qlevel].
    eassert (E2 : _ = Ok (q, zlen pre + zlen (I (qx q) ++ I (qy q) ++ B (qlevel q)))).
    2: { rewrite E2. reflexivity. }
    rewrite <- !app_assoc. rd (rI _ H1). rd (rI _ H2). rd (rB _ H3). rdend. now destruct q.
  - destruct He as [H1 H2], Ho as [_ H3].
    rewrite (simplex_unpack_reads false t t' H1 ltac:(intros; congruence) pre post). reflexivity.
  - destruct He as (H1 & H2 & H3 & H4). unfold hex_unpack. cbn [hx hy hz hlevel].
    eassert (E2 : _ = Ok (h, zlen pre + zlen (I (hx h) ++ I (hy h) ++ I (hz h) ++ B (hlevel h)))).
    2: { rewrite E2. reflexivity. }
    rewrite <- !app_assoc. rd (rI _ H1). rd (rI _ H2). rd (rI _ H3). rd (rB _ H4). rdend. now destruct h.
  - rewrite (simplex_unpack_reads true t t' He ltac:(intros; discriminate) pre post). reflexivity.
  - destruct He as [[H1 H2] [(H3 & H4 & H5 & H6 & _) H7]], Ho as [_ [_ H8]]. cbn [is_element] in Hi.
    unfold prism_unpack. cbn [lv ty sx sy sz ll lx].
    eassert (E2 : _ = Ok (p, zlen pre + zlen (I (lx (pline p)) ++ I (sx (ptri p)) ++ I (sy (ptri p)) ++ B (ty (ptri p))
      ++ B (ll (pline p))))).
    2: { rewrite E2. reflexivity. }
    rewrite <- !app_assoc. rd (rI _ H2). rd (rI _ H5). rd (rI _ H6). rd (rB _ H4). rd (rB _ H1). rdend.
    destruct p as [[l x] [a b c d z]]. cbn [pline ptri ll lx lv ty sx sy sz] in *. congruence.
  - destruct He as [H1 H2]. unfold pyra_unpack.
    eassert (E2 : _ = Ok (p, zlen pre + zlen (simplex_image true (ptet p) ++ B (pswitch p)))).
    2: { rewrite E2. reflexivity. }
    rewrite <- !app_assoc.
    pose proof (simplex_unpack_reads true (ptet p) (ptet p') H1 ltac:(intros; discriminate)) as R. unfold reads in R.
    rewrite R. cbn [obind fst snd]. rewrite <- zlen_app, app_assoc. rd (rB _ H2). rdend. now destruct p.
Qed.

(** ** Sequences *)

Definition images (es : list element) : list Z := concat (map image es).

Lemma pack_writes eclass es : packable eclass es -> writes (element_pack eclass es) (images es).
Proof.
  induction es as [|e r IH]; intros He.
  - apply writes_nil.
  - unfold images. cbn [element_pack map concat].
    destruct (He e (or_introl eq_refl)) as (Hc & _ & Hi).
    apply writes_seq with (f := element_pack1 eclass e).
    + rewrite <- Hc. now apply pack1_writes.
    + apply IH. intros x Hx. apply He. now right.
Qed.

Lemma unpack_reads eclass es : forall olds, packable eclass es -> allocated eclass olds -> length olds = length es ->
  reads (list element) (fun buf pos => element_unpack eclass buf pos olds) (images es) es.
Proof.
  induction es as [|e r IH]; intros olds He Ho Hl pre post.
  - destruct olds; [|discriminate]. exact (reads_nil _ [] pre post).
  - destruct olds as [|o olds]; [discriminate|]. cbn [element_unpack].
    destruct (He e (or_introl eq_refl)) as (Hc & Hs & Hi).
    unfold images. cbn [map concat]. rewrite <- app_assoc.
    assert (R : reads element (fun buf pos => element_unpack1 eclass buf pos o) (image e) e).
    { rewrite <- Hc. apply unpack1_reads; auto. split; [rewrite Hc|]; apply (Ho o (or_introl eq_refl)). }
    assert (R2 : reads (list element) (fun buf pos => element_unpack eclass buf pos olds) (images r) r).
    { apply IH; [intros x Hx; apply He; now right|intros x Hx; apply Ho; now right|now injection Hl]. }
    rewrite (R pre (concat (map image r) ++ post)). cbn [obind fst snd].
    rewrite <- zlen_app, app_assoc.
    unfold reads, images in R2. rewrite (R2 (pre ++ image e) post). cbn [obind fst snd]. rewrite !zlen_app.
    now rewrite Z.add_assoc.
Qed.

Lemma images_length eclass es : packable eclass es -> zlen (images es) = zlen es * element_bytes eclass.
Proof.
  induction es as [|e r IH]; intros He; [reflexivity|].
  unfold images. cbn [map concat]. rewrite zlen_app, image_length, zlen_cons.
  destruct (He e (or_introl eq_refl)) as (-> & _ & _). fold (images r).
  rewrite IH by (intros x Hx; apply He; now right). lia.
Qed.

(** ** From writers and readers to the statements about buffers *)

Lemma buffer_split (buf : list Z) pos n : 0 <= pos -> 0 <= n -> pos + n <= zlen buf ->
  exists pre mid post, buf = pre ++ mid ++ post /\ zlen pre = pos /\ zlen mid = n.
Proof.
  intros H0 Hn Hl. unfold zlen in *.
  exists (firstn (Z.to_nat pos) buf), (firstn (Z.to_nat n) (skipn (Z.to_nat pos) buf)),
    (skipn (Z.to_nat n) (skipn (Z.to_nat pos) buf)).
  rewrite firstn_skipn, firstn_skipn. split; [reflexivity|].
  rewrite !firstn_length, skipn_length. lia.
Qed.

Lemma znth_app1 (a b : list Z) i : 0 <= i < zlen a -> znth 0 (a ++ b) i = znth 0 a i.
Proof. intros H. unfold znth, zlen in *. now rewrite app_nth1 by lia. Qed.
Lemma znth_app2 (a b : list Z) i : zlen a <= i -> znth 0 (a ++ b) i = znth 0 b (i - zlen a).
Proof. intros H. unfold znth, zlen in *. rewrite app_nth2 by lia. f_equal. lia. Qed.

Lemma writes_changed f bs buf pos : writes f bs -> 0 <= pos -> pos + zlen bs <= zlen buf ->
  exists pre post, zlen pre = pos /\ f (buf, pos) = Ok (pre ++ bs ++ post, pos + zlen bs) /\
    changed_only pos (pos + zlen bs) buf (pre ++ bs ++ post).
Proof.
  intros Hf H0 Hl. destruct (buffer_split buf pos (zlen bs) H0 (zlen_ge0 _) Hl) as (pre & mid & post & -> & <- & Hm).
  exists pre, post. split; [reflexivity|]. split.
  - apply Hf. unfold zlen in Hm. lia.
  - split; [rewrite !app_length; unfold zlen in Hm; lia|]. intros i [Hi|Hi].
    + now rewrite !znth_app1.
    + pose proof (zlen_ge0 bs). rewrite !znth_app2 by lia. f_equal. lia.
Qed.

Lemma reads_carries A (f : list Z -> Z -> outcome (A * Z)) bs v pre post msg :
  reads A f bs v -> carries (zlen pre) (zlen pre + zlen bs) (pre ++ bs ++ post) msg ->
  f msg (zlen pre) = Ok (v, zlen pre + zlen bs).
Proof.
  intros Hf [Hl Hc]. destruct (buffer_split msg (zlen pre) (zlen bs) (zlen_ge0 _) (zlen_ge0 _) Hl)
    as (pre' & mid & post' & -> & Hp & Hm).
  assert (E : mid = bs).
  { apply (nth_ext _ _ 0 0); [unfold zlen in Hm; lia|]. intros n Hn.
    assert (Hr : zlen pre <= zlen pre + Z.of_nat n < zlen pre + zlen bs) by (unfold zlen in *; lia).
    specialize (Hc _ Hr). rewrite (znth_app2 pre) in Hc by lia.
    rewrite <- Hp in Hc at 1. rewrite (znth_app2 pre') in Hc by lia.
    rewrite !znth_app1 in Hc by (unfold zlen in *; lia).
    unfold znth in Hc. replace (Z.to_nat (zlen pre' + Z.of_nat n - zlen pre')) with n in Hc by lia.
    replace (Z.to_nat (zlen pre + Z.of_nat n - zlen pre)) with n in Hc by lia. exact Hc. }
  subst mid. rewrite <- Hp. apply Hf.
Qed.

Lemma round_trip eclass es buf pos :
  packable eclass es -> 0 <= pos -> pos + zlen es * element_bytes eclass <= zlen buf ->
  exists buf', element_pack eclass es (buf, pos) = Ok (buf', pos + zlen es * element_bytes eclass) /\
    changed_only pos (pos + zlen es * element_bytes eclass) buf buf' /\
    forall msg olds, carries pos (pos + zlen es * element_bytes eclass) buf' msg ->
      allocated eclass olds -> length olds = length es ->
      element_unpack eclass msg pos olds = Ok (es, pos + zlen es * element_bytes eclass).
Proof.
  intros He H0 Hl. pose proof (images_length _ _ He) as Hb. rewrite <- Hb in *.
  destruct (writes_changed _ _ buf pos (pack_writes _ _ He) H0 Hl) as (pre & post & <- & Hp & Hc).
  exists (pre ++ images es ++ post). split; [exact Hp|]. split; [exact Hc|].
  intros msg olds Hm Ho Hn.
  exact (reads_carries _ (fun b p => element_unpack eclass b p olds) _ _ _ _ _ (unpack_reads _ _ _ He Ho Hn) Hm).
Qed.

Lemma class_range e : 0 <= class_of e <= 7.
Proof. destruct e; cbn; lia. Qed.

Lemma small_class c : 0 <= c <= 7 -> c = 0 \/ c = 1 \/ c = 2 \/ c = 3 \/ c = 4 \/ c = 5 \/ c = 6 \/ c = 7.
Proof. lia. Qed.

Lemma single_size_bytes c : 0 <= c <= 7 -> single_size c = element_bytes c.
Proof. intros H. destruct (small_class c H) as [->|[->|[->|[->|[->|[->|[->| ->]]]]]]]; reflexivity. Qed.

Lemma element_bytes_pos c : 0 <= c <= 7 -> 0 < element_bytes c <= 15.
Proof. intros H. destruct (small_class c H) as [->|[->|[->|[->|[->|[->|[->| ->]]]]]]];
  vm_compute; (split; [reflexivity|discriminate]). Qed.

Lemma i32_small z : 0 <= z < 2 ^ 31 -> i32 (z mod 2 ^ 32) = z.
Proof. intros H. unfold i32. rewrite (Z.mod_small z) by lia. rewrite Z.mod_small by lia. lia. Qed.

Lemma pack_size_exact c n : 0 <= c <= 7 -> 0 <= n -> n * element_bytes c < 2 ^ 31 ->
  element_pack_size c n = n * element_bytes c.
Proof.
  intros Hc Hn Hs. unfold element_pack_size. rewrite single_size_bytes by easy. apply i32_small.
  pose proof (element_bytes_pos c Hc). split; [apply Z.mul_nonneg_nonneg; lia|lia].
Qed.

(** ** Standalone elements *)

Definition scoords (cs : list Z) : list Z := concat (map I cs).
Definition simage (e : standalone) : list Z := scoords (s_coords e) ++ B (s_level e).
Definition simages (es : list standalone) : list Z := concat (map simage es).
Definition sgood (dim : nat) (e : standalone) : Prop :=
  length (s_coords e) = dim /\ Forall int32 (s_coords e) /\ uint8 (s_level e).

Lemma coords_writes cs : writes (coords_pack cs) (scoords cs).
Proof.
  induction cs as [|c r IH]; [apply writes_nil|]. unfold scoords. cbn [coords_pack map concat].
  apply writes_seq with (f := mpi_pack MPI_INT c); [apply wI|exact IH].
Qed.

Lemma standalone1_writes e : writes (standalone_pack1 e) (simage e).
Proof. unfold standalone_pack1, simage. apply writes_seq with (f := coords_pack (s_coords e)); [apply coords_writes|apply wB]. Qed.

Lemma standalone_writes es : writes (standalone_pack es) (simages es).
Proof.
  induction es as [|e r IH]; [apply writes_nil|]. unfold simages. cbn [standalone_pack map concat].
  apply writes_seq with (f := standalone_pack1 e); [apply standalone1_writes|exact IH].
Qed.

Lemma coords_reads cs : forall old, Forall int32 cs -> length old = length cs ->
  reads (list Z) (fun b p => coords_unpack b p old) (scoords cs) cs.
Proof.
  induction cs as [|c r IH]; intros old Hf Hl pre post.
  - destruct old; [|discriminate]. exact (reads_nil _ [] pre post).
  - destruct old as [|o old]; [discriminate|]. inversion Hf as [|? ? Hc Hr]; subst.
    cbn [coords_unpack]. unfold scoords. cbn [map concat]. rewrite <- app_assoc.
    rd (rI _ Hc). pose proof (IH old Hr ltac:(now injection Hl)) as R. unfold reads, scoords in R.
    rewrite R. cbn [obind fst snd]. rdend. reflexivity.
Qed.

Lemma standalone1_reads dim e old : sgood dim e -> length (s_coords old) = dim ->
  reads standalone (fun b p => standalone_unpack1 b p old) (simage e) e.
Proof.
  intros (Hd & Hc & Hl) Ho pre post. unfold standalone_unpack1, simage. rewrite <- app_assoc.
  pose proof (coords_reads (s_coords e) (s_coords old) Hc ltac:(congruence)) as R. unfold reads in R.
  rewrite R. cbn [obind fst snd]. rewrite <- zlen_app, app_assoc. unfold B. rd (unpack_unsigned_reads _ Hl).
  rdend. now destruct e.
Qed.

Lemma standalone_reads dim es : forall olds, Forall (sgood dim) es ->
  Forall (fun o => length (s_coords o) = dim) olds -> length olds = length es ->
  reads (list standalone) (fun b p => standalone_unpack b p olds) (simages es) es.
Proof.
  induction es as [|e r IH]; intros olds Hg Ho Hl pre post.
  - destruct olds; [|discriminate]. exact (reads_nil _ [] pre post).
  - destruct olds as [|o olds]; [discriminate|].
    inversion Hg as [|? ? Hge Hgr]; subst. inversion Ho as [|? ? Hoo Hor]; subst.
    cbn [standalone_unpack]. unfold simages. cbn [map concat]. rewrite <- app_assoc.
    pose proof (standalone1_reads _ e o Hge eq_refl) as R1. unfold reads in R1. rewrite R1. cbn [obind fst snd].
    rewrite <- zlen_app, app_assoc.
    pose proof (IH olds Hgr Hor ltac:(now injection Hl)) as R. unfold reads, simages in R. rewrite R.
    cbn [obind fst snd]. rdend. reflexivity.
Qed.

Lemma simages_length dim es : Forall (sgood dim) es -> zlen (simages es) = zlen es * (4 * Z.of_nat dim + 1).
Proof.
  induction es as [|e r IH]; intros Hg; [reflexivity|]. inversion Hg as [|? ? Hge Hgr]; subst.
  unfold simages. cbn [map concat]. fold (simages r). rewrite zlen_app, zlen_cons, IH by easy.
  assert (E : zlen (simage e) = 4 * Z.of_nat dim + 1).
  { unfold simage. rewrite zlen_app. destruct Hge as (<- & _). unfold B. unfold zlen at 2. rewrite to_bytes_length.
    cut (zlen (scoords (s_coords e)) = 4 * Z.of_nat (length (s_coords e))); [lia|].
    clear. induction (s_coords e) as [|c cs IHc]; [reflexivity|]. unfold scoords. cbn [map concat]. fold (scoords cs).
    rewrite zlen_app, IHc. unfold I, zlen. rewrite to_bytes_length. cbn [length]. lia. }
  rewrite E. lia.
Qed.

(** ** Partition-for-coarsening messages *)

Definition message_image (m : pfc_message) : list Z :=
  to_bytes 8 (m_itree m) ++ I (m_eclass m) ++ images [m_parent m] ++ I (m_num_siblings m).

Lemma message_writes m : packable (m_eclass m) [m_parent m] -> writes (message_pack m) (message_image m).
Proof.
  intros H. unfold message_pack, message_image.
  apply writes_seq with (f := mpi_pack MPI_GLOIDX (m_itree m)); [apply (mpi_pack_writes MPI_GLOIDX)|].
  apply writes_seq with (f := mpi_pack MPI_INT (m_eclass m)); [apply wI|].
  apply writes_seq with (f := element_pack (m_eclass m) [m_parent m]); [now apply pack_writes|apply wI].
Qed.

Lemma new_element_ok c : 0 <= c <= 7 -> allocated c [new_element c].
Proof.
  intros H e [<-|[]].
  destruct (small_class c H) as [->|[->|[->|[->|[->|[->|[->| ->]]]]]]]; (split; [reflexivity|]); cbn -[Z.pow];
    unfold triangle_stored, simplex_stored, line_stored, int8, int32, uint8; cbn -[Z.pow]; repeat split; lia.
Qed.

Lemma message_reads m : packable (m_eclass m) [m_parent m] -> int64 (m_itree m) -> int32 (m_num_siblings m) ->
  reads pfc_message message_unpack (message_image m) m.
Proof.
  intros Hp Hi Hn pre post. unfold message_unpack, message_image. rewrite <- !app_assoc.
  destruct (Hp _ (or_introl eq_refl)) as (Hc & _ & _). pose proof (class_range (m_parent m)) as Hr. rewrite Hc in Hr.
  rd (unpack_signed_reads MPI_GLOIDX _ Hi).
  assert (H32 : int32 (m_eclass m)) by (unfold int32; lia).
  rd (rI _ H32).
  pose proof (unpack_reads _ _ [new_element (m_eclass m)] Hp (new_element_ok _ Hr) eq_refl) as R. unfold reads in R.
  rewrite R. cbn [obind fst snd]. rewrite <- zlen_app, app_assoc. rd (rI _ Hn). rdend. now destruct m.
Qed.

Lemma message_image_length m : packable (m_eclass m) [m_parent m] -> zlen (message_image m) = message_size m.
Proof.
  intros Hp. destruct (Hp _ (or_introl eq_refl)) as (Hc & _ & _). pose proof (class_range (m_parent m)) as Hr.
  rewrite Hc in Hr. pose proof (element_bytes_pos _ Hr). unfold message_image, message_size.
  rewrite !zlen_app, (images_length _ _ Hp), pack_size_exact by lia.
  unfold I, zlen. rewrite !to_bytes_length. cbn [length]. unfold mpi_pack_size. cbn [tsize]. lia.
Qed.

Lemma writes_all f bs n : writes f bs -> n = zlen bs -> f (repeat 0 (Z.to_nat n), 0) = Ok (bs, n).
Proof.
  intros Hf ->. specialize (Hf [] (repeat 0 (length bs)) [] (repeat_length _ _)). cbn [app] in Hf.
  rewrite !app_nil_r in Hf. unfold zlen at 1. rewrite Nat2Z.id. exact Hf.
Qed.
Lemma reads_all A (f : list Z -> Z -> outcome (A * Z)) bs v : reads A f bs v -> f bs 0 = Ok (v, zlen bs).
Proof. intros Hf. specialize (Hf [] []). cbn [app] in Hf. rewrite app_nil_r in Hf. exact Hf. Qed.

(** ** Vectors *)

Section Vec.
  Variable A : Type.
  Variable H : handler A.
  Variable good : A -> Prop.
  Variable HH : handler_ok H good.

  Definition total (data : list A) : Z := fold_right (fun a s => h_size H a + s) 0 data.

  Lemma total_fold data s : fold_left (fun sum item => sum + h_size H item) data s = s + total data.
  Proof. revert s; induction data as [|a r IH]; intros s; cbn [fold_left total fold_right]; [lia|]. rewrite IH. fold (total r). lia. Qed.

  Lemma total_ge0 data : Forall good data -> 0 <= total data.
  Proof.
    induction 1 as [|a r Ha Hr IH]; cbn [total fold_right]; [lia|]. destruct (HH a Ha) as [H0 _]. fold (total r). lia.
  Qed.

  Lemma items_round_trip data : Forall good data -> forall buf pos, 0 <= pos -> pos + total data <= zlen buf ->
    exists buf', items_pack H data (buf, pos) = Ok (buf', pos + total data) /\
      changed_only pos (pos + total data) buf buf' /\
      forall msg olds, carries pos (pos + total data) buf' msg -> length olds = length data ->
        items_unpack H msg pos olds = Ok (data, pos + total data).
  Proof.
    induction 1 as [|a r Ha Hr IH]; intros buf pos H0 Hl.
    - exists buf. cbn [items_pack total fold_right]. rewrite Z.add_0_r. split; [reflexivity|]. split; [now split|].
      intros msg olds _ Ho. destruct olds; [reflexivity|discriminate].
    - cbn [items_pack total fold_right] in *. fold (total r) in *.
      pose proof (total_ge0 r Hr) as Ht. destruct (HH a Ha) as [Hs Hp].
      destruct (Hp buf pos H0 ltac:(lia)) as (b1 & E1 & [L1 C1] & U1).
      assert (Lz : zlen b1 = zlen buf) by (unfold zlen; lia).
      destruct (IH b1 (pos + h_size H a) ltac:(lia) ltac:(lia)) as (b2 & E2 & [L2 C2] & U2).
      exists b2. rewrite E1. cbn [obind]. rewrite E2. rewrite Z.add_assoc. split; [reflexivity|]. split.
      + split; [congruence|]. intros i Hi. rewrite C2 by lia. apply C1. lia.
      + intros msg olds [Hm Hc] Ho. destruct olds as [|o olds]; [discriminate|]. cbn [items_unpack].
        rewrite U1. 2: { split; [lia|]. intros i Hi. rewrite Hc by lia. apply C2. lia. }
        cbn [obind fst snd]. rewrite U2. 2: { split; [lia|]. intros i Hi. apply Hc. lia. } 2: now injection Ho.
        reflexivity.
  Qed.

  Lemma vector_round_trip data : Forall good data -> zlen data < 2 ^ 31 ->
    exists bytes, vector_send H data = Ok bytes /\ zlen bytes = vector_buffer_size H data /\
      vector_recv H bytes = Ok (data, zlen data) /\
      unpack_vector_prefix H bytes 0 = Ok (data, zlen bytes).
  Proof.
    intros Hg Hn. pose proof (total_ge0 data Hg) as Ht.
    assert (Eb : vector_buffer_size H data = 4 + total data) by (unfold vector_buffer_size; rewrite total_fold; reflexivity).
    assert (H32 : int32 (zlen data)) by (unfold int32; pose proof (zlen_ge0 data); lia).
    set (buf := repeat 0 (Z.to_nat (4 + total data))).
    assert (Lb : zlen buf = 4 + total data) by (unfold buf, zlen; rewrite repeat_length; lia).
    assert (L4 : zlen (I (zlen data)) = 4) by (unfold I, zlen; now rewrite to_bytes_length).
    destruct (writes_changed _ _ buf 0 (wI (zlen data)) ltac:(lia) ltac:(lia)) as (pre & post & Hp & E1 & [L1 C1]).
    rewrite L4 in *. set (b1 := pre ++ I (zlen data) ++ post) in *.
    assert (Lz : zlen b1 = zlen buf) by (unfold zlen; lia).
    destruct (items_round_trip data Hg b1 (0 + 4) ltac:(lia) ltac:(lia)) as (b2 & E2 & [L2 C2] & U2).
    assert (L2z : zlen b2 = 4 + total data) by (unfold zlen in *; lia).
    exists b2. assert (S : vector_send H data = Ok b2).
    { unfold vector_send, pack_vector_prefix. rewrite Eb. fold buf. rewrite E1. cbn [obind]. rewrite E2. reflexivity. }
    assert (R : unpack_vector_prefix H b2 0 = Ok (data, zlen b2)).
    { unfold unpack_vector_prefix. rewrite <- Hp at 1.
      rewrite (reads_carries _ _ _ _ pre post b2 (rI _ H32)).
      2: { rewrite L4, Hp. fold b1. split; [lia|]. intros i Hi. apply C2. lia. }
      cbn [obind fst snd]. rewrite L4, Hp. pose proof (zlen_ge0 data).
      destruct (Z.ltb_spec (zlen data) 0); [lia|].
      rewrite U2; [f_equal; f_equal; lia|split; [lia|]; now intros|].
      rewrite repeat_length. unfold zlen. lia. }
    split; [exact S|]. split; [lia|]. split; [|exact R].
    unfold vector_recv. rewrite R. reflexivity.
  Qed.
End Vec.

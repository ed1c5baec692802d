(** The mesh that is read from the stash *)
From Coq Require Import SpecFloat.
From Verif Require Import Prelude EclassModel FloatModel CmeshModel CmeshSpec CmeshLib CmeshStashProofs CmeshCommitProofs JoinModel JoinSpec JoinCommitProofs JoinStashModel JoinStashSpec.
#[local] Unset Implicit Arguments.

Lemma run_calls_lists calls : forall b b', run_calls b calls = Ok b' ->
  b_classes b' = b_classes b ++ classes_of calls /\ b_attrs b' = b_attrs b ++ attrs_of calls.
Proof.
  induction calls as [|c calls IH]; intros b b' E.
  - injection E as <-. cbn. now rewrite !app_nil_r.
  - cbn [run_calls] in E. destruct c as [t k|t1 t2 f1 f2 o|t p k d]; cbn [run_call] in E.
    + destruct (t <? 0); [discriminate|]. destruct (_ || _); [|discriminate]. destruct (IH _ _ E) as (A & B). rewrite A, B. cbn [b_classes b_attrs classes_of attrs_of flat_map]. rewrite <- app_assoc. split; reflexivity.
    + destruct (0 <=? o); [|discriminate]. destruct (IH _ _ E) as (A & B). rewrite A, B. split; reflexivity.
    + destruct (IH _ _ E) as (A & B). rewrite A, B. cbn [b_classes b_attrs classes_of attrs_of flat_map]. rewrite <- app_assoc. split; reflexivity.
Qed.

Lemma stash_classes_ok n l : (forall k, In k l -> 0 <= k_id k < n) -> forall e, exists e', stash_classes n e l = Ok e' /\
  (forall t, ~ In t (map k_id l) -> e' t = e t) /\ (NoDup (map k_id l) -> forall k, In k l -> e' (k_id k) = k_class k).
Proof.
  induction l as [|k l IH]; intros R e.
  - exists e. split; [reflexivity|]. split; [auto|]. intros _ k [].
  - cbn [stash_classes]. assert (K := R k (or_introl eq_refl)). destruct (Z.leb_spec 0 (k_id k)); [|lia]. destruct (Z.ltb_spec (k_id k) n); [|lia]. cbn [andb].
    destruct (IH (fun k H => R k (or_intror H)) (fun t => if t =? k_id k then k_class k else e t)) as (e' & E & A & B). exists e'. split; [exact E|]. split.
    + intros t N. cbn in N. rewrite A by tauto. destruct (Z.eqb_spec t (k_id k)); [|reflexivity]. subst. tauto.
    + intros ND k' [<-|I]; cbn [map] in ND; apply NoDup_cons_iff in ND; destruct ND as [N ND].
      * rewrite A by exact N. now rewrite Z.eqb_refl.
      * now apply B.
Qed.

Lemma stash_vertices_ok pkg n (data : Z -> list Z) l :
  (forall a, In a l -> a_key a = VERTICES_KEY -> a_pkg a = pkg -> 0 <= a_id a < n /\ a_data a = data (a_id a)) -> (forall t, 0 <= t < n -> zlen (data t) <= 192) ->
  forall v, m_lo v = 0 -> m_hi v = 8 * (24 * n) -> exists v', stash_vertices pkg v l = Ok v' /\
    (forall t, 0 <= t < n -> bytes_at v (192 * t) (data t) -> bytes_at v' (192 * t) (data t)) /\
    (forall a, In a l -> a_key a = VERTICES_KEY -> a_pkg a = pkg -> bytes_at v' (192 * a_id a) (data (a_id a))).
Proof.
  intros R S. induction l as [|a l IH]; intros v L H.
  - exists v. split; [reflexivity|]. split; [auto|]. intros a [].
  - cbn [stash_vertices]. specialize (IH (fun a I => R a (or_intror I))).
    destruct ((a_key a =? VERTICES_KEY) && (a_pkg a =? pkg)) eqn:E.
    + apply andb_prop in E. destruct E as [E1 E2]. apply Z.eqb_eq in E1, E2. destruct (R a (or_introl eq_refl) E1 E2) as (I & D).
      pose proof (S _ I) as SZ. rewrite <- D in SZ.
      destruct (@put_ok v (8 * (24 * a_id a)) (a_data a)) as (v1 & -> & L1 & H1 & W & F); [split; lia|]. cbn [obind]. rewrite D in W, F.
      replace (8 * (24 * a_id a)) with (192 * a_id a) in W, F by lia.
      destruct (IH v1 ltac:(lia) ltac:(lia)) as (v' & E & A & B). exists v'. split; [exact E|]. split.
      * intros t T BT. apply A; [exact T|]. destruct (Z.eq_dec t (a_id a)) as [->|NE]; [exact W|]. intros i Hi. rewrite F; [now apply BT|].
        pose proof (S _ T). pose proof (S _ I). lia.
      * intros a' [<-|I'] K1 K2; [apply A; [exact I|exact W]|now apply B].
    + cbn [obind]. destruct (IH v L H) as (v' & E' & A & B). exists v'. split; [exact E'|]. split; [exact A|]. intros a' [<-|I'] K1 K2; [|now apply B].
      rewrite K1, K2, !Z.eqb_refl in E. discriminate.
Qed.

Lemma nth_flat {A B} (f : A -> list B) n d e l : (forall x, In x l -> length (f x) = n) -> forall k i, (k < length l)%nat -> (i < n)%nat ->
  nth (n * k + i) (flat_map f l) d = nth i (f (nth k l e)) d.
Proof.
  intros F. induction l as [|x l IH]; intros k i K I; [inversion K|]. cbn [flat_map]. assert (X := F x (or_introl eq_refl)).
  destruct k as [|k].
  - rewrite Nat.mul_0_r. cbn [nth Nat.add]. apply app_nth1. lia.
  - rewrite app_nth2 by (rewrite X; lia). rewrite X. replace (n * S k + i - n)%nat with (n * k + i)%nat by lia. cbn [nth length] in *. apply IH; [|lia|lia]. intros y Y. apply F. now right.
Qed.
Lemma length_flat {A B} (f : A -> list B) n l : (forall x, In x l -> length (f x) = n) -> length (flat_map f l) = (n * length l)%nat.
Proof.
  intros F. induction l as [|x l IH]; cbn [flat_map length]; [lia|]. rewrite app_length, (F x (or_introl eq_refl)), IH; [lia|]. intros y Y. apply F. now right.
Qed.

Lemma length_coords p : length (coords p) = 3%nat.
Proof. destruct p as [[x y] z]. reflexivity. Qed.

Section Tree.
  Variables (bytes_of : spec_float -> list Z) (v : memory) (t : Z) (ps : list point).
  Hypothesis ENC : forall p c, In p ps -> In c (coords p) -> length (bytes_of c) = 8%nat /\ double_of (bytes_of c) = c.
  Hypothesis BYTES : bytes_at v (192 * t) (vertex_data bytes_of ps).

  Lemma enc_flat c : In c (flat_map coords ps) -> length (bytes_of c) = 8%nat.
  Proof. intros H. apply in_flat_map in H. destruct H as (p & P & C). apply (ENC p c P C). Qed.
  Lemma coords_length : length (flat_map coords ps) = (3 * length ps)%nat.
  Proof. apply length_flat. intros p _. apply length_coords. Qed.
  Lemma data_length : zlen (vertex_data bytes_of ps) = 24 * zlen ps.
  Proof. unfold zlen, vertex_data. rewrite (length_flat _ 8 _ enc_flat), coords_length. lia. Qed.
  Lemma read_double i : (i < 3 * length ps)%nat -> vector_double v (24 * t + Z.of_nat i) = nth i (flat_map coords ps) S754_nan.
  Proof.
    intros I. pose proof data_length as DL. unfold zlen in DL at 2. assert (IN : In (nth i (flat_map coords ps) S754_nan) (flat_map coords ps)) by (apply nth_In; rewrite coords_length; lia).
    assert (L8 := enc_flat _ IN). apply in_flat_map in IN. destruct IN as (p & P & C). destruct (ENC p _ P C) as (_ & D). rewrite <- D. unfold vector_double. f_equal.
    apply (nth_ext _ _ 0 0); rewrite map_length, zseq_length; [now rewrite L8|]. intros j J.
    rewrite (nth_indep _ 0 (m_at v 0)) by (rewrite map_length, zseq_length; lia). rewrite map_nth, nth_zseq by lia.
    replace (8 * (24 * t + Z.of_nat i) + Z.of_nat j) with (192 * t + (8 * Z.of_nat i + Z.of_nat j)) by lia.
    rewrite BYTES by lia. unfold znth, vertex_data. replace (Z.to_nat (8 * Z.of_nat i + Z.of_nat j)) with (8 * i + j)%nat by lia.
    rewrite (nth_flat bytes_of 8 0 S754_nan _ enc_flat) by (rewrite ?coords_length; lia). reflexivity.
  Qed.
  Lemma read_point k : (k < length ps)%nat -> vector_point v t (Z.of_nat k) = nth k ps no_point.
  Proof.
    intros K. unfold vector_point.
    replace (24 * t + 3 * Z.of_nat k) with (24 * t + Z.of_nat (3 * k + 0)) by lia. replace (24 * t + Z.of_nat (3 * k + 0) + 1) with (24 * t + Z.of_nat (3 * k + 1)) by lia.
    replace (24 * t + Z.of_nat (3 * k + 0) + 2) with (24 * t + Z.of_nat (3 * k + 2)) by lia. rewrite !read_double by lia.
    rewrite !(nth_flat coords 3 S754_nan no_point ps (fun p _ => length_coords p)) by lia. destruct (nth k ps no_point) as [[x y] z]. reflexivity.
  Qed.
  Lemma read_points : map (vector_point v t) (zseq 0 (length ps)) = ps.
  Proof.
    apply (nth_ext _ _ (vector_point v t 0) no_point); rewrite map_length, zseq_length; [reflexivity|]. intros k K. rewrite map_nth, nth_zseq by exact K. rewrite Z.add_0_l. now apply read_point.
  Qed.
End Tree.

Theorem stash_mesh_ok : forall m d bytes_of pkg calls b, mesh_ok m d -> stashed m bytes_of pkg calls -> run_calls empty_building calls = Ok b -> stash_mesh pkg b = Ok m.
Proof.
  intros m d bytes_of pkg calls b OK [CL ND VT ENC] RUN. destruct (run_calls_lists _ _ _ RUN) as (EC & EA). cbn in EC, EA.
  assert (KI : map k_id (b_classes b) = class_ids calls).
  { rewrite EC. unfold classes_of, class_ids. clear. induction calls as [|c calls IH]; [reflexivity|]. cbn [flat_map]. rewrite map_app, IH. destruct c; reflexivity. }
  assert (INC : forall k, In k (b_classes b) <-> In (SetClass (k_id k) (k_class k)) calls).
  { intros k. rewrite EC. unfold classes_of. rewrite in_flat_map. split.
    - intros (c & C & K). destruct c; cbn in K; try contradiction. destruct K as [<-|[]]. exact C.
    - intros C. exists (SetClass (k_id k) (k_class k)). split; [exact C|]. left. destruct k. reflexivity. }
  assert (INA : forall a, In a (b_attrs b) <-> In (SetAttribute (a_id a) (a_pkg a) (a_key a) (a_data a)) calls).
  { intros a. rewrite EA. unfold attrs_of. rewrite in_flat_map. split.
    - intros (c & C & K). destruct c; cbn in K; try contradiction. destruct K as [<-|[]]. exact C.
    - intros C. eexists. split; [exact C|]. left. destruct a. reflexivity. }
  assert (N : length (b_classes b) = length m).
  { rewrite <- (map_length k_id), KI, <- (zseq_length 0 (length m)). apply Nat.le_antisymm.
    - apply NoDup_incl_length; [exact ND|]. intros t T. rewrite <- KI in T. apply in_map_iff in T. destruct T as (k & <- & K). apply INC, CL in K. apply in_zseq. unfold zlen in K. lia.
    - apply NoDup_incl_length; [apply NoDup_zseq|]. intros t T. apply in_zseq in T. rewrite <- KI. apply in_map_iff. exists (mkSclass t (j_class (znth no_jtree m t))). split; [reflexivity|].
      apply INC, CL. cbn. unfold zlen. split; [lia|reflexivity]. }
  assert (ZN : zlen (b_classes b) = zlen m) by (unfold zlen; now rewrite N).
  unfold stash_mesh. cbv zeta. rewrite ZN.
  destruct (stash_classes_ok (zlen m) (b_classes b)) with (e := fun _ : Z => 0) as (e & -> & _ & E); [intros k K; apply INC, CL in K; tauto|]. cbn [obind]. specialize (E ltac:(rewrite KI; exact ND)).
  assert (TREE : forall t, 0 <= t < zlen m -> In (znth no_jtree m t) m) by (intros t T; unfold znth; apply nth_In; unfold zlen in T; lia).
  assert (ENC' : forall t, 0 <= t < zlen m -> forall p c, In p (j_points (znth no_jtree m t)) -> In c (coords p) -> length (bytes_of c) = 8%nat /\ double_of (bytes_of c) = c).
  { intros t T p c P C. apply (ENC p); [exists (znth no_jtree m t); auto|exact C]. }
  destruct (stash_vertices_ok pkg (zlen m) (fun t => vertex_data bytes_of (j_points (znth no_jtree m t))) (b_attrs b)) with (v := mkMem 0 (8 * (24 * zlen m)) (fun _ : Z => 0)) as (v & -> & _ & V); [| |reflexivity|reflexivity|].
  { intros a A K P. apply INA in A. rewrite K, P in A. now apply VT in A. }
  { intros t T. rewrite (data_length bytes_of _ (ENC' t T)). destruct (OK _ (TREE t T)) as (C & _ & -> & _). assert (M : eclass_num_vertices (j_class (znth no_jtree m t)) <= 8). { pose proof C as C'. unfold ECLASS_COUNT in C'.
      assert (X : forall c, 0 <= c < 8 -> eclass_num_vertices c <= 8). { intros c X. assert (c = 0 \/ c = 1 \/ c = 2 \/ c = 3 \/ c = 4 \/ c = 5 \/ c = 6 \/ c = 7) as Y by lia. repeat destruct Y as [->|Y]; try subst c; vm_compute; discriminate. }
      apply X. lia. } lia. }
  cbn [obind]. f_equal. rewrite N. apply (nth_ext _ _ (mkJtree (e 0) (map (vector_point v 0) (zseq 0 (Z.to_nat (eclass_num_vertices (e 0)))))) no_jtree); rewrite map_length, zseq_length; [reflexivity|]. intros k K.
  rewrite (map_nth (fun t => mkJtree (e t) (map (vector_point v t) (zseq 0 (Z.to_nat (eclass_num_vertices (e t))))))), nth_zseq, Z.add_0_l by exact K.
  set (t := Z.of_nat k). assert (T : 0 <= t < zlen m) by (unfold t, zlen; lia). assert (Q : nth k m no_jtree = znth no_jtree m t) by (unfold znth, t; now rewrite Nat2Z.id). rewrite Q.
  assert (ET : e t = j_class (znth no_jtree m t)). { apply (E (mkSclass t (j_class (znth no_jtree m t)))). apply INC, CL. cbn. auto. } rewrite ET.
  destruct (OK _ (TREE t T)) as (C & _ & L & _). rewrite <- L. unfold zlen. rewrite Nat2Z.id. rewrite (read_points bytes_of v t _ (ENC' t T)).
  - destruct (znth no_jtree m t). reflexivity.
  - assert (A := proj2 (VT t _) (conj T eq_refl)). apply (V (mkSattr t pkg VERTICES_KEY (vertex_data bytes_of (j_points (znth no_jtree m t))))); [|reflexivity|reflexivity]. apply INA. exact A.
Qed.

Lemma run_calls_app l1 l2 : forall b, run_calls b (l1 ++ l2) = do b' <- run_calls b l1; run_calls b' l2.
Proof. induction l1 as [|c l1 IH]; intros b; cbn [app run_calls obind]; [reflexivity|]. destruct (run_call b c); cbn [obind]; [apply IH|reflexivity..]. Qed.

Lemma stashed_calls m bytes_of pkg : (forall p c, is_vertex m p -> In c (coords p) -> length (bytes_of c) = 8%nat /\ double_of (bytes_of c) = c) ->
  stashed m bytes_of pkg (class_calls m ++ vertex_calls m bytes_of pkg).
Proof.
  intros ENC. unfold class_calls, vertex_calls. split.
  - intros t c. rewrite in_app_iff, !in_map_iff. split.
    + intros [(x & E & X)|(x & E & X)]; [|discriminate]. injection E as <- <-. apply in_zseq in X. unfold zlen. split; [lia|reflexivity].
    + intros (T & ->). left. exists t. split; [reflexivity|]. apply in_zseq. unfold zlen in T. lia.
  - replace (class_ids _) with (zseq 0 (length m)); [apply NoDup_zseq|]. unfold class_ids. rewrite flat_map_app.
    assert (A : forall l, flat_map (fun c => match c with SetClass t _ => [t] | _ => [] end) (map (fun t => SetClass t (j_class (znth no_jtree m t))) l) = l) by (induction l as [|x l IH]; cbn; [reflexivity|now rewrite IH]).
    assert (B : forall l, flat_map (fun c => match c with SetClass t _ => [t] | _ => [] end) (map (fun t => SetAttribute t pkg VERTICES_KEY (vertex_data bytes_of (j_points (znth no_jtree m t)))) l) = []) by (induction l as [|x l IH]; cbn; [reflexivity|exact IH]).
    rewrite A, B, app_nil_r. reflexivity.
  - intros t data. rewrite in_app_iff, !in_map_iff. split.
    + intros [(x & E & X)|(x & E & X)]; [discriminate|]. injection E as <- <-. apply in_zseq in X. unfold zlen. split; [lia|reflexivity].
    + intros (T & ->). right. exists t. split; [reflexivity|]. apply in_zseq. unfold zlen in T. lia.
  - exact ENC.
Qed.

(** Proofs about the search for face connections by vertices *)
From Coq Require Import SpecFloat Permutation Sorted.
From Verif Require Import Prelude EclassModel FloatModel CmeshModel JoinModel JoinSpec.
#[local] Unset Implicit Arguments.

(** ** Hashes do not depend on the order of the vertices *)
Lemma hash_coords_sum b : forall cs i, (forall v, In v cs -> exists k, bin b v = Ok k) ->
  exists s, forall h, hash_coords b (h mod 2 ^ 64) i cs = Ok ((h + s) mod 2 ^ 64).
Proof.
  induction cs as [|v r IH]; intros i H.
  - exists 0. intros h. cbn [hash_coords]. rewrite Z.add_0_r. reflexivity.
  - destruct (H v (or_introl eq_refl)) as (k & K). destruct (IH (i + 1)) as (s & S); [intros w W; apply H; right; exact W|].
    exists (i + k + s). intros h. cbn [hash_coords]. rewrite K. cbn [obind].
    replace ((h mod 2 ^ 64 + i + k) mod 2 ^ 64) with ((h + i + k) mod 2 ^ 64).
    + rewrite S. f_equal. f_equal. lia.
    + rewrite <- !Z.add_assoc. rewrite Zplus_mod_idemp_l. reflexivity.
Qed.
Fixpoint total (k : point -> Z) (ps : list point) : Z := match ps with [] => 0 | p :: r => k p + total k r end.
Lemma hash_points_sum b ps : (forall p v, In p ps -> In v (coords p) -> exists k, bin b v = Ok k) ->
  exists k, forall qs, incl qs ps -> hash_points b 0 qs = Ok (total k qs mod 2 ^ 64).
Proof.
  intros H.
  assert (K : forall ps', incl ps' ps -> exists k, forall p, In p ps' -> forall h, hash_coords b (h mod 2 ^ 64) 0 (coords p) = Ok ((h + k p) mod 2 ^ 64)).
  { assert (DEC : forall p q : point, {p = q} + {p <> q}) by (repeat decide equality).
    induction ps' as [|p r IH]; intros I.
    - exists (fun _ => 0). intros p [].
    - destruct IH as (k & K); [intros q Q; apply I; right; exact Q|].
      destruct (hash_coords_sum b (coords p) 0) as (s & S). { intros v V. apply (H p); [apply I; left; reflexivity|exact V]. }
      exists (fun q => if DEC q p then s else k q). intros q Q h. destruct (DEC q p) as [->|N]; [apply S|]. apply K. destruct Q as [Q|Q]; [congruence|exact Q]. }
  destruct (K ps (incl_refl _)) as (k & KK). exists k.
  assert (G : forall qs, incl qs ps -> forall h, hash_points b (h mod 2 ^ 64) qs = Ok ((h + total k qs) mod 2 ^ 64)).
  { induction qs as [|q r IH]; intros I h; cbn [hash_points total].
    - rewrite Z.add_0_r. reflexivity.
    - rewrite KK by (apply I; left; reflexivity). cbn [obind]. rewrite IH by (intros z Hz; apply I; right; exact Hz). f_equal. f_equal. lia. }
  intros qs I. apply (G qs I 0).
Qed.
Lemma total_perm k ps qs : Permutation ps qs -> total k ps = total k qs.
Proof. induction 1; cbn [total]; lia. Qed.

(** ** Matching two lists of different points *)
Section Match.
  Variable tol : spec_float.
  Variable dom : point -> Prop.
  Hypothesis SEP : forall p q, dom p -> dom q -> (same_point tol p q = true <-> p = q).

  Lemma match_row_out p : dom p -> forall qs j acc, (forall q, In q qs -> dom q) -> ~ In p qs -> match_row tol p j qs acc = acc.
  Proof.
    intros DP qs. induction qs as [|q r IH]; intros j acc D N; cbn [match_row]; [reflexivity|].
    destruct (same_point tol p q) eqn:E.
    - apply SEP in E; [|exact DP|apply D; left; reflexivity]. exfalso. apply N. left. symmetry. exact E.
    - apply IH; [intros z Hz; apply D; right; exact Hz|]. intros I. apply N. right. exact I.
  Qed.
  Lemma match_row_in p : dom p -> forall qs j acc, (forall q, In q qs -> dom q) -> NoDup qs -> In p qs ->
    exists i, 0 <= i < zlen qs /\ znth no_point qs i = p /\ match_row tol p j qs acc = (fst acc + 1, j + i).
  Proof.
    intros DP qs. induction qs as [|q r IH]; intros j acc D N I; [destruct I|]. cbn [match_row]. inversion N as [|? ? N1 N2]; subst.
    assert (Dr : forall z, In z r -> dom z) by (intros z Hz; apply D; right; exact Hz).
    destruct (same_point tol p q) eqn:E.
    - apply SEP in E; [|exact DP|apply D; left; reflexivity]. subst q. exists 0. split; [unfold zlen; cbn [length]; lia|]. split; [reflexivity|].
      rewrite match_row_out by assumption. rewrite Z.add_0_r. reflexivity.
    - destruct I as [I|I]. { subst q. assert (T : same_point tol p p = true) by (apply SEP; auto). congruence. }
      destruct (IH (j + 1) acc Dr N2 I) as (i & I1 & I2 & I3). exists (i + 1). unfold zlen in *. cbn [length]. split; [lia|]. split.
      + unfold znth in *. replace (Z.to_nat (i + 1)) with (S (Z.to_nat i)) by lia. exact I2.
      + rewrite I3. f_equal. lia.
  Qed.

  (** the count is the number of points of ps among qs; where p is among qs the order has its position *)
  Lemma match_faces_spec qs : (forall q, In q qs -> dom q) -> NoDup qs -> forall ps, (forall p, In p ps -> dom p) ->
    let r := match_faces tol ps qs in
    length (snd r) = length ps /\ 0 <= fst r <= zlen ps /\ (fst r = zlen ps <-> incl ps qs) /\
    forall i, 0 <= i < zlen ps -> In (znth no_point ps i) qs ->
      0 <= znth (-1) (snd r) i < zlen qs /\ znth no_point qs (znth (-1) (snd r) i) = znth no_point ps i.
  Proof.
    intros DQ NQ ps. induction ps as [|p ps IH]; intros DP; cbn [match_faces fst snd].
    - cbn. split; [reflexivity|]. split; [lia|]. split; [split; intros; [intros z []|reflexivity]|]. intros i Hi. unfold zlen in Hi. cbn in Hi. lia.
    - destruct IH as (L & B & C & O); [intros z Hz; apply DP; right; exact Hz|].
      assert (D1 : dom p) by (apply DP; left; reflexivity).
      destruct (in_dec (fun p q : point => ltac:(repeat decide equality) : {p = q} + {p <> q}) p qs) as [I|I].
      + destruct (match_row_in p D1 qs 0 (0, -1) DQ NQ I) as (k & K1 & K2 & K3). rewrite K3. cbn [fst snd].
        unfold zlen in *. cbn [length]. split; [lia|]. split; [lia|]. split.
        * split; [intros E; intros z [<-|Z]; [exact I|]; apply C; [lia|exact Z]|]. intros E. assert (fst (match_faces tol ps qs) = Z.of_nat (length ps)) by (apply C; intros z Hz; apply E; right; exact Hz). lia.
        * intros i Hi Hin. destruct (Z.eq_dec i 0) as [->|Hne]; [cbn; split; [lia|exact K2]|].
          assert (ZZ : forall A (d a : A) l, znth d (a :: l) i = znth d l (i - 1)). { intros A d a l. unfold znth. replace (Z.to_nat i) with (S (Z.to_nat (i - 1))) by lia. reflexivity. }
          rewrite !ZZ in *. apply O; [lia|exact Hin].
      + rewrite (match_row_out p D1 qs 0 (0, -1) DQ I). cbn [fst snd]. unfold zlen in *. cbn [length]. split; [lia|]. split; [lia|]. split.
        * split; [lia|]. intros E. exfalso. apply I, E. left. reflexivity.
        * intros i Hi Hin. destruct (Z.eq_dec i 0) as [->|Hne]; [exfalso; apply I; exact Hin|].
          assert (ZZ : forall A (d a : A) l, znth d (a :: l) i = znth d l (i - 1)). { intros A d a l. unfold znth. replace (Z.to_nat i) with (S (Z.to_nat (i - 1))) by lia. reflexivity. }
          rewrite !ZZ in *. apply O; [lia|exact Hin].
  Qed.
End Match.

Lemma position_of_zero_spec : forall order j, (exists i, 0 <= i < zlen order /\ znth (-1) order i = 0) ->
  0 <= position_of_zero j order - j < zlen order /\ znth (-1) order (position_of_zero j order - j) = 0.
Proof.
  induction order as [|o r IH]; intros j (i & I1 & I2); [unfold zlen in I1; cbn in I1; lia|]. cbn [position_of_zero].
  destruct (o =? 0) eqn:E; [apply Z.eqb_eq in E; subst o; unfold zlen; cbn [length]; rewrite Z.sub_diag; split; [lia|reflexivity]|].
  apply Z.eqb_neq in E. destruct (Z.eq_dec i 0) as [->|Hne]; [exfalso; apply E; exact I2|].
  assert (ZZ : forall k, 0 < k -> znth (-1) (o :: r) k = znth (-1) r (k - 1)). { intros k Hk. unfold znth. replace (Z.to_nat k) with (S (Z.to_nat (k - 1))) by lia. reflexivity. }
  destruct (IH (j + 1)) as (P1 & P2). { exists (i - 1). rewrite <- ZZ by lia. unfold zlen in *. cbn [length] in I1. split; [lia|exact I2]. }
  unfold zlen in *. cbn [length]. split; [lia|]. rewrite ZZ by lia. replace (position_of_zero (j + 1) r - j - 1) with (position_of_zero (j + 1) r - (j + 1)) by lia. exact P2.
Qed.

(** ** Faces *)
Lemma in_all_faces m x : In x (all_faces m) <-> is_face m x.
Proof.
  unfold all_faces, is_face, tree_of. rewrite in_flat_map. destruct x as [t f]. cbn [fst snd]. unfold zlen. split.
  - intros (t' & T & F). apply in_zseq in T. apply in_map_iff in F. destruct F as (f' & F1 & F2). injection F1 as <- <-. apply in_zseq in F2. lia.
  - intros [T F]. exists t. split; [apply in_zseq; lia|]. apply in_map, in_zseq. lia.
Qed.
Lemma face_types_table c f : 0 <= c < ECLASS_COUNT -> 0 <= f < eclass_num_faces c ->
  let n := eclass_num_vertices (eclass_face_types c f) in
  1 <= n <= 4 /\ NoDup (map (face_vertex_to_tree_vertex c f) (zseq 0 (Z.to_nat n))) /\
  (forall i, 0 <= i < n -> 0 <= face_vertex_to_tree_vertex c f i < eclass_num_vertices c).
Proof.
  intros C F.
  assert (T : forallb (fun c => forallb (fun f => let n := eclass_num_vertices (eclass_face_types c f) in
    (1 <=? n) && (n <=? 4) && forallb (fun i => (0 <=? face_vertex_to_tree_vertex c f i) && (face_vertex_to_tree_vertex c f i <? eclass_num_vertices c) &&
       forallb (fun j => (i =? j) || negb (face_vertex_to_tree_vertex c f i =? face_vertex_to_tree_vertex c f j)) (zseq 0 (Z.to_nat n))) (zseq 0 (Z.to_nat n)))
      (zseq 0 (Z.to_nat (eclass_num_faces c)))) (zseq 0 8) = true) by (vm_compute; reflexivity).
  rewrite forallb_forall in T. assert (C' : In c (zseq 0 8)) by (apply in_zseq; unfold ECLASS_COUNT in C; lia).
  specialize (T c C'). rewrite forallb_forall in T. assert (F' : In f (zseq 0 (Z.to_nat (eclass_num_faces c)))) by (apply in_zseq; lia).
  specialize (T f F'). cbv zeta in *. set (n := eclass_num_vertices (eclass_face_types c f)) in *.
  apply andb_prop in T. destruct T as [T1 T2]. apply andb_prop in T1. rewrite forallb_forall in T2. split; [lia|]. split.
  - assert (G : forall k a, 0 <= a -> a + Z.of_nat k <= n -> NoDup (map (face_vertex_to_tree_vertex c f) (zseq a k))).
    { induction k as [|k IH]; intros a A1 A2; cbn [zseq map]; [constructor|]. constructor; [|apply IH; lia].
      intros I. apply in_map_iff in I. destruct I as (j & J1 & J2). apply in_zseq in J2.
      assert (A : In a (zseq 0 (Z.to_nat n))) by (apply in_zseq; lia). specialize (T2 a A). apply andb_prop in T2. destruct T2 as [_ T2]. rewrite forallb_forall in T2.
      assert (J : In j (zseq 0 (Z.to_nat n))) by (apply in_zseq; lia). specialize (T2 j J). lia. }
    apply G; lia.
  - intros i Hi. assert (A : In i (zseq 0 (Z.to_nat n))) by (apply in_zseq; lia). specialize (T2 i A). apply andb_prop in T2. lia.
Qed.
Lemma compare_rank c1 c2 : 0 <= c1 < ECLASS_COUNT -> 0 <= c2 < ECLASS_COUNT -> eclass_to_dimension c1 = eclass_to_dimension c2 ->
  exists v, eclass_compare c1 c2 = Ok v /\ (v < 0 <-> class_rank c1 < class_rank c2) /\ (v = 0 <-> class_rank c1 = class_rank c2).
Proof.
  intros C1 C2 D. unfold ECLASS_COUNT in *.
  assert (E1 : c1 = 0 \/ c1 = 1 \/ c1 = 2 \/ c1 = 3 \/ c1 = 4 \/ c1 = 5 \/ c1 = 6 \/ c1 = 7) by lia.
  assert (E2 : c2 = 0 \/ c2 = 1 \/ c2 = 2 \/ c2 = 3 \/ c2 = 4 \/ c2 = 5 \/ c2 = 6 \/ c2 = 7) by lia.
  clear C1 C2. repeat (destruct E1 as [E1|E1]); repeat (destruct E2 as [E2|E2]); subst c1 c2; try discriminate D;
    (eexists; split; [reflexivity|cbn; lia]).
Qed.

(** ** The search *)
Lemma znth_map_zseq {A} (d : A) (g : Z -> A) k i : 0 <= i < Z.of_nat k -> znth d (map g (zseq 0 k)) i = g i.
Proof.
  assert (E : forall k a z, 0 <= z < Z.of_nat k -> znth d (map g (zseq a k)) z = g (a + z)).
  { clear. induction k as [|k IH]; intros a z Z1; [lia|]. cbn [zseq map]. unfold znth. destruct (Z.eq_dec z 0) as [->|Hz]; [cbn; rewrite Z.add_0_r; reflexivity|].
    replace (Z.to_nat z) with (S (Z.to_nat (z - 1))) by lia. cbn [nth]. fold (znth d (map g (zseq (a + 1) k)) (z - 1)). rewrite IH by lia. f_equal. lia. }
  intros H. rewrite E by exact H. reflexivity.
Qed.
Section Join.
  Variables (m : list jtree) (d : Z) (b : spec_float * spec_float).
  Hypothesis OK : mesh_ok m d.
  Hypothesis SEP : separated m b.
  Hypothesis BINS : has_bins m b.
  #[local] Notation fp := (face_points m).

  Lemma tree_in x : is_face m x -> In (tree_of m x) m.
  Proof. intros [T _]. unfold tree_of, znth. apply nth_In. unfold zlen in T. lia. Qed.
  Lemma fp_len x : is_face m x -> zlen (fp x) = num_corners m x /\ 1 <= num_corners m x.
  Proof.
    intros F. pose proof (OK _ (tree_in x F)) as (C & _). destruct (face_types_table _ _ C (proj2 F)) as ((N & _) & _).
    unfold face_points, zlen. rewrite map_length, zseq_length. fold (tree_of m x). unfold num_corners. split; [lia|exact N].
  Qed.
  Lemma fp_nth x i : 0 <= i < num_corners m x -> znth no_point (fp x) i = corner m x i.
  Proof.
    intros I. unfold face_points, corner, num_corners in *. fold (tree_of m x).
    apply (znth_map_zseq no_point (fun j => znth no_point (j_points (tree_of m x)) (face_vertex_to_tree_vertex (j_class (tree_of m x)) (snd x) j))). lia.
  Qed.
  Lemma fp_in x p : is_face m x -> (In p (fp x) <-> is_corner m x p).
  Proof.
    intros F. unfold face_points, is_corner, corner, num_corners. fold (tree_of m x). rewrite in_map_iff. split.
    - intros (i & E & I). apply in_zseq in I. exists i. split; [lia|exact E].
    - intros (i & I & E). exists i. split; [exact E|]. apply in_zseq. lia.
  Qed.
  Lemma fp_vertex x p : is_face m x -> In p (fp x) -> is_vertex m p.
  Proof.
    intros F I. apply (fp_in x p F) in I. destruct I as (i & I & E). pose proof (tree_in x F) as T. pose proof (OK _ T) as (C & _ & L & _).
    destruct (face_types_table _ _ C (proj2 F)) as (_ & _ & B). exists (tree_of m x). split; [exact T|]. rewrite <- E. unfold corner, znth. apply nth_In.
    specialize (B i I). unfold zlen in L. lia.
  Qed.
  Lemma fp_nodup x : is_face m x -> NoDup (fp x).
  Proof.
    intros F. pose proof (tree_in x F) as T. pose proof (OK _ T) as (C & _ & L & N). destruct (face_types_table _ _ C (proj2 F)) as (_ & U & B).
    unfold face_points. fold (tree_of m x). rewrite <- (map_map (face_vertex_to_tree_vertex (j_class (tree_of m x)) (snd x)) (fun v => znth no_point (j_points (tree_of m x)) v)).
    set (vs := map (face_vertex_to_tree_vertex _ _) _) in *.
    assert (R : forall v, In v vs -> 0 <= v < zlen (j_points (tree_of m x))).
    { intros v V. apply in_map_iff in V. destruct V as (i & <- & V). apply in_zseq in V. rewrite L. apply B. lia. }
    clearbody vs. induction U as [|v vs V U IH]; cbn [map]; constructor.
    - intros I. apply in_map_iff in I. destruct I as (w & E & W). apply V. replace v with w; [exact W|].
      pose proof (R v (or_introl eq_refl)) as R1. pose proof (R w (or_intror W)) as R2. unfold znth, zlen in *.
      assert (Z.to_nat w = Z.to_nat v); [|lia]. apply (proj1 (NoDup_nth (j_points (tree_of m x)) no_point) N); [lia|lia|exact E].
    - apply IH. intros w W. apply R. right. exact W.
  Qed.
  Lemma coincide_perm x y : is_face m x -> is_face m y -> coincide m x y -> Permutation (fp x) (fp y).
  Proof. intros X Y C. apply NoDup_Permutation; [apply fp_nodup, X|apply fp_nodup, Y|]. intros p. rewrite !fp_in by assumption. apply C. Qed.
  Lemma incl_coincide x y : is_face m x -> is_face m y -> zlen (fp x) = zlen (fp y) -> incl (fp x) (fp y) -> coincide m x y.
  Proof.
    intros X Y L I p. rewrite <- !fp_in by assumption. split; [apply I|]. apply NoDup_length_incl; [apply fp_nodup, X| |exact I]. unfold zlen in L. lia.
  Qed.

  (** hashes: a function of the set of corners *)
  Lemma hash_exists : exists hash, forall x, is_face m x -> hash_points b 0 (fp x) = Ok (hash x) /\ forall y, is_face m y -> coincide m x y -> hash x = hash y.
  Proof.
    destruct (hash_points_sum b (flat_map fp (all_faces m))) as (k & K).
    { intros p v P V. apply in_flat_map in P. destruct P as (x & X & P). apply in_all_faces in X. apply (BINS p v); [apply (fp_vertex x p X P)|exact V]. }
    exists (fun x => total k (fp x) mod 2 ^ 64). intros x X. split.
    - apply K. intros p P. apply in_flat_map. exists x. split; [apply in_all_faces, X|exact P].
    - intros y Y C. f_equal. apply total_perm, coincide_perm; assumption.
  Qed.

  Lemma matched x y : is_face m x -> is_face m y -> zlen (fp x) = zlen (fp y) ->
    let r := match_faces (tolerance_of b) (fp x) (fp y) in
    (fst r =? zlen (fp x)) = true <-> coincide m x y.
  Proof.
    intros X Y L r. rewrite Z.eqb_eq.
    destruct (match_faces_spec (tolerance_of b) (is_vertex m) SEP (fp y) (fun q => fp_vertex y q Y) (fp_nodup y Y) (fp x) (fun p => fp_vertex x p X)) as (_ & _ & C & _).
    unfold r. rewrite C. split; [apply incl_coincide; assumption|]. intros K p P. apply (fp_in y p Y), K, (fp_in x p X), P.
  Qed.
  Lemma orientation_ok x y : is_face m x -> is_face m y -> coincide m x y -> before y x ->
    exists o, join_orientation m x y (snd (match_faces (tolerance_of b) (fp x) (fp y))) = Ok o /\ oriented m x y o.
  Proof.
    intros X Y K B. pose proof (coincide_perm x y X Y K) as P. pose proof (fp_len x X) as [LX NX]. pose proof (fp_len y Y) as [LY NY].
    assert (L : zlen (fp x) = zlen (fp y)) by (unfold zlen; rewrite (Permutation_length P); reflexivity).
    destruct (match_faces_spec (tolerance_of b) (is_vertex m) SEP (fp y) (fun q => fp_vertex y q Y) (fp_nodup y Y) (fp x) (fun p => fp_vertex x p X)) as (LO & _ & _ & O).
    set (order := snd (match_faces (tolerance_of b) (fp x) (fp y))) in *.
    assert (O' : forall i, 0 <= i < num_corners m x -> 0 <= znth (-1) order i < num_corners m y /\ corner m y (znth (-1) order i) = corner m x i).
    { intros i I. assert (IN : In (znth no_point (fp x) i) (fp y)). { apply (Permutation_in _ P). unfold znth. apply nth_In. unfold zlen in LX. lia. }
      destruct (O i) as (O1 & O2); [lia|exact IN|]. rewrite LY in O1. split; [exact O1|]. rewrite <- fp_nth by exact O1. rewrite O2. apply fp_nth, I. }
    clearbody order. pose proof (OK _ (tree_in x X)) as (CX & DX & _). pose proof (OK _ (tree_in y Y)) as (CY & DY & _).
    destruct (compare_rank _ _ CX CY) as (v & V & V1 & V2); [congruence|]. unfold join_orientation. fold (tree_of m x). fold (tree_of m y). rewrite V. cbn [obind].
    set (small := if v <? 0 then true else if 0 <? v then false else snd x <? snd y). eexists. split; [reflexivity|].
    assert (S1 : small = true -> main_face m x y).
    { unfold small, main_face. cbv zeta. destruct (v <? 0) eqn:E1; [left; apply V1; lia|]. destruct (0 <? v) eqn:E2; [discriminate|]. intros E3. right. split; [apply V2; lia|]. lia. }
    assert (S2 : small = false -> main_face m y x).
    { unfold small, main_face. cbv zeta. destruct (v <? 0) eqn:E1; [discriminate|]. destruct (0 <? v) eqn:E2; [left; lia|].
      intros E3. right. split; [symmetry; apply V2; lia|]. destruct (Z.eq_dec (snd y) (snd x)) as [E|E]; [right; split; [exact E|exact B]|left; lia]. }
    destruct small.
    - left. split; [apply S1; reflexivity|]. destruct (O' 0) as (O1 & O2); [lia|]. split; [exact O1|]. symmetry. exact O2.
    - right. split; [apply S2; reflexivity|].
      assert (EX : exists i, 0 <= i < zlen order /\ znth (-1) order i = 0).
      { assert (IN : In (corner m y 0) (fp x)) by (apply (fp_in x _ X), (K (corner m y 0)); exists 0; split; [lia|reflexivity]).
        apply (fp_in x _ X) in IN. destruct IN as (i & I & E). exists i. split; [unfold zlen in *; lia|]. destruct (O' i I) as (O1 & O2).
        rewrite E in O2. rewrite <- !fp_nth in O2 by lia. unfold znth in O2 at 1 3. unfold zlen in LY.
        assert (NN : Z.to_nat (znth (-1) order i) = Z.to_nat 0) by (apply (proj1 (NoDup_nth (fp y) no_point) (fp_nodup y Y)); [lia|lia|exact O2]). lia. }
      destruct (position_of_zero_spec order 0 EX) as (P1 & P2). rewrite Z.sub_0_r in *.
      assert (P3 : 0 <= position_of_zero 0 order < num_corners m x) by (unfold zlen in *; lia).
      split; [exact P3|]. destruct (O' _ P3) as (_ & O2). rewrite P2 in O2. exact O2.
  Qed.

  Section Loop.
    Variable hash : face -> Z.
    Hypothesis HASH : forall x, is_face m x -> hash_points b 0 (fp x) = Ok (hash x) /\ forall y, is_face m y -> coincide m x y -> hash x = hash y.

    Lemma find_ok x : is_face m x -> forall ys, (forall y, In y ys -> is_face m y /\ before y x) ->
      exists r, find_match m (tolerance_of b) x (hash x) (map (fun y => (hash y, y)) ys) = Ok r /\
        match r with
        | Some (y, o) => In y ys /\ coincide m x y /\ oriented m x y o
        | None => forall y, In y ys -> ~ coincide m x y
        end.
    Proof.
      intros X ys. induction ys as [|y r IH]; intros H; cbn [map find_match].
      - exists None. split; [reflexivity|]. intros y [].
      - destruct IH as (res & R1 & R2); [intros z Z; apply H; right; exact Z|]. destruct (H y (or_introl eq_refl)) as [Y B].
        assert (SKIP : ~ coincide m x y -> exists r0, Ok res = Ok r0 /\ match r0 with Some (y0, o) => In y0 (y :: r) /\ coincide m x y0 /\ oriented m x y0 o | None => forall y0, In y0 (y :: r) -> ~ coincide m x y0 end).
        { intros N. exists res. split; [reflexivity|]. destruct res as [[y0 o]|]; [destruct R2 as (I & R2); split; [right; exact I|exact R2]|].
          intros z [<-|Z]; [exact N|apply R2, Z]. }
        destruct (hash y =? hash x) eqn:E; cbn [negb].
        2:{ rewrite R1. apply SKIP. intros K. apply Z.eqb_neq in E. apply E. symmetry. apply (proj2 (HASH x X) y Y K). }
        destruct (zlen (face_points m x) =? zlen (face_points m y)) eqn:EL; cbn [negb].
        2:{ rewrite R1. apply SKIP. intros K. apply Z.eqb_neq in EL. apply EL. unfold zlen. f_equal. apply Permutation_length, (coincide_perm x y X Y K). }
        apply Z.eqb_eq in EL. pose proof (matched x y X Y EL) as MM. cbv zeta in MM. pose proof (orientation_ok x y X Y) as OR.
        destruct (match_faces (tolerance_of b) (face_points m x) (face_points m y)) as [count order]. cbn [fst snd] in *.
        destruct (count =? zlen (face_points m x)).
        + assert (K : coincide m x y) by (apply MM; reflexivity). destruct (OR K B) as (o & O1 & O2). rewrite O1. cbn [obind].
          exists (Some (y, o)). split; [reflexivity|]. split; [left; reflexivity|]. split; assumption.
        + rewrite R1. apply SKIP. intros K. apply MM in K. discriminate.
    Qed.
  End Loop.
End Join.

(** ** The order of the faces *)
Lemma sorted_app (l1 l2 : list face) : StronglySorted before l1 -> StronglySorted before l2 -> (forall x y, In x l1 -> In y l2 -> before x y) ->
  StronglySorted before (l1 ++ l2).
Proof.
  intros S1 S2 C. induction S1 as [|x l S1 IH F]; [exact S2|]. cbn [app]. constructor.
  - apply IH. intros u v U V. apply C; [right; exact U|exact V].
  - rewrite Forall_forall in *. intros y Y. apply in_app_or in Y. destruct Y as [Y|Y]; [apply F, Y|apply C; [left; reflexivity|exact Y]].
Qed.
Lemma sorted_row t : forall k a, StronglySorted before (map (pair t) (zseq a k)).
Proof.
  induction k as [|k IH]; intros a; cbn [zseq map]; constructor; [apply IH|]. rewrite Forall_forall. intros y Y.
  apply in_map_iff in Y. destruct Y as (f & <- & F). apply in_zseq in F. right. cbn [fst snd]. lia.
Qed.
Lemma sorted_faces m : StronglySorted before (all_faces m).
Proof.
  unfold all_faces. generalize (length m) as k. intros k. generalize 0 at 2 as a. revert k.
  induction k as [|k IH]; intros a; cbn [zseq flat_map]; [constructor|]. apply sorted_app; [apply sorted_row|apply IH|].
  intros x y X Y. apply in_map_iff in X. destruct X as (f & <- & _). apply in_flat_map in Y. destruct Y as (t & T & Y). apply in_zseq in T.
  apply in_map_iff in Y. destruct Y as (g & <- & _). left. cbn [fst]. lia.
Qed.
Lemma sorted_split (l1 l2 : list face) x : StronglySorted before (l1 ++ x :: l2) -> forall y, In y l1 -> before y x.
Proof.
  induction l1 as [|z l1 IH]; intros S y Y; [destruct Y|]. cbn [app] in S. inversion S as [|? ? S1 F]; subst. destruct Y as [<-|Y]; [|apply IH; assumption].
  rewrite Forall_forall in F. apply F, in_or_app. right. left. reflexivity.
Qed.
Lemma before_irrefl x : ~ before x x. Proof. unfold before. lia. Qed.
Lemma before_asym x y : before x y -> ~ before y x. Proof. unfold before. lia. Qed.
Lemma before_total (x y : face) : x <> y -> before x y \/ before y x.
Proof. destruct x as [a c], y as [a' c']. unfold before. cbn [fst snd]. intros N. assert (a <> a' \/ c <> c') by (destruct (Z.eq_dec a a'), (Z.eq_dec c c'); subst; auto). lia. Qed.
Lemma sorted_NoDup l : StronglySorted before l -> NoDup l.
Proof. induction 1 as [|x l S IH F]; constructor; [|exact IH]. intros I. rewrite Forall_forall in F. apply (before_irrefl x), F, I. Qed.

Lemma face_eqb_spec x y : reflect (x = y) (face_eqb x y).
Proof.
  destruct x as [a c], y as [a' c']. unfold face_eqb. cbn [fst snd]. destruct (Z.eqb_spec a a') as [->|N]; cbn [andb]; [|constructor; congruence].
  destruct (Z.eqb_spec c c') as [->|N]; constructor; congruence.
Qed.
Lemma coincide_sym m x y : coincide m x y -> coincide m y x.
Proof. intros C p. symmetry. apply C. Qed.
Lemma oriented_sym m x y o : oriented m x y o -> oriented m y x o.
Proof. unfold oriented. tauto. Qed.

(** x is joined to y: in both directions, or from the face that comes later *)
Definition joined (m : list jtree) (both : bool) (x y : face) : Prop :=
  x <> y /\ coincide m x y /\ (both = true \/ before y x).

Section Main.
  Variables (m : list jtree) (d : Z) (b : spec_float * spec_float) (both : bool).
  Hypothesis OK : mesh_ok m d.
  Hypothesis SEP : separated m b.
  Hypothesis BINS : has_bins m b.
  Hypothesis CONF : conforming m.

  Definition inv (l : list face) (conn : face -> connection) : Prop :=
    forall x, (exists y o, In x l /\ In y l /\ joined m both x y /\ oriented m x y o /\ conn x = (y, o)) \/
              (conn x = no_connection /\ forall y, In x l -> In y l -> ~ joined m both x y).

  Lemma step_ok hash l x rest conn :
    (forall x, is_face m x -> hash_points b 0 (face_points m x) = Ok (hash x) /\ forall y, is_face m y -> coincide m x y -> hash x = hash y) ->
    all_faces m = l ++ x :: rest -> inv l conn ->
    exists conn', join_face m b both (map (fun y => (hash y, y)) l, conn) x = Ok (map (fun y => (hash y, y)) (l ++ [x]), conn') /\ inv (l ++ [x]) conn'.
  Proof.
    intros HASH SPLIT INV. unfold inv in *.
    assert (F : forall y, In y (l ++ [x]) -> is_face m y).
    { intros y Y. apply in_all_faces. rewrite SPLIT. apply in_app_or in Y. apply in_or_app. destruct Y as [Y|[<-|[]]]; [left; exact Y|right; left; reflexivity]. }
    assert (X : is_face m x) by (apply F, in_or_app; right; left; reflexivity).
    assert (B : forall y, In y l -> before y x). { apply (sorted_split l rest x). rewrite <- SPLIT. apply sorted_faces. }
    assert (NX : ~ In x l) by (intros I; apply (before_irrefl x), B, I).
    destruct (find_ok m d b OK SEP hash HASH x X l) as (r & R1 & R2). { intros y Y. split; [apply F, in_or_app; left; exact Y|apply B, Y]. }
    unfold join_face. rewrite (proj1 (HASH x X)). cbn [obind]. rewrite R1. cbn [obind]. eexists. split; [rewrite map_app; reflexivity|].
    assert (INL : forall z, In z (l ++ [x]) -> In z l \/ z = x) by (intros z Z; apply in_app_or in Z; destruct Z as [Z|[<-|[]]]; auto).
    assert (LIN : forall z, In z l -> In z (l ++ [x])) by (intros z Z; apply in_or_app; left; exact Z).
    assert (XIN : In x (l ++ [x])) by (apply in_or_app; right; left; reflexivity).
    destruct r as [[y o]|].
    - destruct R2 as (Y & K & O). assert (YX : y <> x) by (intros ->; exact (NX Y)).
      assert (OTHER : forall u, In u l -> u <> y -> ~ coincide m u x).
      { intros u U N C. apply N. apply (CONF x u y X); [apply F, LIN, U|apply F, LIN, Y|intros ->; exact (NX U)|exact YX|apply coincide_sym, C|exact K]. }
      set (c := set_conn conn x (y, o)).
      assert (CX : c x = (y, o)). { unfold c, set_conn. destruct (face_eqb_spec x x); congruence. }
      assert (CO : forall u, u <> x -> c u = conn u). { intros u U. unfold c, set_conn. destruct (face_eqb_spec u x); congruence. }
      assert (JX : joined m both x y). { split; [congruence|]. split; [exact K|right; apply B, Y]. }
      intros u. destruct (face_eqb_spec u x) as [->|UX].
      + left. exists y, o. split; [exact XIN|]. split; [apply LIN, Y|]. split; [exact JX|]. split; [exact O|].
        destruct both; [|exact CX]. unfold set_conn at 1. destruct (face_eqb_spec x y); [congruence|exact CX].
      + destruct both eqn:EB.
        * unfold set_conn at 1 2. destruct (face_eqb_spec u y) as [->|UY].
          -- left. exists x, o. split; [apply LIN, Y|]. split; [exact XIN|]. split; [split; [exact YX|split; [apply coincide_sym, K|left; reflexivity]]|].
             split; [apply oriented_sym, O|reflexivity].
          -- rewrite CO by exact UX. destruct (INV u) as [(v & o' & U & V & J & O' & E)|(E & N)].
             ++ left. exists v, o'. repeat (split; [auto; apply LIN; assumption|]). exact E.
             ++ right. split; [exact E|]. intros v U V J. destruct (INL u U) as [U'|U']; [|congruence]. destruct (INL v V) as [V'| ->]; [exact (N v U' V' J)|].
                destruct J as (_ & J & _). exact (OTHER u U' UY J).
        * rewrite CO by exact UX. destruct (INV u) as [(v & o' & U & V & J & O' & E)|(E & N)].
          ++ left. exists v, o'. repeat (split; [auto; apply LIN; assumption|]). exact E.
          ++ right. split; [exact E|]. intros v U V J. destruct (INL u U) as [U'|U']; [|congruence]. destruct (INL v V) as [V'| ->]; [exact (N v U' V' J)|].
             destruct J as (_ & _ & [J|J]); [congruence|]. exact (before_asym u x (B u U') J).
    - intros u. destruct (INV u) as [(v & o' & U & V & J & O' & E)|(E & N)].
      + left. exists v, o'. repeat (split; [auto; apply LIN; assumption|]). exact E.
      + right. split; [exact E|]. intros v U V (J1 & J2 & J3). destruct (INL u U) as [U'| ->], (INL v V) as [V'| ->].
        * apply (N v U' V'). split; [exact J1|]. split; assumption.
        * exact (R2 u U' (coincide_sym _ _ _ J2)).
        * exact (R2 v V' J2).
        * congruence.
  Qed.

  Lemma loop_ok hash :
    (forall x, is_face m x -> hash_points b 0 (face_points m x) = Ok (hash x) /\ forall y, is_face m y -> coincide m x y -> hash x = hash y) ->
    forall rest l conn, all_faces m = l ++ rest -> inv l conn ->
    exists conn', join_loop m b both rest (map (fun y => (hash y, y)) l, conn) = Ok (map (fun y => (hash y, y)) (all_faces m), conn') /\ inv (all_faces m) conn'.
  Proof.
    intros HASH. induction rest as [|x rest IH]; intros l conn SPLIT INV.
    - rewrite app_nil_r in SPLIT. rewrite SPLIT. exists conn. split; [reflexivity|exact INV].
    - cbn [join_loop]. destruct (step_ok hash l x rest conn HASH SPLIT INV) as (c & E & I). rewrite E. cbn [obind]. apply IH; [|exact I]. rewrite SPLIT, <- app_assoc. reflexivity.
  Qed.

  Theorem join_ok : domain_bounds m = Ok b ->
    exists conn, join_by_vertices m both = Ok conn /\ inv (all_faces m) conn.
  Proof.
    intros DB. destruct (hash_exists m d b OK BINS) as (hash & HASH).
    destruct (loop_ok hash HASH (all_faces m) [] (fun _ => no_connection) eq_refl) as (conn & E & I).
    { intros x. right. split; [reflexivity|]. intros y []. }
    exists conn. split; [|exact I]. unfold join_by_vertices. rewrite DB. cbn [obind]. cbn [map] in E. rewrite E. reflexivity.
  Qed.
End Main.

(** ** The calls of t8_cmesh_set_join *)
Lemma calls_spec m conn both : inv m both (all_faces m) conn -> forall c, In c (join_calls m conn) <->
  exists x y o, c = SetJoin (fst x) (fst y) (snd x) (snd y) o /\ is_face m x /\ is_face m y /\ conn x = (y, o).
Proof.
  intros INV c. unfold join_calls. rewrite in_flat_map. split.
  - intros (x & X & C). destruct (INV x) as [(y & o & _ & Y & _ & _ & E)|(E & _)].
    + rewrite E in C. destruct y as [yt yf]. exists x, (yt, yf), o. destruct (-1 <? yt) in C; [|destruct C]. destruct C as [<-|[]].
      split; [reflexivity|]. split; [apply in_all_faces, X|]. split; [apply in_all_faces, Y|exact E].
    + rewrite E in C. cbn in C. destruct C.
  - intros (x & y & o & -> & X & Y & E). exists x. split; [apply in_all_faces, X|]. rewrite E. destruct y as [yt yf]. destruct Y as [Y _]. cbn [fst] in *.
    replace (-1 <? yt) with true by lia. left. reflexivity.
Qed.
Lemma calls_NoDup m conn : NoDup (join_calls m conn).
Proof.
  unfold join_calls. pose proof (sorted_NoDup _ (sorted_faces m)) as N. induction N as [|x l NX N IH]; cbn [flat_map]; [constructor|].
  destruct (conn x) as [[nt nf] o]. destruct (-1 <? nt); [|exact IH]. cbn [app]. constructor; [|exact IH].
  intros I. apply in_flat_map in I. destruct I as (y & Y & I). destruct (conn y) as [[nt' nf'] o']. destruct (-1 <? nt'); [|destruct I]. destruct I as [I|[]].
  injection I as E1 _ E2 _ _. apply NX. replace x with y; [exact Y|]. destruct x, y. cbn [fst snd] in *. congruence.
Qed.

(** ** Checks of the hypotheses by computation, for the examples *)
Definition point_dec (p q : point) : {p = q} + {p <> q}.
Proof. repeat decide equality. Defined.
Definition point_eqb (p q : point) : bool := if point_dec p q then true else false.
Lemma point_eqb_true p q : point_eqb p q = true <-> p = q.
Proof. unfold point_eqb. destruct (point_dec p q); split; congruence. Qed.
Definition all_points (m : list jtree) : list point := flat_map j_points m.
Definition check_separated (m : list jtree) (b : spec_float * spec_float) : bool :=
  forallb (fun p => forallb (fun q => Bool.eqb (same_point (tolerance_of b) p q) (point_eqb p q)) (all_points m)) (all_points m).
Definition check_bins (m : list jtree) (b : spec_float * spec_float) : bool :=
  forallb (fun p => forallb (fun v => match bin b v with Ok _ => true | _ => false end) (coords p)) (all_points m).
Definition check_within (m : list jtree) (x y : face) : bool := forallb (fun p => existsb (point_eqb p) (face_points m y)) (face_points m x).
Definition check_conforming (m : list jtree) : bool :=
  forallb (fun x => forallb (fun y => forallb (fun z =>
    face_eqb y x || face_eqb z x || negb (check_within m x y) || negb (check_within m x z) || face_eqb y z) (all_faces m)) (all_faces m)) (all_faces m).
Lemma is_vertex_all m p : is_vertex m p -> In p (all_points m).
Proof. intros (t & T & P). apply in_flat_map. exists t. split; assumption. Qed.
Lemma check_separated_ok m b : check_separated m b = true -> separated m b.
Proof.
  intros C p q P Q. unfold check_separated in C. rewrite forallb_forall in C. specialize (C p (is_vertex_all m p P)). rewrite forallb_forall in C.
  specialize (C q (is_vertex_all m q Q)). apply eqb_prop in C. rewrite C. apply point_eqb_true.
Qed.
Lemma check_bins_ok m b : check_bins m b = true -> has_bins m b.
Proof.
  intros C p v P V. unfold check_bins in C. rewrite forallb_forall in C. specialize (C p (is_vertex_all m p P)). rewrite forallb_forall in C.
  specialize (C v V). destruct (bin b v) as [k| | |]; try discriminate. exists k. reflexivity.
Qed.
Lemma check_within_ok m x y : is_face m x -> is_face m y -> coincide m x y -> check_within m x y = true.
Proof.
  intros X Y C. unfold check_within. apply forallb_forall. intros p P. apply existsb_exists. exists p. split; [|apply point_eqb_true; reflexivity].
  apply (fp_in m y p Y), C, (fp_in m x p X), P.
Qed.
Lemma check_conforming_ok m : check_conforming m = true -> conforming m.
Proof.
  intros C x y z X Y Z YX ZX CY CZ. unfold check_conforming in C. rewrite forallb_forall in C. specialize (C x (proj2 (in_all_faces m x) X)).
  rewrite forallb_forall in C. specialize (C y (proj2 (in_all_faces m y) Y)). rewrite forallb_forall in C. specialize (C z (proj2 (in_all_faces m z) Z)).
  rewrite (check_within_ok m x y X Y CY), (check_within_ok m x z X Z CZ) in C.
  destruct (face_eqb_spec y x); [congruence|]. destruct (face_eqb_spec z x); [congruence|]. destruct (face_eqb_spec y z); [assumption|discriminate].
Qed.

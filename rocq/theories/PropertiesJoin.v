(** C51: joining trees by the coordinates of their vertices *)
From Coq Require Import SpecFloat Reals Lra.
From Verif Require Import Prelude EclassModel FloatModel CmeshModel CmeshSpec JoinModel JoinSpec JoinProofs JoinCommitProofs FloatProofs JoinCoordSpec JoinFloatProofs
  JoinStashModel JoinStashSpec JoinStashProofs.
#[local] Open Scope Z_scope.

(** For every conforming mesh of trees of one dimension, if the tolerance tells different vertices apart and the coordinates have bins, the search
    ends; the entry of a face is the other face with the same corners and the orientation, and -1 if there is none.  Without
    do_both_directions only the later of two faces has an entry. *)
Theorem C51_connectivity : forall m d b both,
  mesh_ok m d -> conforming m -> domain_bounds m = Ok b -> separated m b -> has_bins m b ->
  exists conn, join_by_vertices m both = Ok conn /\
    (forall x y, is_face m x -> is_face m y -> x <> y -> coincide m x y -> (both = true \/ before y x) ->
       exists o, oriented m x y o /\ conn x = (y, o)) /\
    (forall x, is_face m x ->
       conn x = no_connection \/
       exists y o, is_face m y /\ x <> y /\ coincide m x y /\ (both = true \/ before y x) /\ oriented m x y o /\ conn x = (y, o)).
Proof.
  intros m d b both OK CONF DB SEP BINS. destruct (join_ok m d b both OK SEP BINS CONF DB) as (conn & E & I).
  exists conn. split; [exact E|]. split.
  - intros x y X Y N C B. destruct (I x) as [(z & o & _ & Z & (J1 & J2 & J3) & O & Q)|(_ & F)].
    + apply in_all_faces in Z. assert (z = y) by (apply (CONF x z y X Z Y); auto). subst z. exists o. split; assumption.
    + exfalso. apply (F y); [apply in_all_faces, X|apply in_all_faces, Y|]. split; [exact N|]. split; assumption.
  - intros x X. destruct (I x) as [(y & o & _ & Y & (J1 & J2 & J3) & O & Q)|(Q & _)]; [|left; exact Q].
    right. exists y, o. apply in_all_faces in Y. repeat (split; [assumption|]). exact Q.
Qed.
Print Assumptions C51_connectivity.

(** The calls of t8_cmesh_set_join, without do_both_directions: for any two different faces with the same corners exactly one call, made for the
    later one, with the orientation of the two; no others, none twice. *)
Theorem C51_joins : forall m d b,
  mesh_ok m d -> conforming m -> domain_bounds m = Ok b -> separated m b -> has_bins m b ->
  exists conn, join_by_vertices m false = Ok conn /\ NoDup (join_calls m conn) /\
    (forall c, In c (join_calls m conn) -> exists x y o, c = SetJoin (fst x) (fst y) (snd x) (snd y) o /\
       is_face m x /\ is_face m y /\ coincide m x y /\ before y x /\ oriented m x y o) /\
    (forall x y, is_face m x -> is_face m y -> coincide m x y -> before y x ->
       exists o, oriented m x y o /\ forall o', In (SetJoin (fst x) (fst y) (snd x) (snd y) o') (join_calls m conn) <-> o' = o).
Proof.
  intros m d b OK CONF DB SEP BINS. destruct (join_ok m d b false OK SEP BINS CONF DB) as (conn & E & I).
  exists conn. split; [exact E|]. split; [apply calls_NoDup|]. split.
  - intros c C. apply (calls_spec _ _ _ I) in C. destruct C as (x & y & o & -> & X & Y & Q). exists x, y, o. split; [reflexivity|].
    destruct (I x) as [(z & o' & _ & _ & (J1 & J2 & J3) & O & Q')|(Q' & _)].
    + rewrite Q in Q'. injection Q' as <- <-. destruct J3 as [J3|J3]; [discriminate|]. repeat (split; [assumption|]). exact O.
    + rewrite Q in Q'. injection Q' as -> ->. destruct Y as [[Y _] _]. cbn in Y. lia.
  - intros x y X Y C B. assert (N : x <> y) by (intros ->; exact (before_irrefl y B)).
    destruct (I x) as [(z & o & _ & Z & (J1 & J2 & J3) & O & Q)|(_ & F)].
    + apply in_all_faces in Z. assert (z = y) by (apply (CONF x z y X Z Y); auto). subst z. exists o. split; [exact O|]. intros o'. rewrite (calls_spec _ _ _ I). split.
      * intros (x' & y' & o2 & E2 & _ & _ & Q2). injection E2 as E3 E4 E5 E6 ->. assert (x' = x) by (destruct x, x'; cbn [fst snd] in *; congruence). subst x'. rewrite Q in Q2. congruence.
      * intros ->. exists x, y, o. repeat (split; [auto|]). exact Q.
    + exfalso. apply (F y); [apply in_all_faces, X|apply in_all_faces, Y|]. split; [exact N|]. split; [exact C|right; exact B].
Qed.
Print Assumptions C51_joins.

(** The hypotheses are met by a mesh of two triangles and a quadrilateral, [0,2] x [0,1] *)
Definition c0 : spec_float := S754_zero false.
Definition c1 : spec_float := Eval vm_compute in d_of_int 1.
Definition c2 : spec_float := Eval vm_compute in d_of_int 2.
Definition example_mesh : list jtree :=
  [ mkJtree TRIANGLE [(c0, c0, c0); (c1, c0, c0); (c1, c1, c0)];
    mkJtree TRIANGLE [(c0, c0, c0); (c1, c1, c0); (c0, c1, c0)];
    mkJtree QUAD [(c1, c0, c0); (c2, c0, c0); (c1, c1, c0); (c2, c1, c0)] ].
Ltac mesh_facts := intros t T; repeat (destruct T as [<-|T]; [repeat split; try (vm_compute; congruence); repeat constructor; cbn; intuition discriminate|]); destruct T.
Example C51_example : mesh_ok example_mesh 2 /\ conforming example_mesh /\ domain_bounds example_mesh = Ok (c0, c2) /\
  separated example_mesh (c0, c2) /\ has_bins example_mesh (c0, c2) /\
  exists conn, join_by_vertices example_mesh false = Ok conn /\ join_calls example_mesh conn = [SetJoin 1 0 2 1 0; SetJoin 2 0 0 0 0].
Proof.
  split; [mesh_facts|]. split; [apply check_conforming_ok; vm_compute; reflexivity|]. split; [vm_compute; reflexivity|].
  split; [apply check_separated_ok; vm_compute; reflexivity|]. split; [apply check_bins_ok; vm_compute; reflexivity|].
  eexists. split; [vm_compute; reflexivity|]. vm_compute. reflexivity.
Qed.

(** Not every pair of faces whose corners are the same up to the tolerance is joined: if a rounding difference puts a coordinate into the next bin,
    the hashes differ and the faces are never compared.  The two triangles share the edge from (0,0) to (0.4999999995,1); in one of them the
    coordinate is the preceding double. *)
Definition near_half : spec_float := S754_finite false 9007199245733792 (-54).
Definition next_near_half : spec_float := S754_finite false 9007199245733793 (-54).
Definition near_mesh : list jtree :=
  [ mkJtree TRIANGLE [(c0, c0, c0); (c1, c0, c0); (near_half, c1, c0)];
    mkJtree TRIANGLE [(c0, c0, c0); (next_near_half, c1, c0); (c0, c1, c0)] ].
Theorem C51_tolerance_refuted : ~ (forall m d b,
  mesh_ok m d -> domain_bounds m = Ok b -> has_bins m b ->
  exists conn, join_by_vertices m true = Ok conn /\
    forall x y, is_face m x -> is_face m y -> x <> y ->
      (forall p, is_corner m x p -> exists q, is_corner m y q /\ same_point (tolerance_of b) p q = true) ->
      (forall q, is_corner m y q -> exists p, is_corner m x p /\ same_point (tolerance_of b) p q = true) ->
      conn x <> no_connection).
Proof.
  intros H. destruct (H near_mesh 2 (c0, c1)) as (conn & E & J).
  - mesh_facts.
  - vm_compute. reflexivity.
  - apply check_bins_ok. vm_compute. reflexivity.
  - apply (J (0, 1) (1, 2)).
    + vm_compute. intuition discriminate.
    + vm_compute. intuition discriminate.
    + discriminate.
    + intros p (i & I & <-). change (num_corners near_mesh (0, 1)) with 2 in I. exists (corner near_mesh (1, 2) i).
      split; [exists i; split; [exact I|reflexivity]|]. assert (D : i = 0 \/ i = 1) by lia. destruct D as [->| ->]; vm_compute; reflexivity.
    + intros q (i & I & <-). change (num_corners near_mesh (1, 2)) with 2 in I. exists (corner near_mesh (0, 1) i).
      split; [exists i; split; [exact I|reflexivity]|]. assert (D : i = 0 \/ i = 1) by lia. destruct D as [->| ->]; vm_compute; reflexivity.
    + assert (Q : match join_by_vertices near_mesh true with Ok c => c (0, 1) = no_connection | _ => True end) by (vm_compute; reflexivity).
      rewrite E in Q. exact Q.
Qed.
Print Assumptions C51_tolerance_refuted.

(** Two-dimensional trees need not lie in the plane z = 0, but the minimum of the coordinates leaves their z out: below it the conversion of the
    scaled coordinate to unsigned long is undefined. *)
Definition cm1 : spec_float := Eval vm_compute in d_of_int (-1).
Definition low_mesh : list jtree :=
  [ mkJtree TRIANGLE [(c0, c0, cm1); (c1, c0, cm1); (c1, c1, cm1)];
    mkJtree TRIANGLE [(c0, c0, cm1); (c1, c1, cm1); (c0, c1, cm1)] ].
Theorem C51_bins_refuted : ~ (forall m d b both,
  mesh_ok m d -> conforming m -> domain_bounds m = Ok b -> separated m b -> exists conn, join_by_vertices m both = Ok conn).
Proof.
  intros H. destruct (H low_mesh 2 (c0, c1) false) as (conn & E).
  - mesh_facts.
  - apply check_conforming_ok. vm_compute. reflexivity.
  - vm_compute. reflexivity.
  - apply check_separated_ok. vm_compute. reflexivity.
  - assert (Q : join_by_vertices low_mesh false = Oob) by (vm_compute; reflexivity). rewrite Q in E. discriminate.
Qed.
Print Assumptions C51_bins_refuted.

(** From the coordinates to the committed mesh: if the classes of the trees and any attributes are set, the trees are joined by their vertices and the
    (replicated) mesh is committed, then the neighbour of a face is the other face with the same corners, with their orientation, seen from both
    sides, and the faces without one are boundary. *)
Theorem C51_committed_mesh : forall m d b attrs,
  mesh_ok m d -> conforming m -> domain_bounds m = Ok b -> separated m b -> has_bins m b -> attribute_calls d m attrs ->
  exists conn building cm, join_by_vertices m false = Ok conn /\
    run_calls empty_building (class_calls m ++ attrs ++ join_calls m conn) = Ok building /\ commit_replicated building = Ok cm /\
    (forall x y, is_face m x -> is_face m y -> x <> y -> coincide m x y -> exists o, oriented m x y o /\
       get_face_neighbor cm (fst x) (snd x) = Ok (Some (fst y, snd y, o)) /\ face_is_boundary cm (fst x) (snd x) = Ok false) /\
    (forall x, is_face m x -> (forall y, is_face m y -> y <> x -> ~ coincide m x y) -> face_is_boundary cm (fst x) (snd x) = Ok true).
Proof.
  intros m d b attrs OK CONF DB SEP BINS AT. destruct (join_ok m d b false OK SEP BINS CONF DB) as (conn & E & I).
  destruct (committed m d conn attrs OK CONF I AT) as (bu & cm & R). exists conn, bu, cm. split; [exact E|exact R].
Qed.
Print Assumptions C51_committed_mesh.
Example C51_attributes : attribute_calls 2 example_mesh [SetAttribute 0 1 0 [1; 2]; SetAttribute 2 1 0 [3]].
Proof.
  split.
  - intros c [<-|[<-|[]]]; [exists 0, 1, 0, [1; 2]|exists 2, 1, 0, [3]]; (split; [reflexivity|vm_compute; intuition discriminate]).
  - split; cbn; try (intros; intuition discriminate); try lia; try (repeat constructor; cbn; intuition discriminate).
    intros t p k v [H|[H|[]]]; injection H as <- <- <- _; lia.
  - right. exists 1, 0, [3]. right. left. reflexivity.
Qed.

(** The conditions on the tolerance and the bins hold for every mesh with finite coordinates in which all coordinates lie between the least and the
    greatest of the first d ones (for d = 3 all do), which differ by at least 2^-20 and at most 2^40, and in which any two different vertices differ in
    some coordinate by at least 2^-48 of that. *)
Theorem C51_coordinates_suffice : forall m d (lo hi : R), mesh_ok m d -> 1 <= d <= 3 -> finite_coordinates m -> extent m d lo hi ->
  (/ 1048576 <= hi - lo <= 1099511627776)%R -> (forall p v r, is_vertex m p -> In v (coords p) -> dbl v r -> (lo <= r <= hi)%R) ->
  (forall p q, is_vertex m p -> is_vertex m q -> p <> q -> apart p q (hi - lo)) ->
  exists b, domain_bounds m = Ok b /\ separated m b /\ has_bins m b.
Proof. exact coordinates_suffice. Qed.
Print Assumptions C51_coordinates_suffice.
(** The bounds that the search computes are the least and the greatest of the first d coordinates *)
Theorem C51_bounds : forall m d (lo hi : R), mesh_ok m d -> 1 <= d <= 3 -> finite_coordinates m -> extent m d lo hi ->
  exists b, domain_bounds m = Ok b /\ dbl (fst b) lo /\ dbl (snd b) hi.
Proof. exact bounds_extent. Qed.
Print Assumptions C51_bounds.

Lemma dbl_int n : 0 <= n <= 2 -> dbl (d_of_int n) (IZR n).
Proof.
  intros H. assert (R : rnd (IZR n) = IZR n) by (apply rnd_int; lia). rewrite <- R. apply d_of_int_spec. rewrite R. assert (0 <= IZR n <= 2)%R by (split; apply IZR_le; lia).
  rewrite Rabs_pos_eq by lra. pose proof big_ge. lra.
Qed.
Lemma example_vertex p : is_vertex example_mesh p -> exists a c, 0 <= a <= 2 /\ 0 <= c <= 1 /\ p = (d_of_int a, d_of_int c, d_of_int 0).
Proof.
  intros (t & T & P). repeat (destruct T as [<-|T]; [cbn [j_points] in P; repeat (destruct P as [<-|P];
    [first [exists 0, 0; split; [lia|split; [lia|reflexivity]] | exists 1, 0; split; [lia|split; [lia|reflexivity]] | exists 2, 0; split; [lia|split; [lia|reflexivity]] |
            exists 0, 1; split; [lia|split; [lia|reflexivity]] | exists 1, 1; split; [lia|split; [lia|reflexivity]] | exists 2, 1; split; [lia|split; [lia|reflexivity]]]|]); destruct P|]). destruct T.
Qed.
Lemma example_values p v r : is_vertex example_mesh p -> In v (coords p) -> dbl v r -> (0 <= r <= 2)%R.
Proof.
  intros P V D. destruct (@example_vertex p P) as (a & c & A & C & ->). cbn [coords] in V.
  assert (G : forall n, 0 <= n <= 2 -> v = d_of_int n -> (0 <= r <= 2)%R). { intros n N ->. rewrite (@dbl_unique _ _ _ D (@dbl_int n N)). split; apply IZR_le; lia. }
  destruct V as [<-|[<-|[<-|[]]]]; [apply (G a)|apply (G c)|apply (G 0)]; try lia; reflexivity.
Qed.
Example C51_example_coordinates : finite_coordinates example_mesh /\ extent example_mesh 2 0 2 /\
  (forall p q, is_vertex example_mesh p -> is_vertex example_mesh q -> p <> q -> apart p q (2 - 0)).
Proof.
  split; [|split].
  - intros p v P V. destruct (@example_vertex p P) as (a & c & A & C & ->). destruct V as [<-|[<-|[<-|[]]]]; eexists; apply dbl_int; lia.
  - split; [|split].
    + exists (c0, c0, c0), 0, c0. split; [exists (mkJtree TRIANGLE [(c0, c0, c0); (c1, c0, c0); (c1, c1, c0)]); split; left; reflexivity|]. split; [lia|]. split; [reflexivity|]. exact (@dbl_int 0 ltac:(lia)).
    + exists (c2, c0, c0), 0, c2. split; [exists (mkJtree QUAD [(c1, c0, c0); (c2, c0, c0); (c1, c1, c0); (c2, c1, c0)]); split; [right; right; left; reflexivity|right; left; reflexivity]|].
      split; [lia|]. split; [reflexivity|]. exact (@dbl_int 2 ltac:(lia)).
    + intros r (p & i & v & P & _ & N & D). apply (@example_values p v r P); [apply nth_error_In in N; exact N|exact D].
  - intros p q P Q N. destruct (@example_vertex p P) as (a & c & A & C & ->). destruct (@example_vertex q Q) as (a' & c' & A' & C' & ->).
    assert (G : forall n n', n <> n' -> ((2 - 0) * / 281474976710656 <= Rabs (IZR n - IZR n'))%R).
    { intros n n' NN. rewrite <- (minus_IZR n n'), <- abs_IZR. assert (1 <= IZR (Z.abs (n - n')))%R by (apply IZR_le; lia). lra. }
    destruct (Z.eq_dec a a') as [EA|EA].
    + subst a'. exists 1%nat, (d_of_int c), (d_of_int c'), (IZR c), (IZR c'). split; [reflexivity|]. split; [reflexivity|]. split; [apply dbl_int; lia|]. split; [apply dbl_int; lia|].
      apply G. intros ->. apply N. reflexivity.
    + exists 0%nat, (d_of_int a), (d_of_int a'), (IZR a), (IZR a'). split; [reflexivity|]. split; [reflexivity|]. split; [apply dbl_int; lia|]. split; [apply dbl_int; lia|]. apply G, EA.
Qed.

(** If the classes and vertices of the trees have been set by any calls, in any order, then t8_cmesh_set_join_by_stash does what
    t8_cmesh_set_join_by_vertices does with these trees *)
Theorem C51_stash : forall m d bytes_of pkg calls building both,
  mesh_ok m d -> stashed m bytes_of pkg calls -> run_calls empty_building calls = Ok building ->
  join_by_stash pkg building both = do conn <- join_by_vertices m both; do b <- run_calls building (join_calls m conn); Ok (conn, b).
Proof. intros m d bytes_of pkg calls bu both OK ST RUN. unfold join_by_stash. now rewrite (stash_mesh_ok m d bytes_of pkg calls bu OK ST RUN). Qed.
Print Assumptions C51_stash.
(** The mesh that is joined by its stash and committed has the face neighbours that the vertices give *)
Theorem C51_stash_committed : forall m d b bytes_of pkg attrs,
  mesh_ok m d -> conforming m -> domain_bounds m = Ok b -> separated m b -> has_bins m b ->
  attribute_calls d m attrs -> stashed m bytes_of pkg (class_calls m ++ attrs) ->
  exists building conn joined cm, run_calls empty_building (class_calls m ++ attrs) = Ok building /\ join_by_stash pkg building false = Ok (conn, joined) /\
    commit_replicated joined = Ok cm /\
    (forall x y, is_face m x -> is_face m y -> x <> y -> coincide m x y -> exists o, oriented m x y o /\
       get_face_neighbor cm (fst x) (snd x) = Ok (Some (fst y, snd y, o)) /\ face_is_boundary cm (fst x) (snd x) = Ok false) /\
    (forall x, is_face m x -> (forall y, is_face m y -> y <> x -> ~ coincide m x y) -> face_is_boundary cm (fst x) (snd x) = Ok true).
Proof.
  intros m d b bytes_of pkg attrs OK CONF DB SEP BINS AT ST. destruct (C51_committed_mesh OK CONF DB SEP BINS AT) as (conn & joined & cm & J & R & C).
  rewrite app_assoc, run_calls_app in R. destruct (run_calls empty_building (class_calls m ++ attrs)) as [bu| | |] eqn:E; try discriminate. cbn [obind] in R.
  exists bu, conn, joined, cm. split; [reflexivity|]. split; [|exact C]. rewrite (C51_stash false OK ST E), J. cbn [obind]. now rewrite R.
Qed.
Print Assumptions C51_stash_committed.
Definition example_bytes (v : spec_float) : list Z :=
  match v with S754_finite _ _ (-52) => [0; 0; 0; 0; 0; 0; 240; 63] | S754_finite _ _ _ => [0; 0; 0; 0; 0; 0; 0; 64] | _ => [0; 0; 0; 0; 0; 0; 0; 0] end.
Example C51_example_stash : stashed example_mesh example_bytes 7 (class_calls example_mesh ++ vertex_calls example_mesh example_bytes 7) /\
  attribute_calls 2 example_mesh (vertex_calls example_mesh example_bytes 7).
Proof.
  split.
  - apply stashed_calls. intros p v P V. destruct (example_vertex P) as (a & c & A & C & ->).
    assert (G : forall n, 0 <= n <= 2 -> v = d_of_int n -> length (example_bytes v) = 8%nat /\ double_of (example_bytes v) = v).
    { intros n N ->. assert (D : n = 0 \/ n = 1 \/ n = 2) by lia; destruct D as [D|[D|D]]; subst n; vm_compute; split; reflexivity. }
    destruct V as [<-|[<-|[<-|[]]]]; [apply (G a)|apply (G c)|apply (G 0)]; try lia; reflexivity.
  - split.
    + intros c H. apply in_map_iff in H. destruct H as (t & <- & T). apply in_zseq in T. cbn in T. exists t, 7, VERTICES_KEY. eexists. split; [reflexivity|]. unfold zlen. cbn. lia.
    + split; cbn; try (intros; intuition discriminate); try lia; try (repeat constructor; cbn; intuition discriminate).
      intros t p k v [H|[H|[H|[]]]]; injection H as <- <- <- _; unfold VERTICES_KEY; lia.
    + right. exists 7, VERTICES_KEY. eexists. right. right. left. reflexivity.
Qed.

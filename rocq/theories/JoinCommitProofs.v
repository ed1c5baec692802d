(** A coarse mesh that is joined by its vertices and committed *)
From Coq Require Import SpecFloat Permutation Sorted.
From Verif Require Import Prelude EclassModel FloatModel CmeshModel CmeshSpec CmeshLib CmeshCommitProofs JoinModel JoinSpec JoinProofs PropertiesCmesh.
#[local] Unset Implicit Arguments.

(** the calls that set the classes of the trees *)
Definition class_calls (m : list jtree) : list call := map (fun t => SetClass t (j_class (znth no_jtree m t))) (zseq 0 (length m)).
(** calls that set attributes, such as the vertices, of the trees of a mesh *)
Record attribute_calls (d : Z) (m : list jtree) (attrs : list call) : Prop := {
  at_only : forall c, In c attrs -> exists t pkg key data, c = SetAttribute t pkg key data /\ 0 <= t < zlen m;
  at_ok : calls_ok d attrs;
  at_dense : (forall t, 0 <= t < zlen m -> ~ has_attribute attrs t) \/ has_attribute attrs (zlen m - 1)
}.

Section Calls.
  Variables (m : list jtree) (d : Z) (conn : face -> connection) (attrs : list call).
  Hypothesis OK : mesh_ok m d.
  Hypothesis CONF : conforming m.
  Hypothesis INV : inv m false (all_faces m) conn.
  Hypothesis AT : attribute_calls d m attrs.
  #[local] Notation calls := (class_calls m ++ attrs ++ join_calls m conn).

  Lemma conn_entry x y o : is_face m y -> conn x = (y, o) -> is_face m x /\ x <> y /\ coincide m x y /\ before y x /\ oriented m x y o.
  Proof.
    intros Y E. destruct (INV x) as [(z & o' & X & _ & (J1 & J2 & J3) & O & Q)|(Q & _)].
    - rewrite E in Q. injection Q as <- <-. destruct J3 as [J3|J3]; [discriminate|]. apply in_all_faces in X. auto.
    - rewrite E in Q. injection Q as -> ->. destruct Y as [[Y _] _]. cbn in Y. lia.
  Qed.
  Lemma call_entry t1 t2 f1 f2 o : In (SetJoin t1 t2 f1 f2 o) (join_calls m conn) <-> is_face m (t1, f1) /\ is_face m (t2, f2) /\ conn (t1, f1) = ((t2, f2), o).
  Proof.
    rewrite (calls_spec m conn false INV). split.
    - intros ([a1 g1] & [a2 g2] & o' & E & X & Y & Q). cbn [fst snd] in E. injection E as -> -> -> -> ->. auto.
    - intros (X & Y & Q). exists (t1, f1), (t2, f2), o. auto.
  Qed.
  Lemma calls_join t1 t2 f1 f2 o : In (SetJoin t1 t2 f1 f2 o) calls <-> is_face m (t1, f1) /\ is_face m (t2, f2) /\ conn (t1, f1) = ((t2, f2), o).
  Proof.
    rewrite <- call_entry, !in_app_iff. split; [|tauto]. intros [H|[H|H]]; [| |exact H].
    - apply in_map_iff in H. destruct H as (t & E & _). discriminate.
    - apply (at_only _ _ _ AT) in H. destruct H as (t & p & k & v & E & _). discriminate.
  Qed.
  Lemma joins_only c : In c (join_calls m conn) -> exists t1 t2 f1 f2 o, c = SetJoin t1 t2 f1 f2 o.
  Proof. intros H. apply (calls_spec m conn false INV) in H. destruct H as (x & y & o & -> & _). eauto 10. Qed.
  Lemma calls_class t k : In (SetClass t k) calls <-> 0 <= t < zlen m /\ k = j_class (znth no_jtree m t).
  Proof.
    rewrite !in_app_iff. split.
    - intros [H|[H|H]].
      + apply in_map_iff in H. destruct H as (t' & E & T). injection E as <- <-. apply in_zseq in T. unfold zlen. split; [lia|reflexivity].
      + apply (at_only _ _ _ AT) in H. destruct H as (t' & p & k' & v & E & _). discriminate.
      + apply joins_only in H. destruct H as (? & ? & ? & ? & ? & E). discriminate.
    - intros (T & ->). left. apply in_map_iff. exists t. split; [reflexivity|]. apply in_zseq. unfold zlen in T. lia.
  Qed.
  Lemma calls_attr t p k v : In (SetAttribute t p k v) calls <-> In (SetAttribute t p k v) attrs.
  Proof.
    rewrite !in_app_iff. split; [|tauto]. intros [H|[H|H]]; [|exact H|].
    - apply in_map_iff in H. destruct H as (t' & E & _). discriminate.
    - apply joins_only in H. destruct H as (? & ? & ? & ? & ? & E). discriminate.
  Qed.

  Lemma no_ids l : (forall c, In c l -> forall t k, c <> SetClass t k) -> class_ids l = [].
  Proof. induction l as [|c l IH]; intros H; [reflexivity|]. unfold class_ids in *. cbn [flat_map]. rewrite IH by (intros c' C'; apply H; right; exact C'). destruct c; try reflexivity. exfalso. apply (H _ (or_introl eq_refl) gid c). reflexivity. Qed.
  Lemma no_sides l : (forall c, In c l -> forall t1 t2 f1 f2 o, c <> SetJoin t1 t2 f1 f2 o) -> join_sides l = [].
  Proof. induction l as [|c l IH]; intros H; [reflexivity|]. unfold join_sides in *. cbn [flat_map]. rewrite IH by (intros c' C'; apply H; right; exact C'). destruct c; try reflexivity. exfalso. apply (H _ (or_introl eq_refl) gid1 gid2 face1 face2 orientation). reflexivity. Qed.
  Lemma no_keys l : (forall c, In c l -> forall t p k v, c <> SetAttribute t p k v) -> attr_keys l = [] /\ attr_bytes l = 0.
  Proof.
    induction l as [|c l IH]; intros H; [split; reflexivity|]. unfold attr_keys, attr_bytes in *. cbn [flat_map fold_right]. destruct IH as [-> ->]; [intros c' C'; apply H; right; exact C'|].
    destruct c; try (split; reflexivity). exfalso. apply (H _ (or_introl eq_refl) gid pkg key data). reflexivity.
  Qed.
  Lemma bytes_app l1 l2 : attr_bytes (l1 ++ l2) = attr_bytes l1 + attr_bytes l2.
  Proof. unfold attr_bytes. induction l1 as [|c l1 IH]; cbn [app fold_right]; [reflexivity|]. rewrite IH. destruct c; lia. Qed.
  Lemma ids_class : class_ids (class_calls m) = zseq 0 (length m).
  Proof. unfold class_ids, class_calls. induction (zseq 0 (length m)) as [|t l IH]; cbn [map flat_map app]; [reflexivity|]. f_equal. exact IH. Qed.

  Definition sides (x : face) : list face := let '((nt, nf), o) := conn x in if -1 <? nt then [x; (nt, nf)] else [].
  Lemma sides_calls : join_sides (join_calls m conn) = flat_map sides (all_faces m).
  Proof.
    unfold join_sides, join_calls. clear INV. induction (all_faces m) as [|x l IH]; cbn [flat_map]; [reflexivity|]. rewrite flat_map_app, IH. f_equal. unfold sides.
    destruct (conn x) as [[nt nf] o]. destruct (-1 <? nt); [|reflexivity]. destruct x. reflexivity.
  Qed.
  Lemma sides_in x z : In z (sides x) -> exists y o, is_face m y /\ conn x = (y, o) /\ sides x = [x; y] /\ (z = x \/ z = y).
  Proof.
    unfold sides. destruct (INV x) as [(y & o & _ & Y & _ & _ & E)|(E & _)].
    - rewrite E. destruct y as [nt nf]. destruct (-1 <? nt); [|intros []]. intros H. exists (nt, nf), o. split; [apply in_all_faces, Y|]. split; [reflexivity|]. split; [reflexivity|].
      destruct H as [<-|[<-|[]]]; auto.
    - rewrite E. intros [].
  Qed.
  Lemma sides_NoDup : NoDup (flat_map sides (all_faces m)).
  Proof.
    pose proof (sorted_NoDup _ (sorted_faces m)) as N. pose proof conn_entry as CE. pose proof sides_in as SI. clear INV. induction N as [|x l NX N IH]; cbn [flat_map]; [constructor|].
    destruct (sides x) as [|z r] eqn:E; [exact IH|]. destruct (SI x z) as (y & o & Y & C & S & _); [rewrite E; left; reflexivity|]. rewrite E in S. rewrite S.
    destruct (CE x y o Y C) as (X & XY & K & B & _). cbn [app].
    assert (OUT : forall u, In u (flat_map sides l) -> exists x' y' (o' : Z), In x' l /\ is_face m y' /\ is_face m x' /\ x' <> y' /\ coincide m x' y' /\ before y' x' /\ (u = x' \/ u = y')).
    { intros u U. apply in_flat_map in U. destruct U as (x' & X' & U). destruct (SI x' u U) as (y' & o' & Y' & C' & _ & D). destruct (CE x' y' o' Y' C') as (F & Q & K' & B' & _). exists x', y', o'. auto 10. }
    constructor; [|constructor; [|exact IH]].
    - intros [H|H]; [congruence|]. destruct (OUT x H) as (x' & y' & o' & X' & Y' & F & Q & K' & B' & [D|D]); subst.
      + exact (NX X').
      + assert (y = x') by (apply (CONF y' y x' X Y F); auto using coincide_sym). subst x'. exact (before_asym _ _ B B').
    - intros H. destruct (OUT y H) as (x' & y' & o' & X' & Y' & F & Q & K' & B' & [D|D]); subst.
      + assert (x = y') by (apply (CONF x' x y' F X Y'); auto using coincide_sym). subst y'. exact (before_asym _ _ B B').
      + assert (x = x') by (apply (CONF y' x x' Y' X F); auto using coincide_sym). subst x'. exact (NX X').
  Qed.

  Lemma face_at t f : is_face m (t, f) -> has_face calls t f.
  Proof. intros [T F]. exists (j_class (znth no_jtree m t)). split; [apply calls_class; split; [exact T|reflexivity]|exact F]. Qed.
  Lemma attrs_kind c : In c attrs -> exists t p k v, c = SetAttribute t p k v.
  Proof. intros H. apply (at_only _ _ _ AT) in H. destruct H as (t & p & k & v & -> & _). eauto. Qed.

  Lemma calls_mesh : mesh_calls d (zlen m) calls.
  Proof.
    assert (KA : attr_keys calls = attr_keys attrs /\ attr_bytes calls = attr_bytes attrs).
    { destruct (no_keys (class_calls m)) as [A1 A2]. { intros c H t p k v ->. apply in_map_iff in H. destruct H as (t' & E & _). discriminate. }
      destruct (no_keys (join_calls m conn)) as [A3 A4]. { intros c H t p k v ->. apply joins_only in H. destruct H as (? & ? & ? & ? & ? & E). discriminate. }
      rewrite !bytes_app, A2, A4. unfold attr_keys in *. rewrite !flat_map_app, A1, A3. cbn [app]. rewrite app_nil_r. split; [reflexivity|lia]. }
    assert (IDS : class_ids calls = zseq 0 (length m)).
    { unfold class_ids. rewrite !flat_map_app. fold (class_ids (class_calls m)) (class_ids attrs) (class_ids (join_calls m conn)). rewrite ids_class, (no_ids attrs), (no_ids (join_calls m conn)), !app_nil_r; [reflexivity| |].
      - intros c H t k ->. apply joins_only in H. destruct H as (? & ? & ? & ? & ? & E). discriminate.
      - intros c H t k ->. apply attrs_kind in H. destruct H as (? & ? & ? & ? & E). discriminate. }
    split.
    - unfold zlen. lia.
    - split.
      + intros t c H. apply calls_class in H. destruct H as (T & ->). assert (IN : In (znth no_jtree m t) m) by (unfold znth; apply nth_In; unfold zlen in T; lia).
        destruct (OK _ IN) as (C & D & _). unfold ECLASS_COUNT in C. split; [lia|]. split; [exact C|exact D].
      + rewrite IDS. apply NoDup_zseq.
      + intros t1 t2 f1 f2 o H. apply calls_join in H. destruct H as (X & Y & E). destruct (conn_entry _ _ _ Y E) as (_ & _ & _ & _ & O).
        assert (B : forall x, is_face m x -> num_corners m x <= 4). { intros x F. destruct (OK _ (tree_in m x F)) as (C & _). destruct (face_types_table _ _ C (proj2 F)) as ((_ & N) & _). exact N. }
        pose proof (B _ X). pose proof (B _ Y). destruct O as [(_ & O & _)|(_ & O & _)]; lia.
      + unfold join_sides. rewrite !flat_map_app. fold (join_sides (class_calls m)) (join_sides attrs) (join_sides (join_calls m conn)). rewrite (no_sides (class_calls m)), (no_sides attrs), sides_calls; [apply sides_NoDup| |].
        * intros c H t1 t2 f1 f2 o ->. apply attrs_kind in H. destruct H as (? & ? & ? & ? & E). discriminate.
        * intros c H t1 t2 f1 f2 o ->. apply in_map_iff in H. destruct H as (t' & E & _). discriminate.
      + intros t p k v H. apply calls_attr in H. exact (ok_attr (at_ok _ _ _ AT) H).
      + rewrite (proj1 KA). exact (ok_attr_once (at_ok _ _ _ AT)).
      + rewrite (proj2 KA). exact (ok_attr_bytes (at_ok _ _ _ AT)).
    - intros t. rewrite IDS, in_zseq. unfold zlen. lia.
    - intros t1 t2 f1 f2 o H. apply calls_join in H. destruct H as (X & Y & _). split; apply face_at; assumption.
    - intros t p k v H. apply calls_attr in H. apply (at_only _ _ _ AT) in H. destruct H as (t' & p' & k' & v' & E & T). injection E as -> _ _ _. exact T.
  Qed.
  Lemma calls_dense : attrs_dense 0 (zlen m) calls.
  Proof.
    assert (HA : forall t, has_attribute calls t <-> has_attribute attrs t). { intros t. unfold has_attribute. split; intros (p & k & v & H); exists p, k, v; apply calls_attr; exact H. }
    assert (NG : forall t, ~ ghost_tree 0 (zlen m) calls t).
    { intros t (L & l & fl & f & o & _ & J). apply L. unfold local_tree. destruct J as [J|J]; apply calls_join in J; destruct J as ((X & _) & (Y & _) & _); cbn [fst] in *; lia. }
    split; [|left; intros t G; destruct (NG t G)]. destruct (at_dense _ _ _ AT) as [A|A].
    - left. intros t L H. apply HA in H. apply (A t); [unfold local_tree in L; lia|exact H].
    - right. apply HA. replace (0 + zlen m - 1) with (zlen m - 1) by lia. exact A.
  Qed.

  Theorem committed : exists bu c, run_calls empty_building calls = Ok bu /\ commit_replicated bu = Ok c /\
    (forall x y, is_face m x -> is_face m y -> x <> y -> coincide m x y -> exists o, oriented m x y o /\
       get_face_neighbor c (fst x) (snd x) = Ok (Some (fst y, snd y, o)) /\ face_is_boundary c (fst x) (snd x) = Ok false) /\
    (forall x, is_face m x -> (forall y, is_face m y -> y <> x -> ~ coincide m x y) -> face_is_boundary c (fst x) (snd x) = Ok true).
  Proof.
    destruct (@C47_replicated_mesh_is_what_was_set d (zlen m) calls calls_mesh calls_dense) as (bu & c & R & C & (_ & NUM & _) & _ & (F1 & F2 & _ & F4)).
    exists bu, c. split; [exact R|]. split; [exact C|].
    assert (LOC : forall x, is_face m x -> local_tree 0 (zlen m) (fst x)) by (intros x [X _]; unfold local_tree; lia).
    assert (ID : forall x, is_face m x -> get_local_id c (fst x) = fst x) by (intros x X; rewrite NUM by (apply LOC, X); lia).
    assert (HALF : forall x y, is_face m x -> is_face m y -> coincide m x y -> before y x -> exists o, oriented m x y o /\ In (SetJoin (fst x) (fst y) (snd x) (snd y) o) calls).
    { intros x y X Y K B. assert (N : x <> y) by (intros ->; exact (before_irrefl y B)). destruct (INV x) as [(z & o & _ & Z & (J1 & J2 & _) & O & Q)|(_ & F)].
      - apply in_all_faces in Z. assert (z = y) by (apply (CONF x z y X Z Y); auto). subst z. exists o. split; [exact O|]. apply calls_join. destruct x, y. cbn [fst snd]. auto.
      - exfalso. apply (F y); [apply in_all_faces, X|apply in_all_faces, Y|]. split; [exact N|]. split; [exact K|right; exact B]. }
    split.
    - intros x y X Y N K. assert (J : exists o, oriented m x y o /\ CmeshSpec.joined calls (fst x) (snd x) (fst y) (snd y) o).
      { destruct (before_total x y N) as [B|B].
        - destruct (HALF y x Y X (coincide_sym _ _ _ K) B) as (o & O & J). exists o. split; [apply oriented_sym, O|right; exact J].
        - destruct (HALF x y X Y K B) as (o & O & J). exists o. split; [exact O|left; exact J]. }
      destruct J as (o & O & J). exists o. split; [exact O|]. split.
      + pose proof (F2 _ _ _ _ _ (or_introl (LOC x X)) (or_introl (LOC y Y)) J) as G. rewrite (ID x X), (ID y Y) in G. exact G.
      + pose proof (F1 _ _ _ _ _ (or_introl (LOC x X)) J) as G. rewrite (ID x X) in G. exact G.
    - intros x X NO. destruct (F4 (fst x) (snd x)) as [G _].
      + left. apply LOC, X.
      + destruct x. apply face_at, X.
      + intros t2 f2 o [J|J]; apply calls_join in J; destruct J as (A & B & E); destruct (conn_entry _ _ _ B E) as (_ & N & K & _); destruct x as [t f]; cbn [fst snd] in *.
        * exact (NO _ B (not_eq_sym N) K).
        * exact (NO _ A N (coincide_sym _ _ _ K)).
      + rewrite (ID x X) in G. exact G.
  Qed.
End Calls.

(** What the stash holds after the calls, and its ghosts, classes and numbers of attributes. *)
From Coq Require Import Permutation Sorted.
From Verif Require Import Prelude EclassModel CmeshModel CmeshSpec CmeshLib CmeshBlockProofs CmeshFinishProofs CmeshAttrProofs.

Definition classes_of (calls : list call) : list sclass := flat_map (fun c => match c with SetClass t k => [mkSclass t k] | _ => [] end) calls.
Definition joins_of (calls : list call) : list sjoin := flat_map (fun c => match c with SetJoin t1 t2 f1 f2 o => [stash_facejoin t1 t2 f1 f2 o] | _ => [] end) calls.
Definition attrs_of (calls : list call) : list sattr := flat_map (fun c => match c with SetAttribute t p k d => [mkSattr t p k d] | _ => [] end) calls.
Lemma run_calls_ok dim calls : (forall t c, In (SetClass t c) calls -> 0 <= t /\ eclass_to_dimension c = dim) -> (forall t1 t2 f1 f2 o, In (SetJoin t1 t2 f1 f2 o) calls -> 0 <= o) ->
  forall b, (b_dim b = -1 \/ b_dim b = dim) -> exists b', run_calls b calls = Ok b' /\ b_classes b' = b_classes b ++ classes_of calls /\ b_joins b' = b_joins b ++ joins_of calls /\
    b_attrs b' = b_attrs b ++ attrs_of calls /\ (b_dim b' = b_dim b \/ b_dim b' = dim) /\ (classes_of calls <> [] -> b_dim b' = dim).
Proof.
  induction calls as [|c calls IH]; intros HC HJ b Hb.
  - exists b. cbn. rewrite !app_nil_r. repeat split; auto. congruence.
  - assert (HC' : forall t k, In (SetClass t k) calls -> 0 <= t /\ eclass_to_dimension k = dim) by (intros; apply HC; now right).
    assert (HJ' : forall t1 t2 f1 f2 o, In (SetJoin t1 t2 f1 f2 o) calls -> 0 <= o) by (intros; eapply HJ; right; eassumption).
    cbn [run_calls]. destruct c as [t k|t1 t2 f1 f2 o|t p k d]; cbn [run_call].
    + destruct (HC t k (or_introl eq_refl)) as [T0 DK]. destruct (Z.ltb_spec t 0); [lia|]. replace ((b_dim b =? -1) || (eclass_to_dimension k =? b_dim b)) with true by (symmetry; apply orb_true_iff; destruct Hb; [left|right]; lia). cbn [obind].
      destruct (IH HC' HJ' (mkBuilding (eclass_to_dimension k) (b_classes b ++ [mkSclass t k]) (b_joins b) (b_attrs b))) as (b' & -> & E1 & E2 & E3 & E4 & E5); [right; exact DK|].
      exists b'. cbn in *. rewrite E1, E2, E3, <- app_assoc. repeat split; auto. { right. destruct E4; congruence. } intros _. destruct E4; congruence.
    + assert (0 <= o) by (eapply HJ; now left). destruct (Z.leb_spec 0 o); [|lia]. cbn [obind].
      destruct (IH HC' HJ' (mkBuilding (b_dim b) (b_classes b) (b_joins b ++ [stash_facejoin t1 t2 f1 f2 o]) (b_attrs b))) as (b' & -> & E1 & E2 & E3 & E4 & E5); [exact Hb|].
      exists b'. cbn in *. rewrite E1, E2, E3, <- app_assoc. repeat split; auto.
    + cbn [obind]. destruct (IH HC' HJ' (mkBuilding (b_dim b) (b_classes b) (b_joins b) (b_attrs b ++ [mkSattr t p k d]))) as (b' & -> & E1 & E2 & E3 & E4 & E5); [exact Hb|].
      exists b'. cbn in *. rewrite E1, E2, E3, <- app_assoc. repeat split; auto.
Qed.
Lemma in_classes_of calls t k : In (mkSclass t k) (classes_of calls) <-> In (SetClass t k) calls.
Proof. unfold classes_of. rewrite in_flat_map. split. - intros (c & H & E). destruct c; cbn in E; try contradiction; destruct E as [E|[]]. now injection E as <- <-. - intros H. eexists. split; [exact H|]. now left. Qed.
Lemma in_attrs_of calls t p k d : In (mkSattr t p k d) (attrs_of calls) <-> In (SetAttribute t p k d) calls.
Proof. unfold attrs_of. rewrite in_flat_map. split. - intros (c & H & E). destruct c; cbn in E; try contradiction; destruct E as [E|[]]. now injection E as <- <- <- <-. - intros H. eexists. split; [exact H|]. now left. Qed.
Lemma classes_ids calls : map k_id (classes_of calls) = class_ids calls.
Proof. unfold classes_of, class_ids, attrs_of, attr_keys. induction calls as [|c calls IH]; [reflexivity|]. destruct c; cbn; rewrite ?IH; reflexivity. Qed.
Lemma attrs_keys calls : map (fun a => (a_id a, a_pkg a, a_key a)) (attrs_of calls) = attr_keys calls.
Proof. unfold classes_of, class_ids, attrs_of, attr_keys. induction calls as [|c calls IH]; [reflexivity|]. destruct c; cbn; rewrite ?IH; reflexivity. Qed.
Lemma attrs_bytes calls : attr_bytes calls = 24 * zlen (attrs_of calls) + sumf asize (attrs_of calls).
Proof.
  induction calls as [|c calls IH]; [reflexivity|]. destruct c; cbn [attr_bytes fold_right attrs_of flat_map app]; [exact IH|exact IH|]. change (fold_right _ 0 calls) with (attr_bytes calls). rewrite IH, zlen_cons. cbn [sumf fold_right]. unfold asize at 2. cbn [a_data]. fold (attrs_of calls). unfold sumf. lia.
Qed.

(** the sides of the joined faces *)
Definition side_t : Type := (Z * Z) * (Z * Z * Z).
Definition sides_of_join (j : sjoin) : list side_t := [((j_id1 j, j_face1 j), (j_id2 j, j_face2 j, j_orient j)); ((j_id2 j, j_face2 j), (j_id1 j, j_face1 j, j_orient j))].
Definition sides (calls : list call) : list side_t := flat_map sides_of_join (joins_of calls).
Lemma sides_joined calls t1 f1 t2 f2 o : In ((t1, f1), (t2, f2, o)) (sides calls) <-> joined calls t1 f1 t2 f2 o.
Proof.
  unfold sides, joins_of, joined. rewrite in_flat_map. split.
  - intros (j & Hj & E). apply in_flat_map in Hj as (c & Hc & Ec). destruct c as [| a1 a2 b1 b2 q |]; cbn in Ec; try contradiction; destruct Ec as [<-|[]]. unfold stash_facejoin in E. destruct (a1 <=? a2); destruct E as [E|[E|[]]]; cbn in E; injection E as <- <- <- <- <-; auto.
  - intros [H|H].
    + exists (stash_facejoin t1 t2 f1 f2 o). split; [apply in_flat_map; eexists; split; [exact H|now left]|]. unfold stash_facejoin. destruct (t1 <=? t2); cbn; auto.
    + exists (stash_facejoin t2 t1 f2 f1 o). split; [apply in_flat_map; eexists; split; [exact H|now left]|]. unfold stash_facejoin. destruct (t2 <=? t1); cbn; auto.
Qed.
Lemma sides_perm calls : Permutation (map fst (sides calls)) (join_sides calls).
Proof.
  unfold sides. induction calls as [|c calls IH]; [constructor|]. destruct c as [| t1 t2 f1 f2 o |]; cbn [joins_of flat_map join_sides app]; [exact IH| |exact IH]. unfold stash_facejoin.
  destruct (t1 <=? t2); cbn; [constructor; constructor; exact IH|]. rewrite perm_swap. constructor. constructor. exact IH.
Qed.
Lemma no_self calls t f o : NoDup (join_sides calls) -> ~ joined calls t f t f o.
Proof.
  intros N H. assert (In (SetJoin t t f f o) calls) as I by (destruct H; assumption). unfold join_sides in N. apply in_split in I as (A & B & ->). rewrite flat_map_app in N. cbn in N. apply NoDup_remove_2 in N. apply N. apply in_or_app. right. now left.
Qed.
Definition nbr (P : list side_t) (t f : Z) : option (Z * Z * Z) := match find (fun s => (fst (fst s) =? t) && (snd (fst s) =? f)) P with Some s => Some (snd s) | None => None end.
Lemma nbr_none P t f : nbr P t f = None <-> ~ In (t, f) (map fst P).
Proof.
  unfold nbr. match goal with |- context [find ?p P] => destruct (find p P) as [s|] eqn:E end.
  - split; [discriminate|]. intros N. exfalso. apply N. apply find_some in E as [H1 H2]. apply in_map_iff. exists s. split; [|assumption]. destruct s as [[a b] x]. cbn in *. f_equal; lia.
  - split; [|reflexivity]. intros _ H. apply in_map_iff in H as ([[a b] x] & E2 & H). cbn in E2. injection E2 as -> ->. apply (find_none _ _ E) in H. cbn in H. lia.
Qed.
Lemma nbr_some P t f x : NoDup (map fst P) -> nbr P t f = Some x <-> In ((t, f), x) P.
Proof.
  intros N. unfold nbr. match goal with |- context [find ?p P] => destruct (find p P) as [s|] eqn:E end.
  - apply find_some in E as [H1 H2]. destruct s as [[a b] y]. cbn in H2 |- *. assert (a = t) as -> by lia. assert (b = f) as -> by lia. split; [intros K; injection K as <-; assumption|]. intros H. f_equal.
    clear H2. induction P as [|[k z] P IH]; [destruct H1|]. cbn in N. inversion N; subst. destruct H1 as [H1|H1], H as [H|H].
    + congruence.
    + injection H1 as -> ->. exfalso. apply H3. apply in_map_iff. exists ((t, f), x). auto.
    + injection H as -> ->. exfalso. apply H3. apply in_map_iff. exists ((t, f), y). auto.
    + auto.
  - split; [discriminate|]. intros H. apply (find_none _ _ E) in H. cbn in H. lia.
Qed.
Lemma nbr_snoc P t f s : nbr (P ++ [s]) t f = match nbr P t f with Some x => Some x | None => if (fst (fst s) =? t) && (snd (fst s) =? f) then Some (snd s) else None end.
Proof. unfold nbr. induction P as [|q P IH]; cbn; [destruct ((fst (fst s) =? t) && (snd (fst s) =? f)); reflexivity|]. destruct ((fst (fst q) =? t) && (snd (fst q) =? f)); [reflexivity|exact IH]. Qed.

(** the ghosts *)
Lemma local_spec first n id : local first n id = true <-> local_tree first n id.
Proof. unfold local, local_tree. rewrite andb_true_iff. lia. Qed.
Definition ghost_by (first n : Z) (j : sjoin) (id : Z) : Prop := ~ local_tree first n id /\ ((id = j_id1 j /\ local_tree first n (j_id2 j)) \/ (id = j_id2 j /\ local_tree first n (j_id1 j))).
Lemma ghost_step_ok first n acc j : NoDup acc -> NoDup (ghost_step first n acc j) /\ forall id, In id (ghost_step first n acc j) <-> In id acc \/ ghost_by first n j id.
Proof.
  intros N. unfold ghost_step, ghost_by. assert (E1 := local_spec first n (j_id1 j)). assert (E2 := local_spec first n (j_id2 j)).
  destruct (local first n (j_id1 j)), (local first n (j_id2 j)); cbn [orb].
  - split; [assumption|]. intros id. split; [tauto|]. intros [H|(H1 & [[-> H]|[-> H]])]; [assumption| |]; exfalso; apply H1; [now apply E1|now apply E2].
  - split; [now apply insert_unique_nodup|]. intros id. rewrite insert_unique_in. assert (~ local_tree first n (j_id2 j)) by (intros K; apply E2 in K; discriminate). assert (local_tree first n (j_id1 j)) by now apply E1. split.
    + intros [->|H1]; [right; split; auto|auto].
    + intros [H1|(H1 & [[-> H2]|[-> H2]])]; [auto|tauto|auto].
  - split; [now apply insert_unique_nodup|]. intros id. rewrite insert_unique_in. assert (~ local_tree first n (j_id1 j)) by (intros K; apply E1 in K; discriminate). assert (local_tree first n (j_id2 j)) by now apply E2. split.
    + intros [->|H1]; [right; split; auto|auto].
    + intros [H1|(H1 & [[-> H2]|[-> H2]])]; [auto|auto|tauto].
  - split; [assumption|]. intros id. split; [tauto|]. intros [H|(H1 & [[-> H]|[-> H]])]; [assumption| |]; exfalso; [apply E2 in H|apply E1 in H]; discriminate.
Qed.
Lemma ghost_fold_ok first n J : forall acc, NoDup acc -> NoDup (fold_left (ghost_step first n) J acc) /\
  forall id, In id (fold_left (ghost_step first n) J acc) <-> In id acc \/ exists j, In j J /\ ghost_by first n j id.
Proof.
  induction J as [|j J IH]; intros acc N; cbn [fold_left].
  - split; [assumption|]. intros id. split; [auto|]. intros [H|(j & [] & _)]. assumption.
  - destruct (@ghost_step_ok first n acc j N) as [N1 I1]. destruct (IH _ N1) as [N2 I2]. split; [assumption|]. intros id. rewrite I2, I1. split.
    + intros [[H|H]|(q & H1 & H2)]; [auto|right; exists j; split; [now left|assumption]|right; exists q; split; [now right|assumption]].
    + intros [H|(q & [->|H1] & H2)]; [auto|auto|right; exists q; auto].
Qed.
Definition ghosts_of (first n : Z) (calls : list call) : list Z := fold_left (ghost_step first n) (joins_of calls) [].
Lemma ghosts_nodup first n calls : NoDup (ghosts_of first n calls).
Proof. apply ghost_fold_ok. constructor. Qed.
Lemma ghosts_in first n calls id : In id (ghosts_of first n calls) <-> ghost_tree first n calls id.
Proof.
  unfold ghosts_of. rewrite (proj2 (@ghost_fold_ok first n (joins_of calls) [] (NoDup_nil _))). unfold ghost_tree, ghost_by. split.
  - intros [[]|(j & Hj & N & H)]. split; [assumption|]. destruct H as [[-> L]|[-> L]].
    + exists (j_id2 j), (j_face2 j), (j_face1 j), (j_orient j). split; [assumption|]. apply sides_joined. apply in_flat_map. exists j. split; [assumption|]. right. now left.
    + exists (j_id1 j), (j_face1 j), (j_face2 j), (j_orient j). split; [assumption|]. apply sides_joined. apply in_flat_map. exists j. split; [assumption|]. now left.
  - intros [N (l & fl & f & o & L & H)]. right. apply sides_joined in H. apply in_flat_map in H as (j & Hj & [E|[E|[]]]); injection E; intros; subst; exists j; split; auto.
Qed.

(** the classes *)
Definition cls (P : list sclass) (id : Z) : option Z := match find (fun k => k_id k =? id) P with Some k => Some (k_class k) | None => None end.
Lemma cls_none P id : cls P id = None <-> ~ In id (map k_id P).
Proof.
  unfold cls. destruct (find _ P) as [k|] eqn:E.
  - split; [discriminate|]. intros N. exfalso. apply N. apply find_some in E as [H1 H2]. apply in_map_iff. exists k. split; [lia|assumption].
  - split; [|reflexivity]. intros _ H. apply in_map_iff in H as (k & <- & H). apply (find_none _ _ E) in H. lia.
Qed.
Lemma cls_some P id c : NoDup (map k_id P) -> In (mkSclass id c) P -> cls P id = Some c.
Proof.
  intros N H. unfold cls. induction P as [|[k z] P IH]; [destruct H|]. cbn in *. inversion N; subst. destruct H as [H|H].
  - injection H as -> ->. now rewrite Z.eqb_refl.
  - destruct (Z.eqb_spec k id) as [->|D]; [exfalso; apply H2; apply in_map_iff; exists (mkSclass id c); auto|]. auto.
Qed.
Lemma cls_snoc P id k : cls (P ++ [k]) id = match cls P id with Some x => Some x | None => if k_id k =? id then Some (k_class k) else None end.
Proof. unfold cls. induction P as [|q P IH]; cbn; [destruct (k_id k =? id); reflexivity|]. destruct (k_id q =? id); [reflexivity|exact IH]. Qed.

Definition mk_known (id : Z) (o : option Z) : ctree := match o with Some c => mkCtree id c 0 0 0 [] [] | None => zero_tree end.
Section classes.
Variables first n g : Z.
Variable ids : list Z.
Hypothesis g_len : g = zlen ids.
Hypothesis ids_nodup : NoDup ids.
Hypothesis ids_other : forall id, In id ids -> ~ local_tree first n id.
Definition TC (P : list sclass) (i : Z) : ctree := mk_known i (cls P (first + i)).
Definition GC (P : list sclass) (i : Z) : ctree := mk_known (znth 0 ids i) (cls P (znth 0 ids i)).
Definition tbl (P : list sclass) : list (Z * Z) := flat_map (fun k => if local first n (k_id k) then [] else match index_of (k_id k) ids with Some i => [(k_id k, i + n)] | None => [] end) P.
Lemma tbl_snoc P k : tbl (P ++ [k]) = tbl P ++ (if local first n (k_id k) then [] else match index_of (k_id k) ids with Some i => [(k_id k, i + n)] | None => [] end).
Proof. unfold tbl. rewrite flat_map_app. cbn. now rewrite app_nil_r. Qed.
Lemma add_tree_tab (F : Z -> ctree) N i id c : 0 <= i < N -> F i = zero_tree -> add_tree (tab F N) i id c = Ok (tab (upd F i (mkCtree id c 0 0 0 [] [])) N).
Proof. intros H E. unfold add_tree. rewrite lget_tab by assumption. cbn [obind]. rewrite E. cbn. now apply lset_tab. Qed.
Lemma nth_in_ids i : 0 <= i < g -> In (znth 0 ids i) ids.
Proof. intros H. rewrite g_len in H. unfold znth, zlen in *. apply nth_In. lia. Qed.
Lemma class_loop_ok : forall Q P, NoDup (map k_id (P ++ Q)) -> class_loop first n ids (tab (TC P) n, tab (GC P) g, tbl P) Q = Ok (tab (TC (P ++ Q)) n, tab (GC (P ++ Q)) g, tbl (P ++ Q)).
Proof.
  intros Q. induction Q as [|k Q IH]; intros P N; [rewrite app_nil_r; reflexivity|]. cbn [class_loop].
  assert (F : cls P (k_id k) = None). { apply cls_none. rewrite map_app in N. cbn in N. apply NoDup_remove_2 in N. intros H. apply N. apply in_or_app. now left. }
  assert (STEP : class_step first n ids (tab (TC P) n, tab (GC P) g, tbl P) k = Ok (tab (TC (P ++ [k])) n, tab (GC (P ++ [k])) g, tbl (P ++ [k]))).
  { unfold class_step. rewrite tbl_snoc. assert (LS := local_spec first n (k_id k)). destruct (local first n (k_id k)) eqn:L.
    - assert (LT : local_tree first n (k_id k)) by now apply LS. unfold local_tree in LT. rewrite add_tree_tab by (try lia; unfold TC; replace (first + (k_id k - first)) with (k_id k) by lia; now rewrite F). cbn [obind]. rewrite app_nil_r. f_equal. f_equal. f_equal.
      + apply tab_ext. intros i Hi. unfold upd, TC. rewrite cls_snoc. destruct (Z.eqb_spec i (k_id k - first)) as [->|D].
        * replace (first + (k_id k - first)) with (k_id k) by lia. rewrite F, Z.eqb_refl. reflexivity.
        * destruct (Z.eqb_spec (k_id k) (first + i)); [lia|]. now destruct (cls P (first + i)).
      + apply tab_ext. intros i Hi. unfold GC. rewrite cls_snoc. destruct (Z.eqb_spec (k_id k) (znth 0 ids i)) as [E|D]; [|now destruct (cls P (znth 0 ids i))].
        exfalso. apply (ids_other (nth_in_ids Hi)). now rewrite <- E.
    - assert (NL : ~ local_tree first n (k_id k)) by (intros K; apply LS in K; discriminate).
      assert (TE : tab (TC P) n = tab (TC (P ++ [k])) n). { apply tab_ext. intros i Hi. unfold TC. rewrite cls_snoc. destruct (Z.eqb_spec (k_id k) (first + i)) as [E|D]; [|now destruct (cls P (first + i))]. exfalso. apply NL. unfold local_tree. lia. }
      destruct (index_of (k_id k) ids) as [j|] eqn:J.
      + apply index_of_some in J as [J1 J2]. rewrite add_tree_tab by (try lia; unfold GC; rewrite J2, F; reflexivity). cbn [obind]. f_equal. rewrite TE. f_equal. f_equal.
        apply tab_ext. intros i Hi. unfold upd, GC. rewrite cls_snoc. destruct (Z.eqb_spec i j) as [->|D]; [rewrite J2, F, Z.eqb_refl; reflexivity|].
        destruct (Z.eqb_spec (k_id k) (znth 0 ids i)) as [E|D2]; [|now destruct (cls P (znth 0 ids i))]. exfalso. apply D. rewrite <- J2 in E. unfold znth, zlen in *. apply (proj1 (NoDup_nth ids 0) ids_nodup) in E; lia.
      + apply index_of_none in J. rewrite app_nil_r, <- TE. f_equal. f_equal. f_equal. apply tab_ext. intros i Hi. unfold GC. rewrite cls_snoc. destruct (Z.eqb_spec (k_id k) (znth 0 ids i)) as [E|D]; [|now destruct (cls P (znth 0 ids i))].
        exfalso. apply J. rewrite E. now apply nth_in_ids. }
  rewrite STEP. cbn [obind]. rewrite IH; [now rewrite <- app_assoc|]. now rewrite <- app_assoc.
Qed.
Lemma tbl_find P id i : NoDup (map k_id P) -> In id (map k_id P) -> index_of id ids = Some i -> find (fun p => fst p =? id) (tbl P) = Some (id, i + n).
Proof.
  intros N H J. assert (NL : local first n id = false). { destruct (local first n id) eqn:L; [|reflexivity]. exfalso. apply local_spec in L. apply (@ids_other id); [|assumption]. apply index_of_some in J as [J1 <-]. apply nth_in_ids. lia. }
  induction P as [|k P IH]; [destruct H|]. cbn in N. inversion N; subst. cbn [tbl flat_map]. fold (tbl P). destruct H as [<-|H].
  - rewrite NL, J. cbn. now rewrite Z.eqb_refl.
  - assert (k_id k <> id) by (intros E; apply H2; now rewrite E). specialize (IH H3 H). destruct (local first n (k_id k)); [exact IH|]. destruct (index_of (k_id k) ids); [|exact IH]. cbn. destruct (Z.eqb_spec (k_id k) id); [congruence|]. exact IH.
Qed.
Lemma tbl_find_none P id : ~ In id ids -> find (fun p => fst p =? id) (tbl P) = None.
Proof.
  intros J. induction P as [|k P IH]; [reflexivity|]. cbn [tbl flat_map]. fold (tbl P). destruct (local first n (k_id k)); [exact IH|]. destruct (index_of (k_id k) ids) as [i|] eqn:E; [|exact IH]. cbn.
  destruct (Z.eqb_spec (k_id k) id) as [E2|]; [|exact IH]. exfalso. apply J. apply index_of_some in E as [E3 E4]. rewrite <- E2, <- E4. apply nth_in_ids. lia.
Qed.

(** the numbers of attributes *)
Definition counted (F : Z -> ctree) (gid : Z -> Z) (P : list sattr) (i : Z) : ctree :=
  let t := F i in mkCtree (t_id t) (t_class t) (t_neigh t) (t_att t + sumf asize (filter (same (gid i)) P)) (t_natt t + num (same (gid i)) P) (t_faces t) (t_ttf t).
Lemma counted_other F gid P a i : gid i <> a_id a -> counted F gid (P ++ [a]) i = counted F gid P i.
Proof. intros D. unfold counted. rewrite filter_snoc, num_snoc. unfold same at 2 4. destruct (Z.eqb_spec (a_id a) (gid i)); [congruence|]. rewrite app_nil_r, Z.add_0_r. reflexivity. Qed.
Lemma count_attr_tab F gid P a N i : 0 <= i < N -> gid i = a_id a -> (forall j, 0 <= j < N -> gid j = gid i -> j = i) ->
  count_attr (tab (counted F gid P) N) i a = Ok (tab (counted F gid (P ++ [a])) N).
Proof.
  intros H E U. unfold count_attr. rewrite lget_tab by assumption. cbn [obind]. rewrite lset_tab by assumption. f_equal. apply tab_ext. intros j Hj. unfold upd. destruct (Z.eqb_spec j i) as [->|D].
  - unfold counted. cbn [t_id t_class t_neigh t_att t_natt t_faces t_ttf]. rewrite filter_snoc, num_snoc. unfold same at 4 6. rewrite E, Z.eqb_refl, sumf_app. cbn. change (zlen (a_data a)) with (asize a). f_equal; lia.
  - symmetry. apply counted_other. intros E2. apply D. apply U; [assumption|congruence].
Qed.
Lemma ids_inj i j : 0 <= i < g -> 0 <= j < g -> znth 0 ids i = znth 0 ids j -> i = j.
Proof. intros Hi Hj E. rewrite g_len in *. unfold znth, zlen in *. apply (proj1 (NoDup_nth ids 0) ids_nodup) in E; lia. Qed.
Lemma count_loop_ok T G : forall Q P, count_loop first n ids (tab (counted T (fun i => first + i) P) n, tab (counted G (znth 0 ids) P) g) Q =
  Ok (tab (counted T (fun i => first + i) (P ++ Q)) n, tab (counted G (znth 0 ids) (P ++ Q)) g).
Proof.
  intros Q. induction Q as [|a Q IH]; intros P; [rewrite app_nil_r; reflexivity|]. cbn [count_loop].
  assert (STEP : count_step first n ids (tab (counted T (fun i => first + i) P) n, tab (counted G (znth 0 ids) P) g) a = Ok (tab (counted T (fun i => first + i) (P ++ [a])) n, tab (counted G (znth 0 ids) (P ++ [a])) g)).
  { unfold count_step. destruct ((first <=? a_id a) && (a_id a <? first + n)) eqn:L.
    - rewrite count_attr_tab by (intros; lia). cbn [obind]. f_equal. f_equal. apply tab_ext. intros i Hi. symmetry. apply counted_other. intros E. apply (ids_other (nth_in_ids Hi)). rewrite E. unfold local_tree. lia.
    - assert (TE : tab (counted T (fun i => first + i) P) n = tab (counted T (fun i => first + i) (P ++ [a])) n) by (apply tab_ext; intros i Hi; symmetry; apply counted_other; lia).
      destruct (index_of (a_id a) ids) as [j|] eqn:J.
      + apply index_of_some in J as [J1 J2]. rewrite count_attr_tab; [cbn [obind]; now rewrite TE|lia|assumption|]. intros i Hi E. apply ids_inj; [assumption|lia|assumption].
      + apply index_of_none in J. rewrite <- TE. f_equal. f_equal. apply tab_ext. intros i Hi. symmetry. apply counted_other. intros E. apply J. rewrite <- E. now apply nth_in_ids. }
  rewrite STEP. cbn [obind]. rewrite IH. now rewrite <- app_assoc.
Qed.
End classes.

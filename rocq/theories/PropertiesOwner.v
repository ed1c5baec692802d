(** Properties C29, C41: the owner search of a forest and the tables it uses.  Vocabulary: SchemeSpec.v, PartitionSpec.v, OffsetSpec.v,
    OwnerSpec.v. *)
From Verif Require Import Prelude PathSpec LineModel SchemeModel SchemeSpec SchemeProofs SchemeOrderProofs SchemeInstances ExampleLine LeafProofs.
From Verif Require Import OffsetSpec PartitionModel PartitionSpec OwnerModel OwnerSpec OwnerProofs OwnerMainProofs.

(** C41: the tree table of every distributed forest is valid, and rank p owns tree t in it iff rank p stores a leaf of t *)
Theorem C41_tree_table : forall cls P K ml (lv : forall t, list (elt (cls t))) (loc : Z -> list (leaf cls)),
  distributed P K ml lv loc ->
  exists to, create_tree_offsets P K ml loc = Ok to /\ valid_table P K to /\
    forall p t, 0 <= p < P -> (owns to p t <-> has_tree loc p t).
Proof.
  intros cls P K ml lv loc F. destruct (tree_offsets_ok F) as (to & E & _). exists to. exact (conj E (table_main F E)).
Qed.
Print Assumptions C41_tree_table.

(** C41: the entry of a rank without leaves in the table of first descendants is 0, of any other rank the number, among the elements of
    level ml of the tree, of the first one inside the rank's first leaf *)
Theorem C41_first_descendants : forall cls P K ml (lv : forall t, list (elt (cls t))) (loc : Z -> list (leaf cls)),
  distributed P K ml lv loc ->
  zlen (create_first_desc P ml loc) = P /\
  forall p, 0 <= p < P -> match loc p with
    | [] => znth 0 (create_first_desc P ml loc) p = 0
    | existT _ t e :: _ => exists x, valid x /\ s_level x = ml /\ below e x /\ znth 0 (create_first_desc P ml loc) p = s_linear_id x ml /\
        forall y, valid y -> s_level y = ml -> below e y -> s_linear_id x ml <= s_linear_id y ml
    end.
Proof.
  intros cls P K ml lv loc F. split; [exact (first_desc_len F)|]. intros p Hp.
  assert (E : znth 0 (create_first_desc P ml loc) p = local_first_desc ml (loc p)).
  { unfold znth, create_first_desc. assert (Q := nth_tab F (fun p => local_first_desc ml (loc p)) 0 (p := p) ltac:(lia)). rewrite app_nth1 in Q by (rewrite map_length, zseq_length; lia). rewrite Q. destruct (Z.eqb_spec p P); [lia|reflexivity]. }
  destruct (loc_cases F Hp) as [[E0 _]|(t & e & r & E1 & _ & _ & _ & Ht & I)]; [rewrite E, E0; reflexivity|]. rewrite E, E1. destruct (F_tree F Ht) as (LW & HM & [V _] & L). rewrite Forall_forall in V, L. specialize (V e I). specialize (L e I). cbn beta in L.
  destruct (first_desc_lo LW (e := e) (L := ml)) as (V1 & L1 & Lo & B); [assumption|lia|]. exists (s_first_desc e ml). split; [exact V1|]. split; [exact L1|]. split; [exact B|]. split; [reflexivity|].
  intros y Vy Ly By. exact (inside_le LW HM Vy Ly By).
Qed.
Print Assumptions C41_first_descendants.

(** C41 fails for a forest with incomplete trees: with an empty rank between two ranks that share a tree, the rank above does not notice
    that the tree is shared, and the table says that the rank below has no tree although it stores a leaf of it *)
Theorem C41_incomplete_refuted : exists (loc : Z -> list (leaf (fun _ => line_scheme))) to,
  create_tree_offsets_incomplete 3 1 loc = Ok to /\ has_tree loc 0 0 /\ ~ owns to 0 0.
Proof.
  exists (fun p => if p =? 0 then [existT _ 0 (ln [0])] else if p =? 1 then [] else [existT _ 0 (ln [1; 0])]), [0; 0; 0; 1].
  split; [vm_compute; reflexivity|]. split; [exists (ln [0]); left; reflexivity|]. unfold owns. cbn. exact (fun H => Z.lt_irrefl 0 (Z.le_lt_trans 0 0 0 (proj1 H) (proj2 H))).
Qed.
Print Assumptions C41_incomplete_refuted.

(** C29: for every distributed forest, every element e of every tree (with a level at most ml) and bounds that contain the owner, the
    search ends and returns the rank that stores the leaf containing the first descendant of e of level ml, in debug and release builds;
    [x] is what the memory after the table of first descendants contains *)
Theorem C29_find_owner_ext_partial : forall cls P K ml (lv : forall t, list (elt (cls t))) (loc : Z -> list (leaf cls)) to t (e : elt (cls t)) p x,
  distributed P K ml lv loc -> create_tree_offsets P K ml loc = Ok to -> valid e -> s_level e <= ml ->
  0 <= p < P -> stores loc p t (s_first_desc e ml) ->
  forall debug lower upper guess, 0 <= lower -> lower <= p <= upper -> upper < P -> lower <= guess <= upper ->
  find_owner_ext debug P ml (element_offsets P loc) to (create_first_desc P ml loc ++ [x]) e lower upper guess false = Ok p.
Proof.
  intros cls P K ml lv loc to t e p x F E V L Hp St debug lower upper guess H1 H2 H3 H4.
  exact (proj2 (owner_main F [x] (is_desc := false) E V L ltac:(discriminate) eq_refl Hp St) lower upper guess debug ltac:(discriminate) H1 H2 H3 H4).
Qed.
Print Assumptions C29_find_owner_ext_partial.
(** C29: the same with is_desc for an element that is its own first descendant *)
Theorem C29_find_owner_desc_partial : forall cls P K ml (lv : forall t, list (elt (cls t))) (loc : Z -> list (leaf cls)) to t (e : elt (cls t)) p x,
  distributed P K ml lv loc -> create_tree_offsets P K ml loc = Ok to -> valid e -> s_level e = ml ->
  0 <= p < P -> stores loc p t e ->
  forall debug lower upper guess, 0 <= lower -> lower <= p <= upper -> upper < P -> lower <= guess <= upper ->
  find_owner_ext debug P ml (element_offsets P loc) to (create_first_desc P ml loc ++ [x]) e lower upper guess true = Ok p.
Proof.
  intros cls P K ml lv loc to t e p x F E V L Hp St debug lower upper guess H1 H2 H3 H4.
  exact (proj2 (owner_main F [x] (is_desc := true) E V (Z.eq_le_incl _ _ L) (fun _ => L) eq_refl Hp St) lower upper guess debug ltac:(discriminate) H1 H2 H3 H4).
Qed.
Print Assumptions C29_find_owner_desc_partial.
(** C29: the public search: for every element there is exactly one rank that stores the leaf with its first descendant, and it is the
    answer; in particular the owner of a leaf is the rank that stores the leaf *)
Theorem C29_find_owner_partial : forall cls P K ml (lv : forall t, list (elt (cls t))) (loc : Z -> list (leaf cls)) to t (e : elt (cls t)) x,
  distributed P K ml lv loc -> create_tree_offsets P K ml loc = Ok to -> 0 <= t < K -> valid e -> s_level e <= ml ->
  exists p, 0 <= p < P /\ stores loc p t (s_first_desc e ml) /\ (forall q, 0 <= q < P -> stores loc q t (s_first_desc e ml) -> q = p) /\
    (forall q, 0 <= q < P -> In (existT _ t e) (loc q) -> q = p) /\
    forall debug, find_owner debug P ml (element_offsets P loc) to (create_first_desc P ml loc ++ [x]) e = Ok p.
Proof.
  intros cls P K ml lv loc to t e x F E Ht V L. destruct (F_tree F Ht) as (LW & HM & _). destruct (first_desc_lo LW (e := e) (L := ml)) as (V1 & L1 & _ & B); [assumption|lia|].
  destruct (stores_exists F Ht V1 L1) as (p & Hp & St). exists p. split; [exact Hp|]. split; [exact St|].
  assert (A : forall q, 0 <= q < P -> stores loc q t (s_first_desc e ml) -> forall debug, find_owner debug P ml (element_offsets P loc) to (create_first_desc P ml loc ++ [x]) e = Ok q).
  { intros q Hq Sq debug. apply (@C29_find_owner_ext_partial cls P K ml lv loc to t e q x F E V L Hq Sq); lia. }
  assert (U : forall q, 0 <= q < P -> stores loc q t (s_first_desc e ml) -> q = p) by (intros q Hq Sq; assert (A1 := A q Hq Sq false); rewrite (A p Hp St false) in A1; congruence).
  split; [exact U|]. split; [|exact (A p Hp St)]. intros q Hq I. apply U; [exact Hq|]. exact (ex_intro _ e (conj I B)).
Qed.
Print Assumptions C29_find_owner_partial.
(** C29: t8_forest_element_check_owner, on the tables as they are: true iff the rank stores the leaf with the first descendant *)
Theorem C29_check_owner : forall cls P K ml (lv : forall t, list (elt (cls t))) (loc : Z -> list (leaf cls)) to t (e : elt (cls t)) rank,
  distributed P K ml lv loc -> create_tree_offsets P K ml loc = Ok to -> 0 <= t < K -> valid e -> s_level e <= ml -> 0 <= rank < P ->
  exists b, check_owner P ml to (create_first_desc P ml loc) e rank false = Ok b /\ (b = true <-> stores loc rank t (s_first_desc e ml)).
Proof.
  intros cls P K ml lv loc to t e rank F E Ht V L Hr. destruct (@C29_find_owner_partial cls P K ml lv loc to t e 0 F E Ht V L) as (p & Hp & St & U & _ & _).
  exists (rank =? p). assert (C := proj1 (owner_main F [] (is_desc := false) E V L ltac:(discriminate) eq_refl Hp St) rank Hr). rewrite app_nil_r in C. split; [exact C|].
  rewrite Z.eqb_eq. split; [intros ->; exact St|exact (U rank Hr)].
Qed.
Print Assumptions C29_check_owner.

(** ** example: two trees of lines, six leaves, on five ranks of which the ranks 0 and 3 have none *)
Definition ex_lv (t : Z) : list (elt line_scheme) := if t =? 0 then map ln [[0]; [1; 0]; [1; 1]] else map ln [[0; 0]; [0; 1]; [1]].
Definition ex_loc (p : Z) : list (leaf (fun _ => line_scheme)) :=
  let m t ps := map (fun q => existT (fun _ => elt line_scheme) t (ln q)) ps in
  if p =? 1 then m 0 [[0]; [1; 0]] else if p =? 2 then m 0 [[1; 1]] ++ m 1 [[0; 0]] else if p =? 4 then m 1 [[0; 1]; [1]] else [].

Lemma split_region ps p qs : gpath line_scheme p -> zlen p < 30 -> region (map ln (ps ++ [p ++ [0]; p ++ [1]] ++ qs)) = region (map ln (ps ++ [p] ++ qs)).
Proof.
  intros Hp HL. rewrite !map_app, !(region_app (S := line_scheme)). f_equal. f_equal. cbn [map]. rewrite region_one.
  rewrite <- (cells_children line_laws (e := ln p)) by (try (now apply valid_walk); unfold ln; rewrite (law_level line_laws Hp); exact HL).
  f_equal. unfold s_children, ln. rewrite !gwalk_snoc. reflexivity.
Qed.
Lemma ex_covers t : 0 <= t < 2 -> covers (ex_lv t).
Proof.
  intros Ht. assert (P0 : forall p, forallb (fun i => (0 <=? i) && (i <? 2)) p && (zlen p <=? 30) = true -> gpath line_scheme p) by exact ln_path.
  assert (R : region (map ln [[0]; [1]]) = cells (s_root line_scheme)).
  { assert (Q := @split_region [] [] [] (gp_nil _) ltac:(reflexivity)). cbn [app] in Q. rewrite Q. cbn [map]. rewrite region_one. reflexivity. }
  unfold ex_lv. destruct (t =? 0); split.
  1,3: apply Forall_forall; intros x Hx; apply in_map_iff in Hx; destruct Hx as (q & <- & Hq); apply valid_walk, P0; cbn [In] in Hq; destruct Hq as [<-|[<-|[<-|[]]]]; reflexivity.
  - rewrite <- R. exact (@split_region [[0]] [1] [] (P0 [1] eq_refl) ltac:(reflexivity)).
  - rewrite <- R. exact (@split_region [] [0] [[1]] (P0 [0] eq_refl) ltac:(reflexivity)).
Qed.
Example ex_distributed : distributed (cls := fun _ => line_scheme) 5 2 30 ex_lv ex_loc.
Proof.
  split; [lia|]. split; [lia|]. split; [|reflexivity]. intros t Ht. split; [exact line_laws|]. split; [split; vm_compute; discriminate|]. split; [exact (ex_covers Ht)|].
  unfold ex_lv. destruct (t =? 0); repeat constructor; vm_compute; discriminate.
Qed.
Example ex_owner : exists to, create_tree_offsets 5 2 30 ex_loc = Ok to /\ to = [0; 0; -1; 2; -2; 2] /\
  create_first_desc 5 30 ex_loc = [0; 0; 805306368; 0; 268435456] /\ element_offsets 5 ex_loc = [0; 0; 2; 4; 4; 6] /\
  find_owner (cls := fun _ => line_scheme) (gtree := 0) true 5 30 [0; 0; 2; 4; 4; 6] to [0; 0; 805306368; 0; 268435456; 7] (ln [1; 1; 0]) = Ok 2 /\
  find_owner (cls := fun _ => line_scheme) (gtree := 1) true 5 30 [0; 0; 2; 4; 4; 6] to [0; 0; 805306368; 0; 268435456; 7] (ln [1; 0]) = Ok 4.
Proof. exists [0; 0; -1; 2; -2; 2]. vm_compute. auto 10. Qed.
(** C29 as stated is false: to find the owner of an element of the last rank with leaves, the search reads one entry past the end of the
    table of first descendants (the value is not used) *)
Theorem C29_reads_inside_refuted : exists P K ml (lv : forall t : Z, list (elt line_scheme)) (loc : Z -> list (leaf (fun _ => line_scheme))) to t (e : elt line_scheme),
  distributed (cls := fun _ => line_scheme) P K ml lv loc /\ create_tree_offsets P K ml loc = Ok to /\ 0 <= t < K /\ valid e /\ s_level e <= ml /\
  find_owner (cls := fun _ => line_scheme) (gtree := t) false P ml (element_offsets P loc) to (create_first_desc P ml loc) e = Oob.
Proof.
  exists 5, 2, 30, ex_lv, ex_loc, [0; 0; -1; 2; -2; 2], 1, (ln [1; 0]). split; [exact ex_distributed|]. split; [vm_compute; reflexivity|]. split; [lia|].
  split; [apply valid_walk, ln_path; reflexivity|]. split; [vm_compute; discriminate|]. vm_compute. exact eq_refl.
Qed.
Print Assumptions C29_reads_inside_refuted.

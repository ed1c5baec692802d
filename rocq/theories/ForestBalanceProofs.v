(** Which leaves a round of balance refines. *)
From Coq Require Import Sorting.Sorted.
From Verif Require Import Prelude PathSpec SchemeModel SchemeSpec SchemeProofs SchemeOrderProofs LeafModel LeafSpec LeafProofs PartitionModel PartitionSpec.
From Verif Require Import OwnerModel OwnerSpec OwnerMainProofs FaceModel FaceSpec FaceProofs GhostModel GhostSpec GhostOwnerProofs GhostSearchProofs PropertiesGhost.
From Verif Require Import LfnModel LfnProofs ForestBalanceModel ForestBalanceSpec.
Set Implicit Arguments.

Section tree.
Variable S : scheme.
Hypothesis LW : laws S.
Notation elt := (elt S).
Notation M := (s_maxlevel S).
Variable ml : Z.
Hypothesis Hml : 0 <= ml <= M.
Implicit Types (x d : elt).

Lemma last_desc_hi x : valid x -> s_level x <= ml -> valid (s_last_desc x ml) /\ s_level (s_last_desc x ml) = ml /\ hi (s_last_desc x ml) = hi x.
Proof.
  intros V L. assert (Vx := V). destruct V as (p & Hp & ->). rewrite (law_level LW Hp) in L. destruct (law_last_desc LW Hp (L := ml) ltac:(lia)) as (pre & E). set (y := s_last_desc (gwalk S p) ml) in *. set (n := Z.to_nat (ml - zlen p)) in *.
  assert (HL : s_level (gwalk S p) + Z.of_nat n <= M) by (rewrite (law_level LW Hp); lia).
  assert (I : In y (descend n (gwalk S p))) by (rewrite E; apply in_or_app; right; now left).
  destruct (descend_in_inv Hp (n := n) (c := y) ltac:(lia) I) as (r & Hr & Er & Lr). assert (Vy : valid y) by (exists (p ++ r); auto). split; [exact Vy|].
  split; [rewrite Lr, (law_level LW Hr), zlen_app; unfold zlen in *; lia|].
  assert (R := region_descend LW Vx HL). rewrite E, region_app, region_one in R. assert (C := cells_ids LW Vx). rewrite <- R, map_app in C.
  apply (f_equal (skipn (length (map (@cell_id S) (region pre))))) in C. rewrite skipn_app, skipn_all, Nat.sub_diag in C. cbn [skipn app] in C. rewrite app_length in C.
  rewrite (cells_ids LW Vy) in C. unfold hi. rewrite <- R, app_length.
  assert (Z1 : forall a n k, skipn k (zseq a n) = zseq (a + Z.of_nat k) (n - k)).
  { clear. intros a n k. revert a n. induction k as [|k IH]; intros a n; [cbn [skipn]; rewrite Nat.sub_0_r; f_equal; lia|]. destruct n as [|n]; [reflexivity|]. cbn [zseq skipn]. rewrite IH. f_equal; lia. }
  rewrite Z1, map_length in C. apply zseq_inj_start in C; [|apply (cells_nonempty LW Vy)]. lia.
Qed.
Lemma id_lo x d : valid x -> valid d -> s_level x <= ml -> (s_linear_id x ml <= s_linear_id d ml <-> lo x <= lo d).
Proof.
  intros Vx Vd L. destruct (first_desc_lo LW Vx (L := ml) ltac:(lia)) as (V1 & L1 & E1 & _). assert (E : s_linear_id x ml = s_linear_id (s_first_desc x ml) ml).
  { destruct Vx as (p & Hp & ->). rewrite (law_level LW Hp) in L. apply (law_linear_id_fine LW Hp). lia. }
  rewrite E. assert (Q := id_ge LW Vd V1). rewrite L1, E1 in Q. exact Q.
Qed.
End tree.

Section forest.
Variable cls : Z -> scheme.
Notation leaf := {t : Z & elt (cls t)}.
Notation el t e := (existT (fun s => elt (cls s)) t e).

(** ** the search in one array *)
Lemma array_desc_ok t (ls : list (elt (cls t))) x ml : laws (cls t) -> 0 <= ml <= s_maxlevel (cls t) -> ordered ls -> ls <> [] -> valid x -> s_level x <= ml ->
  exists o, array_desc ml ls x = Ok o /\ (o = None -> forall d, In d ls -> below x d -> s_level d <= s_level x) /\
    forall d, o = Some d -> In d ls /\ below x d /\ s_level x < s_level d.
Proof.
  intros LW ML OL NE V L. destruct (last_desc_hi LW ML V L) as (Vy & Ly & Hy). unfold array_desc. set (y := s_last_desc x ml) in *.
  destruct (lower_spec LW (s_linear_id y ml) OL NE ML) as (r & E & C). rewrite E. cbn [obind].
  assert (LE : forall d, In d ls -> (s_linear_id d ml <= s_linear_id y ml <-> lo d < hi x)).
  { intros d Id. rewrite <- Hy. assert (Q := id_le LW (proj1 (Forall_forall _ _) (ordered_valid OL) d Id) Vy). rewrite Ly in Q. exact Q. }
  assert (VL : forall d, In d ls -> valid d) by (intros d Id; exact (proj1 (Forall_forall _ _) (ordered_valid OL) d Id)).
  destruct C as [[-> C]|(H0 & d & Ed & Pd & C)].
  - exists None. change (0 <=? -1) with false. split; [reflexivity|]. split; [|discriminate]. intros _ d Id B. exfalso. rewrite Forall_forall in C. apply (C d Id). apply (LE d Id). destruct (below_nested LW B). pose proof (lo_hi LW (VL d Id)). lia.
  - rewrite (proj2 (Z.leb_le _ _) H0), Ed. assert (Id := nth_error_In _ _ Ed). assert (Vd := VL d Id). apply (LE d Id) in Pd.
    assert (B1 := proj1 (id_lo LW ML V Vd L)). assert (B2 := proj2 (id_lo LW ML V Vd L)).
    destruct (Z.leb_spec (s_linear_id x ml) (s_linear_id d ml)) as [C1|C1]; [destruct (Z.ltb_spec (s_level x) (s_level d)) as [C2|C2]|]; cbn [andb].
    + exists (Some d). split; [reflexivity|]. split; [discriminate|]. intros d' [= <-]. split; [exact Id|]. split; [|exact C2]. destruct (laminar LW V Vd) as [B|[B|[B|B]]]; [exact B| | |].
      * apply (below_level LW) in B. lia.
      * unfold before in B. lia.
      * specialize (B1 C1). unfold before in B. pose proof (lo_hi LW Vd). lia.
    + exists None. split; [reflexivity|]. split; [|discriminate]. intros _ d' Id' B. specialize (B1 C1). destruct (laminar LW V Vd) as [Q|[Q|[Q|Q]]].
      * assert (x = d) by (apply (below_level LW Q); pose proof (proj1 (below_level LW Q)); lia). subst d. assert (H : x = d'); [|subst d'; lia]. destruct (In_nth_error _ _ Id') as (j & Ej). destruct (Nat.lt_trichotomy (Z.to_nat r) j) as [J|[J|J]].
        -- destruct (below_not_before LW B) as [Q1 _]. exfalso. exact (Q1 (sorted_before LW OL Ed Ej J)).
        -- subst j. congruence.
        -- destruct (below_not_before LW B) as [_ Q1]. exfalso. exact (Q1 (sorted_before LW OL Ej Ed J)).
      * assert (B' := below_trans LW Q B). assert (H : d = d'); [|subst d'; pose proof (proj1 (below_level LW Q)); lia]. destruct (In_nth_error _ _ Id') as (j & Ej). destruct (Nat.lt_trichotomy (Z.to_nat r) j) as [J|[J|J]].
        -- destruct (below_not_before LW B') as [Q1 _]. exfalso. exact (Q1 (sorted_before LW OL Ed Ej J)).
        -- subst j. congruence.
        -- destruct (below_not_before LW B') as [_ Q1]. exfalso. exact (Q1 (sorted_before LW OL Ej Ed J)).
      * unfold before in Q. lia.
      * unfold before in Q. pose proof (lo_hi LW Vd). lia.
    + exists None. split; [reflexivity|]. split; [|discriminate]. intros _ d' Id' B. exfalso. assert (NB : lo d < lo x) by (destruct (Z.lt_ge_cases (lo d) (lo x)) as [Q|Q]; [exact Q|specialize (B2 Q); lia]).
      destruct (below_nested LW B) as [N1 N2]. pose proof (lo_hi LW (VL d' Id')). destruct (In_nth_error _ _ Id') as (j & Ej). destruct (Nat.lt_trichotomy (Z.to_nat r) j) as [J|[J|J]].
      * apply (C j d' Ej ltac:(lia)). apply (LE d' Id'). lia.
      * subst j. assert (d = d') by congruence. subst d'. lia.
      * assert (Q := sorted_before LW OL Ej Ed J). unfold before in Q. lia.
Qed.

Variables (P K ml : Z) (lv : forall t, list (elt (cls t))) (loc : Z -> list leaf).
Hypothesis D : distributed P K ml lv loc.
Notation g := (all_leaves K lv).
Variable fc : forall t, faces (cls t).
Variable nb : leaf -> Z -> option (leaf * Z).
Hypothesis HM : mesh_ok fc nb K ml.
Variable dbg : bool.
Variable me : Z.
Hypothesis Hme : 0 <= me < P.
Variable ts : list (ltree cls).
Hypothesis HT : local_trees loc me ts.
Variable h : option (ghosts cls).
Notation gs := (match h with Some h => ghost_leaves h | None => [] end).
Hypothesis HG : match h with Some h => ghost_trees_ok h /\ picks (ghost_of fc nb P ml loc me) g (ghost_leaves h) | None => True end.

(** a stored leaf is a true descendant of x *)
Definition has_desc (stored : list leaf) (t : Z) (x : elt (cls t)) : Prop := exists d, In (el t d) stored /\ below x d /\ s_level x < s_level d.
Lemma part_desc stored t (ls : list (elt (cls t))) off x : 0 <= t < K -> StronglySorted (gbefore (cls := cls)) stored -> incl stored g -> part_of stored ls off -> valid x -> s_level x <= ml ->
  exists o, array_desc ml ls x = Ok o /\ (o <> None <-> has_desc stored x) /\ forall d, o = Some d -> In (el t d) stored.
Proof.
  intros Ht SS IN HP V L. destruct (class_ok HM Ht) as (LW & _ & ML). destruct (part_ordered D HM Ht SS IN HP) as (OL & LL & IS). destruct (array_desc_ok LW ML OL (proj1 HP) V L) as (o & E & C1 & C2).
  exists o. split; [exact E|]. split; [split|].
  - intros N. destruct o as [d|]; [|congruence]. destruct (C2 d eq_refl) as (A & B & C). exists d. auto.
  - intros (d & Id & B & Ld) ->. assert (Ils : In d ls).
    { destruct HP as (_ & pre & post & EQ & _ & Q). rewrite EQ in Id. apply in_app_or in Id. destruct Id as [Id|Id]; [exfalso; apply (Q _ (in_or_app _ _ _ (or_introl Id))); reflexivity|].
      apply in_app_or in Id. destruct Id as [Id|Id]; [|exfalso; apply (Q _ (in_or_app _ _ _ (or_intror Id))); reflexivity]. apply in_map_iff in Id. destruct Id as (y & Ey & Iy). apply el_inj in Ey. now subst. }
    specialize (C1 eq_refl d Ils B). lia.
  - intros d EQ. apply IS. exact (proj1 (C2 d EQ)).
Qed.
Lemma no_desc stored t (x : elt (cls t)) : (forall y, In y stored -> projT1 y <> t) -> ~ has_desc stored x.
Proof. intros H (d & Id & _). exact (H _ Id eq_refl). Qed.
Lemma has_desc_app a b t (x : elt (cls t)) : has_desc (a ++ b) x <-> has_desc a x \/ has_desc b x.
Proof. unfold has_desc. setoid_rewrite in_app_iff. split; [intros (d & [I|I] & Q)|intros [(d & I & Q)|(d & I & Q)]]; [left|right| |]; exists d; auto. Qed.
Lemma has_leaf_desc_ok t (x : elt (cls t)) : 0 <= t < K -> valid x -> s_level x <= ml -> exists b, has_leaf_desc dbg ml ts h x = Ok b /\ (b = true <-> has_desc (loc me ++ gs) x).
Proof.
  intros Ht V L. destruct HT as (TS & TN & TE). assert (SL := proj1 (loc_sorted D) me Hme). assert (IL : incl (loc me) g) by (intros y Hy; exact (in_loc_all D Hme Hy)).
  assert (FL := find_local_ok t TS TN). rewrite TE in FL. unfold has_leaf_desc.
  assert (SG := ghosts_sorted D HG). assert (IG : incl gs g) by (intros y Hy; exact (proj1 (ghosts_incl HG Hy))).
  set (r1 := match find_local ts t with Some (ls, _) => _ | None => _ end). assert (R1 : exists b, r1 = Ok b /\ (b = true <-> has_desc (loc me) x)).
  { unfold r1. destruct (find_local ts t) as [[ls off]|]; cbn [tree_part] in FL.
    - destruct (part_desc Ht SL IL FL V L) as (o & E & C1 & C2). rewrite E. cbn [obind]. destruct o as [d|].
      + assert (Q : (if dbg then element_is_leaf ls d else Ok true) = Ok true) by (destruct dbg; [exact (is_leaf_ok D HM SL IL FL (C2 d eq_refl))|reflexivity]). rewrite Q. cbn [obind]. exists true. split; [reflexivity|]. split; [intros _; apply C1; discriminate|reflexivity].
      + exists false. split; [reflexivity|]. split; [discriminate|]. intros Q. apply C1 in Q. congruence.
    - exists false. split; [reflexivity|]. split; [discriminate|]. intros Q. destruct (no_desc FL Q). }
  destruct R1 as (b1 & -> & B1). cbn [obind]. setoid_rewrite has_desc_app. destruct b1; [exists true; split; [reflexivity|]; split; [intros _; left; now apply B1|reflexivity]|].
  assert (NB : ~ has_desc (loc me) x) by (intros Q; apply B1 in Q; discriminate).
  destruct h as [h'|].
  - assert (FG := find_ghost_ok t (proj1 HG)). destruct (find_ghost h' t) as [[ls off]|]; cbn [tree_part] in FG.
    + destruct (part_desc Ht SG IG FG V L) as (o & E & C1 & _). rewrite E. cbn [obind]. destruct o as [d|].
      * exists true. split; [reflexivity|]. split; [intros _; right; apply C1; discriminate|reflexivity].
      * exists false. split; [reflexivity|]. split; [discriminate|]. intros [Q|Q]; [tauto|]. apply C1 in Q. congruence.
    + exists false. split; [reflexivity|]. split; [discriminate|]. intros [Q|Q]; [tauto|]. destruct (no_desc FG Q).
  - exists false. split; [reflexivity|]. split; [discriminate|]. intros [Q|(d & [] & _)]. tauto.
Qed.
Lemma any_has_desc_ok t (els : list (elt (cls t))) : 0 <= t < K -> Forall (fun x => valid x /\ s_level x <= ml) els ->
  exists b, any_has_desc dbg ml ts h els = Ok b /\ (b = true <-> exists x, In x els /\ has_desc (loc me ++ gs) x).
Proof.
  intros Ht. induction 1 as [|x els [V L] HF (b & E & C)]; cbn [any_has_desc].
  - exists false. split; [reflexivity|]. split; [discriminate|]. intros (x & [] & _).
  - destruct (has_leaf_desc_ok Ht V L) as (b1 & E1 & C1). rewrite E1. cbn [obind]. destruct b1.
    + exists true. split; [reflexivity|]. split; [|reflexivity]. intros _. exists x. split; [now left|now apply C1].
    + exists b. split; [exact E|]. rewrite C. split; intros (y & I & Q).
      * exists y. split; [now right|exact Q].
      * destruct I as [<-|I]; [apply C1 in Q; discriminate|]. exists y. auto.
Qed.

(** ** the half neighbours *)
Lemma face_count t (e : elt (cls t)) f t' (n : elt (cls t')) f' : 0 <= t < K -> valid e -> s_level e < ml -> is_face (fc t) e f -> nb (el t e) f = Some (el t' n, f') ->
  (length (f_child_ids (fc t) e f) <= length (f_child_ids (fc t') n f'))%nat.
Proof.
  intros Ht V L Hf N. destruct (class_ok HM Ht) as (LW & FL & ML). destruct (mo_neighbor HM Ht V ltac:(lia) Hf N) as (Ht' & V' & L' & Hf' & N').
  set (A := map (fun p => nb (el t (fst p)) (snd p)) (face_children (fc t) e f)). set (B := map (fun p => Some (el t' (fst p), snd p)) (face_children (fc t') n f')).
  assert (LA : length A = length (f_child_ids (fc t) e f)) by (unfold A, face_children, f_children; rewrite !map_length, seq_length; reflexivity).
  assert (LB : length B = length (f_child_ids (fc t') n f')) by (unfold B, face_children, f_children; rewrite !map_length, seq_length; reflexivity).
  rewrite <- LA, <- LB. apply NoDup_incl_length.
  - assert (INJ : forall c g c' g', In (c, g) (face_children (fc t) e f) -> In (c', g') (face_children (fc t) e f) -> nb (el t c) g = nb (el t c') g' -> c = c').
    { intros c k c' k' I I' E. destruct (face_child LW FL V ltac:(lia) Hf I) as (Vc & Lc & _ & Hk & _). destruct (face_child LW FL V ltac:(lia) Hf I') as (Vc' & Lc' & _ & Hk' & _).
      destruct (mo_refine HM Ht V L Hf N I) as (d & j & _ & Nd). assert (Nd' := Nd). rewrite E in Nd'. destruct (mo_neighbor HM Ht Vc ltac:(lia) Hk Nd) as (_ & _ & _ & _ & Q1). destruct (mo_neighbor HM Ht Vc' ltac:(lia) Hk' Nd') as (_ & _ & _ & _ & Q2).
      rewrite Q1 in Q2. assert (Q3 : el t c = el t c') by congruence. exact (el_inj Q3). }
    assert (SS := face_children_sorted LW FL V ltac:(lia) Hf). unfold A. clear A LA B LB. assert (VC : forall c k, In (c, k) (face_children (fc t) e f) -> valid c) by (intros c k I; exact (proj1 (face_child LW FL V ltac:(lia) Hf I))).
    induction (face_children (fc t) e f) as [|[c k] l IH]; [constructor|]. cbn [map fst snd] in *. apply StronglySorted_inv in SS. destruct SS as [SS HF]. constructor.
    + intros I. apply in_map_iff in I. destruct I as ([c' k'] & E & I). cbn [fst snd] in E. assert (Q := INJ _ _ _ _ (or_introl eq_refl) (or_intror I) (eq_sym E)). subst c'. rewrite Forall_forall in HF. specialize (HF c (in_map fst _ _ I)). assert (Vc := VC c k (or_introl eq_refl)). pose proof (lo_hi LW Vc). unfold before in HF. lia.
    + apply IH; [|exact SS|]; [intros c1 g1 c2 g2 I1 I2; exact (INJ _ _ _ _ (or_intror I1) (or_intror I2))|intros c1 k1 I1; exact (VC c1 k1 (or_intror I1))].
  - intros x Hx. unfold A in Hx. apply in_map_iff in Hx. destruct Hx as ([c k] & <- & I). destruct (mo_refine HM Ht V L Hf N I) as (d & j & I' & Nd). cbn [fst snd]. rewrite Nd. unfold B. apply in_map_iff. exists (d, j). auto.
Qed.
Lemma half_ok t (e : elt (cls t)) f t' (n : elt (cls t')) f' : 0 <= t < K -> valid e -> s_level e < ml -> is_face (fc t) e f -> nb (el t e) f = Some (el t' n, f') ->
  half_face_neighbors fc nb ml (el t e) f (num_face_children fc (el t e) f) = Ok (Some (existT _ t' (f_children (fc t') n f'))).
Proof.
  intros Ht V L Hf N. destruct (class_ok HM Ht) as (LW & FL & ML). destruct (mo_neighbor HM Ht V ltac:(lia) Hf N) as (Ht' & V' & L' & Hf' & N').
  unfold half_face_neighbors, num_face_children. cbn [projT1 projT2]. destruct (fl_ids FL V ltac:(lia) Hf) as (NE & _). assert (1 <= zlen (f_child_ids (fc t) e f)) by (destruct (f_child_ids (fc t) e f) as [|i r]; [congruence|]; rewrite zlen_cons; pose proof (zlen_ge0 r); lia).
  destruct (Z.leb_spec (zlen (f_child_ids (fc t) e f)) 0); [lia|]. rewrite N. destruct (Z.ltb_spec (s_level n) ml); [|lia]. cbn [negb].
  assert (C1 := face_count Ht V L Hf N). assert (C2 := face_count Ht' V' ltac:(lia) Hf' N'). unfold zlen. replace (length (f_child_ids (fc t) e f)) with (length (f_child_ids (fc t') n f')) by lia. rewrite Z.eqb_refl. reflexivity.
Qed.

(** ** one leaf *)
(** a stored leaf is a true descendant of a half neighbour at the face *)
Definition finer_at (l : leaf) (f : Z) : Prop := exists t' (n : elt (cls t')) f' x, nb l f = Some (el t' n, f') /\ In x (f_children (fc t') n f') /\ has_desc (loc me ++ gs) x.
Lemma half_valid t (e : elt (cls t)) f t' (n : elt (cls t')) f' : 0 <= t < K -> valid e -> s_level e < ml -> is_face (fc t) e f -> nb (el t e) f = Some (el t' n, f') ->
  Forall (fun x => valid x /\ s_level x <= ml) (f_children (fc t') n f').
Proof.
  intros Ht V L Hf N. destruct (mo_neighbor HM Ht V ltac:(lia) Hf N) as (Ht' & V' & L' & Hf' & N'). destruct (class_ok HM Ht') as (LW & FL & ML). apply Forall_forall. intros x Hx. unfold f_children in Hx. rewrite <- face_children_fst in Hx.
  apply in_map_iff in Hx. destruct Hx as ([x' k] & E & I). cbn [fst] in E. subst x'. destruct (face_child LW FL V' ltac:(lia) Hf' I) as (Vx & Lx & _). split; [exact Vx|lia].
Qed.
Lemma any_face_ok t (e : elt (cls t)) fs : 0 <= t < K -> valid e -> s_level e < ml -> Forall (is_face (fc t) e) fs ->
  exists b, any_face fc nb dbg ml ts h (el t e) fs = Ok b /\ (b = true <-> exists f, In f fs /\ finer_at (el t e) f).
Proof.
  intros Ht V L. induction 1 as [|f fs Hf HF (b & E & C)]; cbn [any_face].
  - exists false. split; [reflexivity|]. split; [discriminate|]. intros (f & [] & _).
  - assert (SK : (exists b0, any_face fc nb dbg ml ts h (el t e) (f :: fs) = Ok b0 /\ (b0 = true <-> finer_at (el t e) f \/ exists f0, In f0 fs /\ finer_at (el t e) f0))).
    { cbn [any_face]. destruct (nb (el t e) f) as [[[t' n] f']|] eqn:N.
      - rewrite (half_ok Ht V L Hf N). cbn [obind]. destruct (mo_neighbor HM Ht V ltac:(lia) Hf N) as (Ht' & _). destruct (any_has_desc_ok Ht' (half_valid Ht V L Hf N)) as (b1 & E1 & C1). rewrite E1. cbn [obind].
        assert (C1' : b1 = true <-> finer_at (el t e) f).
        { rewrite C1. split.
          - intros (x & I & Q). exists t', n, f', x. rewrite N. auto.
          - intros (u & n1 & f1 & x & N1 & I & Q). rewrite N in N1. injection N1 as E2 E3 E4. subst u. apply (Eqdep_dec.inj_pair2_eq_dec Z Z.eq_dec) in E3. subst n1 f1. exists x. auto. }
        destruct b1; [exists true; split; [reflexivity|]; split; [intros _; left; now apply C1'|reflexivity]|]. exists b. split; [exact E|]. rewrite C. split; [auto|]. intros [Q|Q]; [apply C1' in Q; discriminate|exact Q].
      - exists b. split; [exact E|]. rewrite C. split; [auto|]. intros [(u & n1 & f1 & x & N1 & _)|Q]; [congruence|exact Q]. }
    cbn [any_face] in SK. destruct SK as (b0 & E0 & C0). exists b0. split; [exact E0|]. rewrite C0. split.
    + intros [Q|(f0 & I & Q)]; [exists f|exists f0]; (split; [cbn [In]; auto|exact Q]).
    + intros (f0 & [<-|I] & Q); [left; exact Q|right; exists f0; auto].
Qed.
(** a leaf of the forest that shares a part of a face with l is more than one level finer *)
Definition too_fine (l : leaf) : Prop := exists m, In m g /\ adjacent fc nb ml l m /\ leaf_level l + 2 <= leaf_level m.
Lemma finer_sound t (e : elt (cls t)) f : In (el t e) g -> s_level e < ml -> is_face (fc t) e f -> finer_at (el t e) f -> too_fine (el t e).
Proof.
  intros Ie L Hf (t' & n & f' & x & N & Ix & d & Id & Bd & Ld). destruct (leaf_ok D Ie) as (Ht & _ & V & _). destruct (mo_neighbor HM Ht V ltac:(lia) Hf N) as (Ht' & V' & L' & Hf' & N'). destruct (class_ok HM Ht') as (LW & FL & ML).
  unfold f_children in Ix. rewrite <- face_children_fst in Ix. apply in_map_iff in Ix. destruct Ix as ([x' k] & E & I). cbn [fst] in E. subst x'. destruct (face_child LW FL V' ltac:(lia) Hf' I) as (Vx & Lx & _ & Hk & _).
  assert (Q := face_descend_ne LW FL (n := Z.to_nat (ml - s_level x)) Vx ltac:(lia) Hk). destruct (face_descend (fc t') (Z.to_nat (ml - s_level x)) x k) as [|[z j] r] eqn:EZ; [congruence|]. clear Q.
  assert (IZ : In (z, j) (face_descend (fc t') (Z.to_nat (ml - s_level x)) x k)) by (rewrite EZ; now left). destruct (face_descend_in LW FL (n := Z.to_nat (ml - s_level x)) Vx ltac:(lia) Hk IZ) as (Vz & Lz & Bz & Hj).
  destruct (F_tree D Ht') as (_ & _ & CV & LV). destruct (inside_exists LW (x := z) CV LV Vz ltac:(lia)) as (y & Iy & By). assert (Iyg : In (el t' y) g) by (apply in_all; auto).
  assert (Idg : In (el t' d) g). { apply in_app_or in Id. destruct Id as [Id|Id]; [exact (in_loc_all D Hme Id)|exact (proj1 (ghosts_incl HG Id))]. }
  assert (UN : forall a, below a d -> In (el t' a) g -> a = d).
  { intros a Ba Ia. assert (Q : el t' a = el t' d) by (apply (leaf_unique D (z := el t' d) Ia Idg); apply in_leaf_same; [exact Ba|exact (below_refl (proj2 (below_valid Bd)))]). exact (el_inj Q). }
  assert (Ly : s_level x < s_level y).
  { destruct (below_linear LW By Bz) as [B|B].
    - assert (Q := UN y (below_trans LW B Bd) Iyg). subst y. pose proof (proj1 (below_level LW B)). lia.
    - destruct (Z.eq_dec (s_level x) (s_level y)) as [Q|Q]; [|pose proof (proj1 (below_level LW B)); lia]. assert (x = y) by (apply (below_level LW B); exact Q). subst y. assert (Q2 := UN x Bd Iyg). subst d. lia. }
  exists (el t' y). split; [exact Iyg|]. split; [|unfold leaf_level; cbn [projT1 projT2]; lia].
  apply (adjacent_face HM Ht V ltac:(lia)).
  - intros w W1 W2. assert (Q := leaf_unique D Ie Iyg W1 W2). assert (Q2 : leaf_level (el t e) = leaf_level (el t' y)) by (rewrite Q; reflexivity). unfold leaf_level in Q2. cbn [projT1 projT2] in Q2. lia.
  - intros u a b W B. destruct (in_leaf_iff W) as (EQ & W1). destruct EQ. cbn [eq_rect] in W1. apply in_leaf_same. exact (below_trans LW W1 B).
  - exists f, t', n, f', z, j. split; [exact Hf|]. split; [exact N|]. split; [|apply in_leaf_same; exact By].
    replace (Z.to_nat (ml - s_level e)) with (1 + Z.to_nat (ml - s_level x))%nat by lia. cbn [plus face_descend]. apply in_flat_map. exists (x, k). auto.
Qed.
Lemma finer_complete t (e : elt (cls t)) : In (el t e) (loc me) -> h <> None \/ P = 1 -> too_fine (el t e) -> exists f, is_face (fc t) e f /\ finer_at (el t e) f.
Proof.
  intros Il NH ([u d] & Im & A & Lm). assert (Ie := in_loc_all D Hme Il). destruct (leaf_ok D Ie) as (Ht & _ & V & L). destruct (leaf_ok D Im) as (Hu & _ & Vd & Ld). unfold leaf_level in Lm. cbn [projT1 projT2] in Lm.
  assert (ST : In (el u d) (loc me ++ gs)).
  { apply in_or_app. destruct (in_all_loc D Im) as (q & Hq & Iq). destruct (Z.eq_dec q me) as [->|NE]; [now left|]. right. destruct NH as [NH|NH]; [|lia].
    apply (ghosts_in HG _ NH). split; [exact Im|]. split; [exists q; auto|]. exists (el t e). auto. }
  assert (A' := A). apply (adjacent_face HM Ht V ltac:(lia)) in A'.
  - destruct A' as (f & t' & n & f' & y & k & Hf & N & Iy & W). destruct (mo_neighbor HM Ht V ltac:(lia) Hf N) as (Ht' & V' & L' & Hf' & N'). destruct (class_ok HM Ht') as (LW & FL & ML).
    destruct (in_leaf_iff W) as (EQ & W1). destruct EQ. cbn [eq_rect] in W1. exists f. split; [exact Hf|].
    replace (Z.to_nat (ml - s_level e)) with (1 + Z.to_nat (ml - s_level e - 1))%nat in Iy by lia. cbn [plus face_descend] in Iy. apply in_flat_map in Iy. destruct Iy as ([x j] & I & Iy). cbn [fst snd] in Iy.
    destruct (face_child LW FL V' ltac:(lia) Hf' I) as (Vx & Lx & _ & Hj & _). destruct (face_descend_in LW FL (n := Z.to_nat (ml - s_level e - 1)) Vx ltac:(lia) Hj Iy) as (_ & _ & Bx & _).
    exists u, n, f', x. split; [exact N|]. split; [unfold f_children; rewrite <- face_children_fst; apply in_map_iff; exists (x, j); auto|]. exists d. split; [exact ST|]. split; [|lia].
    destruct (below_linear LW W1 Bx) as [B|B]; [|exact B]. pose proof (proj1 (below_level LW B)). lia.
  - intros w W1 W2. assert (Q := leaf_unique D Ie Im W1 W2). assert (Q2 : leaf_level (el t e) = leaf_level (el u d)) by (rewrite Q; reflexivity). unfold leaf_level in Q2. cbn [projT1 projT2] in Q2. lia.
  - intros v a b W B. destruct (in_leaf_iff W) as (EQ & W1). destruct EQ. cbn [eq_rect] in W1. apply in_leaf_same. destruct (class_ok HM Hu) as (LW & _). exact (below_trans LW W1 B).
Qed.
(** t8_forest_balance_adapt: maxlevel_existing is not set (-1) and no leaf has the maximum level ml, or it is a bound of the levels *)
Definition mle_ok (mle : Z) : Prop := (mle <= 0 /\ forall m, In m g -> leaf_level m < ml) \/ ((forall m, In m g -> leaf_level m <= mle) /\ mle <= ml /\ 1 <= ml).
Lemma balance_adapt_gen mle l : mle_ok mle -> In l g ->
  exists b, balance_adapt fc nb dbg ml mle ts h l = Ok b /\ (b = true -> too_fine l) /\ (In l (loc me) -> h <> None \/ P = 1 -> too_fine l -> b = true).
Proof.
  intros MK Il. destruct l as [t e]. destruct (leaf_ok D Il) as (Ht & _ & V & L). destruct (class_ok HM Ht) as (LW & FL & ML). unfold balance_adapt. cbn [projT1 projT2].
  assert (L0 := proj1 (valid_level LW V)).
  destruct ((mle <=? 0) || (s_level e <=? mle - 2)) eqn:C.
  - assert (Le : s_level e < ml). { destruct MK as [[_ MK]|(MX & M2 & M3)]; [exact (MK _ Il)|]. assert (LX := MX _ Il). unfold leaf_level in LX. cbn [projT1 projT2] in LX. lia. }
    assert (FS : Forall (is_face (fc t) e) (zseq 0 (Z.to_nat (f_num (fc t) e)))) by (apply Forall_forall; intros f Hf; apply in_zseq in Hf; unfold is_face; lia).
    destruct (any_face_ok Ht V Le FS) as (b & E & Q). exists b. split; [exact E|]. split.
    + intros Eb. apply Q in Eb. destruct Eb as (f & If & F). apply (finer_sound Il Le (f := f)); [|exact F]. exact (proj1 (Forall_forall _ _) FS f If).
    + intros I NH T. apply Q. destruct (finer_complete I NH T) as (f & Hf & F). exists f. split; [|exact F]. apply in_zseq. unfold is_face in Hf. lia.
  - exists false. split; [reflexivity|]. split; [discriminate|]. intros I NH (m & Im & _ & Lm). exfalso. destruct MK as [[MK _]|(MX & M2 & M3)]; [lia|]. specialize (MX m Im). unfold leaf_level in *. cbn [projT1 projT2] in *. lia.
Qed.
Lemma balance_adapt_ok mle l : 1 <= ml -> 0 <= mle -> (forall m, In m g -> leaf_level m <= mle) -> mle <= ml -> In l g ->
  exists b, balance_adapt fc nb dbg ml mle ts h l = Ok b /\ (b = true -> too_fine l) /\ (In l (loc me) -> h <> None \/ P = 1 -> too_fine l -> b = true).
Proof. intros M1 M0 MX MM Il. apply balance_adapt_gen; [|exact Il]. right. auto. Qed.
End forest.

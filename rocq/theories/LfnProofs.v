(** The leaf neighbours at a face among the local leaves and the ghosts. *)
From Coq Require Import Sorting.Sorted.
From Verif Require Import Prelude PathSpec SchemeModel SchemeSpec SchemeProofs SchemeOrderProofs LeafModel LeafSpec LeafProofs SearchModel SearchProofs SearchMainProofs PartitionModel PartitionSpec.
From Verif Require Import SplitProofs OwnerModel OwnerSpec OwnerProofs OwnerMainProofs FaceModel FaceSpec FaceProofs GhostModel GhostSpec GhostOwnerProofs GhostSearchProofs PropertiesGhost.
From Verif Require Import LfnModel LfnSpec LfnIterateProofs LfnFaceProofs LfnArrayProofs.
Set Implicit Arguments.

Section lists.
Variable cls : Z -> scheme.
Notation leaf := {t : Z & elt (cls t)}.
Notation el t e := (existT (fun s => elt (cls s)) t e).

(** the leaves [ls] of the tree t are the part of [stored] behind the first off *)
Definition part_of (stored : list leaf) (t : Z) (ls : list (elt (cls t))) (off : Z) : Prop := ls <> [] /\
  exists pre post, stored = pre ++ map (fun e => el t e) ls ++ post /\ zlen pre = off /\ forall x, In x (pre ++ post) -> projT1 x <> t.
Definition tree_part (stored : list leaf) (t : Z) (o : option (list (elt (cls t)) * Z)) : Prop :=
  match o with Some (ls, off) => part_of stored ls off | None => forall x, In x stored -> projT1 x <> t end.
Lemma find_local_ok (ts : list (ltree cls)) t : StronglySorted Z.lt (map (@projT1 _ _) ts) -> Forall (fun tr => projT2 tr <> []) ts -> tree_part (leaves_of ts) (find_local ts t).
Proof.
  induction ts as [|[u ls] ts IH]; intros SS NE; cbn [find_local].
  - intros x [].
  - cbn [map] in SS. apply StronglySorted_inv in SS. destruct SS as [SS HF]. apply Forall_cons_iff in NE. destruct NE as [N1 N2]. cbn [projT1 projT2] in *. unfold leaves_of. cbn [flat_map projT1 projT2]. fold (leaves_of ts).
    assert (TS : forall x, In x (leaves_of ts) -> u < projT1 x).
    { intros x Hx. unfold leaves_of in Hx. apply in_flat_map in Hx. destruct Hx as (tr & Itr & Hx). apply in_map_iff in Hx. destruct Hx as (e & <- & _). cbn [projT1]. rewrite Forall_forall in HF. apply HF. apply in_map_iff. eauto. }
    destruct (Z.eq_dec u t) as [E|N].
    + subst u. cbn [eq_rect]. split; [exact N1|]. exists [], (leaves_of ts). split; [reflexivity|]. split; [reflexivity|]. intros x Hx. cbn [app] in Hx. specialize (TS x Hx). lia.
    + specialize (IH SS N2). destruct (find_local ts t) as [[l off]|]; cbn [option_map fst snd].
      * destruct IH as (Nl & pre & post & E & Z1 & Q). split; [exact Nl|]. exists (map (fun e => el u e) ls ++ pre), post. rewrite E, <- app_assoc. split; [reflexivity|]. split; [rewrite zlen_app; unfold zlen in *; rewrite map_length; lia|].
        intros x Hx. rewrite <- app_assoc in Hx. apply in_app_or in Hx. destruct Hx as [Hx|Hx]; [|exact (Q x Hx)]. apply in_map_iff in Hx. destruct Hx as (e & <- & _). cbn [projT1]. exact N.
      * intros x Hx. apply in_app_or in Hx. destruct Hx as [Hx|Hx]; [|exact (IH x Hx)]. apply in_map_iff in Hx. destruct Hx as (e & <- & _). cbn [projT1]. exact N.
Qed.
Lemma elems_of_ok t (l : list leaf) : (forall x, In x l -> projT1 x = t) -> map (fun e => el t e) (elems_of t l) = l.
Proof.
  induction l as [|[u e] l IH]; intros H; cbn [elems_of]; [reflexivity|]. assert (E : u = t) by exact (H _ (or_introl eq_refl)). subst u. destruct (Z.eq_dec t t) as [Q|Q]; [|contradiction]. rewrite (Eqdep_dec.UIP_dec Z.eq_dec Q eq_refl). cbn [eq_rect map]. f_equal. apply IH. intros x Hx. apply H. now right.
Qed.
Lemma find_ghost_ok (h : ghosts cls) t : ghost_trees_ok h -> tree_part (ghost_leaves h) (find_ghost h t).
Proof.
  intros (_ & SS & HT). unfold find_ghost, ghost_leaves. set (ts := gh_trees h) in *. clearbody ts. clear h.
  assert (Q : match tree_pos ts t with Some k => exists pre T post, ts = pre ++ T :: post /\ length pre = k /\ gt_tree T = t /\ forall T', In T' (pre ++ post) -> gt_tree T' <> t | None => forall T, In T ts -> gt_tree T <> t end).
  { clear HT. induction ts as [|T ts IH]; cbn [tree_pos]; [intros T []|]. cbn [map] in SS. apply StronglySorted_inv in SS. destruct SS as [SS HF]. rewrite Forall_forall in HF. destruct (Z.eqb_spec (gt_tree T) t) as [E|N].
    - exists [], T, ts. split; [reflexivity|]. split; [reflexivity|]. split; [exact E|]. intros T' HT'. cbn [app] in HT'. specialize (HF (gt_tree T') (in_map _ _ _ HT')). lia.
    - specialize (IH SS). destruct (tree_pos ts t) as [k|]; cbn [option_map].
      + destruct IH as (pre & T1 & post & -> & L & E & Q). exists (T :: pre), T1, post. split; [reflexivity|]. split; [cbn [length]; lia|]. split; [exact E|]. intros T' [<-|HT']; [exact N|exact (Q T' HT')].
      + intros T' [<-|HT']; [exact N|exact (IH T' HT')]. }
  assert (IN : forall x l, (forall T, In T l -> In T ts) -> In x (flat_map gt_elems l) -> exists T, In T l /\ projT1 x = gt_tree T).
  { intros x l Hl Hx. apply in_flat_map in Hx. destruct Hx as (T & IT & Hx). exists T. split; [exact IT|]. destruct (in_split _ _ (Hl T IT)) as (pre & post & E). destruct (HT _ _ _ E) as (_ & A & _). exact (A x Hx). }
  destruct (tree_pos ts t) as [k|]; cbn [option_map tree_part].
  - destruct Q as (pre & T & post & E & L & ET & Q). assert (EN : nth k ts (GTree 0 0 []) = T) by (rewrite E, app_nth2, L, Nat.sub_diag by lia; reflexivity). rewrite EN. destruct (HT _ _ _ E) as (NE & A & OF).
    assert (EM : map (fun e => el t e) (elems_of t (gt_elems T)) = gt_elems T) by (apply elems_of_ok; intros x Hx; rewrite (A x Hx); exact ET).
    split; [intros EE; apply NE; rewrite <- EM, EE; reflexivity|]. exists (flat_map gt_elems pre), (flat_map gt_elems post). split; [|split; [symmetry; exact OF|]].
    + rewrite EM, E, flat_map_app. cbn [flat_map]. reflexivity.
    + intros x Hx. rewrite <- flat_map_app in Hx. apply IN in Hx; [|intros T' HT'; rewrite E; apply in_app_or in HT'; apply in_or_app; cbn [In]; tauto]. destruct Hx as (T' & IT' & ->). exact (Q T' IT').
  - intros x Hx. apply IN in Hx; [|auto]. destruct Hx as (T & IT & ->). exact (Q T IT).
Qed.
End lists.

Section forest.
Variable cls : Z -> scheme.
Notation leaf := {t : Z & elt (cls t)}.
Notation el t e := (existT (fun s => elt (cls s)) t e).
Variables (P K ml : Z) (lv : forall t, list (elt (cls t))) (loc : Z -> list leaf).
Hypothesis D : distributed P K ml lv loc.
Notation g := (all_leaves K lv).
Variable fc : forall t, faces (cls t).
Variable nb : leaf -> Z -> option (leaf * Z).
Hypothesis HM : mesh_ok fc nb K ml.
Variable dbg : bool.
Variable to : list Z.
Hypothesis ET : create_tree_offsets P K ml loc = Ok to.
Variable x0 : Z.
Notation eo := (element_offsets P loc).
Notation fd := (create_first_desc P ml loc ++ [x0]).

Lemma leaf_unique x y z : In x g -> In y g -> in_leaf x z -> in_leaf y z -> x = y.
Proof.
  intros Ix Iy Hx Hy. destruct (In_nth_error _ _ Ix) as (i & Ei). destruct (In_nth_error _ _ Iy) as (j & Ej). assert (SS := leaves_sorted D).
  assert (Q : forall i j x y, nth_error g i = Some x -> nth_error g j = Some y -> (i < j)%nat -> gbefore x y).
  { clear -SS. induction SS as [|a l SS IH HF]; intros i j x y Ei Ej L; [destruct i; discriminate|]. destruct j as [|j]; [lia|]. cbn [nth_error] in Ej. destruct i as [|i].
    - cbn [nth_error] in Ei. injection Ei as <-. rewrite Forall_forall in HF. exact (HF y (nth_error_In _ _ Ej)).
    - cbn [nth_error] in Ei. exact (IH i j x y Ei Ej ltac:(lia)). }
  destruct (Nat.lt_trichotomy i j) as [C|[C|C]].
  - exfalso. exact (gbefore_disjoint D Ix (Q _ _ _ _ Ei Ej C) Hx Hy).
  - subst j. congruence.
  - exfalso. exact (gbefore_disjoint D Iy (Q _ _ _ _ Ej Ei C) Hy Hx).
Qed.
Lemma part_ordered stored t (ls : list (elt (cls t))) off : 0 <= t < K -> StronglySorted (gbefore (cls := cls)) stored -> incl stored g -> part_of stored ls off ->
  ordered ls /\ Forall (fun y => s_level y <= ml) ls /\ forall y, In y ls -> In (el t y) stored.
Proof.
  intros Ht SS IN (_ & pre & post & E & _ & _). destruct (class_ok HM Ht) as (LW & _). assert (IS : forall y, In y ls -> In (el t y) stored).
  { intros y Hy. rewrite E. apply in_or_app. right. apply in_or_app. left. apply in_map_iff. eauto. }
  split; [|split; [|exact IS]].
  - apply (ordered_iff LW). split; [apply Forall_forall; intros y Hy; exact (proj1 (proj2 (proj2 (leaf_ok D (IN _ (IS y Hy))))))|].
    rewrite E in SS. apply sorted_app_gen in SS. destruct SS as (_ & SS & _). apply sorted_app_gen in SS. destruct SS as (SS & _ & _). clear -SS.
    induction ls as [|a l IH]; [constructor|]. cbn [map] in SS. apply StronglySorted_inv in SS. destruct SS as [SS HF]. constructor; [exact (IH SS)|]. apply Forall_forall. intros y Hy. rewrite Forall_forall in HF. apply gbefore_same. apply HF. apply in_map_iff. eauto.
  - apply Forall_forall. intros y Hy. exact (proj2 (proj2 (proj2 (leaf_ok D (IN _ (IS y Hy)))))).
Qed.

(** ** one leaf and its face *)
Section leaf.
Variables (t : Z) (e : elt (cls t)) (f : Z).
Hypothesis Ie : In (el t e) g.
Hypothesis Hf : is_face (fc t) e f.
Variables (t' : Z) (n : elt (cls t')) (f' : Z).
Hypothesis N : nb (el t e) f = Some (el t' n, f').
Let Ht : 0 <= t < K. Proof. exact (proj1 (leaf_ok D Ie)). Qed.
Let V : valid e. Proof. exact (proj1 (proj2 (proj2 (leaf_ok D Ie)))). Qed.
Let L : s_level e <= ml. Proof. exact (proj2 (proj2 (proj2 (leaf_ok D Ie)))). Qed.

Lemma tree' : 0 <= t' < K /\ valid n /\ s_level n <= ml /\ is_face (fc t') n f'.
Proof. destruct (mo_neighbor HM Ht V L Hf N) as (A & B & C & E & _). rewrite C. auto. Qed.
Lemma leaf_up y : In (el t' y) g -> below y n -> exists h, is_face (fc t') y h /\ In (n, f') (face_descend (fc t') (Z.to_nat (s_level n - s_level y)) y h).
Proof.
  intros Iy B. apply (up_face HM Ht V L Hf N B). intros H. apply (leaf_unique Iy Ie H). apply in_leaf_same. now apply below_refl.
Qed.
(** the members of an array are the members of [stored] in the neighbouring tree *)
Lemma lift stored (ls : list (elt (cls t'))) p off r : part_of stored ls p -> found_in fc ml ls n f' (off + p) r -> neighbors_at fc nb ml (el t e) f stored off r.
Proof.
  intros (_ & pre & post & E & Zp & Q) (SS & H). split; [exact SS|]. intros m h i. rewrite H. split.
  - intros (y & k & -> & Ek & -> & Hh & T). split; [rewrite <- Zp; unfold zlen; lia|]. split; [|apply (meet_same HM y h Ht V L Hf N); auto].
    assert (Lk : (k < length ls)%nat) by (apply nth_error_Some; congruence). rewrite E, nth_error_app2 by (unfold zlen in Zp; lia). rewrite nth_error_app1 by (rewrite map_length; unfold zlen in Zp; lia).
    replace (Z.to_nat (off + p + Z.of_nat k - off) - length pre)%nat with k by (unfold zlen in Zp; lia). rewrite nth_error_map, Ek. reflexivity.
  - intros (H1 & H2 & H3). destruct m as [u y]. assert (H4 := H3). apply (meet_iff HM y h Ht V L Hf N) in H4. destruct H4 as (EU & H4). subst u. cbn [eq_rect] in H4. destruct H4 as (Hh & T).
    assert (NQ : ~ In (el t' y) (pre ++ post)) by (intros J; exact (Q _ J eq_refl)).
    set (j := Z.to_nat (i - off)) in *. rewrite E in H2. destruct (Nat.lt_ge_cases j (length pre)) as [C|C].
    { exfalso. apply NQ. rewrite nth_error_app1 in H2 by exact C. apply in_or_app. left. exact (nth_error_In _ _ H2). }
    rewrite nth_error_app2 in H2 by exact C. destruct (Nat.lt_ge_cases (j - length pre) (length (map (fun e => el t' e) ls))) as [C2|C2].
    2: { exfalso. apply NQ. rewrite nth_error_app2 in H2 by exact C2. apply in_or_app. right. exact (nth_error_In _ _ H2). }
    rewrite nth_error_app1, nth_error_map in H2 by exact C2. destruct (nth_error ls (j - length pre)) as [y'|] eqn:Ey; [|discriminate]. cbn [option_map] in H2. injection H2 as H2. apply el_inj in H2. subst y'.
    exists y, (j - length pre)%nat. split; [reflexivity|]. split; [exact Ey|]. split; [unfold zlen in Zp; lia|]. auto.
Qed.
Lemma lift_none stored off : (forall m h, In m stored -> ~ meet fc nb ml (el t e) f m h) -> neighbors_at fc nb ml (el t e) f stored off [].
Proof. intros H. split; [constructor|]. intros m h i. split; [intros []|]. intros (_ & E & M). exact (H m h (nth_error_In _ _ E) M). Qed.
Lemma no_tree stored off : (forall x, In x stored -> projT1 x <> t') -> neighbors_at fc nb ml (el t e) f stored off [].
Proof. intros H. apply lift_none. intros [u y] h I M. apply (meet_iff HM y h Ht V L Hf N) in M. destruct M as (E & _). exact (H _ I E). Qed.

(** a leaf that shares a subface is on a process that is an owner at the face of the neighbour *)
Lemma meet_owner q m h : 0 <= q < P -> In m (loc q) -> meet fc nb ml (el t e) f m h -> face_owner P ml loc fc n f' q.
Proof.
  intros Hq I M. destruct tree' as (Ht' & Vn & Ln & Hf'). destruct (class_ok HM Ht') as (LW & FL & ML). destruct m as [u y]. apply (meet_iff HM y h Ht V L Hf N) in M. destruct M as (E & M). subst u. cbn [eq_rect] in M. destruct M as (Hh & z & k & H1 & H2).
  split; [exact Hq|]. exists z, k. split; [exact H1|]. exists y. split; [exact I|].
  destruct (leaf_ok D (in_loc_all D Hq I)) as (_ & _ & Vy & Ly). exact (proj1 (proj2 (proj2 (face_descend_in LW FL Vy (ltac:(lia) : s_level y + Z.of_nat (Z.to_nat (ml - s_level y)) <= s_maxlevel (cls t')) Hh H2)))).
Qed.
Lemma owner_meet q : face_owner P ml loc fc n f' q -> exists m h, In m (loc q) /\ meet fc nb ml (el t e) f m h.
Proof.
  intros (Hq & z & k & Hz & y & Iy & By). destruct tree' as (Ht' & Vn & Ln & Hf'). destruct (class_ok HM Ht') as (LW & FL & ML). assert (Iyg := in_loc_all D Hq Iy). destruct (leaf_ok D Iyg) as (_ & _ & Vy & Ly).
  destruct (face_descend_in LW FL Vn (ltac:(lia) : s_level n + Z.of_nat (Z.to_nat (ml - s_level n)) <= s_maxlevel (cls t')) Hf' Hz) as (Vz & Lz & Bz & Hk).
  assert (Q : exists h, is_face (fc t') y h /\ touch (fc t') ml n f' y h).
  { destruct (below_linear LW By Bz) as [B|B].
    - destruct (leaf_up Iyg B) as (h & Hh & J). exists h. split; [exact Hh|]. apply touch_sym. apply (touch_below LW FL (proj2 ML) B Ln Hh Hf'). exact J.
    - pose proof (proj1 (below_level LW B)) as LE. replace (Z.to_nat (ml - s_level n)) with (Z.to_nat (s_level y - s_level n) + Z.to_nat (ml - s_level y))%nat in Hz by lia. rewrite face_descend_add in Hz. apply in_flat_map in Hz. destruct Hz as ([y' h] & J & Hz). cbn [fst snd] in Hz.
      destruct (face_descend_in LW FL Vn (ltac:(lia) : s_level n + Z.of_nat (Z.to_nat (s_level y - s_level n)) <= s_maxlevel (cls t')) Hf' J) as (Vy' & Ly' & By' & Hh).
      destruct (face_descend_in LW FL Vy' (ltac:(lia) : s_level y' + Z.of_nat (Z.to_nat (ml - s_level y)) <= s_maxlevel (cls t')) Hh Hz) as (_ & _ & Bz' & _).
      assert (EY : y' = y). { destruct (below_linear LW By Bz') as [C|C]; [symmetry|]; apply (below_level LW C); lia. }
      subst y'. exists h. split; [exact Hh|]. apply (touch_below LW FL (proj2 ML) B Ly Hf' Hh). exact J. }
  destruct Q as (h & Hh & T). exists (el t' y), h. split; [exact Iy|]. apply (meet_same HM y h Ht V L Hf N). auto.
Qed.
Lemma meet_adjacent m h : In m g -> meet fc nb ml (el t e) f m h -> adjacent fc nb ml (el t e) m.
Proof.
  intros I (_ & Hh & x & a & y & b & H1 & H2 & E). destruct m as [u z]. destruct (leaf_ok D I) as (Hu & _ & Vz & Lz). unfold face_cells, leaf_level, leaf_face in *. cbn [projT1 projT2] in *.
  destruct (class_ok HM Ht) as (LW & FL & ML). destruct (class_ok HM Hu) as (LW' & FL' & ML').
  destruct (face_descend_in LW FL V (ltac:(lia) : s_level e + Z.of_nat (Z.to_nat (ml - s_level e)) <= s_maxlevel (cls t)) Hf H1) as (Vx & Lx & Bx & Ha).
  destruct (face_descend_in LW' FL' Vz (ltac:(lia) : s_level z + Z.of_nat (Z.to_nat (ml - s_level z)) <= s_maxlevel (cls u)) Hh H2) as (Vy & Ly & By & Hb).
  exists (el t x), (el u y), a, b. split; [now apply in_leaf_same|]. split; [now apply in_leaf_same|]. split; [unfold leaf_level; cbn [projT1 projT2]; lia|]. split; [exact Ha|exact E].
Qed.
(** the bounds of the owners are owners *)
Lemma bounds_owner : exists lo up, owners_at_face_bounds fc dbg P ml eo to fd n f' 0 (P - 1) = Ok (lo, up) /\ (forall q, face_owner P ml loc fc n f' q -> lo <= q <= up) /\
  ((lo = 0 /\ up = 0 /\ P = 1) \/ (face_owner P ml loc fc n f' lo /\ face_owner P ml loc fc n f' up)).
Proof.
  destruct tree' as (Ht' & Vn & Ln & Hf'). pose proof (HP1 D) as HP. unfold owners_at_face_bounds. destruct (Z.leb_spec (P - 1) 0) as [C|C].
  { exists 0, (P - 1). split; [reflexivity|]. split; [intros q [Hq _]; lia|]. left. lia. }
  destruct (first_face D HM Ht' Vn Ln Hf') as (V1 & L1 & Q1 & M1). destruct (last_face D HM Ht' Vn Ln Hf') as (V2 & L2 & Q2 & M2).
  destruct (owner_in D dbg ET x0 (lower := 0) (upper := P - 1) (guess := 0) Ht' V1 L1) as (p & Hp & Sp & Ep); try lia. rewrite Ep. cbn [obind].
  destruct (owner_in D dbg ET x0 (lower := p) (upper := P - 1) (guess := P - 1) Ht' V2 L2) as (q & Hq & Sq & Eq); [lia..|intros s Hs Ss; split; [exact (M1 p s Hp Sp (Q2 s Hs Ss))|lia]|].
  rewrite Eq. cbn [obind]. exists p, q. split; [reflexivity|]. split; [intros s Hs; split; [exact (M1 p s Hp Sp Hs)|exact (M2 q s Hq Sq Hs)]|]. right. auto.
Qed.

(** the search in one array, or none *)
Lemma array_ok stored (ls : list (elt (cls t'))) p off ud : StronglySorted (gbefore (cls := cls)) stored -> incl stored g -> part_of stored ls p ->
  exists r o, search_array fc dbg n f' ls (off + p) ud = Ok o /\ neighbors_at fc nb ml (el t e) f stored off r /\ ((o = None /\ r = []) \/ o = Some (ud ++ r)).
Proof.
  intros SS IN HP. destruct tree' as (Ht' & Vn & Ln & Hf'). destruct (class_ok HM Ht') as (LW & FL & ML). destruct (part_ordered Ht' SS IN HP) as (OL & LL & IS).
  assert (UP : forall y, In y ls -> below y n -> exists h, is_face (fc t') y h /\ In (n, f') (face_descend (fc t') (Z.to_nat (s_level n - s_level y)) y h)) by (intros y Hy B; exact (leaf_up (IN _ (IS y Hy)) B)).
  destruct (search_array_ok (fc := fc) LW FL (proj2 ML) dbg OL (proj1 HP) LL Vn Ln Hf' UP (off + p) ud) as (r & o & E & FI & C). exists r, o. split; [exact E|]. split; [exact (lift HP FI)|].
  destruct C as [(A & B & _)|(A & _)]; auto.
Qed.
End leaf.

(** ** the whole function on the process me *)
Variable me : Z.
Hypothesis Hme : 0 <= me < P.
Variable ts : list (ltree cls).
Hypothesis HT : local_trees loc me ts.
Variable h : option (ghosts cls).
Notation gs := (match h with Some h => ghost_leaves h | None => [] end).
Hypothesis HG : match h with Some h => ghost_trees_ok h /\ picks (ghost_of fc nb P ml loc me) g (ghost_leaves h) | None => True end.

Lemma ghosts_in x : h <> None -> (In x gs <-> In x g /\ ghost_of fc nb P ml loc me x).
Proof. intros NH. destruct h as [h'|]; [|congruence]. destruct HG as [_ HP]. exact (picks_in HP x). Qed.
Lemma ghosts_incl x : In x gs -> In x g /\ exists q, 0 <= q < P /\ q <> me /\ In x (loc q).
Proof. intros I. destruct h as [h'|]; [|destruct I]. destruct HG as [_ HP]. apply (picks_in HP) in I. destruct I as [I (Q & _)]. auto. Qed.
Lemma picks_sorted {A} (R : A -> A -> Prop) (Pr : A -> Prop) l r : picks Pr l r -> StronglySorted R l -> StronglySorted R r.
Proof.
  intros H. induction H as [|x l r Hx H IH|x l r Hx H IH]; intros SS; [constructor| |]; apply StronglySorted_inv in SS; destruct SS as [SS HF]; [|exact (IH SS)].
  constructor; [exact (IH SS)|]. apply Forall_forall. intros y Hy. rewrite Forall_forall in HF. apply HF. apply (picks_in H). exact Hy.
Qed.
Lemma ghosts_sorted : StronglySorted (gbefore (cls := cls)) gs.
Proof. destruct h as [h'|]; [|constructor]. destruct HG as [_ HP]. exact (picks_sorted HP (leaves_sorted D)). Qed.

Lemma is_leaf_ok stored t (ls : list (elt (cls t))) off e : StronglySorted (gbefore (cls := cls)) stored -> incl stored g -> part_of stored ls off -> In (el t e) stored -> element_is_leaf ls e = Ok true.
Proof.
  intros SS IN HP I. destruct (leaf_ok D (IN _ I)) as (Ht & _ & V & _). destruct (class_ok HM Ht) as (LW & _). destruct (part_ordered Ht SS IN HP) as (OL & LL & IS).
  assert (Ils : In e ls). { destruct HP as (_ & pre & post & E & _ & Q). rewrite E in I. apply in_app_or in I. destruct I as [I|I]; [exfalso; apply (Q _ (in_or_app _ _ _ (or_introl I))); reflexivity|].
    apply in_app_or in I. destruct I as [I|I]; [|exfalso; apply (Q _ (in_or_app _ _ _ (or_intror I))); reflexivity]. apply in_map_iff in I. destruct I as (y & Ey & Iy). apply el_inj in Ey. now subst. }
  destruct (find_spec LW OL (e := e)) as (r & E & F); auto; [intros ->; destruct Ils|]. unfold element_is_leaf. rewrite E. cbn [obind]. destruct F as [[-> F]|[H1 H2]]; [contradiction|]. rewrite (proj2 (Z.leb_le _ _) H1). reflexivity.
Qed.
Lemma loc_incl : incl (loc me) g.
Proof. intros x Hx. exact (in_loc_all D Hme Hx). Qed.

Lemma lfn_main is_ghost t e f : (is_ghost = false -> In (el t e) (loc me)) -> (is_ghost = true -> In (el t e) gs) -> is_face (fc t) e f ->
  exists L G r t', leaf_face_neighbors fc nb dbg P ml me eo to fd ts (zlen (loc me)) h is_ghost e f = Ok (r, t') /\
    neighbors_at fc nb ml (el t e) f (loc me) 0 L /\ neighbors_at fc nb ml (el t e) f gs (zlen (loc me)) G /\
    (r = L ++ G \/ r = L ++ L ++ G) /\ (L <> [] -> G <> [] -> r = L ++ L ++ G) /\ (L = [] -> r = G) /\ (is_ghost = false -> G = [] -> r = L) /\
    t' = match nb (el t e) f with Some (m, _) => projT1 m | None => -1 end.
Proof.
  intros I1 I2 Hf. destruct HT as (TS & TN & TE). assert (SL := proj1 (loc_sorted D) me Hme). assert (SG := ghosts_sorted).
  assert (FL := find_local_ok). specialize (FL cls ts). assert (FLt := fun t => FL t TS TN). rewrite TE in FLt. clear FL.
  assert (IGI : incl gs g) by (intros x Hx; exact (proj1 (ghosts_incl Hx))).
  assert (Ie : In (el t e) g). { destruct is_ghost; [exact (IGI _ (I2 eq_refl))|exact (loc_incl (I1 eq_refl))]. }
  destruct (leaf_ok D Ie) as (Ht & _ & V & Lv).
  unfold leaf_face_neighbors.
  assert (CH : (if dbg then match (if is_ghost then match h with Some h0 => find_ghost h0 t | None => None end else find_local ts t) with Some (ls, _) => element_is_leaf ls e | None => Ok false end else Ok true) = Ok true).
  { destruct dbg; [|reflexivity]. destruct is_ghost.
    - specialize (I2 eq_refl). destruct h as [h'|]; [|destruct I2]. assert (Q := find_ghost_ok t (proj1 HG)). destruct (find_ghost h' t) as [[ls off]|]; cbn [tree_part] in Q; [|exfalso; exact (Q _ I2 eq_refl)]. exact (is_leaf_ok SG IGI Q I2).
    - specialize (I1 eq_refl). specialize (FLt t). destruct (find_local ts t) as [[ls off]|]; cbn [tree_part] in FLt; [|exfalso; exact (FLt _ I1 eq_refl)]. exact (is_leaf_ok SL loc_incl FLt I1). }
  rewrite CH. cbn [obind negb]. clear CH. destruct (nb (el t e) f) as [[[t' n] f']|] eqn:N.
  2: { exists [], [], [], (-1). split; [reflexivity|]. assert (Q : forall st off, neighbors_at fc nb ml (el t e) f st off []) by (intros st off; split; [constructor|]; intros m k i; split; [intros []|]; intros (_ & _ & M); exact (meet_none HM Ht V Lv Hf N M)).
       split; [apply Q|]. split; [apply Q|]. split; [now left|]. auto 10. }
  destruct (bounds_owner Ie Hf N) as (lo & up & EB & HB & HO). rewrite EB. cbn [obind].
  (* the local leaves *)
  set (la := if (lo <=? me) && (me <=? up) then match find_local ts t' with Some x => [x] | None => [] end else []).
  set (ga := match h with Some h0 => if negb (lo =? me) || negb (up =? me) then match find_ghost h0 t' with Some (ls, off) => [(ls, zlen (loc me) + off)] | None => [] end else [] | None => [] end).
  assert (HL : exists L, neighbors_at fc nb ml (el t e) f (loc me) 0 L /\ forall rest, arrays_loop fc dbg n f' (la ++ rest) [] [] = arrays_loop fc dbg n f' rest L L).
  { unfold la. destruct ((lo <=? me) && (me <=? up)) eqn:C.
    - specialize (FLt t'). destruct (find_local ts t') as [[ls off]|]; cbn [tree_part] in FLt.
      + destruct (array_ok Ie Hf N 0 [] SL loc_incl FLt) as (r & o & E & NA & CO). exists r. split; [exact NA|]. intros rest. cbn [app arrays_loop]. rewrite Z.add_0_l in E. rewrite E. cbn [obind]. destruct CO as [[-> ->]| ->]; reflexivity.
      + exists []. split; [exact (no_tree Ie Hf N 0 FLt)|]. reflexivity.
    - exists []. split; [|reflexivity]. apply lift_none. intros m k Im M. assert (FO := meet_owner Ie Hf N Hme Im M). specialize (HB me FO). apply andb_false_iff in C. destruct C as [C|C]; apply Z.leb_gt in C; lia. }
  destruct HL as (L & NL & EL). rewrite EL. clear EL.
  assert (HGA : exists G out, neighbors_at fc nb ml (el t e) f gs (zlen (loc me)) G /\ arrays_loop fc dbg n f' ga L L = Ok out /\ (out = L ++ G \/ out = L ++ L ++ G) /\ (G <> [] -> out = L ++ L ++ G) /\ ((lo = me /\ up = me) \/ h = None -> out = L)).
  { unfold ga. assert (NOG : forall off, (forall x, In x gs -> projT1 x <> t') \/ (lo = me /\ up = me) -> neighbors_at fc nb ml (el t e) f gs off []).
    { intros off [Q|[Q1 Q2]]; [exact (no_tree Ie Hf N off Q)|]. apply lift_none. intros m k Im M. destruct (ghosts_incl Im) as (_ & q & Hq & Nq & Iq). specialize (HB q (meet_owner Ie Hf N Hq Iq M)). lia. }
    assert (NON : neighbors_at fc nb ml (el t e) f gs (zlen (loc me)) [] -> exists G out, neighbors_at fc nb ml (el t e) f gs (zlen (loc me)) G /\ arrays_loop fc dbg n f' [] L L = Ok out /\ (out = L ++ G \/ out = L ++ L ++ G) /\ (G <> [] -> out = L ++ L ++ G) /\ ((lo = me /\ up = me) \/ h = None -> out = L)).
    { intros Q. exists [], L. split; [exact Q|]. split; [reflexivity|]. split; [left; now rewrite app_nil_r|]. split; [intros X; now destruct X|]. auto. }
    destruct h as [h'|]; [|apply NON, NOG; left; intros x []]. destruct (negb (lo =? me) || negb (up =? me)) eqn:C.
    - assert (NB : ~ (lo = me /\ up = me)). { intros [Q1 Q2]. subst lo up. rewrite Z.eqb_refl in C. discriminate. }
      assert (FG := find_ghost_ok t' (proj1 HG)). destruct (find_ghost h' t') as [[ls off]|]; cbn [tree_part] in FG; [|apply NON, NOG; now left].
      destruct (array_ok Ie Hf N (zlen (loc me)) L SG IGI FG) as (r & o & E & NA & CO). exists r. cbn [arrays_loop]. rewrite E. cbn [obind]. destruct CO as [[-> ->]| ->].
      + exists L. split; [exact NA|]. split; [reflexivity|]. split; [left; now rewrite app_nil_r|]. split; [intros X; now destruct X|]. reflexivity.
      + exists (L ++ L ++ r). split; [exact NA|]. split; [reflexivity|]. split; [now right|]. split; [reflexivity|]. intros [Q|Q]; [contradiction|discriminate].
    - apply NON, NOG. right. apply orb_false_iff in C. destruct C as [C1 C2]. apply negb_false_iff in C1, C2. apply Z.eqb_eq in C1, C2. auto. }
  destruct HGA as (G & out & NG & EG & C1 & C2 & C3). rewrite EG. cbn [obind].
  (* a local leaf with neighbours on another process has them as ghosts *)
  assert (GNE : is_ghost = false -> h <> None -> ~ (lo = me /\ up = me) -> G <> []).
  { intros IG NH NB EGG. assert (Q : exists q, q <> me /\ face_owner P ml loc fc n f' q). { destruct HO as [(A & B & C)|(A & B)]; [exfalso; lia|]. destruct (Z.eq_dec lo me) as [E1|E1]; [|eauto]. destruct (Z.eq_dec up me) as [E2|E2]; [exfalso; auto|eauto]. }
    destruct Q as (q & Nq & FO). assert (Hq := proj1 FO). destruct (owner_meet Ie Hf N FO) as (m & k & Im & M). assert (Img := in_loc_all D Hq Im).
    assert (J : In m gs). { apply (ghosts_in m NH). split; [exact Img|]. split; [exists q; auto|]. exists (el t e). split; [exact (I1 IG)|]. exact (meet_adjacent Ie Hf Img M). }
    destruct (In_nth_error _ _ J) as (j & Ej). destruct NG as [_ NG]. assert (X : In (m, k, zlen (loc me) + Z.of_nat j) G). { apply NG. split; [lia|]. split; [|exact M]. replace (Z.to_nat (zlen (loc me) + Z.of_nat j - zlen (loc me))) with j by lia. exact Ej. }
    rewrite EGG in X. destruct X. }
  assert (DB : dbg && negb is_ghost && (match h with Some _ => true | None => false end) && (zlen out =? 0) = false).
  { destruct is_ghost; [now rewrite andb_false_r|]. destruct (match h with Some _ => true | None => false end) eqn:EH; [|now rewrite andb_false_r]. assert (NH : h <> None) by (destruct h; discriminate || congruence). clear EH.
    assert (NO : out <> []). { intros EO. assert (EL : L = []) by (destruct C1 as [-> | ->]; apply app_eq_nil in EO; apply EO). assert (EGG : G = []) by (subst L; destruct C1 as [-> | ->]; exact EO).
      destruct (Z.eq_dec lo me) as [E1|E1]; [|exact (GNE eq_refl NH ltac:(tauto) EGG)]. destruct (Z.eq_dec up me) as [E2|E2]; [|exact (GNE eq_refl NH ltac:(tauto) EGG)].
      destruct (tree' Ie Hf N) as (Ht' & Vn & Ln & Hf'). destruct (face_owner_exists D HM Ht' Vn Ln Hf') as (q & FO). assert (Q := HB q FO). assert (q = me) by lia. subst q. destruct (owner_meet Ie Hf N FO) as (m & k & Im & M).
      destruct (In_nth_error _ _ Im) as (j & Ej). destruct NL as [_ NL]. assert (X : In (m, k, Z.of_nat j) L). { apply NL. split; [lia|]. split; [|exact M]. replace (Z.to_nat (Z.of_nat j - 0)) with j by lia. exact Ej. }
      rewrite EL in X. destruct X. }
    rewrite andb_true_r. destruct out; [congruence|]. rewrite zlen_cons. destruct (Z.eqb_spec (zlen out + 1) 0) as [Q|Q]; [pose proof (zlen_ge0 out); lia|]. now rewrite andb_false_r. }
  rewrite DB. exists L, G, out, t'. split; [reflexivity|]. split; [exact NL|]. split; [exact NG|]. split; [exact C1|]. split; [auto|]. split; [intros ->; destruct C1 as [-> | ->]; reflexivity|]. split; [|reflexivity].
  intros IG EGG. apply C3. destruct h as [h'|]; [|now right]. left. destruct (Z.eq_dec lo me) as [E1|E1]; [destruct (Z.eq_dec up me) as [E2|E2]; [auto|]|]; exfalso; apply GNE; auto; try discriminate; tauto.
Qed.
End forest.

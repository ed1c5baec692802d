(** The loop of balance. *)
From Coq Require Import Sorting.Sorted.
From Verif Require Import Prelude PathSpec SchemeModel SchemeSpec SchemeProofs SchemeOrderProofs LeafModel LeafSpec LeafProofs PartitionModel PartitionSpec.
From Verif Require Import OwnerModel OwnerSpec OwnerMainProofs FaceModel FaceSpec FaceProofs GhostModel GhostSpec GhostOwnerProofs GhostSearchProofs AnyNetModel PropertiesGhost.
From Verif Require Import LfnModel LfnProofs PropertiesLfn ForestBalanceModel ForestBalanceSpec ForestBalanceProofs ForestBalanceMainProofs.
Set Implicit Arguments.

Section loop.
Variable cls : Z -> scheme.
Notation leaf := {t : Z & elt (cls t)}.
Notation el t e := (existT (fun s => elt (cls s)) t e).
Notation ltree := (ltree cls).
Variables P K ml : Z.
Variable fc : forall t, faces (cls t).
Variable nb : leaf -> Z -> option (leaf * Z).
Hypothesis HM : mesh_ok fc nb K ml.
Hypothesis M1 : 1 <= ml.
Variable dbg : bool.

(** ** the ghosts *)
Definition ghosts_all (lv : forall t, list (elt (cls t))) (trs : Z -> list ltree) (hs : Z -> option (ghosts cls)) : Prop :=
  forall p, 0 <= p < P -> ghosts_complete fc nb P K ml lv (leaves_at trs) p (hs p) /\ (hs p <> None \/ P = 1).
Lemma created_ok (lv : forall t, list (elt (cls t))) (trs : Z -> list ltree) hs : distributed P K ml lv (leaves_at trs) -> (forall p, 0 <= p < P -> local_trees (leaves_at trs) p (trs p)) ->
  ghosts_created fc nb dbg P K ml trs hs -> ghosts_all lv trs hs.
Proof.
  intros D HT H p Hp. unfold ghosts_created in H. destruct (Z.eqb_spec P 1) as [E|E].
  - replace p with 0 by lia. rewrite H. split; [exact Logic.I|right; exact E].
  - destruct H as (to & x0 & rem & out & s & ET & EB & ST & DN & H). destruct (H p Hp) as (h & ER & EH). rewrite EH. split; [|left; discriminate].
    destruct (C42_ghost_layer D HM HT (ex_intro _ to (conj ET EB)) ST DN Hp) as (h' & ER' & PK & TO). rewrite ER in ER'. injection ER' as <-. split; assumption.
Qed.
Lemma created_exists (lv : forall t, list (elt (cls t))) (trs : Z -> list ltree) : distributed P K ml lv (leaves_at trs) -> (forall p, 0 <= p < P -> local_trees (leaves_at trs) p (trs p)) -> exists hs, ghosts_created fc nb dbg P K ml trs hs.
Proof.
  intros D HT. unfold ghosts_created. destruct (Z.eqb_spec P 1) as [E|E]; [exists (fun _ => None); reflexivity|]. destruct (C42_ghost_begins dbg 0 D HM HT) as (rem & out & B). destruct (C42_exchange_ends D HM HT B) as (WF & PR).
  assert (Q : forall s, asteps P (astart out (fun p => length (g_procs (rem p)))) s -> exists s', asteps P (astart out (fun p => length (g_procs (rem p)))) s' /\ adone P s').
  { intros s. induction s as [s IH] using (well_founded_induction WF). intros ST. destruct (PR s ST) as [DN|(s' & S1)]; [exists s; auto|]. apply (IH s' S1). exact (asteps_step ST S1). }
  destruct (Q _ (asteps_refl P _)) as (s & ST & DN). assert (L := C42_ghost_layer D HM HT B ST DN). destruct B as (to & ET & EB).
  exists (fun p => match receive (g_procs (rem p)) (a_got s p) with Ok h => Some h | _ => None end), to, 0, rem, out, s. split; [exact ET|]. split; [exact EB|]. split; [exact ST|]. split; [exact DN|].
  intros p Hp. destruct (L p Hp) as (h & ER & _). exists h. rewrite ER. auto.
Qed.

(** ** the maximum level *)
Lemma fold_max {A} (f : A -> Z) l m : fold_left (fun m e => Z.max m (f e)) l m = Z.max m (fold_left (fun m e => Z.max m (f e)) l m) /\
  (forall e, In e l -> f e <= fold_left (fun m e => Z.max m (f e)) l m) /\ (fold_left (fun m e => Z.max m (f e)) l m = m \/ exists e, In e l /\ f e = fold_left (fun m e => Z.max m (f e)) l m).
Proof.
  revert m. induction l as [|a l IH]; intros m; cbn [fold_left].
  - split; [lia|]. split; [intros e []|now left].
  - destruct (IH (Z.max m (f a))) as (A1 & A2 & A3). split; [lia|]. split.
    + intros e [<-|I]; [lia|exact (A2 e I)].
    + destruct A3 as [A3|(e & I & A3)]; [|right; exists e; split; [now right|exact A3]]. rewrite A3. destruct (Z.max_spec m (f a)) as [[_ Q]|[_ Q]]; rewrite Q; [right; exists a; split; [now left|reflexivity]|now left].
Qed.
Lemma local_max_fold (ts : list ltree) m : fold_left (fun m (tr : ltree) => fold_left (fun m e => Z.max m (s_level e)) (projT2 tr) m) ts m = fold_left (fun m l => Z.max m (leaf_level l)) (leaves_of ts) m.
Proof.
  revert m. induction ts as [|[t ls] ts IH]; intros m; [reflexivity|]. cbn [fold_left projT2]. rewrite IH. unfold leaves_of. cbn [flat_map projT1 projT2]. rewrite fold_left_app. f_equal.
  clear. revert m. induction ls as [|e ls IH]; intros m; [reflexivity|]. cbn [fold_left map]. rewrite IH. reflexivity.
Qed.
Lemma max_level_ok (lv : forall t, list (elt (cls t))) (trs : Z -> list ltree) : distributed P K ml lv (leaves_at trs) -> max_level K lv (max_element_level P trs).
Proof.
  intros D. unfold max_element_level, max_level. assert (IN : forall l, In l (all_leaves K lv) <-> exists p, In p (zseq 0 (Z.to_nat P)) /\ In l (leaves_at trs p)) by (intros l; rewrite <- (gather_loc D); unfold PartitionSpec.gather; apply in_flat_map).
  assert (EL : forall p, local_max_level (trs p) = fold_left (fun m l => Z.max m (leaf_level l)) (leaves_at trs p) 0) by (intros p; apply local_max_fold).
  assert (U : forall ps, (forall p l, In p ps -> In l (leaves_at trs p) -> leaf_level l <= fold_right Z.max 0 (map (fun p => local_max_level (trs p)) ps)) /\
    (fold_right Z.max 0 (map (fun p => local_max_level (trs p)) ps) = 0 \/ exists p l, In p ps /\ In l (leaves_at trs p) /\ leaf_level l = fold_right Z.max 0 (map (fun p => local_max_level (trs p)) ps)) /\
    0 <= fold_right Z.max 0 (map (fun p => local_max_level (trs p)) ps)).
  { induction ps as [|p ps (I1 & I2 & I3)]; [split; [intros p l []|]; split; [now left|cbn; lia]|]. cbn [map fold_right]. set (r := fold_right Z.max 0 (map (fun p => local_max_level (trs p)) ps)) in *.
    rewrite (EL p). destruct (@fold_max leaf (leaf_level (cls := cls)) (leaves_at trs p) 0) as (F1 & F2 & F3). split; [|split; [|lia]].
    - intros q l [<-|Iq] Il; [specialize (F2 l Il); lia|specialize (I1 q l Iq Il); lia].
    - destruct (Z.max_spec (fold_left (fun m e => Z.max m (leaf_level e)) (leaves_at trs p) 0) r) as [[_ Q]|[_ Q]]; rewrite Q.
      + destruct I2 as [I2|(q & l & Iq & Il & E)]; [now left|right; exists q, l; split; [now right|auto]].
      + destruct F3 as [F3|(l & Il & E)]; [now left|right; exists p, l; split; [now left|auto]]. }
  destruct (U (zseq 0 (Z.to_nat P))) as (U1 & U2 & U3). split.
  - destruct U2 as [U2|(p & l & Ip & Il & E)]; [|exists l; split; [apply IN; eauto|exact E]]. rewrite U2. assert (HK : 1 <= K) by apply D. destruct (F_tree D (t := 0) ltac:(lia)) as (LW & _ & CV & _). destruct (covers_cons LW CV) as (e & r & E & _).
    assert (I : In (el 0 e) (all_leaves K lv)) by (apply in_all; split; [lia|rewrite E; now left]). exists (el 0 e). split; [exact I|]. destruct (leaf_ok D I) as (_ & _ & V & _). pose proof (valid_level LW V). assert (I' := I). apply IN in I'. destruct I' as (p & Ip & Il). specialize (U1 p _ Ip Il). unfold leaf_level in *. cbn [projT1 projT2] in *. lia.
  - intros l Il. apply IN in Il. destruct Il as (p & Ip & Il). exact (U1 p l Ip Il).
Qed.

(** ** the loop *)
Variable lv0 : forall t, list (elt (cls t)).
Variable mle : Z.
Hypothesis M0 : 0 <= mle <= ml.
Variable repartition : bool.
Record binv (s : bstate cls) (lv : forall t, list (elt (cls t))) : Prop := {
  bi_dist : distributed P K ml lv (leaves_at (b_trees s));
  bi_trees : forall p, 0 <= p < P -> local_trees (leaves_at (b_trees s)) p (b_trees s p);
  bi_ghosts : b_done s = false -> ghosts_all lv (b_trees s) (b_ghosts s);
  bi_any : forall p, 0 <= p < P -> ghosts_complete fc nb P K ml lv (leaves_at (b_trees s)) p (b_ghosts s p);
  bi_levels : forall l, In l (all_leaves K lv) -> leaf_level l <= mle;
  bi_refines : refinement K lv0 lv;
  bi_coarsest : forall lv2, forest K ml lv2 -> refinement K lv0 lv2 -> balanced fc nb K ml lv2 -> refinement K lv lv2;
  bi_done : b_done s = true -> balanced fc nb K ml lv
}.
Definition total (lv : forall t, list (elt (cls t))) : nat := list_sum (map (@lweight cls) (all_leaves K lv)).
Lemma in_leaf_trans (lv : forall t, list (elt (cls t))) (trs : Z -> list ltree) (a b c : leaf) : distributed P K ml lv (leaves_at trs) -> 0 <= projT1 a < K -> in_leaf a b -> in_leaf b c -> in_leaf a c.
Proof.
  intros D Ha H1 H2. destruct a as [t e]. destruct b as [u x]. destruct c as [v y]. destruct (in_leaf_iff H1) as (E1 & B1). destruct E1. destruct (in_leaf_iff H2) as (E2 & B2). destruct E2. cbn [eq_rect] in *. apply in_leaf_same. destruct (F_tree D (t := t) Ha) as (LW & _). exact (below_trans LW B1 B2).
Qed.
Lemma gather_same {A} (f k : Z -> list A) : (forall p, 0 <= p < P -> f p = k p) -> PartitionSpec.gather P f = PartitionSpec.gather P k.
Proof. intros H. unfold PartitionSpec.gather. apply flat_map_ext_in. intros p Ip. apply in_zseq in Ip. apply H. lia. Qed.
Lemma step_ok s lv s' : binv s lv -> bstep fc nb dbg P K ml repartition mle s s' -> exists lv', binv s' lv' /\ (total lv' + (if b_done s' then 0 else 1) <= total lv)%nat.
Proof.
  intros [D HT HG _ HL HR HC _] ST. destruct ST as [trs d trs' hs B0 R done RP GC]. specialize (HG B0).
  assert (HG1 : forall p, 0 <= p < P -> ghosts_complete fc nb P K ml lv (leaves_at (b_trees s)) p (b_ghosts s p)) by (intros p Hp; apply (HG p Hp)).
  assert (HG2 : forall p, 0 <= p < P -> b_ghosts s p <> None \/ P = 1) by (intros p Hp; apply (HG p Hp)).
  set (nd := need P ml (b_trees s) fc nb dbg (b_ghosts s) mle).
  assert (RO := fun p => round_ok D HM dbg HT (hs := b_ghosts s) HG1 HG2 M1 M0 HL (p := p)).
  set (lv' := rlv P ml lv (b_trees s) fc nb dbg (b_ghosts s) mle). set (rt := rtrees P ml (b_trees s) fc nb dbg (b_ghosts s) mle).
  assert (ET : forall p, 0 <= p < P -> trs p = rt p) by (intros p Hp; specialize (R p Hp); rewrite (RO p Hp) in R; injection R as <- _; reflexivity).
  assert (ED : forall p, 0 <= p < P -> d p = forallb (keeps P ml (b_trees s) fc nb dbg (b_ghosts s) mle) (leaves_at (b_trees s) p)) by (intros p Hp; specialize (R p Hp); rewrite (RO p Hp) in R; injection R as _ <-; reflexivity).
  assert (DN : done = rdone P K ml lv (b_trees s) fc nb dbg (b_ghosts s) mle) by (unfold done; eapply done_ok; eauto).
  assert (D1 : distributed P K ml lv' (leaves_at trs)).
  { destruct (rlv_distributed D HM dbg HT (hs := b_ghosts s) HG1 HG2 M1 M0 HL) as (A1 & A2 & A3 & A4). split; [exact A1|]. split; [exact A2|]. split; [exact A3|]. fold lv' in A4. rewrite <- A4. apply gather_same. intros p Hp. unfold leaves_at. rewrite (ET p Hp). reflexivity. }
  assert (T1 : forall p, 0 <= p < P -> local_trees (leaves_at trs) p (trs p)).
  { intros p Hp. destruct (rtrees_local D HM dbg HT (hs := b_ghosts s) HG1 HG2 M1 M0 HL Hp) as (A1 & A2 & _). fold rt in A1, A2. rewrite <- (ET p Hp) in A1, A2. split; [exact A1|]. split; [exact A2|reflexivity]. }
  assert (D2 : distributed P K ml lv' (leaves_at trs') /\ forall p, 0 <= p < P -> local_trees (leaves_at trs') p (trs' p)).
  { destruct (repartition && negb done); [|rewrite RP; auto]. destruct RP as [E1 E2]. split; [destruct D1 as (A1 & A2 & A3 & A4); split; [exact A1|]; split; [exact A2|]; split; [exact A3|]; rewrite <- A4; exact E1|].
    intros p Hp. destruct (E2 p Hp) as [A1 A2]. split; [exact A1|]. split; [exact A2|reflexivity]. }
  destruct D2 as [D2 T2]. exists lv'. split.
  - constructor; cbn [b_trees b_ghosts b_done].
    + exact D2.
    + exact T2.
    + intros E. rewrite E, andb_false_r in GC. exact (created_ok D2 T2 GC).
    + destruct (repartition && done); [rewrite GC; intros p Hp; exact Logic.I|]. intros p Hp. exact (proj1 (created_ok D2 T2 GC Hp)).
    + intros l Il. exact (rlv_levels D HM HT HG1 HG2 M1 M0 HL Il).
    + intros l Il. assert (Q : exists l0, In l0 (all_leaves K lv) /\ in_leaf l0 l) by exact (rlv_refines D HM HT HG1 HG2 M1 M0 HL Il). destruct Q as (l0 & I0 & W). destruct (HR l0 I0) as (l1 & I1 & W1). exists l1. split; [exact I1|]. apply (@in_leaf_trans lv (b_trees s) l1 l0 l D); [|exact W1|exact W]. unfold all_leaves in I1. apply in_flat_map in I1. destruct I1 as (t & Ht & I1). apply in_map_iff in I1. destruct I1 as (e & <- & _). apply in_zseq in Ht. cbn [projT1]. lia.
    + intros lv2 F2 R2 B2. apply (coarsest D HM dbg HT (hs := b_ghosts s) HG1 HG2 M1 M0 HL F2); [|exact B2]. exact (HC lv2 F2 R2 B2).
    + intros E. rewrite DN in E. assert (Q := proj1 (rdone_iff D HM dbg HT (hs := b_ghosts s) HG1 HG2 M1 M0 HL) E). unfold balanced. unfold lv'. rewrite (rdone_same E). exact Q.
  - cbn [b_done]. rewrite DN. apply (weight_round D HM dbg HT (hs := b_ghosts s) HG1 HG2 M1 M0 HL).
Qed.
Lemma step_exists s lv : binv s lv -> b_done s = false -> exists s', bstep fc nb dbg P K ml repartition mle s s'.
Proof.
  intros [D HT HG _ HL HR HC _] B0. specialize (HG B0).
  assert (HG1 : forall p, 0 <= p < P -> ghosts_complete fc nb P K ml lv (leaves_at (b_trees s)) p (b_ghosts s p)) by (intros p Hp; apply (HG p Hp)).
  assert (HG2 : forall p, 0 <= p < P -> b_ghosts s p <> None \/ P = 1) by (intros p Hp; apply (HG p Hp)).
  assert (RO := fun p => round_ok D HM dbg HT (hs := b_ghosts s) HG1 HG2 M1 M0 HL (p := p)). assert (D1 := rlv_distributed D HM dbg HT (hs := b_ghosts s) HG1 HG2 M1 M0 HL).
  assert (T1 := fun p => rtrees_local D HM dbg HT (hs := b_ghosts s) HG1 HG2 M1 M0 HL (p := p)). destruct (created_exists D1 T1) as (hs & GC).
  set (d := fun p => forallb (keeps P ml (b_trees s) fc nb dbg (b_ghosts s) mle) (leaves_at (b_trees s) p)). set (rt := rtrees P ml (b_trees s) fc nb dbg (b_ghosts s) mle) in *.
  exists (BState rt (if repartition && forallb d (zseq 0 (Z.to_nat P)) then fun _ => None else hs) (forallb d (zseq 0 (Z.to_nat P)))). apply (bstep_round (trs := rt) (d := d)); [exact B0|exact RO| |].
  - destruct (repartition && negb (forallb d (zseq 0 (Z.to_nat P)))); [|reflexivity]. split; [reflexivity|]. intros p Hp. destruct (T1 p Hp) as (A & B & _). auto.
  - destruct (repartition && forallb d (zseq 0 (Z.to_nat P))); [reflexivity|exact GC].
Qed.
Lemma steps_ok s0 : binv s0 lv0 -> b_done s0 = false -> forall n s, bsteps fc nb dbg P K ml repartition mle n s0 s -> exists lv, binv s lv /\ (n + total lv <= total lv0 + (if b_done s then 1 else 0))%nat.
Proof.
  intros I0 B0 n s ST. remember s0 as s1 eqn:E1 in ST. induction ST as [s|n s s' s'' ST IH S1].
  - subst s. exists lv0. rewrite B0. split; [exact I0|lia].
  - destruct (IH E1) as (lv & IV & W). destruct (step_ok IV S1) as (lv' & IV' & W'). exists lv'. split; [exact IV'|]. assert (b_done s' = false) by (destruct S1; assumption). rewrite H in W. destruct (b_done s''); lia.
Qed.
(** ** the levels *)
Lemma max_level_refined (lv lv' : forall t, list (elt (cls t))) (loc loc' : Z -> list leaf) m : distributed P K ml lv loc -> distributed P K ml lv' loc' -> refinement K lv lv' -> (forall l, In l (all_leaves K lv') -> leaf_level l <= m) ->
  max_level K lv m -> max_level K lv' m.
Proof.
  intros D D' R U [([t e] & Il & E) _]. split; [|exact U]. destruct (leaf_ok D Il) as (Ht & _ & V & L). destruct (F_tree D' Ht) as (LW & ML & CV & LV).
  destruct (first_desc_lo LW V (L := ml) ltac:(lia)) as (Vx & Lx & _ & Bx). destruct (inside_exists LW (x := s_first_desc e ml) CV LV Vx Lx) as (y & Iy & By).
  assert (Iy' : In (el t y) (all_leaves K lv')) by (apply in_all; auto). destruct (R _ Iy') as ([u c] & Ic & Wc). destruct (in_leaf_iff Wc) as (EQ & Bc). destruct EQ. cbn [eq_rect] in Bc.
  assert (Q : el u c = el u e) by (apply (leaf_unique D (z := el u (s_first_desc e ml)) Ic Il); apply in_leaf_same; [exact (below_trans LW Bc By)|exact Bx]). apply el_inj in Q. subst c.
  exists (el u y). split; [exact Iy'|]. assert (Q1 := U _ Iy'). pose proof (proj1 (below_level LW Bc)). unfold leaf_level in *. cbn [projT1 projT2] in *. lia.
Qed.
End loop.

(** ** t8_forest_is_balanced *)
Section is_balanced.
Variable cls : Z -> scheme.
Notation leaf := {t : Z & elt (cls t)}.
Variables P K ml : Z.
Variable fc : forall t, faces (cls t).
Variable nb : leaf -> Z -> option (leaf * Z).
Hypothesis HM : mesh_ok fc nb K ml.
Variables (lv : forall t, list (elt (cls t))) (loc : Z -> list leaf) (dbg : bool) (me mle : Z) (ts : list (ltree cls)) (h : option (ghosts cls)).
Hypothesis D : distributed P K ml lv loc.
Hypothesis Hme : 0 <= me < P.
Hypothesis HT : local_trees loc me ts.
Hypothesis HG : ghosts_complete fc nb P K ml lv loc me h.
Hypothesis MK : mle_ok K ml lv mle.
Lemma none_refined_ok ls : incl ls (loc me) ->
  exists b, none_refined fc nb dbg ml mle ts h ls = Ok b /\ ((forall l, In l ls -> ~ too_fine K ml lv fc nb l) -> b = true) /\ (h <> None \/ P = 1 -> b = true -> forall l, In l ls -> ~ too_fine K ml lv fc nb l).
Proof.
  induction ls as [|l ls IH]; intros IN; cbn [none_refined].
  - exists true. split; [reflexivity|]. split; [reflexivity|]. intros _ _ l [].
  - assert (Il := IN l (or_introl eq_refl)). destruct (balance_adapt_gen D HM dbg Hme HT HG MK (in_loc_all D Hme Il)) as (b & E & B1 & B2). rewrite E. cbn [obind]. destruct b.
    + exists false. split; [reflexivity|]. split; [|discriminate]. intros H. destruct (H l (or_introl eq_refl) (B1 eq_refl)).
    + destruct (IH (fun x Hx => IN x (or_intror Hx))) as (b & E' & C1 & C2). exists b. split; [exact E'|]. split; [intros H; apply C1; intros x Hx; apply H; now right|]. intros NH EB x [<-|Ix]; [intros T; specialize (B2 Il NH T); discriminate|exact (C2 NH EB x Ix)].
Qed.
Lemma is_balanced_ok : exists b, is_balanced fc nb dbg ml mle ts h = Ok b /\ ((forall l, In l (loc me) -> ~ too_fine K ml lv fc nb l) -> b = true) /\ (h <> None \/ P = 1 -> b = true -> forall l, In l (loc me) -> ~ too_fine K ml lv fc nb l).
Proof. destruct HT as (_ & _ & TE). destruct (none_refined_ok (incl_refl (loc me))) as (b & E & Q). exists b. split; [|exact Q]. unfold is_balanced. rewrite <- E, <- TE. reflexivity. Qed.
End is_balanced.

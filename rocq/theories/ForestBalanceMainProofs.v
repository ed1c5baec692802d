(** A round of balance, and the whole loop. *)
From Coq Require Import Sorting.Sorted.
From Verif Require Import Prelude PathSpec SchemeModel SchemeSpec SchemeProofs SchemeOrderProofs SearchProofs LeafModel LeafSpec LeafProofs PartitionModel PartitionSpec.
From Verif Require Import OwnerModel OwnerSpec OwnerMainProofs FaceModel FaceSpec FaceProofs GhostModel GhostSpec GhostOwnerProofs GhostSearchProofs AnyNetModel PropertiesGhost.
From Verif Require Import AdaptModel AdaptSpec AdaptMainProofs LfnModel LfnProofs PropertiesLfn ForestBalanceModel ForestBalanceSpec ForestBalanceProofs.
Set Implicit Arguments.

Lemma flat_map_flat_map {A B C} (f : B -> list C) (k : A -> list B) l : flat_map f (flat_map k l) = flat_map (fun x => flat_map f (k x)) l.
Proof. induction l as [|x l IH]; [reflexivity|]. cbn [flat_map]. rewrite flat_map_app, IH. reflexivity. Qed.
Lemma flat_map_map {A B C} (f : B -> list C) (k : A -> B) l : flat_map f (map k l) = flat_map (fun x => f (k x)) l.
Proof. induction l as [|x l IH]; [reflexivity|]. cbn [flat_map map]. rewrite IH. reflexivity. Qed.
Lemma map_flat_map {A B C} (f : B -> C) (k : A -> list B) l : map f (flat_map k l) = flat_map (fun x => map f (k x)) l.
Proof. induction l as [|x l IH]; [reflexivity|]. cbn [flat_map]. rewrite map_app, IH. reflexivity. Qed.
Lemma flat_map_ext_in {A B} (f k : A -> list B) l : (forall x, In x l -> f x = k x) -> flat_map f l = flat_map k l.
Proof. induction l as [|x l IH]; intros H; [reflexivity|]. cbn [flat_map]. rewrite (H x (or_introl eq_refl)), IH; [reflexivity|]. intros y Hy. apply H. now right. Qed.
Lemma forallb_flat_map {A B} (f : B -> bool) (k : A -> list B) l : forallb f (flat_map k l) = forallb (fun x => forallb f (k x)) l.
Proof. induction l as [|x l IH]; [reflexivity|]. cbn [flat_map forallb]. rewrite forallb_app, IH. reflexivity. Qed.
Lemma forallb_map {A B} (f : B -> bool) (k : A -> B) l : forallb f (map k l) = forallb (fun x => f (k x)) l.
Proof. induction l as [|x l IH]; [reflexivity|]. cbn [map forallb]. now rewrite IH. Qed.

Section elems.
Variable cls : Z -> scheme.
Notation leaf := {t : Z & elt (cls t)}.
Notation el t e := (existT (fun s => elt (cls s)) t e).
Lemma elems_app t (a b : list leaf) : elems_of t (a ++ b) = elems_of t a ++ elems_of t b.
Proof. induction a as [|[u e] a IH]; [reflexivity|]. cbn [app elems_of]. destruct (Z.eq_dec u t) as [E|E]; [|exact IH]. cbn [app]. now rewrite IH. Qed.
Lemma elems_same t (l : list (elt (cls t))) : elems_of t (map (fun e => el t e) l) = l.
Proof. induction l as [|e l IH]; [reflexivity|]. cbn [map elems_of]. destruct (Z.eq_dec t t) as [E|E]; [|contradiction]. rewrite (Eqdep_dec.UIP_dec Z.eq_dec E eq_refl). cbn [eq_rect]. now rewrite IH. Qed.
Lemma elems_other t u (l : list (elt (cls u))) : u <> t -> elems_of t (map (fun e => el u e) l) = [].
Proof. intros N. induction l as [|e l IH]; [reflexivity|]. cbn [map elems_of]. destruct (Z.eq_dec u t) as [E|E]; [contradiction|exact IH]. Qed.
Lemma elems_all K (lv : forall t, list (elt (cls t))) t : 0 <= t < K -> elems_of t (all_leaves K lv) = lv t.
Proof.
  intros Ht. unfold all_leaves. assert (Q : forall n a, elems_of t (flat_map (fun t => map (fun e => el t e) (lv t)) (zseq a n)) = if (a <=? t) && (t <? a + Z.of_nat n) then lv t else []).
  { clear. induction n as [|n IH]; intros a.
    - cbn [zseq flat_map elems_of]. destruct (Z.leb_spec a t), (Z.ltb_spec t (a + Z.of_nat 0)); cbn [andb]; try reflexivity. lia.
    - cbn [zseq flat_map]. rewrite elems_app, IH. destruct (Z.eq_dec a t) as [E|E].
      + destruct E. rewrite elems_same. destruct (Z.leb_spec (a + 1) a); [lia|]. cbn [andb]. rewrite app_nil_r. destruct (Z.leb_spec a a); [|lia]. destruct (Z.ltb_spec a (a + Z.of_nat (Datatypes.S n))); [reflexivity|lia].
      + rewrite elems_other by exact E. cbn [app]. destruct (Z.leb_spec (a + 1) t), (Z.leb_spec a t), (Z.ltb_spec t (a + 1 + Z.of_nat n)), (Z.ltb_spec t (a + Z.of_nat (Datatypes.S n))); cbn [andb]; try reflexivity; lia. }
  rewrite Q. destruct (Z.leb_spec 0 t), (Z.ltb_spec t (0 + Z.of_nat (Z.to_nat K))); try lia. reflexivity.
Qed.
End elems.

Section round.
Variable cls : Z -> scheme.
Notation leaf := {t : Z & elt (cls t)}.
Notation el t e := (existT (fun s => elt (cls s)) t e).
Notation ltree := (ltree cls).
Variables (P K ml : Z) (lv : forall t, list (elt (cls t))) (trs : Z -> list ltree).
Notation loc := (leaves_at trs).
Notation g := (all_leaves K lv).
Hypothesis D : distributed P K ml lv loc.
Variable fc : forall t, faces (cls t).
Variable nb : leaf -> Z -> option (leaf * Z).
Hypothesis HM : mesh_ok fc nb K ml.
Variable dbg : bool.
Hypothesis HT : forall p, 0 <= p < P -> local_trees loc p (trs p).
Variable hs : Z -> option (ghosts cls).
Hypothesis HG : forall p, 0 <= p < P -> ghosts_complete fc nb P K ml lv loc p (hs p).
Hypothesis HN : forall p, 0 <= p < P -> hs p <> None \/ P = 1.
Variable mle : Z.
Hypothesis M1 : 1 <= ml.
Hypothesis M0 : 0 <= mle <= ml.
Hypothesis HL : forall m, In m g -> leaf_level m <= mle.
Notation too_fine := (too_fine K ml lv fc nb).

(** ** the leaves that are refined *)
Definition need (l : leaf) : bool := existsb (fun p => match balance_adapt fc nb dbg ml mle (trs p) (hs p) l with Ok b => b | _ => false end) (zseq 0 (Z.to_nat P)).
Lemma need_local p l : 0 <= p < P -> In l (loc p) -> balance_adapt fc nb dbg ml mle (trs p) (hs p) l = Ok (need l).
Proof.
  intros Hp Il. assert (Ig := in_loc_all D Hp Il). destruct (balance_adapt_ok D HM dbg Hp (HT Hp) (h := hs p) (HG Hp) M1 (proj1 M0) HL (proj2 M0) Ig) as (b & E & B1 & B2). rewrite E. f_equal.
  destruct b.
  - symmetry. apply existsb_exists. exists p. split; [apply in_zseq; lia|]. now rewrite E.
  - destruct (need l) eqn:N; [|reflexivity]. unfold need in N. apply existsb_exists in N. destruct N as (q & Hq & Q). apply in_zseq in Hq.
    destruct (balance_adapt_ok D HM dbg (me := q) ltac:(lia) (HT (p := q) ltac:(lia)) (h := hs q) (HG (p := q) ltac:(lia)) M1 (proj1 M0) HL (proj2 M0) Ig) as (b' & E' & B1' & _). rewrite E' in Q. subst b'.
    apply B2; [exact Il|exact (HN Hp)|]. now apply B1'.
Qed.
Lemma need_iff l : In l g -> (need l = true <-> too_fine l).
Proof.
  intros Ig. destruct (in_all_loc D Ig) as (p & Hp & Il). assert (E := need_local Hp Il). destruct (balance_adapt_ok D HM dbg Hp (HT Hp) (h := hs p) (HG Hp) M1 (proj1 M0) HL (proj2 M0) Ig) as (b & E' & B1 & B2).
  rewrite E in E'. injection E' as <-. split; [exact B1|]. intros T. exact (B2 Il (HN Hp) T).
Qed.
Lemma need_level l : In l g -> need l = true -> leaf_level l + 2 <= mle.
Proof. intros Ig N. apply (need_iff Ig) in N. destruct N as (m & Im & _ & L). specialize (HL Im). lia. Qed.

(** ** the new leaves *)
Definition estep t (e : elt (cls t)) : list (elt (cls t)) := if need (el t e) then s_children e else [e].
Arguments estep : clear implicits.
Definition rstep (l : leaf) : list leaf := map (fun e => el (projT1 l) e) (estep (projT1 l) (projT2 l)).
Definition rlv t : list (elt (cls t)) := flat_map (estep t) (lv t).
Definition rtree (tr : ltree) : ltree := existT (fun t => list (elt (cls t))) (projT1 tr) (flat_map (estep (projT1 tr)) (projT2 tr)).
Definition rtrees (p : Z) : list ltree := map rtree (trs p).
Definition keeps (l : leaf) : bool := negb (need l).

Lemma tree_leaves t (l : list (elt (cls t))) : map (fun e => el t e) (flat_map (estep t) l) = flat_map rstep (map (fun e => el t e) l).
Proof. rewrite map_flat_map, flat_map_map. reflexivity. Qed.
Lemma all_rlv : all_leaves K rlv = flat_map rstep g.
Proof. unfold all_leaves. rewrite flat_map_flat_map. apply flat_map_ext_in. intros t _. unfold rlv. apply tree_leaves. Qed.
Lemma leaves_rtrees p : leaves_at rtrees p = flat_map rstep (loc p).
Proof. unfold leaves_at, rtrees. rewrite flat_map_map, flat_map_flat_map. apply flat_map_ext_in. intros [t l] _. cbn [rtree projT1 projT2]. apply tree_leaves. Qed.
Lemma estep_ok t (e : elt (cls t)) : In (el t e) g -> region (estep t e) = cells e /\ Forall (fun c => valid c /\ below e c /\ s_level c <= mle) (estep t e) /\ estep t e <> [].
Proof.
  intros Ig. destruct (leaf_ok D Ig) as (Ht & _ & V & L). destruct (class_ok HM Ht) as (LW & _ & ML). unfold estep. destruct (need (el t e)) eqn:N.
  - assert (Q := need_level Ig N). unfold leaf_level in Q. cbn [projT1 projT2] in Q. assert (HLe : s_level e < s_maxlevel (cls t)) by lia. split; [exact (cells_children LW V HLe)|]. split.
    + apply Forall_forall. intros c Hc. split; [exact (proj1 (Forall_forall _ _) (children_valid LW V HLe) c Hc)|]. split; [exact (proj1 (Forall_forall _ _) (children_below LW V HLe) c Hc)|]. apply in_children in Hc. destruct Hc as (i & Hi & ->). destruct (valid_child LW V HLe Hi) as (_ & -> & _). lia.
    + intros E. assert (C := cells_children LW V HLe). rewrite E in C. assert (Q2 := cells_nonempty LW V). rewrite <- C in Q2. cbn in Q2. lia.
  - split; [apply region_one|]. split; [|discriminate]. constructor; [|constructor]. split; [exact V|]. split; [exact (below_refl V)|]. assert (Q := HL Ig). unfold leaf_level in Q. exact Q.
Qed.
Lemma in_rlv l : In l (all_leaves K rlv) -> exists t (e c : elt (cls t)), l = el t c /\ In (el t e) g /\ In c (estep t e).
Proof.
  rewrite all_rlv. intros I. apply in_flat_map in I. destruct I as ([t e] & Ig & I). unfold rstep in I. cbn [projT1 projT2] in I. apply in_map_iff in I. destruct I as (c & <- & I). exists t, e, c. auto.
Qed.
Lemma rlv_levels l : In l (all_leaves K rlv) -> leaf_level l <= mle.
Proof. intros I. destruct (in_rlv I) as (t & e & c & -> & Ig & Ic). destruct (estep_ok Ig) as (_ & F & _). rewrite Forall_forall in F. apply (F c Ic). Qed.
Lemma rlv_refines l : In l (all_leaves K rlv) -> exists l0, In l0 g /\ in_leaf l0 l.
Proof. intros I. destruct (in_rlv I) as (t & e & c & -> & Ig & Ic). destruct (estep_ok Ig) as (_ & F & _). rewrite Forall_forall in F. exists (el t e). split; [exact Ig|]. apply in_leaf_same. apply (F c Ic). Qed.
Lemma rlv_distributed : distributed P K ml rlv (leaves_at rtrees).
Proof.
  split; [exact (HP1 D)|]. split; [apply D|]. split.
  - intros t Ht. destruct (F_tree D Ht) as (LW & ML & [V R] & LV). split; [exact LW|]. split; [exact ML|].
    assert (Q : forall l, incl l (lv t) -> region (flat_map (estep t) l) = region l /\ Forall (fun c => valid c /\ s_level c <= mle) (flat_map (estep t) l)).
    { induction l as [|e l IH]; intros I; [split; [reflexivity|constructor]|]. cbn [flat_map]. assert (Ig : In (el t e) g) by (apply in_all; split; [exact Ht|apply I; now left]). destruct (estep_ok Ig) as (E1 & E2 & _).
      destruct (IH (fun x Hx => I x (or_intror Hx))) as [E3 E4]. rewrite region_app, E1, E3. split; [reflexivity|]. apply Forall_app. split; [|exact E4]. eapply Forall_impl; [|exact E2]. cbn beta. intros c (A & _ & B). auto. }
    destruct (Q (lv t) (incl_refl _)) as [Q1 Q2]. unfold covers, rlv. rewrite Q1, R. split; [split; [|reflexivity]|]; (eapply Forall_impl; [|exact Q2]); cbn beta; intros c [A B]; [exact A|lia].
  - rewrite all_rlv, <- (gather_loc D). unfold PartitionSpec.gather. rewrite flat_map_flat_map. apply flat_map_ext_in. intros p _. apply leaves_rtrees.
Qed.
Lemma rtrees_local p : 0 <= p < P -> local_trees (leaves_at rtrees) p (rtrees p).
Proof.
  intros Hp. destruct (HT Hp) as (TS & TN & TE). unfold rtrees. split; [|split; [|reflexivity]].
  - rewrite map_map. exact TS.
  - apply Forall_forall. intros tr Htr. apply in_map_iff in Htr. destruct Htr as (tr0 & <- & I). destruct tr0 as [t ls]. cbn [rtree projT1 projT2]. rewrite Forall_forall in TN. specialize (TN _ I). cbn [projT2] in TN. destruct ls as [|e ls]; [destruct (TN eq_refl)|]. cbn [flat_map].
    assert (Ig : In (el t e) g). { apply (in_loc_all D Hp). rewrite <- TE. unfold leaves_of. apply in_flat_map. exists (existT _ t (e :: ls)). split; [exact I|]. cbn [projT1 projT2 map]. now left. }
    destruct (estep_ok Ig) as (_ & _ & N). destruct (estep t e); [congruence|discriminate].
Qed.

(** ** the adaptation *)
Lemma adapts_step t p k A ls : 0 <= t < K -> a_incomplete A = false -> a_maxlevel A = ml -> (forall e, In e ls -> In (el t e) (loc p)) -> 0 <= p < P -> forall rest pre b st' new rem, incl rest ls ->
  adapts (@balance_cb cls fc nb dbg ml mle (trs p) (hs p) t) A k pre rest (Ok b) st' new rem ->
  st' = Ok (b && forallb (fun e => keeps (el t e)) rest) /\ new = flat_map (estep t) rest /\ rem = false.
Proof.
  intros Ht AI AM IL Hp. destruct (class_ok HM Ht) as (LW & _ & ML). induction rest as [|e r IH]; intros pre b st' new rem IN H.
  - remember [] as l0 eqn:E0 in H. remember (Ok b) as s0 eqn:ES. destruct H; try discriminate.
    + rewrite ES. cbn [forallb flat_map]. rewrite andb_true_r. auto.
    + destruct (family_at_nonempty LW H) as (? & ? & ? & -> & _). discriminate.
  - apply adapts_inv in H. destruct H as (bf & fam & s1 & a & Sh & C & Q). assert (HF : exists fam', fam = e :: fam').
    { destruct Sh as [q fam Fa|e0 r0 ER _]; [|injection ER as <- <-; eauto]. destruct (family_at_nonempty LW Fa) as (e0 & fam' & r0 & -> & ER & _). cbn [app] in ER. injection ER as <- _. eauto. }
    destruct HF as (fam' & ->). assert (Il : In (el t e) (loc p)) by (apply IL, IN; now left). assert (Ig := in_loc_all D Hp Il). cbn [balance_cb] in C. rewrite (need_local Hp Il) in C. cbn [forallb flat_map]. unfold keeps at 1. unfold estep at 1.
    assert (IN' : incl r ls) by (intros x Hx; apply IN; now right).
    destruct (need (el t e)) eqn:N; injection C as <- <-.
    + destruct Q as [(_ & _ & n' & HA & ->)|[([Z0|[_ Z0]] & _)|[(Z0 & _)|(Z0 & _)]]]; try lia.
      * destruct (IH _ _ _ _ _ IN' HA) as (-> & -> & ->). cbn [negb andb]. rewrite andb_false_r. auto.
      * assert (Q := need_level Ig N). unfold leaf_level in Q. cbn [projT1 projT2] in Q. lia.
    + destruct Q as [(Z0 & _)|[(_ & n' & HA & ->)|[(Z0 & _)|(Z0 & _)]]]; try lia. destruct (IH _ _ _ _ _ IN' HA) as (-> & -> & ->). cbn [negb andb app]. auto.
Qed.
Lemma local_contiguous p t ls : 0 <= p < P -> In (existT _ t ls) (trs p) -> 0 <= t < K /\ contiguous ls.
Proof.
  intros Hp I. destruct (HT Hp) as (TS & TN & TE). assert (NE : ls <> []) by exact (proj1 (Forall_forall _ _) TN _ I). assert (Ht : 0 <= t < K).
  { destruct ls as [|e ls]; [destruct (NE eq_refl)|]. apply (leaf_ok D (e := e)). apply (in_loc_all D Hp). rewrite <- TE. unfold leaves_of. apply in_flat_map. exists (existT _ t (e :: ls)). split; [exact I|now left]. }
  split; [exact Ht|]. destruct (F_tree D Ht) as (LW & ML & CV & LV). assert (CC := covers_contig LW CV). apply in_split in I. destruct I as (a & b & EI).
  assert (EL : exists x y, lv t = x ++ ls ++ y).
  { rewrite <- (elems_all lv Ht), <- (gather_loc D). unfold PartitionSpec.gather. assert (Ip : In p (zseq 0 (Z.to_nat P))) by (apply in_zseq; lia). apply in_split in Ip. destruct Ip as (q1 & q2 & ->). rewrite flat_map_app. cbn [flat_map]. rewrite !elems_app.
    assert (E2 : loc p = leaves_of a ++ map (fun e => el t e) ls ++ leaves_of b). { rewrite <- TE, EI. unfold leaves_of. rewrite flat_map_app. reflexivity. }
    rewrite E2, !elems_app, elems_same. eexists (elems_of t _ ++ elems_of t _), (elems_of t _ ++ elems_of t _). rewrite <- !app_assoc. reflexivity. }
  destruct EL as (x & y & EL). rewrite EL in CC. apply contiguous_app_r in CC. exact (contiguous_app_l CC).
Qed.
Lemma cb_fine t p : cb_ok (@balance_cb cls fc nb dbg ml mle (trs p) (hs p) t).
Proof.
  intros st k i b l. unfold balance_cb. destruct st as [d| | |]; cbn [snd]; try (split; [lia|discriminate]). destruct l as [|e l]; cbn [snd]; try (split; [lia|discriminate]).
  destruct (balance_adapt fc nb dbg ml mle (trs p) (hs p) (el t e)) as [[]| | |]; cbn [snd]; (split; [lia|discriminate]).
Qed.
Lemma adapt_trees_ok p A : 0 <= p < P -> a_recursive A = false -> a_incomplete A = false -> a_maxlevel A = ml -> forall ts k b, incl ts (trs p) ->
  adapt_trees (@balance_cb cls fc nb dbg ml mle (trs p) (hs p)) A (Ok b) k ts = Ok (Ok (b && forallb keeps (leaves_of ts)), map rtree ts).
Proof.
  intros Hp AR AI AM. induction ts as [|[t ls] ts IH]; intros k b IN.
  - cbn [adapt_trees leaves_of flat_map forallb map]. rewrite andb_true_r. reflexivity.
  - cbn [adapt_trees]. assert (It := IN _ (or_introl eq_refl)). destruct (local_contiguous Hp It) as (Ht & CC). destruct (class_ok HM Ht) as (LW & _ & ML). destruct (HT Hp) as (TS & TN & TE).
    assert (IL : forall e, In e ls -> In (el t e) (loc p)). { intros e He. rewrite <- TE. unfold leaves_of. apply in_flat_map. exists (existT _ t ls). split; [exact It|]. cbn [projT1 projT2]. apply in_map_iff. eauto. }
    assert (LO : leaves_ok A ls) by (unfold leaves_ok; rewrite AI; exact CC).
    destruct (adapt_tree_exact LW k (cb := @balance_cb cls fc nb dbg ml mle (trs p) (hs p) t) (A := A) ltac:(lia) (fuel := length ls) (Ok b) false AR (@cb_fine t p) LO ltac:(unfold zlen; lia)) as (st' & new & r & HA & E).
    destruct (@adapts_step t p k A ls Ht AI AM IL Hp ls [] b st' new r (incl_refl _) HA) as (-> & -> & ->).
    assert (E' : adapt_tree (@balance_cb cls fc nb dbg ml mle (trs p) (hs p) t) A (length ls) (Ok b) k ls false = Ok (Ok (b && forallb (fun e => keeps (el t e)) ls), flat_map (estep t) ls, false)).
    { rewrite E. assert (NE : ls <> []) by exact (proj1 (Forall_forall _ _) TN _ It). destruct ls as [|e ls]; [destruct (NE eq_refl)|]. destruct (flat_map (estep t) (e :: ls)) eqn:EF; [|reflexivity]. exfalso. cbn [flat_map] in EF. apply app_eq_nil in EF. destruct (estep_ok (in_loc_all D Hp (IL e (or_introl eq_refl)))) as (_ & _ & Q). tauto. }
    rewrite E'. cbn [obind]. rewrite (IH (k + 1) _ (fun x Hx => IN x (or_intror Hx))). cbn [obind map]. unfold leaves_of at 2. cbn [flat_map projT1 projT2]. rewrite forallb_app, forallb_map, andb_assoc. reflexivity.
Qed.
Lemma round_ok p : 0 <= p < P -> balance_round fc nb dbg P ml mle p (trs p) (hs p) = Ok (rtrees p, forallb keeps (loc p)).
Proof.
  intros Hp. unfold balance_round. rewrite (@adapt_trees_ok p (AEnv false false ml p P (zlen (trs p))) Hp eq_refl eq_refl eq_refl (trs p) 0 true (incl_refl _)). cbn [obind andb]. destruct (HT Hp) as (_ & _ & TE). rewrite TE. reflexivity.
Qed.
Definition rdone : bool := forallb keeps g.
Lemma done_ok d : (forall p, 0 <= p < P -> d p = forallb keeps (loc p)) -> forallb d (zseq 0 (Z.to_nat P)) = rdone.
Proof.
  intros H. unfold rdone. rewrite <- (gather_loc D). unfold PartitionSpec.gather. rewrite forallb_flat_map. assert (Q : forall l, (forall p, In p l -> 0 <= p < P) -> forallb d l = forallb (fun x => forallb keeps (loc x)) l).
  { induction l as [|p l IH]; intros I; [reflexivity|]. cbn [forallb]. rewrite (H p (I p (or_introl eq_refl))), IH; [reflexivity|]. intros q Hq. apply I. now right. }
  apply Q. intros p Ip. apply in_zseq in Ip. lia.
Qed.
(** nothing is refined: the forest is balanced *)
Lemma rdone_iff : rdone = true <-> balanced fc nb K ml lv.
Proof.
  unfold rdone. rewrite forallb_forall. split.
  - intros H l m Il Im A. destruct (Z.le_gt_cases (leaf_level m) (leaf_level l + 1)) as [Q|Q]; [exact Q|]. specialize (H l Il). unfold keeps in H. assert (N : need l = true) by (apply (need_iff Il); exists m; split; [exact Im|]; split; [exact A|lia]). rewrite N in H. discriminate.
  - intros B l Il. unfold keeps. destruct (need l) eqn:N; [|reflexivity]. apply (need_iff Il) in N. destruct N as (m & Im & A & L). specialize (B l m Il Im A). lia.
Qed.
Lemma rdone_same : rdone = true -> all_leaves K rlv = g.
Proof.
  intros H. rewrite all_rlv. unfold rdone in H. rewrite forallb_forall in H. revert H. generalize g. induction l as [|[t e] l IH]; intros H; [reflexivity|]. cbn [flat_map]. rewrite IH by (intros x Hx; apply H; now right).
  unfold rstep, estep. cbn [projT1 projT2]. assert (Q := H _ (or_introl eq_refl)). unfold keeps in Q. destruct (need (el t e)); [discriminate|reflexivity].
Qed.
(** ** the number of rounds *)
Definition lweight (l : leaf) : nat := weight (projT2 l).
Lemma weight_step l : In l g -> (list_sum (map lweight (rstep l)) + (if need l then 1 else 0) = lweight l)%nat.
Proof.
  intros Ig. destruct l as [t e]. destruct (leaf_ok D Ig) as (Ht & _ & V & L). destruct (class_ok HM Ht) as (LW & _ & ML). unfold rstep, estep, lweight. cbn [projT1 projT2]. rewrite map_map. cbn [projT2]. destruct (need (el t e)) eqn:N.
  - assert (Q := need_level Ig N). unfold leaf_level in Q. cbn [projT1 projT2] in Q. rewrite (weight_children LW (fun (st : unit) _ _ _ _ => (st, 0)) V) by lia. unfold weights. rewrite Nat.add_1_r. reflexivity.
  - cbn [map list_sum fold_right]. rewrite !Nat.add_0_r. reflexivity.
Qed.
Lemma weight_round : (list_sum (map lweight (all_leaves K rlv)) + (if rdone then 0 else 1) <= list_sum (map lweight g))%nat.
Proof.
  rewrite all_rlv. unfold rdone. assert (Q : forall l, incl l g -> (list_sum (map lweight (flat_map rstep l)) + (if forallb keeps l then 0 else 1) <= list_sum (map lweight l))%nat).
  { induction l as [|x l IH]; intros I; [cbn; lia|]. cbn [flat_map forallb map]. rewrite map_app, list_sum_app. change (list_sum (lweight x :: map lweight l)) with (lweight x + list_sum (map lweight l))%nat. specialize (IH (fun y Hy => I y (or_intror Hy))). assert (W := weight_step (I x (or_introl eq_refl))).
    unfold keeps at 1. destruct (need x); cbn [negb andb] in *; [lia|]. destruct (forallb keeps l); lia. }
  apply Q, incl_refl.
Qed.
(** ** every balanced refinement refines the leaves that are refined *)
Lemma coarsest (lv2 : forall t, list (elt (cls t))) : forest K ml lv2 -> refinement K lv lv2 -> balanced fc nb K ml lv2 -> refinement K rlv lv2.
Proof.
  intros F2 R2 B2 x Ix. destruct (R2 x Ix) as ([t e] & Ig & Wx). destruct (need (el t e)) eqn:N.
  - destruct x as [u d]. destruct (in_leaf_iff Wx) as (EQ & Bd). destruct EQ. cbn [eq_rect] in Bd. destruct (leaf_ok D Ig) as (Ht & _ & V & L). destruct (class_ok HM Ht) as (LW & _ & ML).
    assert (NE : d <> e).
    { intros ->. assert (N' := N). apply (need_iff Ig) in N'. destruct N' as ([u m] & Im & A & Lm). destruct (leaf_ok D Im) as (Hu & _ & Vm & _). destruct (class_ok HM Hu) as (LWu & _ & MLu). unfold leaf_level in Lm. cbn [projT1 projT2] in Lm.
      assert (DJ : forall w, in_leaf (el t e) w -> in_leaf (el u m) w -> False).
      { intros w W1 W2. assert (Q := leaf_unique D Ig Im W1 W2). assert (Q2 : leaf_level (el t e) = leaf_level (el u m)) by (rewrite Q; reflexivity). unfold leaf_level in Q2. cbn [projT1 projT2] in Q2. lia. }
      apply (adjacent_face HM Ht V L DJ) in A.
      2: { intros v a b W B. destruct (in_leaf_iff W) as (EQ & W1). destruct EQ. cbn [eq_rect] in W1. apply in_leaf_same. exact (below_trans LWu W1 B). }
      destruct A as (f & t' & n & f' & y & k & Hf & Nb & Iy & W). destruct (mo_neighbor HM Ht V L Hf Nb) as (Ht' & V' & L' & Hf' & _). destruct (class_ok HM Ht') as (LW' & FL' & ML').
      destruct (face_descend_in LW' FL' (n := Z.to_nat (ml - s_level e)) V' ltac:(lia) Hf' Iy) as (Vy & Ly & _). destruct (in_leaf_iff W) as (EQ & By). destruct EQ. cbn [eq_rect] in By.
      destruct (F2 u Hu) as [CV LV]. destruct (inside_exists LW' (x := y) CV LV Vy ltac:(lia)) as (z & Iz & Bz). assert (Iz2 : In (el u z) (all_leaves K lv2)) by (unfold all_leaves; apply in_flat_map; exists u; split; [apply in_zseq; lia|apply in_map_iff; eauto]).
      destruct (R2 _ Iz2) as ([v c] & Ic & Wc). destruct (in_leaf_iff Wc) as (EQ & Bc). destruct EQ. cbn [eq_rect] in Bc.
      assert (Q : el v c = el v m) by (apply (leaf_unique D (z := el v y) Ic Im); apply in_leaf_same; [exact (below_trans LW' Bc Bz)|exact By]). apply el_inj in Q. subst c.
      assert (A2 : adjacent fc nb ml (el t e) (el v z)).
      { apply (adjacent_face HM Ht V L).
        - intros w W1 W2. apply (DJ w W1). destruct w as [v' w]. destruct (in_leaf_iff W2) as (EQ & W3). destruct EQ. cbn [eq_rect] in W3. apply in_leaf_same. exact (below_trans LW' Bc W3).
        - intros v' a b W1 B. destruct (in_leaf_iff W1) as (EQ & W3). destruct EQ. cbn [eq_rect] in W3. apply in_leaf_same. exact (below_trans LW' W3 B).
        - exists f, v, n, f', y, k. split; [exact Hf|]. split; [exact Nb|]. split; [exact Iy|]. apply in_leaf_same. exact Bz. }
      specialize (B2 _ _ Ix Iz2 A2). unfold leaf_level in B2. cbn [projT1 projT2] in B2. pose proof (proj1 (below_level LW' Bc)). lia. }
    destruct (proper_child LW Bd NE) as (HLe & i & Hi & Bi). exists (el t (s_child e i)). split; [|apply in_leaf_same; exact Bi]. rewrite all_rlv. apply in_flat_map. exists (el t e). split; [exact Ig|]. unfold rstep, estep. cbn [projT1 projT2]. rewrite N. apply in_map_iff. exists (s_child e i). split; [reflexivity|]. apply in_children. eauto.
  - exists (el t e). split; [|exact Wx]. rewrite all_rlv. apply in_flat_map. exists (el t e). split; [exact Ig|]. unfold rstep, estep. cbn [projT1 projT2]. rewrite N. now left.
Qed.
End round.

(** C33: balance, C45: the balance check (and the part of C20 about balance). *)
From Coq Require Import Sorting.Sorted.
From Verif Require Import Prelude PathSpec SchemeModel SchemeSpec SchemeProofs SchemeOrderProofs SchemeInstances ExampleLine LineModel SimplexModel PartitionSpec OwnerModel OwnerSpec OwnerMainProofs PropertiesOwner.
From Verif Require Import FaceModel FaceSpec FaceProofs GhostModel GhostSpec GhostOwnerProofs AnyNetModel NeighborModel NeighborSpec NeighborInstances PropertiesGhost LfnModel PropertiesLfn.
From Verif Require Import ForestBalanceModel ForestBalanceSpec ForestBalanceProofs ForestBalanceMainProofs ForestBalanceLoopProofs.
Set Implicit Arguments.

Section main.
Variable cls : Z -> scheme.
Notation leaf := {t : Z & elt (cls t)}.
Lemma binv_init P K ml fc nb lv (trs : Z -> list (ltree cls)) hs : distributed P K ml lv (leaves_at trs) ->
  (forall p, 0 <= p < P -> local_trees (leaves_at trs) p (trs p)) -> (forall p, 0 <= p < P -> ghosts_complete fc nb P K ml lv (leaves_at trs) p (hs p) /\ (hs p <> None \/ P = 1)) ->
  binv P K ml fc nb lv (max_element_level P trs) (BState trs hs false) lv.
Proof.
  intros D HT HG. constructor; cbn [b_trees b_ghosts b_done]; auto.
  - intros p Hp. apply (HG p Hp).
  - apply (max_level_ok D).
  - intros l Il. exists l. split; [exact Il|]. destruct l as [t e]. apply in_leaf_same. apply below_refl. apply (leaf_ok D Il).
  - discriminate.
Qed.
Lemma mle_range P K ml lv (trs : Z -> list (ltree cls)) : distributed P K ml lv (leaves_at trs) -> 0 <= max_element_level P trs <= ml.
Proof.
  intros D. destruct (max_level_ok D) as [([t e] & Il & E) _]. destruct (leaf_ok D Il) as (Ht & _ & V & L). destruct (F_tree D Ht) as (LW & _). pose proof (valid_level LW V). unfold leaf_level in E. cbn [projT1 projT2] in E. lia.
Qed.
End main.

(** C33: balance terminates.  From the forest with the leaves lv, with its ghosts, there is a bound N such that no run has more than N
    rounds, and a run that is not done always goes on: no round fails, and the ghosts of the next round can be created.  [repartition] is
    the parameter of t8_forest_balance; with it the leaves may be redistributed in any way after each round. *)
Theorem C33_balance_ends : forall cls P K ml (lv : forall t, list (elt (cls t))) fc nb dbg repartition (trs : Z -> list (ltree cls)) hs,
  distributed P K ml lv (leaves_at trs) -> mesh_ok fc nb K ml -> 1 <= ml -> (forall p, 0 <= p < P -> local_trees (leaves_at trs) p (trs p)) ->
  (forall p, 0 <= p < P -> ghosts_complete fc nb P K ml lv (leaves_at trs) p (hs p) /\ (hs p <> None \/ P = 1)) ->
  exists N, forall n s, bsteps fc nb dbg P K ml repartition (max_element_level P trs) n (BState trs hs false) s ->
    (n <= N)%nat /\ (b_done s = true \/ exists s', bstep fc nb dbg P K ml repartition (max_element_level P trs) s s').
Proof.
  intros cls P K ml lv fc nb dbg repartition trs hs D HM M1 HT HG. assert (M0 := mle_range D). assert (I0 := binv_init D HT HG). exists (Datatypes.S (total K lv)). intros n s ST.
  destruct (steps_ok HM M1 M0 I0 eq_refl ST) as (lv' & IV & W). split; [destruct (b_done s); lia|]. destruct (b_done s) eqn:B; [now left|]. right. exact (step_exists HM M1 dbg M0 repartition IV B).
Qed.
Print Assumptions C33_balance_ends.
(** C33: when balance is done, the leaves lv' of the trees are a refinement of the leaves lv it started with, in which no leaf has a face
    neighbour more than one level finer.  The maximum level is the same.  It is the coarsest such forest: every balanced refinement lv2 of lv
    (with levels up to ml, the maximum level of the forest) refines lv'.  The check in the debug build succeeds. *)
Theorem C33_balance_result : forall cls P K ml (lv : forall t, list (elt (cls t))) fc nb dbg repartition (trs : Z -> list (ltree cls)) hs n s,
  distributed P K ml lv (leaves_at trs) -> mesh_ok fc nb K ml -> 1 <= ml -> (forall p, 0 <= p < P -> local_trees (leaves_at trs) p (trs p)) ->
  (forall p, 0 <= p < P -> ghosts_complete fc nb P K ml lv (leaves_at trs) p (hs p) /\ (hs p <> None \/ P = 1)) ->
  bsteps fc nb dbg P K ml repartition (max_element_level P trs) n (BState trs hs false) s -> b_done s = true ->
  exists lv', distributed P K ml lv' (leaves_at (b_trees s)) /\ (forall p, 0 <= p < P -> local_trees (leaves_at (b_trees s)) p (b_trees s p)) /\
    balanced fc nb K ml lv' /\ refinement K lv lv' /\ (forall m, max_level K lv m -> max_level K lv' m) /\
    (forall lv2, forest K ml lv2 -> refinement K lv lv2 -> balanced fc nb K ml lv2 -> refinement K lv' lv2) /\
    forall p, 0 <= p < P -> is_balanced fc nb dbg ml (max_element_level P trs) (b_trees s p) (b_ghosts s p) = Ok true.
Proof.
  intros cls P K ml lv fc nb dbg repartition trs hs n s D HM M1 HT HG ST B. assert (M0 := mle_range D). assert (I0 := binv_init D HT HG). destruct (steps_ok HM M1 M0 I0 eq_refl ST) as (lv' & [D' HT' _ HA' HL' HR' HC' HB'] & _). specialize (HB' B).
  exists lv'. split; [exact D'|]. split; [exact HT'|]. split; [exact HB'|]. split; [exact HR'|]. split.
  { intros m Hm. apply (@max_level_refined cls P K ml lv lv lv' _ _ m D D' HR'); [|exact Hm]. intros l Il. specialize (HL' l Il). destruct (max_level_ok D) as [(l0 & I1 & E1) _]. assert (Q := proj2 Hm l0 I1). lia. }
  split; [exact HC'|]. intros p Hp. assert (MK : mle_ok K ml lv' (max_element_level P trs)) by (right; split; [exact HL'|]; split; [lia|exact M1]).
  destruct (@is_balanced_ok cls P K ml fc nb HM lv' _ dbg p (max_element_level P trs) _ _ D' Hp (HT' p Hp) (HA' p Hp) MK) as (b & E & Q & _). rewrite E, Q; [reflexivity|]. intros l Il (m & Im & A & L). specialize (HB' l m (in_loc_all D' Hp Il) Im A). lia.
Qed.
Print Assumptions C33_balance_result.
(** C33, for the meshes of lines, triangles and tetrahedra: the trees may be connected at their faces in any way *)
Definition balance_correct {cls : Z -> scheme} (fc : forall t, faces (cls t)) (nb : {t : Z & elt (cls t)} -> Z -> option ({t : Z & elt (cls t)} * Z))
  (dbg : bool) (P K ml : Z) (repartition : bool) (lv : forall t, list (elt (cls t))) (trs : Z -> list (ltree cls)) (hs : Z -> option (ghosts cls)) : Prop :=
  exists N, forall n s, bsteps fc nb dbg P K ml repartition (max_element_level P trs) n (BState trs hs false) s ->
    (n <= N)%nat /\ (b_done s = true \/ exists s', bstep fc nb dbg P K ml repartition (max_element_level P trs) s s') /\
    (b_done s = true -> exists lv', distributed P K ml lv' (leaves_at (b_trees s)) /\ balanced fc nb K ml lv' /\ refinement K lv lv' /\ (forall m, max_level K lv m -> max_level K lv' m) /\
       forall lv2, forest K ml lv2 -> refinement K lv lv2 -> balanced fc nb K ml lv2 -> refinement K lv' lv2).
Lemma balance_correct_ok cls P K ml (lv : forall t, list (elt (cls t))) fc nb dbg repartition (trs : Z -> list (ltree cls)) hs :
  distributed P K ml lv (leaves_at trs) -> mesh_ok fc nb K ml -> 1 <= ml -> (forall p, 0 <= p < P -> local_trees (leaves_at trs) p (trs p)) ->
  (forall p, 0 <= p < P -> ghosts_complete fc nb P K ml lv (leaves_at trs) p (hs p) /\ (hs p <> None \/ P = 1)) -> balance_correct fc nb dbg P K ml repartition lv trs hs.
Proof.
  intros D HM M1 HT HG. destruct (C33_balance_ends dbg repartition D HM M1 HT HG) as (N & H). exists N. intros n s ST. destruct (H n s ST) as [A B]. split; [exact A|]. split; [exact B|]. intros DN.
  destruct (C33_balance_result D HM M1 HT HG ST DN) as (lv' & R1 & _ & R2 & R3 & R4 & R5 & _). exists lv'. auto.
Qed.
Theorem C33_line_balance : forall P K ml (lv : Z -> list (elt line_scheme)) conn dbg repartition (trs : Z -> list (ltree (fun _ => line_scheme))) hs,
  distributed (cls := fun _ => line_scheme) P K ml lv (leaves_at trs) -> connected 2 1 K conn -> 1 <= ml <= LMAX -> (forall p, 0 <= p < P -> local_trees (leaves_at trs) p (trs p)) ->
  (forall p, 0 <= p < P -> ghosts_complete (cls := fun _ => line_scheme) (fun _ => line_faces) (neighbor line_crossing conn) P K ml lv (leaves_at trs) p (hs p) /\ (hs p <> None \/ P = 1)) ->
  balance_correct (fun _ => line_faces) (neighbor line_crossing conn) dbg P K ml repartition lv trs hs.
Proof. intros P K ml lv conn dbg repartition trs hs D HC Hml HT HG. apply (balance_correct_ok dbg repartition D); [|lia|exact HT|exact HG]. assert (Hml' : 0 <= ml <= LMAX) by lia. exact (line_mesh HC Hml'). Qed.
Print Assumptions C33_line_balance.
Theorem C33_triangle_balance : forall P K ml (lv : Z -> list (elt (simplex_scheme false))) conn dbg repartition (trs : Z -> list (ltree (fun _ => simplex_scheme false))) hs,
  distributed (cls := fun _ => simplex_scheme false) P K ml lv (leaves_at trs) -> connected 3 2 K conn -> 1 <= ml <= MAXLEVEL false ->
  (forall p, 0 <= p < P -> local_trees (leaves_at trs) p (trs p)) ->
  (forall p, 0 <= p < P -> ghosts_complete (cls := fun _ => simplex_scheme false) (fun _ => simplex_faces false) (neighbor tri_crossing conn) P K ml lv (leaves_at trs) p (hs p) /\ (hs p <> None \/ P = 1)) ->
  balance_correct (fun _ => simplex_faces false) (neighbor tri_crossing conn) dbg P K ml repartition lv trs hs.
Proof. intros P K ml lv conn dbg repartition trs hs D HC Hml HT HG. apply (balance_correct_ok dbg repartition D); [|lia|exact HT|exact HG]. apply tri_mesh; [exact HC|lia]. Qed.
Print Assumptions C33_triangle_balance.
Theorem C33_tetrahedron_balance : forall P K ml (lv : Z -> list (elt (simplex_scheme true))) conn dbg repartition (trs : Z -> list (ltree (fun _ => simplex_scheme true))) hs,
  distributed (cls := fun _ => simplex_scheme true) P K ml lv (leaves_at trs) -> connected 4 3 K conn -> 1 <= ml <= MAXLEVEL true ->
  (forall p, 0 <= p < P -> local_trees (leaves_at trs) p (trs p)) ->
  (forall p, 0 <= p < P -> ghosts_complete (cls := fun _ => simplex_scheme true) (fun _ => simplex_faces true) (neighbor tet_crossing conn) P K ml lv (leaves_at trs) p (hs p) /\ (hs p <> None \/ P = 1)) ->
  balance_correct (fun _ => simplex_faces true) (neighbor tet_crossing conn) dbg P K ml repartition lv trs hs.
Proof. intros P K ml lv conn dbg repartition trs hs D HC Hml HT HG. apply (balance_correct_ok dbg repartition D); [|lia|exact HT|exact HG]. apply tet_mesh; [exact HC|lia]. Qed.
Print Assumptions C33_tetrahedron_balance.
(** the ghosts that balance starts with always exist: they are created if the forest has none *)
Theorem C33_ghosts_exist : forall cls P K ml (lv : forall t, list (elt (cls t))) fc nb dbg (trs : Z -> list (ltree cls)),
  distributed P K ml lv (leaves_at trs) -> mesh_ok fc nb K ml -> (forall p, 0 <= p < P -> local_trees (leaves_at trs) p (trs p)) ->
  exists hs, ghosts_created fc nb dbg P K ml trs hs /\ forall p, 0 <= p < P -> ghosts_complete fc nb P K ml lv (leaves_at trs) p (hs p) /\ (hs p <> None \/ P = 1).
Proof. intros cls P K ml lv fc nb dbg trs D HM HT. destruct (created_exists HM dbg D HT) as (hs & H). exists hs. split; [exact H|]. exact (created_ok HM D HT H). Qed.
Print Assumptions C33_ghosts_exist.
(** C20, for balance: no level is above the maximum level of the input, and so not above the maximum level of the forest, or below 0 *)
Theorem C20_balance_levels : forall cls P K ml (lv : forall t, list (elt (cls t))) fc nb dbg repartition (trs : Z -> list (ltree cls)) hs n s,
  distributed P K ml lv (leaves_at trs) -> mesh_ok fc nb K ml -> 1 <= ml -> (forall p, 0 <= p < P -> local_trees (leaves_at trs) p (trs p)) ->
  (forall p, 0 <= p < P -> ghosts_complete fc nb P K ml lv (leaves_at trs) p (hs p) /\ (hs p <> None \/ P = 1)) ->
  bsteps fc nb dbg P K ml repartition (max_element_level P trs) n (BState trs hs false) s ->
  forall p l m, 0 <= p < P -> In l (leaves_at (b_trees s) p) -> max_level K lv m -> 0 <= leaf_level l <= m /\ m <= ml.
Proof.
  intros cls P K ml lv fc nb dbg repartition trs hs n s D HM M1 HT HG ST p l m Hp Il Hm. assert (M0 := mle_range D). assert (I0 := binv_init D HT HG). destruct (steps_ok HM M1 M0 I0 eq_refl ST) as (lv' & [D' _ _ _ HL' _ _ _] & _).
  assert (Ig := in_loc_all D' Hp Il). assert (L1 := HL' l Ig). destruct (max_level_ok D) as [(l0 & I1 & E1) U]. assert (Q := proj2 Hm l0 I1). destruct Hm as [(l1 & I2 & E2) _]. assert (Q2 := U l1 I2). destruct l as [t e]. destruct (leaf_ok D' Ig) as (Ht & _ & V & _). destruct (F_tree D' Ht) as (LW & _). pose proof (valid_level LW V). unfold leaf_level in L1 |- *. cbn [projT1 projT2] in *. lia.
Qed.
Print Assumptions C20_balance_levels.

(** C45: the balance check on the process me, of a forest with its ghosts: it says whether no leaf of this process has a face neighbour more
    than one level finer.  [mle] is maxlevel_existing, which is only set inside balance (a bound of the levels); otherwise it is -1 and the
    forest must have no leaf of the maximum level ml. *)
Theorem C45_is_balanced_partial : forall cls P K ml (lv : forall t, list (elt (cls t))) (loc : Z -> list {t : Z & elt (cls t)}) fc nb dbg me mle (ts : list (ltree cls)) h,
  distributed P K ml lv loc -> mesh_ok fc nb K ml -> 0 <= me < P -> local_trees loc me ts -> ghosts_complete fc nb P K ml lv loc me h -> h <> None \/ P = 1 ->
  ((mle <= 0 /\ forall m, In m (all_leaves K lv) -> leaf_level m < ml) \/ ((forall m, In m (all_leaves K lv) -> leaf_level m <= mle) /\ mle <= ml /\ 1 <= ml)) ->
  exists b, is_balanced fc nb dbg ml mle ts h = Ok b /\
    (b = true <-> forall l m, In l (loc me) -> In m (all_leaves K lv) -> adjacent fc nb ml l m -> leaf_level m <= leaf_level l + 1).
Proof.
  intros cls P K ml lv loc fc nb dbg me mle ts h D HM Hme HT HG NH MK. destruct (@is_balanced_ok cls P K ml fc nb HM lv loc dbg me mle ts h D Hme HT HG MK) as (b & E & Q1 & Q2). exists b. split; [exact E|]. split.
  - intros -> l m Il Im A. destruct (Z.le_gt_cases (leaf_level m) (leaf_level l + 1)) as [Q|Q]; [exact Q|]. destruct (Q2 NH eq_refl l Il). exists m. split; [exact Im|]. split; [exact A|lia].
  - intros H. apply Q1. intros l Il (m & Im & A & L). specialize (H l m Il Im A). lia.
Qed.
Print Assumptions C45_is_balanced_partial.
(** C45: all processes say yes if and only if the forest is balanced *)
Theorem C45_all_balanced_partial : forall cls P K ml (lv : forall t, list (elt (cls t))) (loc : Z -> list {t : Z & elt (cls t)}) fc nb dbg mle (trs : Z -> list (ltree cls)) hs,
  distributed P K ml lv loc -> mesh_ok fc nb K ml -> (forall p, 0 <= p < P -> local_trees loc p (trs p)) ->
  (forall p, 0 <= p < P -> ghosts_complete fc nb P K ml lv loc p (hs p) /\ (hs p <> None \/ P = 1)) ->
  ((mle <= 0 /\ forall m, In m (all_leaves K lv) -> leaf_level m < ml) \/ ((forall m, In m (all_leaves K lv) -> leaf_level m <= mle) /\ mle <= ml /\ 1 <= ml)) ->
  (forall p, 0 <= p < P -> is_balanced fc nb dbg ml mle (trs p) (hs p) = Ok true) <-> balanced fc nb K ml lv.
Proof.
  intros cls P K ml lv loc fc nb dbg mle trs hs D HM HT HG MK. split.
  - intros H l m Il Im A. destruct (in_all_loc D Il) as (p & Hp & Ip). destruct (HG p Hp) as [G1 G2]. destruct (C45_is_balanced_partial dbg D HM Hp (HT p Hp) G1 G2 MK) as (b & E & Q). rewrite (H p Hp) in E. injection E as <-. exact (proj1 Q eq_refl l m Ip Im A).
  - intros B p Hp. destruct (HG p Hp) as [G1 G2]. destruct (C45_is_balanced_partial dbg D HM Hp (HT p Hp) G1 G2 MK) as (b & E & Q). rewrite E. f_equal. apply Q. intros l m Il Im A. exact (B l m (in_loc_all D Hp Il) Im A).
Qed.
Print Assumptions C45_all_balanced_partial.

(** ** examples: one tree of lines on one process, without neighbours *)
Definition no_conn : connection := fun _ _ => None.
Example no_connected : connected 2 1 1 no_conn. Proof. intros t f t' f' o _ _ E. discriminate. Qed.
Definition bx_trs (ps : list (list Z)) (p : Z) : list (ltree (fun _ => line_scheme)) := [existT (fun _ => list (elt line_scheme)) 0 (map ln ps)].
Definition bx_lv (ps : list (list Z)) (t : Z) : list (elt line_scheme) := map ln ps.
Lemma bx_distributed ps : covers (map ln ps) -> Forall (fun e => s_level e <= 30) (map ln ps) -> distributed (cls := fun _ => line_scheme) 1 1 30 (bx_lv ps) (leaves_at (bx_trs ps)).
Proof. intros C L. split; [lia|]. split; [lia|]. split; [|unfold PartitionSpec.gather, all_leaves; change (Z.to_nat 1) with 1%nat; cbn [zseq flat_map]; rewrite !app_nil_r; unfold leaves_at, leaves_of, bx_trs, bx_lv; cbn [flat_map projT1 projT2]; rewrite ?app_nil_r; reflexivity]. intros t Ht. split; [exact line_laws|]. split; [split; vm_compute; discriminate|]. split; assumption. Qed.
Lemma bx_local ps p : map ln ps <> [] -> local_trees (leaves_at (bx_trs ps)) p (bx_trs ps p).
Proof. intros N. split; [|split; [|reflexivity]]; cbn [bx_trs map projT1]; repeat constructor. exact N. Qed.
(** the leaves 0, 100, 101, 11: the first has a neighbour two levels finer *)
Definition bx : list (list Z) := [[0]; [1; 0; 0]; [1; 0; 1]; [1; 1]].
Lemma bx_covers : covers (map ln bx).
Proof.
  assert (P0 : forall p, forallb (fun i => (0 <=? i) && (i <? 2)) p && (zlen p <=? 30) = true -> gpath line_scheme p) by exact ln_path. split.
  - apply Forall_forall; intros x Hx; apply in_map_iff in Hx; destruct Hx as (q & <- & Hq); apply valid_walk, P0; cbn [In bx] in Hq; destruct Hq as [<-|[<-|[<-|[<-|[]]]]]; reflexivity.
  - assert (Q1 := @split_region [] [] [] (gp_nil _) ltac:(reflexivity)). assert (Q2 := @split_region [[0]] [1] [] (P0 [1] eq_refl) ltac:(reflexivity)). assert (Q3 := @split_region [[0]] [1; 0] [[1; 1]] (P0 [1; 0] eq_refl) ltac:(reflexivity)).
    cbn [app] in Q1, Q2, Q3. unfold bx. rewrite Q3, Q2, Q1. cbn [map]. rewrite region_one. reflexivity.
Qed.
Example bx_input : distributed (cls := fun _ => line_scheme) 1 1 30 (bx_lv bx) (leaves_at (bx_trs bx)) /\ (forall p, 0 <= p < 1 -> local_trees (leaves_at (bx_trs bx)) p (bx_trs bx p)) /\
  mesh_ok (cls := fun _ => line_scheme) (fun _ => line_faces) (neighbor line_crossing no_conn) 1 30 /\ max_element_level 1 (bx_trs bx) = 3.
Proof.
  split; [apply bx_distributed; [exact bx_covers|repeat constructor; vm_compute; discriminate]|]. split; [intros p _; apply bx_local; discriminate|]. split; [exact (line_mesh no_connected (ltac:(split; vm_compute; discriminate) : 0 <= 30 <= LMAX))|]. vm_cast_no_check (@eq_refl Z 3).
Qed.
(** balance refines the first leaf and needs a second round to see that it is done *)
Definition bx_result : list (list Z) := [[0; 0]; [0; 1]; [1; 0; 0]; [1; 0; 1]; [1; 1]].
Example bx_run : bsteps (fun _ => line_faces) (neighbor line_crossing no_conn) true 1 1 30 false 3 2 (BState (bx_trs bx) (fun _ => None) false) (BState (bx_trs bx_result) (fun _ => None) true).
Proof.
  apply bsteps_step with (s' := BState (bx_trs bx_result) (fun _ => None) false); [apply bsteps_step with (s' := BState (bx_trs bx) (fun _ => None) false); [apply bsteps_refl|]|].
  - apply (@bstep_round (fun _ => line_scheme) (fun _ => line_faces) (neighbor line_crossing no_conn) true 1 1 30 false 3 (BState (bx_trs bx) (fun _ => None) false) (bx_trs bx_result) (fun _ => false) (bx_trs bx_result) (fun _ => None)); [reflexivity| |reflexivity|reflexivity].
    intros p Hp. replace p with 0 by lia. vm_cast_no_check (@eq_refl (outcome (list (ltree (fun _ => line_scheme)) * bool)) (Ok (bx_trs bx_result 0, false))).
  - apply (@bstep_round (fun _ => line_scheme) (fun _ => line_faces) (neighbor line_crossing no_conn) true 1 1 30 false 3 (BState (bx_trs bx_result) (fun _ => None) false) (bx_trs bx_result) (fun _ => true) (bx_trs bx_result) (fun _ => None)); [reflexivity| |reflexivity|reflexivity].
    intros p Hp. replace p with 0 by lia. vm_cast_no_check (@eq_refl (outcome (list (ltree (fun _ => line_scheme)) * bool)) (Ok (bx_trs bx_result 0, true))).
Qed.
(** the five processes of PropertiesOwner.v: ghosts exist *)
Example bx_five : distributed (cls := fun _ => line_scheme) 5 2 30 ex_lv (leaves_at ex_trs) /\ (forall p, 0 <= p < 5 -> local_trees (cls := fun _ => line_scheme) (leaves_at ex_trs) p (ex_trs p)) /\
  exists hs, forall p, 0 <= p < 5 -> ghosts_complete (cls := fun _ => line_scheme) (fun _ => line_faces) (neighbor line_crossing ex_conn) 5 2 30 ex_lv (leaves_at ex_trs) p (hs p) /\ (hs p <> None \/ 5 = 1).
Proof.
  assert (HM := line_mesh ex_connected (ltac:(split; vm_compute; discriminate) : 0 <= 30 <= LMAX)). assert (HT : forall p, 0 <= p < 5 -> local_trees (cls := fun _ => line_scheme) (leaves_at ex_trs) p (ex_trs p)) by (intros p Hp; destruct (ex_local_trees Hp) as (A & B & _); split; [exact A|]; split; [exact B|reflexivity]).
  assert (EQ : forall p, 0 <= p < 5 -> leaves_at ex_trs p = ex_loc p) by (intros p Hp; exact (proj2 (proj2 (ex_local_trees Hp)))).
  assert (D : distributed (cls := fun _ => line_scheme) 5 2 30 ex_lv (leaves_at ex_trs)) by (destruct ex_distributed as (A & B & C & E); split; [exact A|]; split; [exact B|]; split; [exact C|]; rewrite <- E; unfold PartitionSpec.gather; apply flat_map_ext_in; intros p Hp; apply in_zseq in Hp; apply EQ; lia).
  split; [exact D|]. split; [exact HT|]. destruct (C33_ghosts_exist true D HM HT) as (hs & _ & H). exists hs. exact H.
Qed.

(** C45 as stated is false: in a forest with a leaf of the maximum level the balance check aborts, also in a release build, although the forest
    is balanced: maxlevel_existing is -1 outside of balance.  The leaves have the levels 30, 30, 29, ..., 1. *)
Fixpoint graded_tail (n : nat) : list (list Z) := match n with O => [] | Datatypes.S n' => (repeat 0 n' ++ [1]) :: graded_tail n' end.
Definition graded (n : nat) : list (list Z) := repeat 0 n :: graded_tail n.
Lemma graded_path n : (n <= 30)%nat -> gpath line_scheme (repeat 0 n).
Proof. intros H. apply ln_path. apply andb_true_intro. split; [|apply Z.leb_le; unfold zlen; rewrite repeat_length; lia]. apply forallb_forall. intros x Hx. apply repeat_spec in Hx. subst x. reflexivity. Qed.
Lemma graded_region n : (n <= 30)%nat -> region (map ln (graded n)) = cells (s_root line_scheme).
Proof.
  induction n as [|n IH]; intros H; [cbn [graded graded_tail repeat map]; rewrite region_one; reflexivity|]. rewrite <- IH by lia. unfold graded. cbn [graded_tail]. replace (repeat 0 (Datatypes.S n)) with (repeat 0 n ++ [0]) by (symmetry; apply repeat_cons).
  exact (@split_region [] (repeat 0 n) (graded_tail n) (graded_path (n := n) ltac:(lia)) ltac:(unfold zlen; rewrite repeat_length; lia)).
Qed.
Lemma graded_covers : covers (map ln (graded 30)).
Proof.
  split; [|apply graded_region; lia]. apply Forall_forall. intros x Hx. apply in_map_iff in Hx. destruct Hx as (q & <- & Hq). apply valid_walk, ln_path. revert q Hq. apply forallb_forall. vm_compute. reflexivity.
Qed.
Theorem C45_unset_level_refuted : exists (lv : Z -> list (elt line_scheme)) (trs : Z -> list (ltree (fun _ => line_scheme))),
  distributed (cls := fun _ => line_scheme) 1 1 LMAX lv (leaves_at trs) /\ local_trees (leaves_at trs) 0 (trs 0) /\ balanced (cls := fun _ => line_scheme) (fun _ => line_faces) (neighbor line_crossing no_conn) 1 LMAX lv /\
  is_balanced (fun _ => line_faces) (neighbor line_crossing no_conn) false LMAX (-1) (trs 0) None = AssertFail.
Proof.
  assert (L30 : forallb (fun e => s_level e <=? 30) (map ln (graded 30)) = true) by (vm_compute; reflexivity). assert (LF : Forall (fun e => s_level e <= 30) (map ln (graded 30))) by (apply Forall_forall; intros e He; rewrite forallb_forall in L30; apply Z.leb_le, L30, He).
  assert (D := bx_distributed graded_covers LF). assert (HT : forall p, 0 <= p < 1 -> local_trees (leaves_at (bx_trs (graded 30))) p (bx_trs (graded 30) p)) by (intros p _; apply bx_local; discriminate).
  exists (bx_lv (graded 30)), (bx_trs (graded 30)). split; [exact D|]. split; [apply HT; lia|]. split; [|vm_cast_no_check (@eq_refl (outcome bool) AssertFail)].
  assert (HM := line_mesh no_connected (ltac:(split; vm_compute; discriminate) : 0 <= 30 <= LMAX)).
  apply (@C45_all_balanced_partial (fun _ => line_scheme) 1 1 30 (bx_lv (graded 30)) (leaves_at (bx_trs (graded 30))) (fun _ => line_faces) (neighbor line_crossing no_conn) false 30 (bx_trs (graded 30)) (fun _ => None) D HM HT).
  - intros p _. split; [exact Logic.I|right; reflexivity].
  - right. split; [|lia]. intros [t e] Im. apply in_all in Im. destruct Im as [_ Im]. unfold bx_lv in Im. rewrite Forall_forall in LF. exact (LF e Im).
  - intros p Hp. replace p with 0 by lia. vm_cast_no_check (@eq_refl (outcome bool) (Ok true)).
Qed.
Print Assumptions C45_unset_level_refuted.
(** C33 needs a complete ghost layer: balance uses the ghosts that the forest already has.  With those of the version 2 of the ghost creation, which
    are none (C42_versions_refuted), balance ends after one round with a forest that is not balanced. *)
Definition b2_trs (p : Z) : list (ltree (fun _ => line_scheme)) := if p =? 0 then bx_trs [[0]] 0 else bx_trs [[1; 0; 0]; [1; 0; 1]; [1; 1]] 0.
Theorem C33_earlier_ghosts_refuted : exists (lv : Z -> list (elt line_scheme)) (trs : Z -> list (ltree (fun _ => line_scheme))) rem out h n s,
  distributed (cls := fun _ => line_scheme) 2 1 LMAX lv (leaves_at trs) /\ (forall p, 0 <= p < 2 -> local_trees (leaves_at trs) p (trs p)) /\
  begun (fun _ => line_faces) (neighbor line_crossing no_conn) 2 2 1 LMAX (leaves_at trs) false 0 trs rem out /\
  (forall p, 0 <= p < 2 -> g_procs (rem p) = [] /\ out p = []) /\ receive [] [] = Ok h /\
  bsteps (fun _ => line_faces) (neighbor line_crossing no_conn) false 2 1 LMAX true (max_element_level 2 trs) n (BState trs (fun _ => Some h) false) s /\ b_done s = true /\
  forall lv', distributed (cls := fun _ => line_scheme) 2 1 LMAX lv' (leaves_at (b_trees s)) -> ~ balanced (cls := fun _ => line_scheme) (fun _ => line_faces) (neighbor line_crossing no_conn) 1 LMAX lv'.
Proof.
  exists (bx_lv bx), b2_trs, (fun _ => no_remotes), (fun _ => []), no_ghosts, 1%nat, (BState b2_trs (fun _ => None) true).
  assert (C : forall p, 0 <= p < 2 -> p = 0 \/ p = 1) by (intros; lia).
  split. { destruct bx_input as [(A & B & D & E) _]. split; [lia|]. split; [lia|]. split; [exact D|]. rewrite <- E. reflexivity. }
  split. { intros p Hp. destruct (C p Hp) as [-> | ->]; (split; [|split; [|reflexivity]]); cbn [b2_trs bx_trs map projT1]; repeat constructor; discriminate. }
  split. { exists [0; -1; 1]. split; [vm_cast_no_check (@eq_refl (outcome (list Z)) (Ok [0; -1; 1]))|]. intros p Hp. destruct (C p Hp) as [-> | ->]; vm_cast_no_check (@eq_refl (outcome (remotes (fun _ => line_scheme) * list (Z * message (fun _ => line_scheme)))) (Ok (no_remotes, []))). }
  split; [intros; split; reflexivity|]. split; [reflexivity|]. split; [|split; [reflexivity|]].
  - apply bsteps_step with (s' := BState b2_trs (fun _ => Some no_ghosts) false); [apply bsteps_refl|].
    apply (@bstep_round (fun _ => line_scheme) (fun _ => line_faces) (neighbor line_crossing no_conn) false 2 1 30 true (max_element_level 2 b2_trs) (BState b2_trs (fun _ => Some (no_ghosts (cls := fun _ => line_scheme))) false) b2_trs (fun _ => true) b2_trs (fun _ => None)); [reflexivity| |reflexivity|reflexivity].
    intros p Hp. destruct (C p Hp) as [-> | ->]; [vm_cast_no_check (@eq_refl (outcome (list (ltree (fun _ => line_scheme)) * bool)) (Ok (b2_trs 0, true)))|vm_cast_no_check (@eq_refl (outcome (list (ltree (fun _ => line_scheme)) * bool)) (Ok (b2_trs 1, true)))].
  - intros lv' D B. cbn [b_trees] in D. specialize (B (lf 0 [0]) (lf 0 [1; 0; 0])).
    assert (I1 : In (lf 0 [0]) (all_leaves 1 lv')) by (apply (in_loc_all D (p := 0) ltac:(lia)); left; reflexivity). assert (I2 : In (lf 0 [1; 0; 0]) (all_leaves 1 lv')) by (apply (in_loc_all D (p := 1) ltac:(lia)); left; reflexivity).
    specialize (B I1 I2). assert (A : adjacent (cls := fun _ => line_scheme) (fun _ => line_faces) (neighbor line_crossing no_conn) LMAX (lf 0 [0]) (lf 0 [1; 0; 0])).
    { exists (lf 0 [0; 1; 1]), (lf 0 [1; 0; 0]), 1, 0. split; [exists 0, (ln [0]), (ln [0; 1; 1]); split; [reflexivity|]; split; [reflexivity|]; exists [0], [1; 1]; split; [apply ln_path; reflexivity|split; reflexivity]|].
      split; [exists 0, (ln [1; 0; 0]), (ln [1; 0; 0]); split; [reflexivity|]; split; [reflexivity|]; apply below_refl, valid_walk, ln_path; reflexivity|]. split; [vm_compute; discriminate|]. split; [split; vm_compute; [discriminate|reflexivity]|]. reflexivity. }
    specialize (B A). vm_compute in B. destruct (B eq_refl).
Qed.
Print Assumptions C33_earlier_ghosts_refuted.

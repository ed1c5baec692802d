(** The remote elements: adding an element, and the search that finds them. *)
From Coq Require Import Sorting.Sorted.
From Verif Require Import Prelude PathSpec SchemeModel SchemeSpec SchemeProofs SchemeOrderProofs LeafModel LeafSpec LeafProofs SearchModel SearchProofs SplitProofs SearchMainProofs.
From Verif Require Import PartitionModel PartitionSpec OwnerModel OwnerSpec OwnerProofs OwnerMainProofs FaceModel FaceSpec FaceProofs GhostModel GhostOwnerProofs.

Lemma nodup_snoc {A} (l : list A) a : NoDup l -> ~ In a l -> NoDup (l ++ [a]).
Proof. intros H N. apply (NoDup_Add (a := a) (l := l)); [|auto]. replace l with (l ++ []) at 1 by apply app_nil_r. apply Add_app. Qed.

Section remotes.
Variable cls : Z -> scheme.
Notation leaf := {t : Z & elt (cls t)}.
Notation el t e := (existT (fun t => elt (cls t)) t e).
(** leaves with the laws of their class *)
Definition fine (x : leaf) : Prop := laws (cls (projT1 x)) /\ valid (projT2 x).
Lemma same_elem_iff t (e f : elt (cls t)) : fine (el t e) -> fine (el t f) -> (same_elem (el t f) e = true <-> f = e).
Proof.
  intros [LW V] [_ V']. cbn [projT1 projT2] in *. unfold same_elem. cbn [projT1 projT2]. rewrite andb_true_iff, !Z.eqb_eq. split; [|intros ->; auto].
  intros [EL EI]. apply (same_id LW V' V (L := s_level e)); auto; rewrite EL in *; auto.
Qed.
Lemma before_not_same t (e f : elt (cls t)) : fine (el t e) -> fine (el t f) -> gbefore (el t f) (el t e) -> same_elem (el t f) e = false.
Proof.
  intros Fe Ff B. destruct (same_elem (el t f) e) eqn:E; [|reflexivity]. exfalso. apply same_elem_iff in E; auto. subst f. apply gbefore_same in B. destruct Fe as [LW V]. pose proof (lo_hi LW V). unfold before in B. cbn in *. lia.
Qed.
Definition earlier_all (pre : list (leaf * Z)) (x : leaf) : Prop := Forall (fun y => fine (fst y) /\ gbefore (fst y) x) pre.
Definition of_tree (t : Z) (l : list (leaf * Z)) : Prop := Forall (fun y => projT1 (fst y) = t) l.

Lemma none_same dbg t (e : elt (cls t)) l : fine (el t e) -> earlier_all l (el t e) -> of_tree t l -> dbg && existsb (fun x => same_elem (fst x) e) l = false.
Proof.
  intros Fe EA OT. destruct dbg; [cbn [andb]|reflexivity]. apply not_true_iff_false. intros H. apply existsb_exists in H. destruct H as ([[u f] i] & Hx & S). cbn [fst] in *.
  unfold earlier_all, of_tree in *. rewrite Forall_forall in EA, OT. specialize (OT _ Hx). cbn in OT. subst u. destruct (EA _ Hx) as [Ff B]. cbn [fst] in *. rewrite before_not_same in S by assumption. discriminate.
Qed.
Lemma add_elem_new dbg rt t (e : elt (cls t)) i : fine (el t e) -> earlier_all (rt_elems rt) (el t e) -> of_tree t (rt_elems rt) ->
  add_elem dbg rt e i = Ok (RTree (rt_tree rt) (rt_elems rt ++ [(el t e, i)]), true).
Proof.
  intros Fe EA OT. unfold add_elem. assert (I : incl (removelast (rt_elems rt)) (rt_elems rt)).
  { destruct (rt_elems rt) as [|a l] using rev_ind; [intros x []|]. rewrite removelast_last. intros x Hx. apply in_or_app. now left. }
  rewrite none_same; auto; [|apply Forall_forall; intros y Hy; unfold earlier_all in EA; rewrite Forall_forall in EA; apply EA, I, Hy|apply Forall_forall; intros y Hy; unfold of_tree in OT; rewrite Forall_forall in OT; apply OT, I, Hy].
  destruct (rev (rt_elems rt)) as [|[[u f] j] l] eqn:E.
  - apply (f_equal (@rev _)) in E. rewrite rev_involutive in E. rewrite E. reflexivity.
  - apply (f_equal (@rev _)) in E. rewrite rev_involutive in E. cbn [rev] in E. assert (Hx : In (el u f, j) (rt_elems rt)) by (rewrite E; apply in_or_app; right; now left).
    unfold earlier_all, of_tree in *. rewrite Forall_forall in EA, OT. assert (Eu := OT _ Hx). cbn in Eu. subst u. destruct (EA _ Hx) as [Ff B]. cbn [fst] in *. now rewrite before_not_same by assumption.
Qed.
Lemma add_elem_old dbg rt t (e : elt (cls t)) i pre : fine (el t e) -> rt_elems rt = pre ++ [(el t e, i)] -> earlier_all pre (el t e) -> of_tree t pre ->
  add_elem dbg rt e i = Ok (rt, false).
Proof.
  intros Fe E EA OT. unfold add_elem. rewrite E, removelast_last, none_same by auto. rewrite rev_app_distr. cbn [rev app]. now rewrite (proj2 (same_elem_iff Fe Fe) eq_refl).
Qed.

Definition flat (r : remote cls) : list (leaf * Z) := flat_map rt_elems (r_trees r).
Definition trees_ok (rts : list (rtree cls)) : Prop := Forall (fun rt => rt_elems rt <> [] /\ of_tree (rt_tree rt) (rt_elems rt)) rts /\ StronglySorted Z.lt (map rt_tree rts).
Definition entry_ok (r : remote cls) (h : list (leaf * Z)) : Prop := r_trees r <> [] /\ flat r = h /\ r_num r = zlen h /\ trees_ok (r_trees r).
Definition rem_ok (g : remotes cls) (h : Z -> list (leaf * Z)) : Prop :=
  g_procs g = map r_rank (g_remotes g) /\ NoDup (g_procs g) /\ Forall (fun r => entry_ok r (h (r_rank r))) (g_remotes g) /\ forall q, h q <> [] -> In q (g_procs g).

Lemma trees_ok_app a b : trees_ok (a ++ b) <-> trees_ok a /\ trees_ok b /\ forall x y, In x a -> In y b -> rt_tree x < rt_tree y.
Proof.
  unfold trees_ok. rewrite Forall_app, map_app, sorted_app. split.
  - intros ((A & B) & (C & D & E)). split; [auto|]. split; [auto|]. intros x y Hx Hy. apply E; now apply in_map.
  - intros ((A & C) & (B & D) & E). split; [auto|]. split; [auto|]. split; [auto|]. intros x y Hx Hy. apply in_map_iff in Hx, Hy. destruct Hx as (u & <- & Hu). destruct Hy as (v & <- & Hv). auto.
Qed.
Lemma trees_ok_one rt : trees_ok [rt] <-> rt_elems rt <> [] /\ of_tree (rt_tree rt) (rt_elems rt).
Proof. unfold trees_ok. split; [intros [H _]; now inversion H|]. intros H. split; [now constructor|]. cbn. repeat constructor. Qed.
Lemma add_to_remote_ok dbg r t (e : elt (cls t)) i pre h : fine (el t e) -> entry_ok r h -> (h = pre \/ h = pre ++ [(el t e, i)]) -> earlier_all pre (el t e) ->
  exists r', add_to_remote dbg r e i = Ok r' /\ r_rank r' = r_rank r /\ entry_ok r' (pre ++ [(el t e, i)]).
Proof.
  intros Fe (NE & FL & NUM & TO) C EA. unfold add_to_remote. destruct (rev (r_trees r)) as [|lt prev] eqn:E.
  { apply (f_equal (@rev _)) in E. rewrite rev_involutive in E. contradiction. }
  apply (f_equal (@rev _)) in E. rewrite rev_involutive in E. cbn [rev] in E. rewrite E in TO. apply trees_ok_app in TO. destruct TO as (TP & TL & LT). apply trees_ok_one in TL. destruct TL as [NL OL].
  unfold flat in FL. rewrite E, flat_map_app in FL. cbn [flat_map] in FL. rewrite app_nil_r in FL. destruct C as [->| ->].
  - assert (EL : earlier_all (rt_elems lt) (el t e)) by (unfold earlier_all in *; rewrite <- FL in EA; apply Forall_app in EA; apply EA).
    destruct (Z.eqb_spec (rt_tree lt) t) as [Et|Nt].
    + subst t. rewrite (add_elem_new dbg (rt := lt) i Fe EL OL). cbn [obind fst snd]. eexists. split; [reflexivity|]. split; [reflexivity|]. unfold entry_ok, flat. cbn [r_trees r_num]. rewrite flat_map_app. cbn [flat_map rt_elems]. rewrite app_nil_r.
      split; [now destruct (rev prev)|]. split; [now rewrite app_assoc, FL|]. split; [rewrite zlen_snoc; lia|]. apply trees_ok_app. split; [exact TP|]. split.
      * apply trees_ok_one. cbn [rt_elems rt_tree]. split; [now destruct (rt_elems lt)|]. apply Forall_app. split; [exact OL|repeat constructor].
      * intros x y Hx [<-|[]]. cbn [rt_tree]. apply LT; [exact Hx|now left].
    + rewrite (add_elem_new dbg (rt := RTree t []) i Fe) by constructor. cbn [obind fst snd rt_tree rt_elems app]. eexists. split; [reflexivity|]. split; [reflexivity|]. unfold entry_ok, flat. cbn [r_trees r_num]. rewrite flat_map_app. cbn [flat_map rt_elems]. rewrite E at 1.
      split; [now destruct (rev prev)|]. rewrite E, flat_map_app. cbn [flat_map app]. rewrite app_nil_r, FL. split; [reflexivity|]. split; [rewrite zlen_snoc; lia|].
      assert (HL : rt_tree lt < t).
      { destruct (rt_elems lt) as [|y r0] eqn:Ey; [congruence|]. assert (Iy : In y (rt_elems lt)) by (rewrite Ey; now left). rewrite Ey in *. unfold earlier_all, of_tree in *. rewrite Forall_forall in EL, OL. destruct (EL _ (or_introl eq_refl)) as [_ B].
        apply gbefore_tree in B. rewrite (OL _ (or_introl eq_refl)) in B. cbn in B. lia. }
      apply trees_ok_app. split; [apply trees_ok_app; split; [exact TP|]; split; [now apply trees_ok_one|exact LT]|]. split.
      * apply trees_ok_one. cbn [rt_elems rt_tree]. split; [discriminate|repeat constructor].
      * intros x y Hx [<-|[]]. cbn [rt_tree]. apply in_app_or in Hx. destruct Hx as [Hx|[<-|[]]]; [|exact HL]. specialize (LT x lt Hx (or_introl eq_refl)). lia.
  - destruct (exists_last NL) as (a & y & Ey). rewrite Ey, app_assoc in FL. apply app_inj_tail in FL. destruct FL as [FP ->]. rewrite Ey in OL. apply Forall_app in OL. destruct OL as [OA OX]. inversion OX as [|? ? Et _]; subst. cbn [fst projT1] in *. subst t.
    rewrite Z.eqb_refl. rewrite (add_elem_old dbg (rt := lt) Fe Ey); [|apply Forall_app in EA; apply EA|exact OA]. cbn [obind fst snd].
    eexists. split; [reflexivity|]. split; [reflexivity|]. unfold entry_ok, flat. cbn [r_trees r_num]. split; [now destruct (rev prev)|]. rewrite flat_map_app. cbn [flat_map]. rewrite app_nil_r, Ey, app_assoc. split; [reflexivity|]. split; [exact NUM|].
    apply trees_ok_app. split; [exact TP|]. split; [|exact LT]. apply trees_ok_one. rewrite Ey. split; [now destruct a|]. apply Forall_app. auto.
Qed.
Lemma update_remote_ok dbg rs q t (e : elt (cls t)) i pre h : fine (el t e) -> In q (map r_rank rs) -> NoDup (map r_rank rs) -> Forall (fun r => entry_ok r (h (r_rank r))) rs ->
  (h q = pre \/ h q = pre ++ [(el t e, i)]) -> earlier_all pre (el t e) ->
  exists rs', update_remote dbg rs q e i = Ok rs' /\ map r_rank rs' = map r_rank rs /\ Forall (fun r => entry_ok r (if r_rank r =? q then pre ++ [(el t e, i)] else h (r_rank r))) rs'.
Proof.
  intros Fe HI ND FA C EA. induction rs as [|r rs IH]; [destruct HI|]. cbn [update_remote map] in *. inversion ND as [|? ? NI ND']; subst. apply Forall_cons_iff in FA. destruct FA as [Er FA].
  destruct (Z.eqb_spec (r_rank r) q) as [Q|Q].
  - subst q. destruct (add_to_remote_ok dbg Fe Er C EA) as (r' & E1 & R1 & O1). rewrite E1. cbn [obind]. exists (r' :: rs). split; [reflexivity|]. cbn [map]. rewrite R1. split; [reflexivity|]. constructor.
    + rewrite R1, Z.eqb_refl. exact O1.
    + apply Forall_forall. intros x Hx. rewrite Forall_forall in FA. destruct (Z.eqb_spec (r_rank x) (r_rank r)) as [Q2|_]; [exfalso; apply NI; rewrite <- Q2; now apply in_map|now apply FA].
  - destruct HI as [HI|HI]; [congruence|]. destruct (IH HI ND' FA) as (rs' & E1 & R1 & O1). rewrite E1. cbn [obind]. exists (r :: rs'). split; [reflexivity|]. cbn [map]. rewrite R1. split; [reflexivity|]. constructor; [|exact O1].
    destruct (Z.eqb_spec (r_rank r) q); [congruence|exact Er].
Qed.
Lemma add_remote_ok dbg g q t (e : elt (cls t)) i pre h h' : fine (el t e) -> rem_ok g h -> (h q = pre \/ h q = pre ++ [(el t e, i)]) -> earlier_all pre (el t e) ->
  (forall q', h' q' = if q' =? q then pre ++ [(el t e, i)] else h q') -> exists g', add_remote dbg g q e i = Ok g' /\ rem_ok g' h'.
Proof.
  intros Fe (EP & ND & FA & IN) C EA EH. unfold add_remote. destruct (existsb (fun r => r_rank r =? q) (g_remotes g)) eqn:EX.
  - apply existsb_exists in EX. destruct EX as (r & Hr & Er). apply Z.eqb_eq in Er. rewrite EP in ND.
    destruct (@update_remote_ok dbg (g_remotes g) q t e i pre h Fe) as (rs' & E1 & R1 & O1); auto; [rewrite <- Er; now apply in_map|]. rewrite E1. cbn [obind]. eexists. split; [reflexivity|].
    unfold rem_ok. cbn [g_procs g_remotes]. rewrite R1. split; [exact EP|]. rewrite EP. split; [exact ND|]. split.
    + apply Forall_forall. intros x Hx. rewrite Forall_forall in O1. rewrite EH. apply O1, Hx.
    + intros q' Hq'. rewrite EH in Hq'. rewrite <- EP. destruct (Z.eqb_spec q' q) as [Q|_]; [rewrite Q, EP, <- Er; now apply in_map|now apply IN].
  - assert (NI : ~ In q (g_procs g)). { rewrite EP. intros H. apply in_map_iff in H. destruct H as (r & Er & Hr). apply not_true_iff_false in EX. apply EX, existsb_exists. exists r. split; [exact Hr|now apply Z.eqb_eq]. }
    assert (HQ : h q = []) by (destruct (h q) eqn:E0; [reflexivity|exfalso; apply NI, IN; rewrite E0; discriminate]).
    rewrite (add_elem_new dbg (rt := RTree t []) i Fe) by constructor. cbn [obind fst snd rt_tree rt_elems app]. eexists. split; [reflexivity|]. unfold rem_ok. cbn [g_procs g_remotes].
    assert (EPre : pre = []) by (destruct C as [C|C]; [congruence|rewrite HQ in C; destruct pre; discriminate]). subst pre. rewrite map_app. cbn [map r_rank]. split; [now rewrite EP|]. split.
    + now apply nodup_snoc.
    + split.
      * apply Forall_app. split; [|constructor; [|constructor]].
        -- apply Forall_forall. intros r Hr. rewrite EH. destruct (Z.eqb_spec (r_rank r) q) as [Q|_]; [exfalso; apply NI; rewrite EP, <- Q; now apply in_map|]. rewrite Forall_forall in FA. now apply FA.
        -- cbn [r_rank]. rewrite EH, Z.eqb_refl. cbn [app]. unfold entry_ok, flat. cbn [r_trees r_num flat_map rt_elems app]. split; [discriminate|]. split; [reflexivity|]. split; [reflexivity|]. apply trees_ok_one. cbn [rt_elems rt_tree]. split; [discriminate|repeat constructor].
      * intros q' Hq'. rewrite EH in Hq'. apply in_or_app. destruct (Z.eqb_spec q' q) as [Q|_]; [right; now left|left; now apply IN].
Qed.
End remotes.

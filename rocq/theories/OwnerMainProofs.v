(** From the leaves of a distributed forest to the tables and the owner search. *)
From Verif Require Import Prelude PathSpec SchemeModel SchemeSpec SchemeProofs SchemeOrderProofs LeafProofs.
From Coq Require Eqdep_dec.
From Verif Require Import OffsetModel OffsetSpec OffsetProofs NetModel PartitionModel PartitionSpec PartitionRangeProofs PropertiesPartition OwnerModel OwnerSpec OwnerProofs.

Section tree.
Variable S : scheme.
Hypothesis LW : laws S.
Notation elt := (elt S).
Notation M := (s_maxlevel S).
Implicit Types e f g x y : elt.
Implicit Types l a b : list elt.
Variable ml : Z.
Hypothesis Hml : 0 <= ml <= M.
Definition key e : Z := s_linear_id (s_first_desc e ml) ml.

Lemma root_valid : valid (s_root S). Proof. exact (valid_root S). Qed.
Lemma covers_contig l : covers l -> contiguous l.
Proof. intros [V R]. split; [exact V|]. exists (cell_id (s_root S)). rewrite R. exact (cells_ids LW root_valid). Qed.
Lemma covers_ordered l : covers l -> ordered l.
Proof. intros H. exact (contiguous_ordered (covers_contig H)). Qed.
Lemma covers_cons l : covers l -> exists e r, l = e :: r /\ lo e = lo (s_root S).
Proof.
  intros [V R]. destruct l as [|e r].
  - exfalso. assert (N := cells_nonempty LW root_valid). rewrite <- R in N. cbn in N. lia.
  - exists e, r. split; [reflexivity|]. inversion V; subst. rewrite region_cons in R. destruct (cells_hd LW (e := e)) as (u & E1); [assumption|]. destruct (cells_hd LW root_valid) as (v & E2).
    rewrite <- R, map_app, E1 in E2. cbn [app] in E2. injection E2 as E2 _. exact E2.
Qed.
Lemma root_key : key (s_root S) = 0.
Proof.
  unfold key. assert (RL := root_level LW). assert (F := law_linear_id_fine LW (gp_nil S) (L := ml)). unfold gwalk in F; cbn [fold_left] in F. change (zlen (@nil Z)) with 0 in F. rewrite <- F by lia.
  assert (E := law_linear_id LW Hml). destruct (cells_first LW (gp_nil S) (n := Z.to_nat ml)) as (r & Er); [change (zlen (@nil Z)) with 0; lia|]. unfold gwalk in Er; cbn [fold_left app] in Er. rewrite Er in E. cbn [map length zseq] in E.
  injection E as E _. rewrite F by lia. assert (FD := law_first_desc LW (gp_nil S) (L := ml)). unfold gwalk in FD at 1; cbn [fold_left] in FD. change (zlen (@nil Z)) with 0 in FD. rewrite FD by lia. cbn [app]. rewrite Z.sub_0_r. exact E.
Qed.
Lemma key_before e f : valid e -> valid f -> s_level e <= ml -> s_level f <= ml -> before e f -> key e < key f.
Proof.
  intros Ve Vf Le Lf B. destruct (first_desc_lo LW (e := e) (L := ml)) as (V1 & L1 & E1 & B1); [assumption|lia|]. destruct (first_desc_lo LW (e := f) (L := ml)) as (V2 & L2 & E2 & B2); [assumption|lia|].
  apply (same_level LW V1 V2 L1 L2). pose proof (below_nested LW B1). unfold before in *. lia.
Qed.
Lemma key_lo e f : valid e -> valid f -> s_level e <= ml -> s_level f <= ml -> lo e = lo f -> key e = key f.
Proof.
  intros Ve Vf Le Lf E. destruct (first_desc_lo LW (e := e) (L := ml)) as (V1 & L1 & E1 & B1); [assumption|lia|]. destruct (first_desc_lo LW (e := f) (L := ml)) as (V2 & L2 & E2 & B2); [assumption|lia|].
  unfold key. apply Z.le_antisymm; apply (id_mono LW); auto; lia.
Qed.
Lemma equal_key e : valid e -> s_level e <= ml -> s_equal (s_first_desc (s_root S) ml) (s_first_desc e ml) = (key e =? 0).
Proof.
  intros Ve Le. assert (RL := root_level LW). destruct (first_desc_lo LW (e := e) (L := ml)) as (V1 & L1 & E1 & B1); [assumption|lia|]. destruct (first_desc_lo LW (e := s_root S) (L := ml)) as (V2 & L2 & E2 & B2); [exact root_valid|lia|].
  assert (RK := root_key). unfold key in RK |- *. apply eq_true_iff_eq. rewrite Z.eqb_eq. destruct V1 as (p & Hp & Ep). destruct V2 as (q & Hq & Eq). rewrite Ep, Eq in *. rewrite (law_equal LW Hq Hp). split.
  - intros ->. exact RK.
  - intros K. apply (gwalk_inj LW Hq Hp). apply (same_id LW (L := ml)); auto; try (now apply valid_walk). lia.
Qed.
(** the element [x] of level ml and the leaf that contains it *)
Lemma inside_le e x : valid x -> s_level x = ml -> below e x -> key e <= s_linear_id x ml.
Proof.
  intros Vx Lx B. destruct (below_valid B) as [Ve _]. destruct (below_level LW B) as [L _]. destruct (first_desc_lo LW (e := e) (L := ml)) as (V1 & L1 & E1 & B1); [assumption|lia|].
  apply (id_mono LW); auto. rewrite E1. apply (below_nested LW B).
Qed.
Lemma inside_lt e f x : valid x -> s_level x = ml -> below e x -> valid f -> s_level f <= ml -> before e f -> s_linear_id x ml < key f.
Proof.
  intros Vx Lx B Vf Lf Bf. destruct (first_desc_lo LW (e := f) (L := ml)) as (V1 & L1 & E1 & B1); [assumption|lia|]. apply (same_level LW Vx V1 Lx L1). pose proof (below_nested LW B). unfold before in *. lia.
Qed.
Lemma inside_exists l x : covers l -> Forall (fun e => s_level e <= ml) l -> valid x -> s_level x = ml -> exists e, In e l /\ below e x.
Proof.
  intros C FL Vx Lx. destruct C as [V R]. pose proof (valid_level LW Vx) as VL. assert (BR : below (s_root S) x). { destruct Vx as (p & Hp & ->). exists [], p. auto. }
  assert (NX := below_nested LW BR). assert (LHx := lo_hi LW Vx).
  assert (I : In (lo x) (map (@cell_id S) (cells (s_root S)))). { apply (cells_in LW); [exact root_valid|]. lia. }
  rewrite <- R in I. apply in_map_iff in I. destruct I as (c & Ec & Ic). unfold region in Ic. apply in_flat_map in Ic. destruct Ic as (e & Ie & Ic). exists e. split; [exact Ie|].
  rewrite Forall_forall in V, FL. specialize (V e Ie). specialize (FL e Ie). assert (Hc : In (lo x) (map (@cell_id S) (cells e))) by (rewrite <- Ec; now apply in_map).
  apply (cells_in LW (lo x) V) in Hc. destruct (laminar LW V Vx) as [B|[B|[B|B]]]; [exact B| | |].
  - destruct (below_level LW B) as [L Q]. rewrite (Q ltac:(lia)). apply below_refl; assumption.
  - unfold before in B. lia.
  - unfold before in B. pose proof (lo_hi LW Vx). lia.
Qed.
End tree.

(** chains of keys *)
Definition kstep (x y : Z * Z) : Prop := (fst y = fst x /\ snd x < snd y) \/ (fst y = fst x + 1 /\ snd y = 0).
Fixpoint chain (x : Z * Z) (l : list (Z * Z)) : Prop := match l with [] => True | y :: r => kstep x y /\ chain y r end.
Lemma last_cons {B} (b : list B) : forall y x, last (y :: b) x = last b y.
Proof. induction b as [|c b IH]; intros y x; [reflexivity|]. change (last (c :: b) x = last (c :: b) y). now rewrite !IH. Qed.
Lemma last_app_cons {B} (a b : list B) y x : last (a ++ y :: b) x = last b y.
Proof. induction a as [|z a IH]; [apply last_cons|]. cbn [app]. destruct (a ++ y :: b) eqn:E; [destruct a; discriminate|exact IH]. Qed.
Lemma nth_last_cons {B} (l : list B) : forall y x, nth (length l) (y :: l) x = last l y.
Proof. induction l as [|c l IH]; intros y x; [reflexivity|]. rewrite last_cons. exact (IH c x). Qed.
Lemma chain_app x a y b : chain x a -> kstep (last a x) y -> chain y b -> chain x (a ++ y :: b).
Proof.
  revert x. induction a as [|z a IH]; intros x H1 H2 H3; [cbn [chain app last] in *; auto|]. rewrite last_cons in H2. cbn [chain app] in *. destruct H1 as [H1 H4]. split; [exact H1|]. now apply IH.
Qed.
Lemma chain_nth x l i : chain x l -> (i < length l)%nat -> kstep (nth i (x :: l) (0, 0)) (nth (Datatypes.S i) (x :: l) (0, 0)).
Proof.
  revert x i. induction l as [|y l IH]; intros x i H Hi; cbn [length] in Hi; [lia|]. cbn [chain] in H. destruct H as [H1 H2]. destruct i as [|i]; [exact H1|]. exact (IH y i H2 ltac:(lia)).
Qed.

Section forest.
Variable cls : Z -> scheme.
Notation leaf := {t : Z & elt (cls t)}.
Notation mk t e := (existT (fun t => elt (cls t)) t e).
Variables (P K ml : Z) (lv : forall t, list (elt (cls t))) (loc : Z -> list leaf).
Hypothesis F : distributed P K ml lv loc.

Definition lkey (x : leaf) : Z * Z := match x with existT _ t e => (t, key ml e) end.
Notation g := (all_leaves K lv).
Notation N := (zlen g).

Lemma F_tree t : 0 <= t < K -> laws (cls t) /\ 0 <= ml <= s_maxlevel (cls t) /\ covers (lv t) /\ Forall (fun e => s_level e <= ml) (lv t).
Proof. apply F. Qed.
Lemma in_all t e : In (mk t e) g <-> 0 <= t < K /\ In e (lv t).
Proof.
  unfold all_leaves. rewrite in_flat_map. split.
  - intros (u & Hu & H). apply in_zseq in Hu. apply in_map_iff in H. destruct H as (e' & E & I). assert (u = t) by (now injection E). subst u. apply (Eqdep_dec.inj_pair2_eq_dec Z Z.eq_dec) in E. subst e'. split; [lia|exact I].
  - intros [H I]. exists t. split; [apply in_zseq; lia|]. apply in_map_iff. exists e. auto.
Qed.
Lemma tree_chain t e l : 0 <= t < K -> ordered (S := cls t) (e :: l) -> Forall (fun e => s_level e <= ml) (e :: l) ->
  chain (t, key ml e) (map lkey (map (fun e => mk t e) l)) /\ fst (last (map lkey (map (fun e => mk t e) l)) (t, key ml e)) = t.
Proof.
  intros Ht. destruct (F_tree Ht) as (LW & HM & _). revert e. induction l as [|f l IH]; intros e O L; [split; [exact I|reflexivity]|].
  apply (ordered_cons LW) in O. destruct O as (Ve & O & B). inversion B as [|? ? Bf _]; subst. inversion L as [|? ? Le Lf]; subst. assert (Vf : valid f) by (apply (ordered_cons LW) in O; apply O).
  inversion Lf as [|? ? Lf1 _]; subst. destruct (IH f O Lf) as [C E]. cbn [map lkey chain]. split.
  - split; [|exact C]. left. cbn [fst snd]. split; [reflexivity|]. apply (key_before LW); auto.
  - rewrite last_cons. exact E.
Qed.
Lemma tree_keys t : 0 <= t < K -> exists r, map lkey (map (fun e => mk t e) (lv t)) = (t, 0) :: r /\ chain (t, 0) r /\ fst (last r (t, 0)) = t.
Proof.
  intros Ht. destruct (F_tree Ht) as (LW & HM & C & L). destruct (covers_cons LW C) as (e & r & E & Lo). assert (O := covers_ordered LW C). rewrite E in *.
  assert (Ke : key ml e = 0). { rewrite <- (root_key LW HM). apply (key_lo LW HM); auto; [apply (ordered_cons LW) in O; apply O|apply root_valid|now inversion L|rewrite (root_level LW); lia]. }
  destruct (tree_chain Ht O L) as [C1 C2]. rewrite Ke in *. cbn [map lkey]. rewrite Ke. eauto.
Qed.
Lemma seq_keys n : forall t, 0 <= t -> t + Z.of_nat (Datatypes.S n) <= K ->
  exists r, map lkey (flat_map (fun t => map (fun e => mk t e) (lv t)) (zseq t (Datatypes.S n))) = (t, 0) :: r /\ chain (t, 0) r /\ fst (last r (t, 0)) = t + Z.of_nat n.
Proof.
  induction n as [|n IH]; intros t H0 H.
  - cbn [zseq flat_map]. rewrite app_nil_r. destruct (@tree_keys t ltac:(lia)) as (r & E & C & L). exists r. split; [exact E|]. split; [exact C|]. lia.
  - change (zseq t (Datatypes.S (Datatypes.S n))) with (t :: zseq (t + 1) (Datatypes.S n)). cbn [flat_map]. rewrite map_app. destruct (@tree_keys t ltac:(lia)) as (r & E & C & L). destruct (IH (t + 1) ltac:(lia) ltac:(lia)) as (r' & E' & C' & L').
    rewrite E, E'. cbn [app]. exists (r ++ (t + 1, 0) :: r'). split; [reflexivity|]. split; [|rewrite last_app_cons; lia]. apply chain_app; auto. right. cbn [fst snd]. lia.
Qed.
Lemma all_keys : exists r, map lkey g = (0, 0) :: r /\ chain (0, 0) r /\ fst (last r (0, 0)) = K - 1.
Proof.
  assert (HK : 1 <= K) by apply F. unfold all_leaves. replace (Z.to_nat K) with (Datatypes.S (Z.to_nat (K - 1))) by lia. destruct (@seq_keys (Z.to_nat (K - 1)) 0) as (r & E & C & L); [lia|lia|].
  exists r. split; [exact E|]. split; [exact C|]. lia.
Qed.
Definition gkey (i : Z) : Z * Z := nth (Z.to_nat i) (map lkey g) (0, 0).
Definition T (i : Z) : Z := fst (gkey i).
Definition D (i : Z) : Z := snd (gkey i).
Lemma gkey_nth i x : 0 <= i -> nth_error g (Z.to_nat i) = Some x -> gkey i = lkey x.
Proof. intros H E. unfold gkey. apply nth_error_nth. rewrite nth_error_map, E. reflexivity. Qed.
Lemma keys_ok : 1 <= N /\ T 0 = 0 /\ D 0 = 0 /\ T (N - 1) = K - 1 /\
  forall i, 0 <= i < N - 1 -> (T (i + 1) = T i /\ D i < D (i + 1)) \/ (T (i + 1) = T i + 1 /\ D (i + 1) = 0).
Proof.
  destruct all_keys as (r & E & C & L). assert (HL : zlen g = zlen r + 1). { unfold zlen. rewrite <- (map_length lkey), E. cbn [length]. lia. }
  assert (R0 := zlen_ge0 r). unfold T, D, gkey. rewrite E. split; [lia|]. split; [reflexivity|]. split; [reflexivity|]. split.
  - rewrite HL. replace (Z.to_nat (zlen r + 1 - 1)) with (length r) by (unfold zlen; lia). rewrite <- L. f_equal. apply nth_last_cons.
  - intros i Hi. rewrite HL in Hi. assert (Q := @chain_nth (0, 0) r (Z.to_nat i) C ltac:(unfold zlen in Hi; lia)). replace (Z.to_nat (i + 1)) with (Datatypes.S (Z.to_nat i)) by lia. exact Q.
Qed.

(** ** the element offsets *)
Notation o := (element_offsets P loc).
Lemma HP1 : 1 <= P. Proof. apply F. Qed.
Lemma gather_loc : gather P loc = g. Proof. apply F. Qed.
Lemma offsets_ok : element_table P N o /\ forall p, 0 <= p < P -> zlen (loc p) = at_ o (p + 1) - at_ o p.
Proof.
  assert (HP := HP1). unfold element_offsets. set (nums := map (fun p => zlen (loc p)) (zseq 0 (Z.to_nat P))).
  assert (LN : zlen nums = P) by (unfold nums, zlen; rewrite map_length, zseq_length; lia).
  destruct (C21_create_offsets (nums := nums)) as [A B].
  { intros E. rewrite E in LN. cbn in LN. lia. } { unfold nums. apply Forall_forall. intros x Hx. apply in_map_iff in Hx. destruct Hx as (p & <- & _). apply zlen_ge0. }
  rewrite LN in A, B. assert (Q : forall p, 0 <= p < P -> zlen (loc p) = at_ (create_offsets (fold_right Z.add 0 nums) nums) (p + 1) - at_ (create_offsets (fold_right Z.add 0 nums) nums) p).
  { intros p Hp. rewrite B by exact Hp. unfold nums. rewrite (nth_indep _ 0 (zlen (loc 0))) by (rewrite map_length, zseq_length; lia). rewrite (map_nth (fun p => zlen (loc p)) _ 0). rewrite nth_zseq by lia. f_equal. f_equal. lia. }
  split; [|exact Q]. assert (G := gather_len A Q). rewrite gather_loc in G. rewrite G. exact A.
Qed.
Lemma loc_part p : 0 <= p < P -> loc p = part g (at_ o p) (at_ o (p + 1)).
Proof. intros Hp. destruct offsets_ok as [A B]. rewrite <- gather_loc. symmetry. exact (gather_part A B Hp). Qed.
Lemma loc_nth p i : 0 <= p < P -> at_ o p <= i < at_ o (p + 1) -> nth_error (loc p) (Z.to_nat (i - at_ o p)) = nth_error g (Z.to_nat i).
Proof.
  intros Hp Hi. rewrite (loc_part Hp). destruct offsets_ok as [A B]. assert (R := tab_range A (p := p) ltac:(lia)). unfold part.
  assert (Q : forall (l : list leaf) n k, (k < n)%nat -> nth_error (firstn n l) k = nth_error l k). { induction l as [|x l IH]; intros n k H; [now rewrite firstn_nil|]. destruct n; [lia|]. destruct k; [reflexivity|]. cbn. apply IH. lia. }
  rewrite Q by lia. assert (Q2 : forall (l : list leaf) n k, nth_error (skipn n l) k = nth_error l (n + k)). { induction l as [|x l IH]; intros n k; [rewrite skipn_nil; destruct k, n; reflexivity|]. destruct n; [reflexivity|]. cbn. apply IH. }
  rewrite Q2. f_equal. lia.
Qed.
Lemma in_loc p x : 0 <= p < P -> (In x (loc p) <-> exists i, at_ o p <= i < at_ o (p + 1) /\ nth_error g (Z.to_nat i) = Some x).
Proof.
  intros Hp. destruct offsets_ok as [A B]. assert (R := tab_range A (p := p) ltac:(lia)). specialize (B p Hp). split.
  - intros H. apply In_nth_error in H. destruct H as (k & Hk). assert (HL : (k < length (loc p))%nat) by (apply nth_error_Some; congruence). exists (at_ o p + Z.of_nat k). unfold zlen in B. split; [lia|].
    rewrite <- (@loc_nth p) by lia. rewrite <- Hk. f_equal. lia.
  - intros (i & Hi & E). rewrite <- (@loc_nth p) in E by lia. exact (nth_error_In _ _ E).
Qed.
Lemma loc_cases p : 0 <= p < P -> (loc p = [] /\ at_ o (p + 1) = at_ o p) \/ (exists t e r, loc p = mk t e :: r /\ at_ o p < at_ o (p + 1) /\ T (at_ o p) = t /\ D (at_ o p) = key ml e /\ 0 <= t < K /\ In e (lv t)).
Proof.
  intros Hp. destruct offsets_ok as [A B]. assert (R := tab_range A (p := p) ltac:(lia)). specialize (B p Hp). destruct (loc p) as [|[t e] r] eqn:E; [left; split; [reflexivity|change (zlen (@nil leaf)) with 0 in B; lia]|].
  right. exists t, e, r. rewrite zlen_cons in B. assert (R0 := zlen_ge0 r). split; [reflexivity|]. split; [lia|].
  assert (Q := @loc_nth p (at_ o p) Hp ltac:(lia)). rewrite E, Z.sub_diag in Q. cbn in Q. symmetry in Q. assert (G := gkey_nth (proj1 R) Q). unfold T, D. rewrite G. split; [reflexivity|]. split; [reflexivity|].
  apply in_all. exact (nth_error_In _ _ Q).
Qed.

(** ** the tables *)
Lemma collect_ok (h : Z -> outcome Z) (v : Z -> Z) l : (forall p, In p l -> h p = Ok (v p)) -> collect (map h l) = Ok (map v l).
Proof. induction l as [|p l IH]; intros H; [reflexivity|]. cbn [map collect]. rewrite (H p (or_introl eq_refl)). cbn [obind]. rewrite IH by (intros q Hq; apply H; now right). reflexivity. Qed.
Lemma nth_tab (v : Z -> Z) x p : 0 <= p <= P -> nth (Z.to_nat p) (map v (zseq 0 (Z.to_nat P)) ++ [x]) 0 = if p =? P then x else v p.
Proof.
  intros Hp. assert (HP := HP1). destruct (Z.eqb_spec p P) as [->|C].
  - rewrite app_nth2 by (rewrite map_length, zseq_length; lia). rewrite map_length, zseq_length, Nat.sub_diag. reflexivity.
  - rewrite app_nth1 by (rewrite map_length, zseq_length; lia). rewrite (nth_indep _ 0 (v 0)) by (rewrite map_length, zseq_length; lia). rewrite map_nth, nth_zseq by lia. f_equal. lia.
Qed.
Lemma zlen_tab (v : Z -> Z) x : zlen (map v (zseq 0 (Z.to_nat P)) ++ [x]) = P + 1.
Proof. assert (HP := HP1). rewrite zlen_app. unfold zlen. rewrite map_length, zseq_length. cbn [length]. lia. Qed.
Lemma shared_eq p t e r : 0 <= p < P -> loc p = mk t e :: r -> first_tree_shared P ml (loc p) = negb (D (at_ o p) =? 0).
Proof.
  intros Hp E. destruct (@loc_cases p Hp) as [[E0 _]|(t' & e' & r' & E' & NE & ET & ED & Ht & I)]; [congruence|]. rewrite E' in *. unfold first_tree_shared. destruct (F_tree Ht) as (LW & HM & C & L).
  destruct (Z.eqb_spec P 1) as [C1|C1].
  - assert (p = 0) by lia. subst p. destruct offsets_ok as [A _]. rewrite (tab_0 A). destruct keys_ok as (_ & _ & D0 & _). rewrite D0. reflexivity.
  - rewrite (equal_key LW HM). + now rewrite ED. + destruct C as [V _]. rewrite Forall_forall in V. now apply V. + rewrite Forall_forall in L. now apply L.
Qed.
Definition raw (p : Z) : Z := raw_tree_offset K (first_tree_shared P ml (loc p)) (loc p).
Lemma raw_eq p : 0 <= p < P -> raw p = if at_ o p <? at_ o (p + 1) then (if D (at_ o p) =? 0 then T (at_ o p) else - T (at_ o p) - 1) else K.
Proof.
  intros Hp. unfold raw. destruct (@loc_cases p Hp) as [[E0 EA]|(t & e & r & E & NE & ET & ED & Ht & I)].
  - rewrite E0. cbn [raw_tree_offset]. rewrite (proj2 (Z.ltb_ge (at_ o p) (at_ o (p + 1)))) by lia. reflexivity.
  - rewrite (shared_eq Hp E), E. cbn [raw_tree_offset]. rewrite (proj2 (Z.ltb_lt _ _) NE), ET. destruct (D (at_ o p) =? 0); reflexivity.
Qed.
Lemma T_bounds i : 0 <= i < N -> 0 <= T i < K.
Proof. destruct keys_ok as (H1 & H2 & H3 & H4 & H5). exact (T_range (N := N) (T := T) (D := D) H2 H4 H5 (i := i)). Qed.
Notation arr := (map raw (zseq 0 (Z.to_nat P)) ++ [K]).
Lemma rd_arr p : 0 <= p <= P -> rd arr p = Ok (if p =? P then K else raw p).
Proof. intros Hp. rewrite rd_ok by (rewrite zlen_tab; lia). f_equal. apply nth_tab. exact Hp. Qed.
Lemma next_filled_ok fuel p : forall q, 0 <= p -> p <= q -> q <= P -> P - q < Z.of_nat fuel -> (forall r, p <= r < q -> at_ o (r + 1) = at_ o r) ->
  exists n, next_filled fuel P K arr q = Ok n /\ q <= n <= P /\ (forall r, p <= r < n -> at_ o (r + 1) = at_ o r) /\ (n < P -> at_ o n < at_ o (n + 1)).
Proof.
  destruct offsets_ok as [A _]. induction fuel as [|f IH]; intros q H0 H1 H2 H3 H4; [lia|]. cbn [next_filled]. destruct (Z.ltb_spec q P) as [C|C].
  2:{ exists q. split; [reflexivity|]. split; [lia|]. split; [exact H4|]. lia. }
  rewrite rd_arr by lia. cbn [obind]. destruct (Z.eqb_spec q P); [lia|]. rewrite raw_eq by lia. assert (S1 := tab_step A (p := q) ltac:(lia)). assert (R := tab_range A (p := q) ltac:(lia)). assert (R' := tab_range A (p := q + 1) ltac:(lia)).
  destruct (Z.ltb_spec (at_ o q) (at_ o (q + 1))) as [L|L].
  - assert (TB := @T_bounds (at_ o q) ltac:(lia)). replace (K <=? (if D (at_ o q) =? 0 then T (at_ o q) else - T (at_ o q) - 1)) with false by (destruct (D (at_ o q) =? 0); lia).
    exists q. split; [reflexivity|]. split; [lia|]. split; [exact H4|]. lia.
  - rewrite Z.leb_refl. destruct (IH (q + 1)) as (m & E & Q); try lia. { intros r Hr. destruct (Z.eq_dec r q) as [->|]; [lia|]. apply H4. lia. }
    exists m. split; [exact E|]. destruct Q as (Q1 & Q2). split; [lia|]. exact Q2.
Qed.
Notation bound := (bound T).
Lemma same_at p n : 0 <= p -> p <= n -> n <= P -> (forall r, p <= r < n -> at_ o (r + 1) = at_ o r) -> at_ o n = at_ o p.
Proof.
  intros H0 H1 H2 H. replace n with (p + Z.of_nat (Z.to_nat (n - p))) in * by lia. revert H H2. generalize (Z.to_nat (n - p)) as k. induction k as [|k IH]; intros H H2; [f_equal; lia|].
  replace (p + Z.of_nat (Datatypes.S k)) with (p + Z.of_nat k + 1) in * by lia. rewrite H by lia. apply IH; [|lia]. intros r Hr. apply H. lia.
Qed.
Lemma fixed_ok p : 0 <= p < P -> at_ o (p + 1) = at_ o p -> fixed_tree_offset P K arr p = Ok (bound (at_ o p)).
Proof.
  intros Hp E. destruct offsets_ok as [A _]. assert (HP := HP1). destruct keys_ok as (K1 & K2 & K3 & K4 & K5). assert (HK : 1 <= K) by apply F.
  unfold fixed_tree_offset. destruct (@next_filled_ok (Z.to_nat (P + 1)) p (p + 1)) as (n & E1 & H1 & H2 & H3); try lia. { intros r Hr. replace r with p by lia. exact E. }
  rewrite E1. cbn [obind]. unfold rd_first. rewrite rd_arr by lia. cbn [obind]. assert (SA := @same_at p n ltac:(lia) ltac:(lia) ltac:(lia) H2). f_equal. destruct (Z.eqb_spec n P) as [->|C].
  - rewrite <- SA, (tab_P A). replace (bound N) with K by (unfold OwnerProofs.bound; destruct (Z.eqb_spec N 0); lia). unfold t8_glo_kl0. destruct (Z.ltb_spec K 0); lia.
  - specialize (H3 ltac:(lia)). rewrite raw_eq by lia. rewrite (proj2 (Z.ltb_lt _ _) H3). assert (R := tab_range A (p := n) ltac:(lia)). assert (R' := tab_range A (p := n + 1) ltac:(lia)).
    rewrite <- SA. rewrite (@bound_in N T D K2 K3 K5) by lia. assert (TB := @T_bounds (at_ o n) ltac:(lia)). unfold t8_glo_kl0. destruct (Z.eqb_spec (D (at_ o n)) 0).
    + destruct (Z.ltb_spec (T (at_ o n)) 0); lia.
    + destruct (Z.ltb_spec (- T (at_ o n) - 1) 0); lia.
Qed.
Lemma tree_offsets_ok : exists to, create_tree_offsets P K ml loc = Ok to /\ table_entries P K o T D to.
Proof.
  destruct offsets_ok as [A B]. assert (HP := HP1). unfold create_tree_offsets, create_tree_offsets_with. fold raw.
  assert (IE : forall p, 0 <= p < P -> is_empty (loc p) = negb (at_ o p <? at_ o (p + 1))). { intros p Hp. destruct (@loc_cases p Hp) as [[E0 EA]|(t & e & r & E & NE & _)]; [rewrite E0, EA, Z.ltb_irrefl; reflexivity|rewrite E, (proj2 (Z.ltb_lt _ _) NE); reflexivity]. }
  destruct (existsb (fun p => is_empty (loc p)) (zseq 0 (Z.to_nat P))) eqn:Ex.
  - rewrite (@collect_ok _ (fun p => if at_ o p <? at_ o (p + 1) then (if D (at_ o p) =? 0 then T (at_ o p) else - T (at_ o p) - 1) else bound (at_ o p))).
    + cbn [obind]. eexists. split; [reflexivity|]. split; [apply zlen_tab|]. unfold entry. split; [rewrite nth_tab by lia; now rewrite Z.eqb_refl|]. intros p Hp. rewrite nth_tab by lia. destruct (Z.eqb_spec p P); [lia|reflexivity].
    + intros p Hp. apply in_zseq in Hp. rewrite IE by lia. assert (S1 := tab_step A (p := p) ltac:(lia)). destruct (Z.ltb_spec (at_ o p) (at_ o (p + 1))) as [L|L]; cbn [negb].
      * f_equal. change (raw p = if D (at_ o p) =? 0 then T (at_ o p) else - T (at_ o p) - 1). rewrite raw_eq by lia. rewrite (proj2 (Z.ltb_lt _ _) L). reflexivity.
      * apply fixed_ok; lia.
  - eexists. split; [reflexivity|]. split; [apply zlen_tab|]. unfold entry. split; [rewrite nth_tab by lia; now rewrite Z.eqb_refl|]. intros p Hp. rewrite nth_tab by lia. destruct (Z.eqb_spec p P); [lia|]. rewrite raw_eq by lia.
    assert (Q : is_empty (loc p) = false). { destruct (is_empty (loc p)) eqn:Q; [|reflexivity]. assert (existsb (fun p => is_empty (loc p)) (zseq 0 (Z.to_nat P)) = true); [|congruence]. apply existsb_exists. exists p. split; [apply in_zseq; lia|exact Q]. }
    rewrite IE in Q by lia. apply negb_false_iff in Q. rewrite Q. reflexivity.
Qed.
Lemma first_desc_ok p : 0 <= p < P -> at_ o p < at_ o (p + 1) -> nth (Z.to_nat p) (create_first_desc P ml loc) 0 = D (at_ o p).
Proof.
  intros Hp L. unfold create_first_desc. assert (Q := @nth_tab (fun p => local_first_desc ml (loc p)) 0 p ltac:(lia)). rewrite app_nth1 in Q by (rewrite map_length, zseq_length; lia). rewrite Q. destruct (Z.eqb_spec p P); [lia|].
  destruct (@loc_cases p Hp) as [[_ E]|(t & e & r & E & _ & _ & ED & _)]; [lia|]. rewrite E, ED. reflexivity.
Qed.
Lemma first_desc_len : zlen (create_first_desc P ml loc) = P.
Proof. assert (HP := HP1). unfold create_first_desc, zlen. rewrite map_length, zseq_length. lia. Qed.

(** ** the search *)
Lemma owner_main t (x : elt (cls t)) p tl to is_desc (e : elt (cls t)) :
  create_tree_offsets P K ml loc = Ok to -> valid e -> s_level e <= ml ->
  (is_desc = true -> s_level e = ml) -> x = (if is_desc then e else s_first_desc e ml) -> 0 <= p < P -> stores loc p t x ->
  (forall rank, 0 <= rank < P -> check_owner P ml to (create_first_desc P ml loc ++ tl) e rank is_desc = Ok (rank =? p)) /\
  forall lower upper guess debug, tl <> [] -> 0 <= lower -> lower <= p <= upper -> upper < P -> lower <= guess <= upper ->
    find_owner_ext debug P ml o to (create_first_desc P ml loc ++ tl) e lower upper guess is_desc = Ok p.
Proof.
  intros ET Ve Le Hdesc Ex Hp (l & Il & Bl). destruct tree_offsets_ok as (to' & ET' & TE). assert (to' = to) by congruence. subst to'. clear ET'.
  destruct offsets_ok as [A B]. destruct keys_ok as (K1 & K2 & K3 & K4 & K5). assert (HK : 1 <= K) by apply F. assert (FL := first_desc_len).
  apply in_loc in Il; [|exact Hp]. destruct Il as (i & Hi & Ei). assert (R := tab_range A (p := p) ltac:(lia)). assert (R' := tab_range A (p := p + 1) ltac:(lia)).
  assert (Ig := proj1 (in_all l) (nth_error_In _ _ Ei)). destruct Ig as [Ht Il]. destruct (F_tree Ht) as (LW & HM & C & L).
  assert (Vx : valid x /\ s_level x = ml). { subst x. destruct is_desc; [auto|]. destruct (first_desc_lo LW (e := e) (L := ml)) as (V1 & L1 & _); [assumption|lia|]. auto. } destruct Vx as [Vx Lx].
  assert (Gi := gkey_nth (i := i) ltac:(lia) Ei). cbn [lkey] in Gi.
  assert (Gt : T i = t) by (unfold T; rewrite Gi; reflexivity). assert (Gd : D i <= s_linear_id x ml) by (unfold D; rewrite Gi; apply (inside_le LW HM); auto).
  assert (Gn : i + 1 < N -> T (i + 1) = t -> s_linear_id x ml < D (i + 1)).
  { intros HN ETn. destruct (nth_error g (Z.to_nat (i + 1))) as [[u f]|] eqn:En. 2:{ apply nth_error_None in En. unfold zlen in HN. lia. }
    assert (Gn := gkey_nth (i := i + 1) ltac:(lia) En). cbn [lkey] in Gn. unfold T in ETn. rewrite Gn in ETn. cbn [fst] in ETn. subst u.
    unfold D. rewrite Gn. cbn [snd]. assert (If := proj1 (in_all f) (nth_error_In _ _ En)). destruct If as [_ If]. rewrite Forall_forall in L.
    assert (Of := covers_ordered LW C). assert (Vf : valid f) by (destruct Of as [V _]; rewrite Forall_forall in V; now apply V). apply (inside_lt LW HM (e := l)); auto.
    destruct (laminar LW (proj1 (below_valid Bl)) Vf) as [Q|[Q|[Q|Q]]]; [| |exact Q|].
    all: exfalso; assert (KL : key ml l < key ml f) by (destruct (K5 i ltac:(lia)) as [[_ Q']|[Q' _]]; [unfold D in Q'; rewrite Gi, Gn in Q'; exact Q'|unfold T in Q'; rewrite Gi, Gn in Q'; cbn [fst] in Q'; lia]).
    3:{ assert (Q2 := key_before LW HM Vf (proj1 (below_valid Bl)) ltac:(now apply L) ltac:(now apply L) Q). lia. }
    all: assert (QE : l = f); [|subst f; lia].
    all: apply (ordered_iff LW) in Of; destruct Of as [_ SS].
    all: apply In_nth_error in Il; destruct Il as (a & Ia); apply In_nth_error in If; destruct If as (b & Ib).
    all: destruct (Nat.lt_trichotomy a b) as [W|[W|W]]; [exfalso|congruence|exfalso].
    all: assert (OO := covers_ordered LW C).
    all: try (assert (W2 := sorted_before LW OO Ia Ib W)); try (assert (W2 := sorted_before LW OO Ib Ia W)).
    all: assert (Q3 := below_not_before LW Q); tauto. }
  assert (Z0 := zlen_ge0 tl).
  assert (FD : forall q, 0 <= q < P -> at_ o q < at_ o (q + 1) -> rd (create_first_desc P ml loc ++ tl) q = Ok (D (at_ o q))).
  { intros q Hq Lq. rewrite rd_ok by (rewrite zlen_app, FL; lia). f_equal. rewrite app_nth1 by (unfold zlen in FL; lia). now apply first_desc_ok. }
  assert (CH : forall rank, 0 <= rank < P -> check_owner P ml to (create_first_desc P ml loc ++ tl) e rank is_desc = Ok (rank =? p)).
  { intros rank Hr. unfold check_owner. rewrite <- Ex. apply (@check_owner_ok P K N o T D A K1 HK K2 K3 K4 K5 to TE _ FD t (s_linear_id x ml) i p); auto; lia. }
  split; [exact CH|]. intros lower upper guess debug NT H1 H2 H3 H4.
  assert (FR : forall q, 0 <= q <= P -> exists y, rd (create_first_desc P ml loc ++ tl) q = Ok y).
  { intros q Hq. eexists. apply rd_ok. rewrite zlen_app, FL. destruct tl as [|z tl]; [congruence|]. rewrite zlen_cons. assert (Z1 := zlen_ge0 tl). lia. }
  unfold find_owner_ext. rewrite (proj2 (Z.leb_le 0 lower)) by lia. rewrite (proj2 (Z.leb_le lower upper)) by lia. rewrite (proj2 (Z.ltb_lt upper P)) by lia. rewrite (proj2 (Z.leb_le lower guess)) by lia. rewrite (proj2 (Z.leb_le guess upper)) by lia. cbn [andb negb].
  destruct (Z.eqb_spec upper lower) as [Cu|Cu]; [f_equal; lia|]. rewrite <- Ex, Lx.
  rewrite (@owner_loop_ok P K N o T D A K1 HK K2 K3 K4 K5 to TE _ FD t (s_linear_id x ml) i p ltac:(lia) Gt Gd Gn Hp Hi FR) by lia. cbn [obind]. destruct debug; [|reflexivity]. rewrite CH by exact Hp. cbn [obind]. now rewrite Z.eqb_refl.
Qed.

(** every element of level ml of a tree lies in exactly one leaf, which is on one process *)
Lemma stores_exists t (x : elt (cls t)) : 0 <= t < K -> valid x -> s_level x = ml -> exists p, 0 <= p < P /\ stores loc p t x.
Proof.
  intros Ht Vx Lx. destruct (F_tree Ht) as (LW & HM & C & L). destruct (inside_exists LW C L Vx Lx) as (e & Ie & Be).
  assert (I : In (mk t e) g) by (now apply in_all). rewrite <- gather_loc in I. unfold gather in I. apply in_flat_map in I. destruct I as (p & Hp & I). apply in_zseq in Hp. exists p. split; [lia|]. exists e. auto.
Qed.
(** the trees of a process *)
Lemma table_main to : create_tree_offsets P K ml loc = Ok to -> valid_table P K to /\ forall p t, 0 <= p < P -> (owns to p t <-> has_tree loc p t).
Proof.
  intros ET. destruct tree_offsets_ok as (to' & ET' & TE). assert (to' = to) by congruence. subst to'. clear ET'.
  destruct offsets_ok as [A B]. destruct keys_ok as (K1 & K2 & K3 & K4 & K5). assert (HK : 1 <= K) by apply F. split.
  - exact (@to_valid P K N o T D A K1 HK K2 K3 K4 K5 to TE).
  - intros p t Hp. rewrite (@owns_iff P K N o T D A K1 HK K2 K3 K4 K5 to TE p t Hp). assert (R := tab_range A (p := p) ltac:(lia)). assert (R' := tab_range A (p := p + 1) ltac:(lia)). unfold has_tree. split.
    + intros (i & Hi & E). destruct (nth_error g (Z.to_nat i)) as [[u f]|] eqn:En. 2:{ apply nth_error_None in En. unfold zlen in R'. lia. }
      assert (Gn := gkey_nth (i := i) ltac:(lia) En). unfold T in E. rewrite Gn in E. cbn [lkey fst] in E. subst u. exists f. apply in_loc; [exact Hp|]. exists i. auto.
    + intros (e & I). apply in_loc in I; [|exact Hp]. destruct I as (i & Hi & En). exists i. split; [exact Hi|]. assert (Gn := gkey_nth (i := i) ltac:(lia) En). unfold T. rewrite Gn. reflexivity.
Qed.
End forest.

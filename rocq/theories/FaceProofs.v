(** Descendants at a face, their order, and their neighbours. *)
From Coq Require Import Sorting.Sorted.
From Verif Require Import Prelude PathSpec SchemeModel SchemeSpec SchemeProofs SchemeOrderProofs FaceModel FaceSpec.

Lemma map_nth_seq {A} (d : A) (l : list A) : map (fun k => nth k l d) (seq 0 (length l)) = l.
Proof.
  apply (nth_ext _ _ d d); [now rewrite map_length, seq_length|]. intros n Hn. rewrite map_length, seq_length in Hn.
  rewrite (nth_indep _ d (nth 0 l d)) by (now rewrite map_length, seq_length). rewrite (map_nth (fun k => nth k l d)), seq_nth by exact Hn. reflexivity.
Qed.
Lemma sorted_map {A B} (R : A -> A -> Prop) (Q : B -> B -> Prop) (h : A -> B) l : (forall a b, In a l -> In b l -> R a b -> Q (h a) (h b)) ->
  StronglySorted R l -> StronglySorted Q (map h l).
Proof.
  intros H SS. induction SS as [|a l SS IH Fa]; cbn [map]; constructor.
  - apply IH. intros x y Hx Hy. apply H; now right.
  - apply Forall_forall. intros y Hy. apply in_map_iff in Hy. destruct Hy as (x & <- & Hx). rewrite Forall_forall in Fa. apply H; [now left|now right|now apply Fa].
Qed.

Section one_class.
Variable S : scheme.
Hypothesis LW : laws S.
Variable F : faces S.
Hypothesis FL : flaws F.
Notation elt := (elt S).
Notation M := (s_maxlevel S).
Implicit Types e x y c a : elt.
Implicit Types f g h : Z.

Lemma in_face_children e f c g : In (c, g) (face_children F e f) <->
  exists k i, nth_error (f_child_ids F e f) k = Some i /\ c = s_child e i /\ g = f_child_face F e f (Z.of_nat k).
Proof.
  unfold face_children, f_children. rewrite in_map_iff, map_length. split.
  - intros (k & E & I). apply in_seq in I. injection E as <- <-. destruct (nth_error (f_child_ids F e f) k) as [i|] eqn:Ei; [|apply nth_error_None in Ei; lia].
    exists k, i. split; [exact Ei|]. split; [|reflexivity]. apply nth_error_nth. now rewrite nth_error_map, Ei.
  - intros (k & i & Ei & -> & ->). exists k. assert (k < length (f_child_ids F e f))%nat by (apply nth_error_Some; congruence). split; [|apply in_seq; lia].
    f_equal. apply nth_error_nth. now rewrite nth_error_map, Ei.
Qed.
Lemma face_children_fst e f : map fst (face_children F e f) = map (s_child e) (f_child_ids F e f).
Proof. unfold face_children. rewrite map_map. cbn [fst]. fold (f_children F e f). apply map_nth_seq. Qed.
Lemma face_child e f c g : valid e -> s_level e < M -> is_face F e f -> In (c, g) (face_children F e f) ->
  valid c /\ s_level c = s_level e + 1 /\ below e c /\ is_face F c g /\ exists i, 0 <= i < s_num_children e /\ c = s_child e i.
Proof.
  intros V L Hf H. assert (Hg := fl_child_face FL V L Hf H). apply in_face_children in H. destruct H as (k & i & E & -> & _). destruct (fl_ids FL V L Hf) as (_ & _ & R).
  rewrite Forall_forall in R. assert (Hi := R i (nth_error_In _ _ E)). destruct (valid_child LW V L Hi) as (Vc & Lc & _). split; [exact Vc|]. split; [exact Lc|].
  split; [now apply below_child|]. split; [exact Hg|]. eauto.
Qed.
Lemma face_children_ne e f : valid e -> s_level e < M -> is_face F e f -> face_children F e f <> [].
Proof. intros V L Hf E. destruct (fl_ids FL V L Hf) as (N & _). assert (Q := face_children_fst e f). rewrite E in Q. destruct (f_child_ids F e f); [congruence|discriminate]. Qed.
Lemma face_children_sorted e f : valid e -> s_level e < M -> is_face F e f -> StronglySorted (@before S) (map fst (face_children F e f)).
Proof.
  intros V L Hf. rewrite face_children_fst. destruct (fl_ids FL V L Hf) as (_ & SS & R). rewrite Forall_forall in R.
  apply (sorted_map (R := Z.lt)); [|exact SS]. intros a b Ha Hb Hab. apply R in Ha, Hb. apply sibling_before; auto; lia.
Qed.

Lemma face_descend_in n : forall e f x g, valid e -> s_level e + Z.of_nat n <= M -> is_face F e f -> In (x, g) (face_descend F n e f) ->
  valid x /\ s_level x = s_level e + Z.of_nat n /\ below e x /\ is_face F x g.
Proof.
  induction n as [|n IH]; intros e f x g V L Hf H; cbn [face_descend] in H.
  - destruct H as [H|[]]. injection H as <- <-. split; [exact V|]. split; [lia|]. split; [now apply below_refl|exact Hf].
  - apply in_flat_map in H. destruct H as ([c h] & Hc & H). cbn [fst snd] in H. destruct (face_child V ltac:(lia) Hf Hc) as (Vc & Lc & Bc & Hh & _).
    destruct (IH c h x g Vc ltac:(lia) Hh H) as (V1 & L1 & B1 & F1). split; [exact V1|]. split; [lia|]. split; [exact (below_trans LW Bc B1)|exact F1].
Qed.
Lemma face_descend_ne n : forall e f, valid e -> s_level e + Z.of_nat n <= M -> is_face F e f -> face_descend F n e f <> [].
Proof.
  induction n as [|n IH]; intros e f V L Hf; cbn [face_descend]; [discriminate|]. assert (N := face_children_ne V (ltac:(lia) : s_level e < M) Hf).
  destruct (face_children F e f) as [|[c g] l] eqn:E; [congruence|]. cbn [flat_map fst snd]. assert (Ic : In (c, g) (face_children F e f)) by (rewrite E; now left).
  destruct (face_child V ltac:(lia) Hf Ic) as (Vc & Lc & _ & Hg & _). specialize (IH c g Vc ltac:(lia) Hg). destruct (face_descend F n c g); [congruence|discriminate].
Qed.
Lemma face_descend_add n m : forall e f, face_descend F (n + m) e f = flat_map (fun p => face_descend F m (fst p) (snd p)) (face_descend F n e f).
Proof.
  induction n as [|n IH]; intros e f; cbn [Nat.add face_descend flat_map fst snd]; [now rewrite app_nil_r|].
  rewrite flat_map_flat_map. apply flat_map_ext_in. intros p _. apply IH.
Qed.
Lemma face_descend_sorted n : forall e f, valid e -> s_level e + Z.of_nat n <= M -> is_face F e f -> StronglySorted (@before S) (map fst (face_descend F n e f)).
Proof.
  induction n as [|n IH]; intros e f V L Hf; cbn [face_descend]; [cbn; repeat constructor|]. assert (SS := face_children_sorted V (ltac:(lia) : s_level e < M) Hf).
  assert (FC : forall p, In p (face_children F e f) -> valid (fst p) /\ s_level (fst p) = s_level e + 1 /\ is_face F (fst p) (snd p)).
  { intros [c g] Hc. destruct (face_child V ltac:(lia) Hf Hc) as (Vc & Lc & _ & Hg & _). auto. }
  revert SS FC. generalize (face_children F e f). induction l as [|[c g] l IHl]; intros SS FC; cbn [flat_map map fst snd]; [constructor|].
  cbn [map fst] in SS. inversion SS as [|? ? SS' FB]; subst. destruct (FC (c, g) (or_introl eq_refl)) as (Vc & Lc & Hg). cbn [fst snd] in *.
  rewrite map_app. apply sorted_app_gen. split; [apply IH; auto; lia|]. split; [apply IHl; [exact SS'|]; intros; apply FC; now right|].
  apply Forall_forall. intros x Hx. apply Forall_forall. intros y Hy. apply in_map_iff in Hx. destruct Hx as ([x' gx] & Ex & Hx). cbn [fst] in Ex. subst x'. apply (face_descend_in (n := n)) in Hx; auto; [|lia]. destruct Hx as (_ & _ & Bx & _).
  apply in_map_iff in Hy. destruct Hy as ([y' gy] & Ey & Hy). cbn [fst] in Ey. subst y'. apply in_flat_map in Hy. destruct Hy as ([d h] & Hd & Hy). cbn [fst snd] in Hy.
  destruct (FC (d, h) (or_intror Hd)) as (Vd & Ld & Hh). cbn [fst snd] in *. apply (face_descend_in (n := n)) in Hy; auto; [|lia]. destruct Hy as (_ & _ & By & _).
  rewrite Forall_forall in FB. specialize (FB d (in_map fst _ (d, h) Hd)). pose proof (below_nested LW Bx). pose proof (below_nested LW By). unfold before in *. lia.
Qed.

(** a face of a descendant of e: it is a part of a face of e, or a part of a face between two children of an element below e *)
Lemma face_up n : forall e x g, below e x -> s_level x = s_level e + Z.of_nat n -> is_face F x g ->
  (exists f, is_face F e f /\ In (x, g) (face_descend F n e f)) \/
  (exists a i h m, below e a /\ s_level a < M /\ 0 <= i < s_num_children a /\ is_face F (s_child a i) h /\ f_parent_face F (s_child a i) h = -1 /\
    s_level x = s_level a + 1 + Z.of_nat m /\ In (x, g) (face_descend F m (s_child a i) h)).
Proof.
  induction n as [|n IH]; intros e x g B L Hg.
  - assert (E := proj2 (below_level LW B) ltac:(lia)). left. exists g. rewrite <- E in *. split; [exact Hg|]. now left.
  - destruct (below_valid B) as [Ve Vx]. assert (LX := valid_level LW Vx).
    assert (exists i, 0 <= i < s_num_children e /\ below (s_child e i) x) as (i & Hi & Bi).
    { destruct B as (p & r & Hp & -> & ->). destruct r as [|i r]; [exfalso; rewrite app_nil_r in L; lia|]. exists i.
      assert (Hpi : gpath S (p ++ [i])) by (replace (p ++ i :: r) with ((p ++ [i]) ++ r) in Hp by (now rewrite <- app_assoc); now apply gpath_app in Hp).
      split; [apply (gpath_snoc_inv Hpi)|]. exists (p ++ [i]), r. rewrite <- app_assoc. cbn [app]. rewrite gwalk_snoc. auto. }
    assert (Le : s_level e < M) by lia. destruct (valid_child LW Ve Le Hi) as (Vc & Lc & _).
    destruct (IH (s_child e i) x g Bi ltac:(lia) Hg) as [(h & Hh & Ih)|(a & j & h & m & Ba & La & Hj & Hh & Hp & Lm & Ih)].
    + destruct (fl_parent_face FL Ve Le Hi Hh) as [[C|C] Q].
      * right. exists e, i, h, n. split; [now apply below_refl|]. split; [exact Le|]. split; [exact Hi|]. split; [exact Hh|]. split; [exact C|]. split; [lia|exact Ih].
      * left. exists (f_parent_face F (s_child e i) h). split; [exact C|]. cbn [face_descend]. apply in_flat_map. exists (s_child e i, h). split; [|exact Ih]. now apply Q.
    + right. exists a, j, h, m. split; [|auto 10]. exact (below_trans LW (below_child LW Ve Le Hi) Ba).
Qed.

(** the first and the last descendant at a face *)
Lemma face_first_child e f L c g l : valid e -> s_level e < L <= M -> is_face F e f -> face_children F e f = (c, g) :: l -> f_first F c g L = f_first F e f L.
Proof.
  intros V HL Hf E. destruct (fl_first FL V (L := L) ltac:(lia) Hf) as (g1 & r1 & E1). replace (Z.to_nat (L - s_level e)) with (Datatypes.S (Z.to_nat (L - s_level e - 1))) in E1 by lia.
  cbn [face_descend] in E1. rewrite E in E1. cbn [flat_map fst snd] in E1. assert (Ic : In (c, g) (face_children F e f)) by (rewrite E; now left).
  destruct (face_child V ltac:(lia) Hf Ic) as (Vc & Lc & _ & Hg & _). destruct (fl_first FL Vc (L := L) ltac:(lia) Hg) as (g2 & r2 & E2).
  replace (Z.to_nat (L - s_level c)) with (Z.to_nat (L - s_level e - 1)) in E2 by lia. rewrite E2 in E1. cbn [app] in E1. now injection E1.
Qed.
Lemma face_last_child e f L c g l : valid e -> s_level e < L <= M -> is_face F e f -> face_children F e f = l ++ [(c, g)] -> f_last F c g L = f_last F e f L.
Proof.
  intros V HL Hf E. destruct (fl_last FL V (L := L) ltac:(lia) Hf) as (r1 & g1 & E1). replace (Z.to_nat (L - s_level e)) with (Datatypes.S (Z.to_nat (L - s_level e - 1))) in E1 by lia.
  cbn [face_descend] in E1. rewrite E, flat_map_app in E1. cbn [flat_map fst snd] in E1. rewrite app_nil_r in E1. assert (Ic : In (c, g) (face_children F e f)) by (rewrite E; apply in_or_app; right; now left).
  destruct (face_child V ltac:(lia) Hf Ic) as (Vc & Lc & _ & Hg & _). destruct (fl_last FL Vc (L := L) ltac:(lia) Hg) as (r2 & g2 & E2).
  replace (Z.to_nat (L - s_level c)) with (Z.to_nat (L - s_level e - 1)) in E2 by lia. rewrite E2, app_assoc in E1. apply app_inj_tail in E1. destruct E1 as [_ E1]. now injection E1.
Qed.
Lemma face_first_ok e f L : valid e -> s_level e <= L <= M -> is_face F e f -> exists g, In (f_first F e f L, g) (face_descend F (Z.to_nat (L - s_level e)) e f) /\
  forall x h, In (x, h) (face_descend F (Z.to_nat (L - s_level e)) e f) -> x = f_first F e f L \/ before (f_first F e f L) x.
Proof.
  intros V HL Hf. destruct (fl_first FL V HL Hf) as (g & r & E). assert (SS := face_descend_sorted (n := Z.to_nat (L - s_level e)) V ltac:(lia) Hf). rewrite E in *.
  exists g. split; [now left|]. intros x h [H|H]; [left; now injection H|right]. cbn [map fst] in SS. inversion SS as [|? ? _ FB]; subst. rewrite Forall_forall in FB. apply FB. exact (in_map fst _ (x, h) H).
Qed.
Lemma face_last_ok e f L : valid e -> s_level e <= L <= M -> is_face F e f -> exists g, In (f_last F e f L, g) (face_descend F (Z.to_nat (L - s_level e)) e f) /\
  forall x h, In (x, h) (face_descend F (Z.to_nat (L - s_level e)) e f) -> x = f_last F e f L \/ before x (f_last F e f L).
Proof.
  intros V HL Hf. destruct (fl_last FL V HL Hf) as (r & g & E). assert (SS := face_descend_sorted (n := Z.to_nat (L - s_level e)) V ltac:(lia) Hf). rewrite E in *.
  exists g. split; [apply in_or_app; right; now left|]. intros x h H. apply in_app_or in H. destruct H as [H|[H|[]]]; [right|left; now injection H].
  rewrite map_app in SS. apply sorted_app_gen in SS. destruct SS as (_ & _ & SS). rewrite Forall_forall in SS. specialize (SS x (in_map fst _ (x, h) H)). cbn [map fst] in SS. now inversion SS.
Qed.
End one_class.

Section mesh.
Variable cls : Z -> scheme.
Variable fc : forall t, faces (cls t).
Notation leaf := {t : Z & elt (cls t)}.
Notation el t e := (existT (fun t => elt (cls t)) t e).
Variable nb : leaf -> Z -> option (leaf * Z).
Variables K ml : Z.
Hypothesis HM : mesh_ok fc nb K ml.

Lemma el_inj t (e d : elt (cls t)) : el t e = el t d -> e = d.
Proof. apply (Eqdep_dec.inj_pair2_eq_dec Z Z.eq_dec). Qed.
Lemma in_leaf_iff t (e : elt (cls t)) u (d : elt (cls u)) : in_leaf (el t e) (el u d) -> exists E : t = u, below (eq_rect t (fun t => elt (cls t)) e u E) d.
Proof.
  intros (s & a & b & E1 & E2 & B). assert (Et : t = s) by exact (f_equal (@projT1 Z _) E1). assert (Eu : u = s) by exact (f_equal (@projT1 Z _) E2). subst s. subst u.
  apply el_inj in E1, E2. subst a b. exists eq_refl. exact B.
Qed.
Lemma in_leaf_same t (e d : elt (cls t)) : in_leaf (el t e) (el t d) <-> below e d.
Proof.
  split.
  - intros H. apply in_leaf_iff in H. destruct H as (E & B). rewrite (Eqdep_dec.UIP_dec Z.eq_dec E eq_refl) in B. exact B.
  - intros B. exists t, e, d. auto.
Qed.
Lemma class_ok t : 0 <= t < K -> laws (cls t) /\ flaws (fc t) /\ 0 <= ml <= s_maxlevel (cls t). Proof. exact (mo_class HM (t := t)). Qed.

Lemma nb_descend n : forall t (e : elt (cls t)) f t' (e' : elt (cls t')) f', 0 <= t < K -> valid e -> s_level e + Z.of_nat n <= ml -> is_face (fc t) e f ->
  nb (el t e) f = Some (el t' e', f') -> forall x g, In (x, g) (face_descend (fc t) n e f) ->
  exists x' g', In (x', g') (face_descend (fc t') n e' f') /\ nb (el t x) g = Some (el t' x', g').
Proof.
  induction n as [|n IH]; intros t e f t' e' f' Ht V L Hf N x g H; cbn [face_descend] in *.
  - destruct H as [H|[]]. injection H as <- <-. exists e', f'. split; [now left|exact N].
  - destruct (class_ok Ht) as (LW & FL & ML). apply in_flat_map in H. destruct H as ([c h] & Hc & H). cbn [fst snd] in H.
    destruct (face_child LW FL V ltac:(lia) Hf Hc) as (Vc & Lc & _ & Hh & _). destruct (mo_refine HM Ht V ltac:(lia) Hf N Hc) as (c' & h' & Hc' & Nc).
    destruct (IH t c h t' c' h' Ht Vc ltac:(lia) Hh Nc x g H) as (x' & g' & Hx & Nx). exists x', g'. split; [|exact Nx].
    apply in_flat_map. exists (c', h'). auto.
Qed.
Lemma nb_descend_none n : forall t (e : elt (cls t)) f, 0 <= t < K -> valid e -> s_level e + Z.of_nat n <= ml -> is_face (fc t) e f ->
  nb (el t e) f = None -> forall x g, In (x, g) (face_descend (fc t) n e f) -> nb (el t x) g = None.
Proof.
  induction n as [|n IH]; intros t e f Ht V L Hf N x g H; cbn [face_descend] in *.
  - destruct H as [H|[]]. injection H as <- <-. exact N.
  - destruct (class_ok Ht) as (LW & FL & ML). apply in_flat_map in H. destruct H as ([c h] & Hc & H). cbn [fst snd] in H.
    destruct (face_child LW FL V ltac:(lia) Hf Hc) as (Vc & Lc & _ & Hh & _). assert (Nc := mo_boundary HM Ht V ltac:(lia) Hf N Hc).
    exact (IH t c h Ht Vc ltac:(lia) Hh Nc x g H).
Qed.
(** a face of a descendant of e: it is a part of a face of e, or the neighbour is also a descendant of e *)
Lemma nb_cases t (e x : elt (cls t)) g : 0 <= t < K -> below e x -> s_level x <= ml -> is_face (fc t) x g ->
  (exists f, is_face (fc t) e f /\ In (x, g) (face_descend (fc t) (Z.to_nat (s_level x - s_level e)) e f)) \/
  (exists y g', nb (el t x) g = Some (el t y, g') /\ below e y).
Proof.
  intros Ht B L Hg. destruct (class_ok Ht) as (LW & FL & ML). assert (LE := proj1 (below_level LW B)).
  destruct (face_up LW FL (n := Z.to_nat (s_level x - s_level e)) B ltac:(lia) Hg) as [H|(a & i & h & m & Ba & La & Hi & Hh & Hp & Lm & H)]; [now left|right].
  destruct (below_valid Ba) as [_ Va]. destruct (mo_inner HM Ht Va ltac:(lia) Hi Hh Hp) as (j & h' & Hj & N).
  destruct (valid_child LW Va La Hi) as (Vc & Lc & _). destruct (valid_child LW Va La Hj) as (Vd & Ld & _).
  assert (Hn := mo_neighbor HM Ht Vc ltac:(lia) Hh N). destruct Hn as (_ & _ & _ & Hh' & _).
  destruct (nb_descend (n := m) Ht Vc ltac:(lia) Hh N H) as (y & g' & Hy & Ny). exists y, g'. split; [exact Ny|].
  destruct (face_descend_in LW FL (n := m) Vd ltac:(lia) Hh' Hy) as (_ & _ & By & _). exact (below_trans LW Ba (below_trans LW (below_child LW Va La Hj) By)).
Qed.
Lemma nb_sym x f y g t (e : elt (cls t)) : x = el t e -> 0 <= t < K -> valid e -> s_level e <= ml -> is_face (fc t) e f -> nb x f = Some (y, g) ->
  exists t' (e' : elt (cls t')), y = el t' e' /\ 0 <= t' < K /\ valid e' /\ s_level e' = s_level e /\ is_face (fc t') e' g /\ nb y g = Some (x, f).
Proof. intros -> Ht V L Hf N. destruct y as [t' e']. exists t', e'. split; [reflexivity|]. exact (mo_neighbor HM Ht V L Hf N). Qed.

Lemma adjacent_sym l m : 0 <= projT1 l < K -> adjacent fc nb ml l m -> adjacent fc nb ml m l.
Proof.
  intros Ht (x & y & f & g & Hx & Hy & L & Hf & N). destruct x as [t d]. assert (Et : projT1 l = t). { destruct Hx as (s & a & b & -> & E & _). symmetry. exact (f_equal (@projT1 Z _) E). }
  assert (Vd : valid d). { destruct Hx as (s & a & b & -> & E & B). assert (t = s) by exact (f_equal (@projT1 Z _) E). subst s. apply el_inj in E. subst b. apply (below_valid B). }
  destruct (nb_sym (e := d) eq_refl ltac:(lia) Vd L Hf N) as (t' & e' & -> & Ht' & V' & L' & Hg & N'). exists (el t' e'), (el t d), g, f. split; [exact Hy|]. split; [exact Hx|].
  split; [change (s_level e' <= ml); change (s_level d <= ml) in L; lia|]. split; [exact Hg|exact N'].
Qed.
(** two elements that do not overlap share a part of a face if a neighbour at a face of the one contains a finest element of the other *)
Lemma adjacent_face t (e : elt (cls t)) m : 0 <= t < K -> valid e -> s_level e <= ml -> (forall x, in_leaf (el t e) x -> in_leaf m x -> False) ->
  (forall t (x d : elt (cls t)), in_leaf m (el t x) -> below x d -> in_leaf m (el t d)) ->
  (adjacent fc nb ml (el t e) m <-> exists f t' (e' : elt (cls t')) f' y g', is_face (fc t) e f /\ nb (el t e) f = Some (el t' e', f') /\
     In (y, g') (face_descend (fc t') (Z.to_nat (ml - s_level e)) e' f') /\ in_leaf m (el t' y)).
Proof.
  intros Ht V L D Up. destruct (class_ok Ht) as (LW & FL & ML). split.
  - intros (x & y & f & g & Hx & Hy & Lx & Hf & N). destruct x as [u d]. destruct (in_leaf_iff Hx) as (<- & B). cbn [eq_rect] in B. unfold leaf_level, leaf_face in *. cbn [projT1 projT2] in *.
    destruct (below_valid B) as [_ Vd]. assert (LE := proj1 (below_level LW B)). destruct (nb_cases Ht B Lx Hf) as [(f0 & Hf0 & H)|(y0 & g0 & N0 & B0)].
    2:{ exfalso. rewrite N in N0. injection N0 as -> <-. apply (D (el t y0)); [now apply in_leaf_same|exact Hy]. }
    assert (Q := face_descend_ne LW FL (n := Z.to_nat (ml - s_level d)) Vd ltac:(lia) Hf). destruct (face_descend (fc t) (Z.to_nat (ml - s_level d)) d f) as [|[x2 g2] r] eqn:E2; [congruence|]. clear Q.
    assert (I2 : In (x2, g2) (face_descend (fc t) (Z.to_nat (ml - s_level d)) d f)) by (rewrite E2; now left).
    destruct (nb_sym (e := d) eq_refl Ht Vd Lx Hf N) as (t' & d' & -> & Ht' & V' & L' & Hg & N'). destruct (class_ok Ht') as (LW' & FL' & ML').
    destruct (nb_descend (n := Z.to_nat (ml - s_level d)) Ht Vd ltac:(lia) Hf N I2) as (y2 & h2 & Iy & Ny).
    assert (I3 : In (x2, g2) (face_descend (fc t) (Z.to_nat (ml - s_level e)) e f0)).
    { replace (Z.to_nat (ml - s_level e)) with (Z.to_nat (s_level d - s_level e) + Z.to_nat (ml - s_level d))%nat by lia. rewrite face_descend_add. apply in_flat_map. exists (d, f). auto. }
    destruct (nb (el t e) f0) as [[[t1 e1] f1]|] eqn:N1.
    2:{ rewrite (nb_descend_none (n := Z.to_nat (ml - s_level e)) Ht V ltac:(lia) Hf0 N1 I3) in Ny. discriminate. }
    destruct (nb_descend (n := Z.to_nat (ml - s_level e)) Ht V ltac:(lia) Hf0 N1 I3) as (y3 & h3 & Iy3 & Ny3). rewrite Ny in Ny3.
    assert (Et : t' = t1) by congruence. subst t1. assert (Ey : y2 = y3 /\ h2 = h3) by (injection Ny3 as Q1 Q2; apply el_inj in Q1; auto). destruct Ey as [<- <-].
    exists f0, t', e1, f1, y2, h2. split; [exact Hf0|]. split; [exact N1|]. split; [exact Iy3|]. apply (Up t' d'); [exact Hy|].
    apply (face_descend_in LW' FL' (n := Z.to_nat (ml - s_level d)) V' ltac:(lia) Hg Iy).
  - intros (f & t' & e' & f' & y & g' & Hf & N & Iy & Hm). destruct (mo_neighbor HM Ht V L Hf N) as (Ht' & V' & L' & Hf' & N'). destruct (class_ok Ht') as (LW' & FL' & ML').
    rewrite <- L' in Iy. destruct (nb_descend (n := Z.to_nat (ml - s_level e')) Ht' V' ltac:(lia) Hf' N' Iy) as (x & g & Ix & Nx).
    destruct (face_descend_in LW' FL' (n := Z.to_nat (ml - s_level e')) V' ltac:(lia) Hf' Iy) as (Vy & Ly & By & Hg'). rewrite L' in Ix.
    destruct (face_descend_in LW FL (n := Z.to_nat (ml - s_level e)) V ltac:(lia) Hf Ix) as (Vx & Lx & Bx & Hg).
    destruct (mo_neighbor HM Ht' Vy ltac:(lia) Hg' Nx) as (_ & _ & _ & _ & Nxy). exists (el t x), (el t' y), g, g'.
    split; [now apply in_leaf_same|]. split; [exact Hm|]. split; [change (s_level x <= ml); lia|]. split; [exact Hg|exact Nxy].
Qed.
End mesh.

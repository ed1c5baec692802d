(** Ancestors in pyramid trees: types at coarser levels, ancestors, and that coordinates and type determine the level of the switch from
    pyramids to tetrahedra. *)
From Verif Require Import Prelude PathSpec BitLemmas SimplexModel SimplexSpec SimplexProofs SimplexPathProofs SimplexOrderProofs SimplexAncProofs.
From Verif Require Import PyramidModel PyramidSpec PyramidProofs.

Lemma y_type_S p j : y_path p -> (j < length p)%nat -> is_pyra (y_walk (firstn j p)) = is_pyra (y_walk (firstn (S j) p)) ->
  y_cid_type_to_parenttype (y_cubeid (y_walk p) (Z.of_nat (S j))) (yty (y_walk (firstn (S j) p))) = yty (y_walk (firstn j p)).
Proof.
  intros H Hj E. rewrite y_cubeid_walk by assumption. destruct (y_walk_S_facts H Hj) as (W & L & Hl & Hi & T & _). rewrite nch_num in Hi.
  destruct (tab_parent (yw_ty W) Hi) as (_ & P & _). rewrite T. apply P. rewrite <- T, <- !is_pyra_iff. now rewrite E.
Qed.
Lemma y_type_loop_walk p n k : y_path p -> (k <= length p)%nat -> (n <= k)%nat ->
  (forall j, (k - n <= j <= k)%nat -> is_pyra (y_walk (firstn j p)) = is_pyra (y_walk (firstn k p))) ->
  y_type_loop (y_walk p) n (Z.of_nat k) (yty (y_walk (firstn k p))) = yty (y_walk (firstn (k - n) p)).
Proof.
  intros H. revert k. induction n as [|n IH]; intros k Hk Hn S; [now rewrite Nat.sub_0_r|]. destruct k as [|k]; [lia|].
  cbn [y_type_loop]. rewrite y_type_S; [|exact H|lia|apply S; lia]. replace (Z.of_nat (Datatypes.S k) - 1) with (Z.of_nat k) by lia.
  rewrite IH; [f_equal; f_equal; f_equal; lia|lia|lia|]. intros j Hj. rewrite (S j) by lia. symmetry. apply S. lia.
Qed.
Lemma y_type_ext_walk p l k : y_path p -> (l <= k <= length p)%nat ->
  (forall j, (l <= j <= k)%nat -> is_pyra (y_walk (firstn j p)) = is_pyra (y_walk (firstn k p))) ->
  y_type_ext (y_walk p) (Z.of_nat l) (yty (y_walk (firstn k p))) (Z.of_nat k) = yty (y_walk (firstn l p)).
Proof.
  intros H [Hl Hk] S. unfold y_type_ext. destruct (Z.eqb_spec (Z.of_nat l) (Z.of_nat k)) as [E|E]; [assert (l = k) as -> by lia; reflexivity|].
  destruct (Z.eqb_spec (Z.of_nat l) 0) as [E0|E0]; [assert (l = 0%nat) as -> by lia; reflexivity|].
  replace (Z.to_nat (Z.of_nat k - Z.of_nat l)) with (k - l)%nat by lia. rewrite y_type_loop_walk; [f_equal; f_equal; f_equal; lia|exact H|lia|lia|].
  intros j Hj. apply S. lia.
Qed.
Lemma y_type_same_walk p l : y_path p -> (l <= length p)%nat ->
  (forall j, (l <= j <= length p)%nat -> is_pyra (y_walk (firstn j p)) = is_pyra (y_walk p)) ->
  y_type_same (y_walk p) (Z.of_nat l) = yty (y_walk (firstn l p)).
Proof.
  intros H Hl S. unfold y_type_same. destruct (y_walk_wf H) as [_ L]. rewrite L. unfold zlen.
  rewrite <- (firstn_all p) at 2. rewrite y_type_ext_walk; auto. intros j Hj. rewrite firstn_all. now apply S.
Qed.
Lemma y_parent_walk p : y_path p -> p <> [] -> y_parent (y_walk p) = y_walk (removelast p).
Proof.
  intros H NE. destruct (exists_last NE) as (q & i & ->). rewrite removelast_last, y_walk_snoc. apply y_path_snoc in H. destruct H as (H & Hl & Hi).
  destruct (y_walk_wf H) as [W L]. apply y_parent_child; auto. lia.
Qed.
Lemma removelast_firstn_S {A} (p : list A) j : (j < length p)%nat -> removelast (firstn (S j) p) = firstn j p.
Proof. intros H. apply removelast_firstn. exact H. Qed.
Lemma y_parent_firstn p j : y_path p -> (j < length p)%nat -> y_parent (y_walk (firstn (S j) p)) = y_walk (firstn j p).
Proof.
  intros H Hj. rewrite y_parent_walk; [now rewrite removelast_firstn_S|now apply y_path_firstn|]. destruct p; [cbn in Hj; lia|discriminate].
Qed.
Lemma cut_lv_ty e s l t : set_ty (set_lv (y_cut e s) l) t = Pyr (Simp l t (cutc (yx e) s) (cutc (yy e) s) (cutc (yz e) s)) (ysw e).
Proof. reflexivity. Qed.
(** the ancestor, when the type is right *)
Lemma y_ancestor_with_walk ta p l : y_path p -> (l <= length p)%nat ->
  ((l + 1 < length p)%nat -> ta (y_walk p) (Z.of_nat l) = yty (y_walk (firstn l p))) ->
  y_ancestor_with ta (y_walk p) (Z.of_nat l) = y_walk (firstn l p).
Proof.
  intros H Hl T. destruct (y_walk_wf H) as [W L]. unfold y_ancestor_with. rewrite L. unfold zlen in *.
  destruct (Z.eqb_spec (Z.of_nat (length p)) (Z.of_nat l)) as [E|E].
  - assert (length p = l) as <- by lia. now rewrite firstn_all.
  - destruct (Z.eqb_spec (Z.of_nat l) (Z.of_nat (length p) - 1)) as [E1|E1].
    + rewrite y_parent_walk, removelast_firstn_len by (auto; intros ->; cbn in *; lia). do 2 f_equal. lia.
    + rewrite T by lia. destruct (y_walk_wf (y_path_firstn l H)) as [W' L']. rewrite zlen_firstn_le in L' by lia.
      rewrite cut_lv_ty. change YMAX with 21. rewrite !y_cut_firstn by (unfold ycoord; auto; lia).
      assert (EQ : Simp (Z.of_nat l) (yty (y_walk (firstn l p))) (yx (y_walk (firstn l p))) (yy (y_walk (firstn l p))) (yz (y_walk (firstn l p))) = yt (y_walk (firstn l p))).
      { rewrite <- L'. unfold ylv, yty, yx, yy, yz. now destruct (yt (y_walk (firstn l p))). }
      rewrite EQ. assert (SW := yw_sw W'). unfold set_sw. destruct (is_pyra (y_walk (firstn l p))) eqn:P.
      * assert (P' : is_pyra (Pyr (yt (y_walk (firstn l p))) (ysw (y_walk p))) = true) by exact P. rewrite P'. cbn [yt].
        destruct (y_walk (firstn l p)) as [t s]. cbn [ysw yt] in *. now subst s.
      * assert (P' : is_pyra (Pyr (yt (y_walk (firstn l p))) (ysw (y_walk p))) = false) by exact P. rewrite P'.
        assert (PP : is_pyra (y_walk p) = false) by (rewrite <- (firstn_all p); apply (@y_tet_later p l); auto; lia).
        destruct (y_sw_spec H PP) as [_ S]. destruct (S l Hl) as [S1 S2]. rewrite P in S1. symmetry in S1. apply Z.ltb_ge in S1. rewrite <- S2 by exact S1.
        now destruct (y_walk (firstn l p)).
Qed.
Lemma y_type_at_level_n_walk n p l : y_path p -> (l <= length p)%nat -> (is_pyra (y_walk p) = true \/ ysw (y_walk p) <= Z.of_nat l) ->
  y_type_at_level_n (S n) (y_walk p) (Z.of_nat l) = yty (y_walk (firstn l p)).
Proof.
  intros H Hl C. destruct (y_walk_wf H) as [W L]. cbn [y_type_at_level_n]. rewrite L. destruct (Z.leb_spec (zlen p) (Z.of_nat l)) as [E|E]; unfold zlen in *.
  - assert (l = length p) as -> by lia. now rewrite firstn_all.
  - assert (B : is_pyra (y_walk p) || (ysw (y_walk p) <=? Z.of_nat l) = true).
    { destruct C as [-> |C]; [reflexivity|]. apply Z.leb_le in C. now rewrite C, orb_true_r. }
    rewrite B. apply y_type_same_walk; auto. intros j Hj. destruct (is_pyra (y_walk p)) eqn:P; [now apply y_pyra_earlier|].
    destruct C as [C|C]; [discriminate|]. destruct (y_sw_spec H P) as [_ S]. destruct (S j ltac:(lia)) as [-> _]. apply Z.ltb_ge. lia.
Qed.
Lemma y_type_at_level_walk p l : y_path p -> (l <= length p)%nat -> y_type_at_level (y_walk p) (Z.of_nat l) = yty (y_walk (firstn l p)).
Proof.
  intros H Hl. destruct (is_pyra (y_walk p)) eqn:P; [apply y_type_at_level_n_walk; auto|].
  destruct (Z.le_gt_cases (ysw (y_walk p)) (Z.of_nat l)) as [C|C]; [apply y_type_at_level_n_walk; auto|].
  unfold y_type_at_level. destruct (y_walk_wf H) as [W L]. destruct (y_sw_spec H P) as [SW S].
  set (s := ysw (y_walk p)) in *. remember 1%nat as one eqn:E1. cbn [y_type_at_level_n]. subst one. fold s. rewrite L, P.
  destruct (Z.leb_spec (zlen p) (Z.of_nat l)); [lia|]. destruct (Z.leb_spec s (Z.of_nat l)); [lia|]. cbn [orb]. unfold zlen in *.
  destruct (S (Z.to_nat s) ltac:(lia)) as [S1 S2]. set (k := (Z.to_nat s - 1)%nat).
  assert (EA : y_ancestor_with (y_type_at_level_n 1) (y_walk p) s = y_walk (firstn (Datatypes.S k) p)).
  { replace s with (Z.of_nat (Datatypes.S k)) by lia. apply y_ancestor_with_walk; auto; [lia|]. intros _. apply y_type_at_level_n_walk; auto; [lia|right; fold s; lia]. }
  rewrite EA, y_parent_firstn by (auto; lia). destruct (y_walk_wf (y_path_firstn k H)) as [W' L']. rewrite zlen_firstn_le in L' by lia. rewrite L'.
  destruct (Z.eqb_spec (Z.of_nat l) (Z.of_nat k)) as [E|E]; [now replace l with k by lia|].
  assert (F : firstn l (firstn k p) = firstn l p) by (rewrite firstn_firstn; f_equal; lia). rewrite <- F.
  apply y_type_same_walk; [now apply y_path_firstn|rewrite firstn_length; lia|]. intros j Hj.
  assert (PK : is_pyra (y_walk (firstn k p)) = true) by (destruct (S k ltac:(lia)) as [-> _]; apply Z.ltb_lt; lia).
  rewrite PK. apply y_pyra_earlier; [now apply y_path_firstn|exact PK].
Qed.
Lemma y_ancestor_walk p l : y_path p -> (l <= length p)%nat -> y_ancestor (y_walk p) (Z.of_nat l) = y_walk (firstn l p).
Proof. intros H Hl. apply y_ancestor_with_walk; auto. intros _. now apply y_type_at_level_walk. Qed.
Lemma y_child_id_firstn p j : y_path p -> (j < length p)%nat -> y_child_id (y_walk (firstn (S j) p)) = nth j p 0 /\
  y_num_siblings (y_walk (firstn (S j) p)) = y_num_children (y_walk (firstn j p)).
Proof.
  intros H Hj. destruct (y_walk_S_facts H Hj) as (W & L & Hl & Hi & T & _). rewrite y_walk_S by exact Hj. now apply y_child_id_child.
Qed.
Lemma y_ancestor_id_walk p l : y_path p -> (l < length p)%nat -> y_ancestor_id (y_walk p) (Z.of_nat (S l)) = nth l p 0.
Proof. intros H Hl. unfold y_ancestor_id. rewrite y_ancestor_walk by (auto; lia). now apply y_child_id_firstn. Qed.

(** ** the level of the switch: for a tetrahedron below an element at level i, how it lies in the cube of that element.
    The state is (the type of the element at level i, the sign of x - z and of y - z relative to its cube, the type of the tetrahedron). *)
Definition sgn3 (s b c : Z) : Z := if s =? 0 then b - c else s.
Definition st_next (s : Z * Z * Z * Z) (i : Z) : Z * Z * Z * Z :=
  let '(a, sx, sy, t) := s in let c := YC t i in
  (a, sgn3 sx (Z.b2z (Z.testbit c 0)) (Z.b2z (Z.testbit c 2)), sgn3 sy (Z.b2z (Z.testbit c 1)) (Z.b2z (Z.testbit c 2)), YT t i).
Definition st_eqb (s s' : Z * Z * Z * Z) : bool :=
  let '(a, x, y, t) := s in let '(a', x', y', t') := s' in (a =? a') && (x =? x') && (y =? y') && (t =? t').
Definition st_in (l : list (Z * Z * Z * Z)) (s : Z * Z * Z * Z) : bool := existsb (st_eqb s) l.
Definition st_kids (s : Z * Z * Z * Z) : list (Z * Z * Z * Z) := map (st_next s) (zseq 0 (Z.to_nat (nch (snd s)))).
Definition st_add (l : list (Z * Z * Z * Z)) (s : Z * Z * Z * Z) : list (Z * Z * Z * Z) := if st_in l s then l else l ++ [s].
Definition st_grow (l : list (Z * Z * Z * Z)) : list (Z * Z * Z * Z) := fold_left st_add (flat_map st_kids l) l.
(** the states reached from elements of all types *)
Definition states : list (Z * Z * Z * Z) := Eval vm_compute in Nat.iter 8 st_grow (map (fun t => (t, 0, 0, t)) (zseq 0 8)).
Lemma st_in_iff l s : st_in l s = true <-> In s l.
Proof.
  unfold st_in. rewrite existsb_exists. split.
  - intros ([[[a x] y] t] & Hi & E). destruct s as [[[a' x'] y'] t']. cbn in E. replace (a', x', y', t') with (a, x, y, t); [exact Hi|]. repeat f_equal; lia.
  - intros Hi. exists s. split; [exact Hi|]. destruct s as [[[a x] y] t]. cbn. now rewrite !Z.eqb_refl.
Qed.
Lemma states_start t : 0 <= t < 8 -> In (t, 0, 0, t) states.
Proof.
  intros Ht. assert (A : forallb (fun t => st_in states (t, 0, 0, t)) (zseq 0 8) = true) by (vm_compute; reflexivity).
  rewrite forallb_forall in A. apply st_in_iff, (A t). apply in_zseq; lia.
Qed.
Lemma states_next s i : In s states -> 0 <= i < nch (snd s) -> In (st_next s i) states.
Proof.
  intros Hs Hi. assert (A : forallb (fun s => forallb (st_in states) (st_kids s)) states = true) by (vm_compute; reflexivity).
  rewrite forallb_forall in A. specialize (A s Hs). rewrite forallb_forall in A. apply st_in_iff, A. unfold st_kids. apply in_map. apply in_zseq. lia.
Qed.
Lemma sgn_add D k b c : 0 <= k -> al (k + 1) D -> Z.sgn (D + (Z.b2z b - Z.b2z c) * 2 ^ k) = sgn3 (Z.sgn D) (Z.b2z b) (Z.b2z c).
Proof.
  intros Hk (q & ->). pose proof (pow2_pos Hk). rewrite Z.pow_add_r by lia. change (2 ^ 1) with 2. unfold sgn3.
  replace (q * (2 ^ k * 2) + (Z.b2z b - Z.b2z c) * 2 ^ k) with ((2 * q + (Z.b2z b - Z.b2z c)) * 2 ^ k) by ring.
  replace (q * (2 ^ k * 2)) with ((2 * q) * 2 ^ k) by ring. rewrite !Z.sgn_mul, (Z.sgn_pos (2 ^ k)) by lia. rewrite !Z.mul_1_r.
  destruct q, b, c; cbn [Z.b2z]; try reflexivity; destruct (Z.eqb_spec (Z.sgn (2 * Z.pos p)) 0); destruct (Z.eqb_spec (Z.sgn (2 * Z.neg p)) 0); lia.
Qed.
(** the state of a descendant *)
Definition rel (f g : pyr -> Z) (a e : pyr) : Z := (f e - f a) - (g e - g a).
Definition st_of (a e : pyr) : Z * Z * Z * Z := (yty a, Z.sgn (rel yx yz a e), Z.sgn (rel yy yz a e), yty e).
Lemma y_state_from (P : Z * Z * Z * Z -> Prop) p q r :
  (forall s i, P s -> 0 <= i < nch (snd s) -> P (st_next s i)) -> y_path (p ++ q ++ r) -> P (st_of (y_walk p) (y_walk (p ++ q))) ->
  P (st_of (y_walk p) (y_walk (p ++ q ++ r))).
Proof.
  intros CL H P0. revert H. induction r as [|i r IH] using rev_ind; intros H; [now rewrite app_nil_r|].
  replace (p ++ q ++ r ++ [i]) with ((p ++ q ++ r) ++ [i]) in * by now rewrite <- !app_assoc.
  assert (H' := H). apply y_path_snoc in H'. destruct H' as (Hp & Hl & Hi). specialize (IH Hp).
  destruct (y_walk_wf Hp) as [W L]. destruct (y_walk_wf (y_path_app Hp)) as [Wp Lp]. set (e := y_walk (p ++ q ++ r)) in *. set (a := y_walk p) in *.
  rewrite y_walk_snoc. fold e. rewrite y_child_step by (try apply W; lia).
  assert (N := CL _ i IH ltac:(cbn [snd st_of]; rewrite <- nch_num; exact Hi)). cbn [st_next st_of] in N.
  unfold st_of, rel in *. set (c := Pyr _ _).
  change (yx c) with (yx e + Z.b2z (Z.testbit (YC (yty e) i) 0) * 2 ^ (21 - ylv e - 1)). change (yy c) with (yy e + Z.b2z (Z.testbit (YC (yty e) i) 1) * 2 ^ (21 - ylv e - 1)).
  change (yz c) with (yz e + Z.b2z (Z.testbit (YC (yty e) i) 2) * 2 ^ (21 - ylv e - 1)). change (yty c) with (YT (yty e) i).
  assert (AL : forall f g, ycoord f -> ycoord g -> al (21 - ylv e - 1 + 1) ((f e - f a) - (g e - g a))).
  { intros f g Hf Hg. replace (21 - ylv e - 1 + 1) with (21 - ylv e) by lia. destruct (ywf_coord Hf W) as [A1 _]. destruct (ywf_coord Hg W) as [A2 _].
    destruct (ywf_coord Hf Wp) as [A3 _]. destruct (ywf_coord Hg Wp) as [A4 _]. assert (LE : ylv a <= ylv e) by (rewrite L, Lp, zlen_app; unfold zlen; lia).
    assert (LW := ywf_lv W). apply (@al_weaken (21 - ylv e) (21 - ylv a)) in A3; [|lia]. apply (@al_weaken (21 - ylv e) (21 - ylv a)) in A4; [|lia].
    destruct A1 as (q1 & ->), A2 as (q2 & ->), A3 as (q3 & ->), A4 as (q4 & ->). exists (q1 - q3 - (q2 - q4)). ring. }
  rewrite <- !(@sgn_add _ (21 - ylv e - 1)) in N by (try lia; apply AL; unfold ycoord; auto).
  match type of N with P ?u => match goal with |- P ?v => replace v with u; [exact N|] end end.
  f_equal. f_equal; [f_equal|]; f_equal; ring.
Qed.
Lemma y_state p q : y_path (p ++ q) -> In (st_of (y_walk p) (y_walk (p ++ q))) states.
Proof.
  intros H. change (p ++ q) with (p ++ [] ++ q). apply (@y_state_from (fun s => In s states)); [apply states_next|exact H|].
  rewrite app_nil_r. destruct (y_walk_wf (y_path_app H)) as [W _]. unfold st_of, rel. rewrite !Z.sub_diag. apply states_start, W.
Qed.

(** the test of [y_is_inside_pyra] on states *)
Definition ins (sx sy t : Z) : Z :=
  if (0 <=? sx) && (0 <=? sy) then if ((sx =? 0) && ((t =? 3) || (t =? 1))) || ((sy =? 0) && ((t =? 0) || (t =? 2))) then 0 else 6
  else if (sx <=? 0) && (sy <=? 0) then if ((sx =? 0) && ((t =? 0) || (t =? 2))) || ((sy =? 0) && ((t =? 3) || (t =? 1))) then 0 else 7
  else 0.
(** the states reached from states of types 0 and 3, with that type *)
Definition ex_in (l : list (Z * (Z * Z * Z * Z))) (s : Z * (Z * Z * Z * Z)) : bool := existsb (fun s' => (fst s =? fst s') && st_eqb (snd s) (snd s')) l.
Definition exst : list (Z * (Z * Z * Z * Z)) := Eval vm_compute in
  Nat.iter 6 (fun l => fold_left (fun l s => if ex_in l s then l else l ++ [s])
     (flat_map (fun s => map (pair (fst s)) (st_kids (snd s))) l) l) (flat_map (fun s => let t := snd s in if (t =? 0) || (t =? 3) then [(t, s)] else []) states).
Lemma ex_in_iff l s : ex_in l s = true -> In s l.
Proof.
  unfold ex_in. rewrite existsb_exists. intros ([t' [[[a x] y] t]] & Hi & E). destruct s as [u' [[[a' x'] y'] u]]. cbn in E.
  replace (u', (a', x', y', u)) with (t', (a, x, y, t)); [exact Hi|]. apply andb_prop in E. destruct E as [E1 E2]. repeat f_equal; lia.
Qed.
Lemma exst_start s : In s states -> snd s = 0 \/ snd s = 3 -> In (snd s, s) exst.
Proof.
  intros Hs H. assert (A : forallb (fun s => if (snd s =? 0) || (snd s =? 3) then ex_in exst (snd s, s) else true) states = true) by (vm_compute; reflexivity).
  rewrite forallb_forall in A. specialize (A s Hs). cbv beta in A. assert (E : (snd s =? 0) || (snd s =? 3) = true) by lia. rewrite E in A. now apply ex_in_iff.
Qed.
Lemma exst_next tl s i : In (tl, s) exst -> 0 <= i < nch (snd s) -> In (tl, st_next s i) exst.
Proof.
  intros Hs Hi. assert (A : forallb (fun s => forallb (fun k => ex_in exst (fst s, k)) (st_kids (snd s))) exst = true) by (vm_compute; reflexivity).
  rewrite forallb_forall in A. specialize (A _ Hs). cbn [fst snd] in A. rewrite forallb_forall in A. apply ex_in_iff, A. unfold st_kids. apply in_map. apply in_zseq. lia.
Qed.
Lemma exst_ins tl a sx sy t : In (tl, (a, sx, sy, t)) exst -> a = 0 \/ a = 3 \/ 6 <= a -> (ins sx sy tl =? 0) = (a <? 6).
Proof.
  intros H Ha. assert (A : forallb (fun s => let '(tl, (a, sx, sy, t)) := s in if (a =? 0) || (a =? 3) || (6 <=? a) then Bool.eqb (ins sx sy tl =? 0) (a <? 6) else true) exst = true)
    by (vm_compute; reflexivity).
  rewrite forallb_forall in A. specialize (A _ H). cbv beta iota in A. assert (E : (a =? 0) || (a =? 3) || (6 <=? a) = true) by lia. rewrite E in A. now apply Bool.eqb_prop.
Qed.
(** the coordinates of a tetrahedron in a cube *)
Lemma inside_pyra_ins t cx cy cz cl : 0 <= yx t - cx < YLEN cl -> 0 <= yy t - cy < YLEN cl -> 0 <= yz t - cz < YLEN cl ->
  y_is_inside_pyra t cx cy cz cl = ins (Z.sgn ((yx t - cx) - (yz t - cz))) (Z.sgn ((yy t - cy) - (yz t - cz))) (yty t).
Proof.
  intros Hx Hy Hz. unfold y_is_inside_pyra, ins. change FIRST_TYPE with 6. change SECOND_TYPE with 7.
  set (A := (yx t - cx) - (yz t - cz)). set (B := (yy t - cy) - (yz t - cz)).
  assert (E : forall c x L D, D = (x - c) - (yz t - cz) -> 0 <= x - c < L ->
    (c + (yz t - cz) <=? x) && (x <? c + L) = (0 <=? Z.sgn D) /\ (c <=? x) && (x <=? c + (yz t - cz)) = (Z.sgn D <=? 0) /\ (c + (yz t - cz) =? x) = (Z.sgn D =? 0)).
  { intros c x L D -> H. repeat split; apply eq_true_iff_eq; rewrite ?andb_true_iff, ?Z.leb_le, ?Z.ltb_lt, ?Z.eqb_eq; destruct (Z.sgn_spec (x - c - (yz t - cz))) as [[? ->]|[[? ->]|[? ->]]]; lia. }
  destruct (E cx (yx t) (YLEN cl) A eq_refl Hx) as (-> & -> & ->). destruct (E cy (yy t) (YLEN cl) B eq_refl Hy) as (-> & -> & ->).
  assert (Z1 : (cz <=? yz t) && (yz t <? cz + YLEN cl) = true) by lia. rewrite Z1, !andb_true_r. reflexivity.
Qed.
Lemma lor_bit v k : 0 <= k -> Z.lor (cutc v (k + 1)) (Z.land v (Z.shiftl 1 k)) = cutc v k.
Proof.
  intros Hk. apply Z.bits_inj'. intros n Hn. unfold cutc. rewrite Z.lor_spec, Z.land_spec, !Z.shiftl_spec by lia.
  destruct (Z.lt_ge_cases n k) as [C|C].
  - rewrite !(Z.testbit_neg_r _ (n - _)) by lia. now rewrite andb_false_r.
  - rewrite (Z.shiftr_spec _ k (n - k)) by lia. replace (n - k + k) with n by lia. destruct (Z.eq_dec n k) as [->|Hne].
    + rewrite (Z.testbit_neg_r _ (k - (k + 1))) by lia. rewrite Z.sub_diag. change (Z.testbit 1 0) with true. now rewrite andb_true_r.
    + rewrite Z.shiftr_spec by lia. replace (n - (k + 1) + (k + 1)) with n by lia. assert (E : Z.testbit 1 (n - k) = false) by (apply Z.bits_above_log2; [lia|change (Z.log2 1) with 0; lia]).
      rewrite E, andb_false_r. apply orb_false_r.
Qed.
(** the loop finds the level of the switch, if it is below the level of the element *)
Lemma y_inside_tet_loop_walk p l t n i : y_path p -> (l <= length p)%nat -> is_pyra (y_walk (firstn l p)) = false ->
  yty (y_walk (firstn l p)) = 0 \/ yty (y_walk (firstn l p)) = 3 ->
  yx t = yx (y_walk p) -> yy t = yy (y_walk p) -> yz t = yz (y_walk p) -> yty t = yty (y_walk (firstn l p)) ->
  (i + n < l)%nat -> is_pyra (y_walk (firstn i p)) = true ->
  let e := y_walk (firstn i p) in let s := ysw (y_walk p) in
  y_inside_tet_loop t n (Z.of_nat (S i)) (yx e) (yy e) (yz e) = if s <=? Z.of_nat (i + n) then s else 0.
Proof.
  intros H Hl PL TL Ex Ey Ez ET. revert i. induction n as [|n IH]; intros i Hn Pi e s.
  - cbn [y_inside_tet_loop]. destruct (Z.leb_spec s (Z.of_nat (i + 0))) as [C|C]; [|reflexivity].
    assert (PP : is_pyra (y_walk p) = false) by (rewrite <- (firstn_all p); apply (@y_tet_later p l); auto; lia).
    destruct (y_sw_spec H PP) as [_ S]. destruct (S i ltac:(lia)) as [S1 _]. rewrite Pi in S1. fold s in S1. lia.
  - assert (PP : is_pyra (y_walk p) = false) by (rewrite <- (firstn_all p); apply (@y_tet_later p l); auto; lia).
    destruct (y_sw_spec H PP) as [SW S]. fold s in SW, S. assert (LP := y_path_len H). unfold zlen in LP.
    cbn [y_inside_tet_loop]. change YMAX with 21. set (e' := y_walk (firstn (Datatypes.S i) p)).
    assert (EC : forall f, ycoord f -> Z.lor (f e) (Z.land (f (y_walk p)) (Z.shiftl 1 (21 - Z.of_nat (Datatypes.S i)))) = f e').
    { intros f F. unfold e, e'. rewrite <- !y_cut_firstn by (auto; lia). replace (21 - Z.of_nat i) with (21 - Z.of_nat (Datatypes.S i) + 1) by lia. apply lor_bit. lia. }
    rewrite Ex, Ey, Ez. rewrite !EC by (unfold ycoord; auto).
    assert (D : forall f, ycoord f -> 0 <= f (y_walk p) - f e' < YLEN (Z.of_nat (Datatypes.S i))).
    { intros f F. destruct (@y_cut_walk f p (Datatypes.S i) F H ltac:(lia)) as (r & Hr & Er). unfold e'. rewrite Er. rewrite YLEN_pow by lia. unfold zlen in Hr.
      pose proof (@pow2_pos (21 - Z.of_nat (length p)) ltac:(lia)). lia. }
    rewrite inside_pyra_ins by (rewrite ?Ex, ?Ey, ?Ez; apply D; unfold ycoord; auto). rewrite Ex, Ey, Ez, ET.
    set (pl := firstn l p). assert (El : pl = firstn (Datatypes.S i) pl ++ skipn (Datatypes.S i) pl) by now rewrite firstn_skipn.
    assert (Fi : firstn (Datatypes.S i) pl = firstn (Datatypes.S i) p) by (unfold pl; rewrite firstn_firstn; f_equal; lia). rewrite Fi in El.
    assert (St : In (yty (y_walk pl), st_of e' (y_walk (firstn (Datatypes.S i) p ++ skipn (Datatypes.S i) pl ++ skipn l p))) exst).
    { apply (@y_state_from (fun s => In (yty (y_walk pl), s) exst)).
      - intros s0 i0. apply exst_next.
      - rewrite app_assoc, <- El. unfold pl. now rewrite firstn_skipn.
      - rewrite <- El. replace (yty (y_walk pl)) with (snd (st_of (y_walk (firstn (Datatypes.S i) p)) (y_walk pl))) at 1 by reflexivity. apply exst_start.
        + rewrite El at 1. apply y_state. rewrite <- El. now apply y_path_firstn.
        + exact TL. }
    rewrite app_assoc, <- El in St. unfold pl in St at 2. rewrite firstn_skipn in St. unfold st_of in St.
    destruct (S (Datatypes.S i) ltac:(lia)) as [S1 _]. fold e' in S1.
    assert (TE : yty e' = 0 \/ yty e' = 3 \/ 6 <= yty e').
    { destruct (is_pyra e') eqn:P'; [right; right; now apply is_pyra_iff|]. destruct (@y_walk_S_facts p i H ltac:(lia)) as (W & _ & _ & Hi & T & _).
      fold e' in T. fold e in W, Hi, T. rewrite nch_num in Hi. destruct (tab_parent (yw_ty W) Hi) as (_ & _ & P3 & _). apply is_tet_iff in P'. apply is_pyra_iff in Pi.
      rewrite T in *. destruct (P3 Pi P') as [_ [->| ->]]; auto. }
    assert (EI := exst_ins St TE). unfold rel in EI. rewrite EI.
    destruct (Z.ltb_spec (yty e') 6) as [C|C].
    + apply is_tet_iff in C. rewrite C in S1. symmetry in S1. apply Z.ltb_ge in S1. destruct (S i ltac:(lia)) as [S0 _]. rewrite Pi in S0.
      symmetry in S0. apply Z.ltb_lt in S0. destruct (Z.leb_spec s (Z.of_nat (i + Datatypes.S n))); lia.
    + apply is_pyra_iff in C. replace (Z.of_nat (Datatypes.S i) + 1) with (Z.of_nat (Datatypes.S (Datatypes.S i))) by lia.
      unfold e'. rewrite IH by (auto; lia). fold s. replace (Datatypes.S i + n)%nat with (i + Datatypes.S n)%nat by lia. reflexivity.
Qed.
(** the level of the finest ancestor of type 0 or 3 *)
Lemma y_type_ext_coords a b l t k : yx a = yx b -> yy a = yy b -> yz a = yz b -> y_type_ext a l t k = y_type_ext b l t k.
Proof.
  intros Ex Ey Ez. unfold y_type_ext. destruct (l =? k); [reflexivity|]. destruct (l =? 0); [reflexivity|]. generalize (Z.to_nat (k - l)). intros n. revert k t.
  induction n as [|n IH]; intros k t; cbn [y_type_loop]; [reflexivity|]. rewrite IH. f_equal. f_equal. unfold y_cubeid. now rewrite Ex, Ey, Ez.
Qed.
Lemma y_type_03_loop_walk p l t : y_path p -> is_pyra (y_walk p) = false -> (l <= length p)%nat -> ysw (y_walk p) <= Z.of_nat l ->
  yx t = yx (y_walk p) -> yy t = yy (y_walk p) -> yz t = yz (y_walk p) ->
  exists k, y_type_03_loop t l (yty (y_walk (firstn l p))) = Ok (Z.of_nat k, yty (y_walk (firstn k p))) /\ (k <= l)%nat /\ ysw (y_walk p) <= Z.of_nat k /\
    (yty (y_walk (firstn k p)) = 0 \/ yty (y_walk (firstn k p)) = 3).
Proof.
  intros H P Hl HS Ex Ey Ez. destruct (y_sw_spec H P) as [SW S]. revert Hl HS. induction l as [|l IH]; intros Hl HS; [lia|].
  cbn [y_type_03_loop]. destruct ((yty (y_walk (firstn (Datatypes.S l) p)) =? 0) || (yty (y_walk (firstn (Datatypes.S l) p)) =? 3)) eqn:E.
  - exists (Datatypes.S l). split; [reflexivity|]. split; [lia|]. split; [exact HS|]. lia.
  - destruct (S l ltac:(lia)) as [S1 _]. destruct (S (Datatypes.S l) ltac:(lia)) as [S2 _].
    destruct (Z.ltb_spec (Z.of_nat (Datatypes.S l)) (ysw (y_walk p))); [lia|]. destruct (Z.ltb_spec (Z.of_nat l) (ysw (y_walk p))) as [C|C].
    + exfalso. destruct (@y_walk_S_facts p l H ltac:(lia)) as (W & _ & _ & Hi & T & _). rewrite nch_num in Hi. destruct (tab_parent (yw_ty W) Hi) as (_ & _ & P3 & _).
      apply is_pyra_iff in S1. apply is_tet_iff in S2. rewrite T in *. destruct (P3 S1 S2) as [_ [A|A]]; rewrite A in E; discriminate.
    + rewrite (y_type_ext_coords _ _ _ Ex Ey Ez). replace (Z.of_nat l + 1) with (Z.of_nat (Datatypes.S l)) by lia. rewrite y_type_ext_walk; [|exact H|lia|].
      * destruct (IH ltac:(lia) ltac:(lia)) as (k & E1 & E2 & E3). exists k. split; [exact E1|]. split; [lia|exact E3].
      * intros j Hj. destruct (S j ltac:(lia)) as [-> _]. rewrite S2. apply Z.ltb_ge. lia.
Qed.
Lemma y_compute_switch_walk p t : y_path p -> is_pyra (y_walk p) = false -> yt t = yt (y_walk p) -> y_compute_switch t = Ok (ysw (y_walk p)).
Proof.
  intros H P ET. destruct (y_walk_wf H) as [W L]. destruct (y_sw_spec H P) as [SW S].
  assert (Ex : yx t = yx (y_walk p)) by (unfold yx; now rewrite ET). assert (Ey : yy t = yy (y_walk p)) by (unfold yy; now rewrite ET). assert (Ez : yz t = yz (y_walk p)) by (unfold yz; now rewrite ET).
  assert (El : ylv t = zlen p) by (rewrite <- L; unfold ylv; now rewrite ET). assert (Et : yty t = yty (y_walk p)) by (unfold yty; now rewrite ET).
  unfold y_compute_switch. rewrite El, Et. unfold zlen in *. rewrite Nat2Z.id.
  destruct (@y_type_03_loop_walk p (length p) t H P ltac:(lia) ltac:(lia) Ex Ey Ez) as (k & E & Hk & HS & T03). rewrite firstn_all in E. rewrite E.
  cbn [obind fst snd]. f_equal. unfold y_is_inside_tet. set (tt := set_ty _ _).
  assert (PK : is_pyra (y_walk (firstn k p)) = false) by (destruct (S k ltac:(lia)) as [-> _]; apply Z.ltb_ge; lia).
  assert (LOOP := @y_inside_tet_loop_walk p k tt (k - 1) 0 H ltac:(lia) PK T03 Ex Ey Ez eq_refl).
  cbn [firstn] in LOOP. change (yx (y_walk [])) with 0 in LOOP. change (yy (y_walk [])) with 0 in LOOP. change (yz (y_walk [])) with 0 in LOOP. change (Z.of_nat 1) with 1 in LOOP.
  replace (Z.to_nat (Z.of_nat k - 1)) with (k - 1)%nat by lia. rewrite LOOP; [|lia|reflexivity].
  destruct (Z.leb_spec (ysw (y_walk p)) (Z.of_nat (0 + (k - 1)))) as [C|C].
  - destruct (Z.eqb_spec (ysw (y_walk p)) 0); lia.
  - cbn. lia.
Qed.
Lemma y_set_switch_walk p t : y_path p -> yt t = yt (y_walk p) -> y_set_switch t = Ok (y_walk p).
Proof.
  intros H ET. destruct (y_walk_wf H) as [W L]. assert (SW := yw_sw W). unfold y_set_switch. assert (EP : is_pyra t = is_pyra (y_walk p)) by (unfold is_pyra, yty; now rewrite ET).
  rewrite EP. destruct (is_pyra (y_walk p)) eqn:P.
  - unfold set_sw. rewrite ET. destruct (y_walk p) as [e s]. cbn [ysw yt] in *. now subst s.
  - rewrite (y_compute_switch_walk H P ET). cbn [obind]. unfold set_sw. rewrite ET. now destruct (y_walk p).
Qed.
(** level, type and coordinates determine the element, and its path *)
Lemma y_walk_yt p q : y_path p -> y_path q -> yt (y_walk p) = yt (y_walk q) -> y_walk p = y_walk q.
Proof.
  intros Hp Hq E. assert (A := y_set_switch_walk Hp eq_refl). assert (B := y_set_switch_walk Hq E). rewrite A in B. now injection B.
Qed.
Lemma y_walk_inj p q : y_path p -> y_path q -> y_walk p = y_walk q -> p = q.
Proof.
  revert q. induction p as [|i p IH] using rev_ind; intros q Hp Hq E.
  - destruct (y_walk_wf Hp) as [_ L1]. destruct (y_walk_wf Hq) as [_ L2]. rewrite E, L2 in L1. destruct q; [reflexivity|]. unfold zlen in L1. cbn [length] in L1. lia.
  - destruct (y_walk_wf Hp) as [_ L1]. destruct (y_walk_wf Hq) as [_ L2]. rewrite E, L2 in L1. rewrite zlen_app in L1. change (zlen [i]) with 1 in L1.
    destruct (@exists_last _ q) as (q' & j & ->); [intros ->; unfold zlen in L1; cbn [length] in L1; lia|].
    assert (Hp' := Hp). assert (Hq' := Hq). apply y_path_snoc in Hp'. apply y_path_snoc in Hq'. destruct Hp' as (P1 & P2 & P3). destruct Hq' as (Q1 & Q2 & Q3).
    destruct (y_walk_wf P1) as [W1 V1]. destruct (y_walk_wf Q1) as [W2 V2]. rewrite !y_walk_snoc in E.
    assert (E1 := y_parent_child W1 ltac:(lia) P3). assert (E2 := y_parent_child W2 ltac:(lia) Q3). rewrite E, E2 in E1. symmetry in E1.
    destruct (y_child_id_child W1 ltac:(lia) P3) as [I1 _]. destruct (y_child_id_child W2 ltac:(lia) Q3) as [I2 _]. rewrite E, I2 in I1. subst j. f_equal. now apply IH.
Qed.

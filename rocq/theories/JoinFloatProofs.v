(** Coordinates for which the tolerance and the bins of the search by vertices work *)
From Coq Require Import Reals Lra SpecFloat.
From Flocq Require Import Core.Zaux Core.Raux Core.Defs Core.Float_prop Core.Generic_fmt Core.FLT Core.Round_NE Core.Ulp Relative
  IEEE754.BinarySingleNaN.
From Verif Require Import Prelude EclassModel FloatModel CmeshModel JoinModel JoinSpec FloatProofs JoinCoordSpec.
#[local] Unset Implicit Arguments.
#[local] Open Scope R_scope.

Lemma d_sub_add x y : d_sub x y = d_add x (SFopp y).
Proof.
  destruct x as [sx|sx| |sx mx ex], y as [sy|sy| |sy my ey]; try reflexivity; unfold d_sub, d_add; cbn.
  f_equal. unfold Z.sub. f_equal. destruct sy; reflexivity.
Qed.
Lemma d_opp_spec y b : dbl y b -> dbl (SFopp y) (- b).
Proof.
  intros (v & <- & F & <-). exists (Bopp v). split; [destruct v; reflexivity|]. split; [destruct v; exact F|]. apply B2R_Bopp.
Qed.
Lemma d_abs_spec y b : dbl y b -> dbl (d_abs y) (Rabs b).
Proof.
  intros (v & <- & F & <-). exists (Babs v). split; [destruct v; reflexivity|]. split; [destruct v; exact F|]. apply B2R_Babs.
Qed.
Lemma d_sub_spec x y a b : dbl x a -> dbl y b -> Rabs (rnd (a - b)) < big -> dbl (d_sub x y) (rnd (a - b)).
Proof. intros X Y H. rewrite d_sub_add. apply d_add_spec; [exact X|apply d_opp_spec, Y|exact H]. Qed.
Lemma to_ulong_spec x a : dbl x a -> 0 <= a < 18446744073709551616 -> exists k, to_ulong x = Ok k.
Proof.
  intros D [A1 A2]. pose proof (d_floor_spec x a D) as F.
  assert (Z0 : (0 <= Zfloor a)%Z) by (apply Zfloor_lub; exact A1).
  assert (Z1 : (Zfloor a < 2 ^ 64)%Z). { apply lt_IZR. apply Rle_lt_trans with a; [apply Zfloor_lb|exact A2]. }
  destruct x as [s|s| |s m e]; cbn [d_floor] in F; try discriminate F.
  - exists 0%Z. reflexivity.
  - injection F as F. cbn [to_ulong]. cbv zeta. destruct s.
    + exfalso. assert (N : (Z.shiftl (Z.neg m) e < 0)%Z) by (apply Z.shiftl_neg; reflexivity). lia.
    + exists (Z.shiftl (Z.pos m) e). rewrite F. destruct (Zfloor a <? 2 ^ 64)%Z eqn:E; [reflexivity|]. lia.
Qed.
Lemma rnd_neg x : rnd (- x) = - rnd x.
Proof. unfold rnd. apply round_NE_opp. Qed.
Lemma rnd_abs x : Rabs (rnd x) = rnd (Rabs x).
Proof.
  unfold Rabs at 2. destruct (Rcase_abs x) as [H|H].
  - rewrite rnd_neg. apply Rabs_left1. rewrite <- rnd_0. apply rnd_le. lra.
  - apply Rabs_pos_eq, rnd_ge0. lra.
Qed.
Lemma small_abs x k : 0 <= k <= 340282366920938463463374607431768211456 / 2 -> okr k -> Rabs x <= k -> Rabs (rnd x) < big.
Proof.
  intros K OKK H. rewrite rnd_abs. apply Rle_lt_trans with (rnd k); [apply rnd_le, H|]. pose proof (rnd_rel k OKK) as [_ R]. pose proof big_ge as B. unfold u in R. lra.
Qed.

Section Coordinates.
  Variables (b : spec_float * spec_float) (lo hi : R).
  Hypothesis LO : dbl (fst b) lo.
  Hypothesis HI : dbl (snd b) hi.
  Hypothesis SIZE : / 1048576 <= hi - lo <= 1099511627776.
  Let D := rnd (hi - lo).

  Lemma D_bounds : (hi - lo) * (1 - u) <= D <= (hi - lo) * (1 + u).
  Proof. pose proof (rnd_rel (hi - lo)) as R. unfold okr, D in *. assert (O : hi - lo = 0 \/ / 1099511627776 <= hi - lo) by (right; lra). specialize (R O). lra. Qed.
  Lemma D_size : / 2097152 <= D <= 2199023255552.
  Proof. pose proof D_bounds as B. unfold u in B. lra. Qed.
  Lemma D_dbl : dbl (d_sub (snd b) (fst b)) D.
  Proof. apply d_sub_spec; [exact HI|exact LO|]. apply (small_abs _ 1099511627776); [lra|right; lra|]. rewrite Rabs_pos_eq; lra. Qed.

  (** ** Bins *)
  Let I := rnd (1000000000 / D).
  Lemma quot_bounds : / 4096 <= 1000000000 / D <= 4000000000000000.
  Proof.
    pose proof D_size as S. assert (P : 0 < D) by lra. split.
    - apply (Rmult_le_reg_r D); [exact P|]. unfold Rdiv. rewrite Rmult_assoc, Rinv_l by lra. lra.
    - apply (Rmult_le_reg_r D); [exact P|]. unfold Rdiv. rewrite Rmult_assoc, Rinv_l by lra. lra.
  Qed.
  Lemma I_bounds : 0 <= I /\ I * D <= 1000000001 /\ I <= 8000000000000000.
  Proof.
    pose proof quot_bounds as Q. pose proof D_size as S. pose proof (rnd_rel (1000000000 / D)) as R. unfold okr in R.
    assert (O : 1000000000 / D = 0 \/ / 1099511627776 <= 1000000000 / D) by (right; lra). specialize (R O). fold I in R. unfold u in R. split; [lra|]. split; [|lra].
    apply Rle_trans with ((1000000000 / D + / 9007199254740992 * (1000000000 / D)) * D); [apply Rmult_le_compat_r; lra|].
    replace ((1000000000 / D + / 9007199254740992 * (1000000000 / D)) * D) with (1000000000 + / 9007199254740992 * 1000000000) by (field; lra). lra.
  Qed.
  Lemma I_dbl : dbl (inverse_bin_size b) I.
  Proof.
    pose proof quot_bounds as Q. pose proof D_size as S. unfold inverse_bin_size.
    assert (E : dbl (d_of_int 1000000000) 1000000000).
    { pose proof (rnd_int 1000000000) as R. rewrite <- R by lia. apply d_of_int_spec. rewrite R by lia. rewrite Rabs_pos_eq by lra. pose proof big_ge. lra. }
    apply d_div_spec; [exact E|apply D_dbl|lra|]. apply (small_abs _ 4000000000000000); [lra|right; lra|]. rewrite Rabs_pos_eq; lra.
  Qed.
  Lemma bin_ok v r : dbl v r -> lo <= r <= hi -> exists k, bin b v = Ok k.
  Proof.
    intros V R. pose proof D_size as S. pose proof I_bounds as (I0 & I1 & I2). unfold bin.
    assert (W0 : 0 <= rnd (r - lo) <= D). { split; [apply rnd_ge0; lra|unfold D; apply rnd_le; lra]. }
    assert (W : dbl (d_sub v (fst b)) (rnd (r - lo))).
    { apply d_sub_spec; [exact V|exact LO|]. rewrite Rabs_pos_eq by lra. pose proof big_ge. lra. }
    assert (P0 : 0 <= rnd (r - lo) * I <= 1000000001).
    { split; [apply Rmult_le_pos; lra|]. apply Rle_trans with (D * I); [apply Rmult_le_compat_r; lra|]. lra. }
    assert (P1 : rnd 1000000001 = 1000000001) by (apply (rnd_int 1000000001); lia).
    assert (P2 : 0 <= rnd (rnd (r - lo) * I) <= 1000000001). { split; [apply rnd_ge0; lra|]. rewrite <- P1. apply rnd_le. lra. }
    assert (P : dbl (d_mul (d_sub v (fst b)) (inverse_bin_size b)) (rnd (rnd (r - lo) * I))).
    { apply d_mul_spec; [exact W|exact I_dbl|]. rewrite Rabs_pos_eq by lra. pose proof big_ge. lra. }
    assert (ONE : forall n, (0 <= n <= 1024)%Z -> dbl (d_of_int n) (IZR n)).
    { intros n Hn. pose proof (rnd_int n) as Q. rewrite <- Q by lia. apply d_of_int_spec. rewrite Q by lia. assert (0 <= IZR n <= 1024) by (split; apply IZR_le; lia). rewrite Rabs_pos_eq by lra. pose proof big_ge. lra. }
    assert (HB : 0 <= rnd (1 / 2) <= 1). { split; [apply rnd_ge0; lra|]. apply Rle_trans with (rnd 1); [apply rnd_le; lra|rewrite (rnd_int 1) by lia; lra]. }
    assert (H : dbl (d_div (d_of_int 1) (d_of_int 2)) (rnd (1 / 2))).
    { apply d_div_spec; [apply (ONE 1%Z); lia|apply (ONE 2%Z); lia|lra|]. rewrite Rabs_pos_eq by lra. pose proof big_ge. lra. }
    set (p := rnd (rnd (r - lo) * I)) in *. set (h := rnd (1 / 2)) in *.
    assert (Q1 : rnd 1000000002 = 1000000002) by (apply (rnd_int 1000000002); lia).
    assert (Q : 0 <= rnd (p + h) <= 1000000002). { split; [apply rnd_ge0; lra|]. rewrite <- Q1. apply rnd_le. lra. }
    apply (to_ulong_spec _ (rnd (p + h))); [|lra]. apply d_add_spec; [exact P|exact H|]. rewrite Rabs_pos_eq by lra. pose proof big_ge. lra.
  Qed.

  (** ** Tolerance *)
  Definition tol := rnd (rnd (10 * / 4503599627370496) * D).
  Lemma tol_facts : dbl (tolerance_of b) tol /\ 0 < tol <= 12 * / 4503599627370496 * (hi - lo).
  Proof.
    pose proof D_size as S. pose proof D_bounds as B.
    assert (ONE : forall n, (0 <= n <= 9007199254740992)%Z -> dbl (d_of_int n) (IZR n)).
    { intros n Hn. pose proof (rnd_int n) as Q. rewrite <- Q by lia. apply d_of_int_spec. rewrite Q by lia. assert (0 <= IZR n <= 9007199254740992) by (split; apply IZR_le; lia). rewrite Rabs_pos_eq by lra. pose proof big_ge. lra. }
    assert (E1 : rnd (1 / 4503599627370496) = / 4503599627370496).
    { unfold rnd. replace (1 / 4503599627370496) with (bpow radix2 (-52)) by (simpl; lra). rewrite round_generic; [simpl; lra|auto with typeclass_instances|]. apply generic_format_bpow. vm_compute. discriminate. }
    assert (E : dbl d_eps (/ 4503599627370496)).
    { rewrite <- E1. apply d_div_spec; [apply (ONE 1%Z); lia|apply (ONE 4503599627370496%Z); lia|lra|]. rewrite E1, Rabs_pos_eq by lra. pose proof big_ge. lra. }
    set (e := / 4503599627370496) in *. assert (EV : e = / 4503599627370496) by reflexivity. clearbody e.
    assert (T1 : 9 * e <= rnd (10 * e) <= 11 * e).
    { assert (X : bpow radix2 (-1022) <= Rabs (10 * e)).
      { rewrite Rabs_pos_eq by lra. apply Rle_trans with (bpow radix2 (-52)); [apply bpow_le; lia|]. simpl. lra. }
      pose proof (rnd_err _ X) as Y. rewrite (Rabs_pos_eq (10 * e)) in Y by lra. apply Rabs_le_inv in Y. unfold u in Y. lra. }
    assert (M : dbl (d_mul (d_of_int 10) d_eps) (rnd (10 * e))).
    { apply d_mul_spec; [apply (ONE 10%Z); lia|exact E|]. rewrite Rabs_pos_eq by lra. pose proof big_ge. lra. }
    assert (A : dbl (d_abs (d_sub (snd b) (fst b))) D). { rewrite <- (Rabs_pos_eq D) by lra. apply d_abs_spec, D_dbl. }
    set (t := rnd (10 * e)) in *.
    assert (TD : 9 * e * D <= t * D <= 11 * e * D) by (split; apply Rmult_le_compat_r; lra).
    assert (ED : e * / 2097152 <= e * D <= e * 2199023255552) by (split; apply Rmult_le_compat_l; lra).
    assert (X : bpow radix2 (-1022) <= Rabs (t * D)).
    { rewrite Rabs_pos_eq by lra. apply Rle_trans with (bpow radix2 (-73)); [apply bpow_le; lia|]. simpl. lra. }
    pose proof (rnd_err _ X) as Y. rewrite (Rabs_pos_eq (t * D)) in Y by lra. apply Rabs_le_inv in Y. unfold u in Y.
    assert (TT : tol = rnd (t * D)) by (unfold tol; rewrite <- EV; reflexivity).
    assert (DE : e * D <= e * ((hi - lo) * (1 + u))) by (apply Rmult_le_compat_l; lra). unfold u in DE.
    assert (HE : 0 < e * (hi - lo)) by (apply Rmult_lt_0_compat; lra).
    split.
    - rewrite TT. unfold tolerance_of. apply d_mul_spec; [exact M|exact A|]. pose proof big_ge. rewrite Rabs_pos_eq by lra. lra.
    - rewrite TT. split; [lra|]. lra.
  Qed.

  Lemma near_self v r : dbl v r -> d_ltb (d_abs (d_sub v v)) (tolerance_of b) = true.
  Proof.
    intros V. destruct tol_facts as (T & T0 & _). assert (S : dbl (d_abs (d_sub v v)) (Rabs (rnd (r - r)))).
    { apply d_abs_spec, d_sub_spec; [exact V|exact V|]. replace (r - r) with 0 by lra. rewrite rnd_0, Rabs_R0. pose proof big_ge. lra. }
    rewrite (d_ltb_spec _ _ _ _ S T). apply Rlt_bool_true. replace (r - r) with 0 by lra. rewrite rnd_0, Rabs_R0. exact T0.
  Qed.
  Lemma far v w r s : dbl v r -> dbl w s -> lo <= r <= hi -> lo <= s <= hi -> (hi - lo) * / 281474976710656 <= Rabs (r - s) -> d_ltb (d_abs (d_sub v w)) (tolerance_of b) = false.
  Proof.
    intros V W R1 R2 F. destruct tol_facts as (T & T0 & T1). assert (LE : Rabs (r - s) <= hi - lo) by (apply Rabs_le; lra).
    assert (S : dbl (d_abs (d_sub v w)) (Rabs (rnd (r - s)))).
    { apply d_abs_spec, d_sub_spec; [exact V|exact W|]. apply (small_abs _ 1099511627776); [lra|right; lra|]. lra. }
    rewrite (d_ltb_spec _ _ _ _ S T). apply Rlt_bool_false. rewrite rnd_abs.
    assert (X : bpow radix2 (-1022) <= Rabs (Rabs (r - s))).
    { rewrite Rabs_Rabsolu. apply Rle_trans with (bpow radix2 (-68)); [apply bpow_le; lia|]. simpl. lra. }
    pose proof (rnd_err _ X) as Y. rewrite Rabs_Rabsolu in Y. apply Rabs_le_inv in Y. unfold u in Y. lra.
  Qed.
End Coordinates.

(** ** The bounds of the domain *)
Lemma dbl_value v r : dbl v r -> r = SF2R radix2 v.
Proof. intros (x & <- & _ & <-). symmetry. apply SF2R_B2SF. Qed.
Lemma dbl_unique v r s : dbl v r -> dbl v s -> r = s.
Proof. intros A B. rewrite (dbl_value _ _ A), (dbl_value _ _ B). reflexivity. Qed.

Lemma bounds_fold : forall cs b lo hi, dbl (fst b) lo -> dbl (snd b) hi -> lo <= hi -> (forall v, In v cs -> exists r, dbl v r) ->
  exists lo' hi', dbl (fst (fold_left bounds_coord cs b)) lo' /\ dbl (snd (fold_left bounds_coord cs b)) hi' /\ lo' <= lo /\ hi <= hi' /\
    (forall v r, In v cs -> dbl v r -> lo' <= r <= hi') /\
    (lo' = lo \/ exists v, In v cs /\ dbl v lo') /\ (hi' = hi \/ exists v, In v cs /\ dbl v hi').
Proof.
  induction cs as [|c cs IH]; intros b lo hi L H LH F; cbn [fold_left].
  - exists lo, hi. split; [exact L|]. split; [exact H|]. split; [lra|]. split; [lra|]. split; [intros v r []|]. split; left; reflexivity.
  - destruct (F c (or_introl eq_refl)) as (r & R).
    assert (B : exists l1 h1, dbl (fst (bounds_coord b c)) l1 /\ dbl (snd (bounds_coord b c)) h1 /\ l1 <= lo /\ hi <= h1 /\ l1 <= r <= h1 /\ (l1 = lo \/ l1 = r) /\ (h1 = hi \/ h1 = r)).
    { unfold bounds_coord. cbn [fst snd]. rewrite (d_ltb_spec _ _ _ _ R L), (d_ltb_spec _ _ _ _ H R).
      exists (if Rlt_bool r lo then r else lo), (if Rlt_bool hi r then r else hi).
      destruct (Rlt_bool_spec r lo), (Rlt_bool_spec hi r); repeat (split; [first [assumption|lra|auto]|]); auto. }
    destruct B as (l1 & h1 & B1 & B2 & B3 & B4 & B5 & B6 & B7).
    destruct (IH (bounds_coord b c) l1 h1 B1 B2) as (lo' & hi' & C1 & C2 & C3 & C4 & C5 & C6 & C7); [lra|intros v V; apply F; right; exact V|].
    exists lo', hi'. split; [exact C1|]. split; [exact C2|]. split; [lra|]. split; [lra|]. split; [|split].
    + intros v s [<-|V] S; [rewrite (dbl_unique c s r S R); lra|apply (C5 v s V S)].
    + destruct C6 as [->|(v & V & D)]; [|right; exists v; split; [right; exact V|exact D]].
      destruct B6 as [->| ->]; [left; reflexivity|right; exists c; split; [left; reflexivity|exact R]].
    + destruct C7 as [->|(v & V & D)]; [|right; exists v; split; [right; exact V|exact D]].
      destruct B7 as [->| ->]; [left; reflexivity|right; exists c; split; [left; reflexivity|exact R]].
Qed.
Lemma fold_flat {A B C} (f : C -> B -> C) (g : A -> list B) : forall l b, fold_left (fun b t => fold_left f (g t) b) l b = fold_left f (flat_map g l) b.
Proof. induction l as [|t l IH]; intros b; cbn [fold_left flat_map]; [reflexivity|]. rewrite fold_left_app. apply IH. Qed.
Definition counted (t : jtree) : list spec_float :=
  flat_map (fun p => firstn (Z.to_nat (eclass_to_dimension (j_class t))) (coords p)) (firstn (Z.to_nat (eclass_num_vertices (j_class t))) (j_points t)).
Lemma bounds_flat m b : fold_left bounds_tree m b = fold_left bounds_coord (flat_map counted m) b.
Proof.
  rewrite <- fold_flat. revert b. induction m as [|t m IH]; intros b; cbn [fold_left]; [reflexivity|]. rewrite IH. f_equal. unfold bounds_tree, bounds_point, counted. apply fold_flat.
Qed.

Lemma in_counted m d v : mesh_ok m d -> (1 <= d <= 3)%Z ->
  In v (flat_map counted m) <-> exists p i, is_vertex m p /\ (0 <= i < d)%Z /\ nth_error (coords p) (Z.to_nat i) = Some v.
Proof.
  intros OK HD. rewrite in_flat_map. split.
  - intros (t & T & V). destruct (OK t T) as (_ & E & L & _). unfold counted in V. apply in_flat_map in V. destruct V as (p & P & V). rewrite E in V.
    rewrite firstn_all2 in P by (unfold zlen in L; lia). exists p.
    apply In_nth_error in V. destruct V as (k & V). exists (Z.of_nat k).
    assert (K : (k < Z.to_nat d)%nat). { assert (k < length (firstn (Z.to_nat d) (coords p)))%nat by (apply nth_error_Some; congruence). rewrite firstn_length in H. lia. }
    split; [exists t; split; assumption|]. split; [lia|]. rewrite Nat2Z.id. rewrite <- V. symmetry.
    clear - K. revert K. generalize (Z.to_nat d) as n. generalize (coords p) as l. intros l. revert k. induction l as [|x l IH]; intros k n K; [rewrite firstn_nil; reflexivity|]. destruct n as [|n]; [lia|]. destruct k as [|k]; cbn; [reflexivity|]. apply IH. lia.
  - intros (p & i & (t & T & P) & I & V). exists t. split; [exact T|]. destruct (OK t T) as (_ & E & L & _). unfold counted. apply in_flat_map. exists p. rewrite E.
    split; [rewrite firstn_all2 by (unfold zlen in L; lia); exact P|].
    assert (K : (Z.to_nat i < Z.to_nat d)%nat) by lia. revert K V. generalize (Z.to_nat i) as k. generalize (Z.to_nat d) as n. generalize (coords p) as l. clear. intros l.
    induction l as [|x l IH]; intros n k K V; [destruct k; discriminate V|]. destruct n as [|n]; [lia|]. destruct k as [|k]; cbn in *; [left; congruence|right; apply (IH n k); [lia|exact V]].
Qed.

Lemma bounds_extent_at mm d lo hi x y z : mesh_ok mm d -> (1 <= d <= 3)%Z -> finite_coordinates mm -> extent mm d lo hi -> is_vertex mm (x, y, z) ->
  dbl (fst (fold_left bounds_tree mm (x, x))) lo /\ dbl (snd (fold_left bounds_tree mm (x, x))) hi.
Proof.
  intros OK HD FIN (E1 & E2 & E3) VX. rewrite bounds_flat.
  destruct (FIN (x, y, z) x VX) as (r & R); [left; reflexivity|].
  destruct (bounds_fold (flat_map counted mm) (x, x) r r) as (lo' & hi' & C1 & C2 & _ & _ & C5 & C6 & C7); [exact R|exact R|lra| |].
  { intros v V. apply (in_counted mm d v OK HD) in V. destruct V as (p & i & P & _ & N). apply (FIN p v P). apply nth_error_In in N. exact N. }
  assert (CR : counted_coordinate mm d r) by (exists (x, y, z), 0%Z, x; split; [exact VX|split; [lia|split; [reflexivity|exact R]]]).
  assert (BACK : forall s v, In v (flat_map counted mm) -> dbl v s -> counted_coordinate mm d s).
  { intros s v V S. apply (in_counted mm d v OK HD) in V. destruct V as (p & i & P & I & N). exists p, i, v. auto. }
  assert (FORW : forall s, counted_coordinate mm d s -> lo' <= s <= hi').
  { intros s (p & i & v & P & I & N & S). apply (C5 v s); [|exact S]. apply (in_counted mm d v OK HD). exists p, i. auto. }
  assert (L' : counted_coordinate mm d lo') by (destruct C6 as [->|(v & V & S)]; [exact CR|exact (BACK _ v V S)]).
  assert (H' : counted_coordinate mm d hi') by (destruct C7 as [->|(v & V & S)]; [exact CR|exact (BACK _ v V S)]).
  pose proof (FORW lo E1). pose proof (FORW hi E2). pose proof (E3 lo' L'). pose proof (E3 hi' H').
  replace lo with lo' by lra. replace hi with hi' by lra. split; assumption.
Qed.

Theorem bounds_extent m d lo hi : mesh_ok m d -> (1 <= d <= 3)%Z -> finite_coordinates m -> extent m d lo hi ->
  exists b, domain_bounds m = Ok b /\ dbl (fst b) lo /\ dbl (snd b) hi.
Proof.
  intros OK HD FIN EXT. destruct m as [|t m].
  { destruct EXT as (E1 & _). destruct E1 as (p & _ & _ & (t & [] & _) & _). }
  destruct t as [c ps]. destruct ps as [|[[x y] z] ps].
  { destruct (OK _ (or_introl eq_refl)) as (C & _ & L & _). cbn [j_class j_points] in L, C. exfalso. unfold ECLASS_COUNT in C. cbn in C. assert (K : (c = 0 \/ c = 1 \/ c = 2 \/ c = 3 \/ c = 4 \/ c = 5 \/ c = 6 \/ c = 7)%Z) by lia.
    repeat (destruct K as [K|K]; [subst c; discriminate L|]). subst c. discriminate L. }
  exists (fold_left bounds_tree (mkJtree c ((x, y, z) :: ps) :: m) (x, x)). split; [reflexivity|].
  apply (bounds_extent_at _ d lo hi x y z OK HD FIN EXT). exists (mkJtree c ((x, y, z) :: ps)). split; left; reflexivity.
Qed.

Lemma same_false tl p q : (exists i v w, nth_error (coords p) i = Some v /\ nth_error (coords q) i = Some w /\ d_ltb (d_abs (d_sub v w)) tl = false) -> same_point tl p q = false.
Proof.
  intros (i & v & w & V & W & F). destruct p as [[p1 p2] p3], q as [[q1 q2] q3]. unfold same_point. cbn [coords combine forallb] in *.
  destruct i as [|[|[|i]]]; cbn in V, W; try (injection V as <-; injection W as <-; rewrite F; rewrite ?Bool.andb_false_r; reflexivity).
  destruct i; discriminate V.
Qed.
Theorem coordinates_suffice m d lo hi : mesh_ok m d -> (1 <= d <= 3)%Z -> finite_coordinates m -> extent m d lo hi -> / 1048576 <= hi - lo <= 1099511627776 ->
  (forall p v r, is_vertex m p -> In v (coords p) -> dbl v r -> lo <= r <= hi) -> (forall p q, is_vertex m p -> is_vertex m q -> p <> q -> apart p q (hi - lo)) ->
  exists b, domain_bounds m = Ok b /\ separated m b /\ has_bins m b.
Proof.
  intros OK HD FIN EXT SIZE IN AP. destruct (bounds_extent m d lo hi OK HD FIN EXT) as (b & DB & L & H). exists b. split; [exact DB|]. split.
  - intros p q P Q. split.
    + intros S. assert (DEC : {p = q} + {p <> q}) by (repeat decide equality). destruct DEC as [E|N]; [exact E|]. exfalso.
      destruct (AP p q P Q N) as (i & v & w & r & s & V & W & DV & DW & F). rewrite same_false in S; [discriminate|]. exists i, v, w. split; [exact V|]. split; [exact W|].
      apply (far b lo hi L H SIZE v w r s DV DW); [apply (IN p v r P); [apply nth_error_In in V; exact V|exact DV]|apply (IN q w s Q); [apply nth_error_In in W; exact W|exact DW]|exact F].
    + intros <-. destruct p as [[x y] z] eqn:E. unfold same_point. cbn [coords combine forallb].
      destruct (FIN (x, y, z) x P) as (r1 & R1); [cbn; auto|]. destruct (FIN (x, y, z) y P) as (r2 & R2); [cbn; auto|]. destruct (FIN (x, y, z) z P) as (r3 & R3); [cbn; auto|].
      rewrite (near_self b lo hi L H SIZE x r1 R1), (near_self b lo hi L H SIZE y r2 R2), (near_self b lo hi L H SIZE z r3 R3). reflexivity.
  - intros p v P V. destruct (FIN p v P V) as (r & R). apply (bin_ok b lo hi L H SIZE v r R). apply (IN p v r P V R).
Qed.

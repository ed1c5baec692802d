(** Elements of the tree of a pyramid are determined by level, type and coordinates; families with a given first element. *)
From Coq Require Import QArith.
From Verif Require Import Prelude PathSpec GeoSpec SimplexModel SimplexProofs SimplexPathProofs SimplexOrderProofs PyramidModel PyramidSpec PyramidGeoSpec PyramidProofs PyramidAncProofs PyramidIdProofs PyramidOrderProofs PyramidNcaProofs PyramidScheme PyramidGeoProofs.
Open Scope Z_scope.

Lemma interior_exists (vs : list ipt) : vs <> [] -> exists P, interior vs P.
Proof.
  intros H. set (w := (/ inject_Z (zlen vs))%Q). assert (L : 0 < zlen vs) by (unfold zlen; destruct vs; [congruence|cbn [length]; lia]).
  assert (LQ : (0 < inject_Z (zlen vs))%Q) by (change 0%Q with (inject_Z 0); rewrite <- Zlt_Qlt; exact L). assert (W : (0 < w)%Q) by (apply Qinv_lt_0_compat; exact LQ).
  set (ws := repeat w (length vs)). exists (wsum ws (map ix vs), wsum ws (map iy vs), wsum ws (map iz vs)). exists ws. split; [|apply Forall_forall; intros x Hx; apply repeat_spec in Hx; subst x; exact W].
  split; [apply repeat_length|]. split; [|split; [reflexivity|split; reflexivity]].
  assert (S : forall n, (sumQ (repeat w n) == inject_Z (Z.of_nat n) * w)%Q).
  { intros n. induction n as [|n IH]; [reflexivity|]. change (sumQ (repeat w (Datatypes.S n))) with (w + sumQ (repeat w n))%Q || (cbn [repeat]; unfold sumQ; cbn [fold_right]; fold (sumQ (repeat w n))). rewrite IH. rewrite Nat2Z.inj_succ. unfold Z.succ. rewrite inject_Z_plus. ring. }
  unfold ws. rewrite S. unfold w, zlen. apply Qmult_inv_r. intros E. unfold zlen in LQ. rewrite E in LQ. exact (Qlt_irrefl _ LQ).
Qed.
Lemma prefix_dec (p q : list Z) : prefix p q \/ ~ prefix p q.
Proof.
  destruct (list_eq_dec Z.eq_dec p (firstn (length p) q)) as [E|N].
  - left. exists (skipn (length p) q). rewrite E at 1. now rewrite firstn_skipn.
  - right. intros [r ->]. apply N. now rewrite firstn_app, firstn_all, Nat.sub_diag, app_nil_r.
Qed.
Lemma prefix_same (p q : list Z) : prefix p q -> length p = length q -> p = q.
Proof. intros [r ->] E. rewrite app_length in E. destruct r; [now rewrite app_nil_r|cbn [length] in E; lia]. Qed.
Lemma y_yt_inj p q : y_path p -> y_path q -> yt (y_walk p) = yt (y_walk q) -> p = q.
Proof.
  intros Hp Hq E. destruct (y_walk_wf Hp) as [_ Lp], (y_walk_wf Hq) as [_ Lq]. assert (LE : length p = length q) by (unfold ylv in *; rewrite E in Lp; unfold zlen in *; lia).
  assert (VE : y_vertices (y_walk p) = y_vertices (y_walk q)) by (destruct (y_walk p) as [s w], (y_walk q) as [s' w']; cbn [yt] in E; now subst s').
  destruct (@interior_exists (y_vertices (y_walk p))) as [P HP]; [unfold y_vertices; rewrite zcorners; destruct (is_pyra (y_walk p)); discriminate|].
  destruct (prefix_dec p q) as [H|H1]; [now apply prefix_same|]. destruct (prefix_dec q p) as [H|H2]; [symmetry; apply prefix_same; auto|].
  exfalso. apply (@y_interiors_disjoint p q P Hp Hq H1 H2). rewrite <- VE. auto.
Qed.
(** what the test determines *)
Lemma forallb_9 (P : Z -> bool) : forallb P [1;2;3;4;5;6;7;8;9] = true -> forall i, 1 <= i < 10 -> P i = true.
Proof. intros H i Hi. rewrite forallb_forall in H. apply H. change [1;2;3;4;5;6;7;8;9] with (zseq 1 9). apply in_zseq. lia. Qed.
Lemma y_family_coords l m : y_is_family l = true -> y_is_family m = true -> znth dpyr l 0 = znth dpyr m 0 -> is_pyra (znth dpyr l 0) = true -> forall i, 0 <= i < 10 -> yt (znth dpyr l i) = yt (znth dpyr m i).
Proof.
  intros F G E P. unfold y_is_family in F, G. rewrite <- E in G. rewrite P in F, G. set (a := znth dpyr l 0) in *. destruct (ylv a =? 0) eqn:L0; [discriminate|].
  match type of F with (if negb ?b then _ else _) = _ => destruct b eqn:F1; [|discriminate] end. match type of G with (if negb ?b then _ else _) = _ => destruct b eqn:G1; [|discriminate] end. cbn [negb] in F, G.
  assert (SE : forall i, 1 <= i < 10 -> yx (znth dpyr l i) = yx (znth dpyr m i) -> yy (znth dpyr l i) = yy (znth dpyr m i) -> yz (znth dpyr l i) = yz (znth dpyr m i) -> yt (znth dpyr l i) = yt (znth dpyr m i)).
  { intros i Hi X Y Z. assert (A := @forallb_9 _ F1 i Hi). assert (B := @forallb_9 _ G1 i Hi). cbv beta in A, B. clear -X Y Z A B. unfold ylv, yty, yx, yy, yz in *. destruct (yt (znth dpyr l i)) as [l1 t1 x1 y1 z1], (yt (znth dpyr m i)) as [l2 t2 x2 y2 z2]. cbn [lv ty sx sy sz] in *. f_equal; lia. }
  clear F1 G1. intros i Hi. destruct (Z.eq_dec i 0) as [->|N0]; [now fold a; rewrite E|]. apply SE; [lia|..]; clear SE P L0.
  all: destruct (yty a =? FIRST_TYPE); cbn [forallb] in F, G; repeat match goal with H : _ && _ = true |- _ => apply andb_prop in H; destruct H end; rewrite ?Z.eqb_eq in *;
    assert (i = 1 \/ i = 2 \/ i = 3 \/ i = 4 \/ i = 5 \/ i = 6 \/ i = 7 \/ i = 8 \/ i = 9) as Hc by lia; clear Hi N0; repeat destruct Hc as [->|Hc]; try subst i; lia.
Qed.
Lemma y_family_first p ps : y_path p -> zlen p < 21 -> is_pyra (y_walk p) = true -> Forall y_path ps -> length ps = 10%nat -> hd [] ps = p ++ [0] ->
  y_is_family (map y_walk ps) = true -> map y_walk ps = y_children_of (y_walk p).
Proof.
  intros Hp HL PP F LN H0 FF. destruct (y_walk_wf Hp) as [W L]. assert (FC := @y_family _ W ltac:(lia)). assert (Ht := yw_ty W).
  assert (N : y_num_children (y_walk p) = 10) by (unfold y_num_children; now rewrite PP).
  assert (CE : y_children_of (y_walk p) = map (fun i => y_walk (p ++ [i])) (zseq 0 10)) by (unfold y_children_of; rewrite N; apply map_ext; intros i; now rewrite y_walk_snoc).
  assert (ZL : forall i, 0 <= i < 10 -> znth dpyr (map y_walk ps) i = y_walk (nth (Z.to_nat i) ps [])).
  { intros i Hi. unfold znth. rewrite nth_indep with (d' := y_walk []) by (rewrite map_length; lia). now rewrite map_nth. }
  assert (ZM : forall i, 0 <= i < 10 -> znth dpyr (y_children_of (y_walk p)) i = y_walk (p ++ [i])).
  { intros i Hi. rewrite CE. unfold znth. rewrite nth_indep with (d' := y_walk (p ++ [0])) by (rewrite map_length, zseq_length; lia). rewrite (map_nth (fun i => y_walk (p ++ [i]))). rewrite nth_zseq by lia. do 3 f_equal. lia. }
  assert (E0 : nth 0 ps [] = p ++ [0]) by (destruct ps; [discriminate|exact H0]).
  assert (T0 : is_pyra (y_walk (p ++ [0])) = true).
  { rewrite y_walk_snoc. apply is_pyra_iff in PP. rewrite y_child_step by (auto; lia). apply is_pyra_iff. unfold yty at 1. cbn [yt step ty]. destruct (tab_first Ht) as (-> & _). lia. }
  assert (YT := @y_family_coords _ _ FF FC ltac:(rewrite ZL, ZM by lia; change (Z.to_nat 0) with 0%nat; now rewrite E0) ltac:(rewrite ZL by lia; change (Z.to_nat 0) with 0%nat; now rewrite E0)).
  rewrite CE. apply nth_ext with (d := y_walk []) (d' := y_walk (p ++ [0])); [now rewrite !map_length, zseq_length|]. intros k Hk. rewrite map_length in Hk. rewrite map_nth, (map_nth (fun i => y_walk (p ++ [i]))). rewrite nth_zseq by lia.
  assert (K : 0 <= Z.of_nat k < 10) by lia. specialize (YT _ K). rewrite ZL, ZM in YT by exact K. rewrite Nat2Z.id in YT. f_equal. rewrite Z.add_0_l. apply y_yt_inj; [rewrite Forall_forall in F; apply F, nth_In; lia| |exact YT].
  apply y_path_snoc. split; [exact Hp|]. rewrite N. split; [exact HL|exact K].
Qed.

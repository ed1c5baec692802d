(** Proofs about the anchors of elements. *)
From Verif Require Import Prelude PathSpec GeoSpec BitLemmas SimplexModel SimplexSpec LineModel LineSpec SimplexPathProofs SimplexProofs SimplexOrderProofs SimplexAncProofs
  SimplexTileProofs SimplexFaceProofs SimplexFaceChildProofs LineProofs PrismModel PrismSpec PrismProofs PrismGeoProofs PrismFaceProofs AnchorModel.

Lemma ucoord_range tet t v : 0 <= t < NUM_TYPES tet -> 0 <= v < CORNERS tet ->
  0 <= ix (ucoord tet t v) <= 1 /\ 0 <= iy (ucoord tet t v) <= 1 /\ 0 <= iz (ucoord tet t v) <= 1.
Proof.
  intros Ht Hv. assert (A : all2 (NUM_TYPES tet) (CORNERS tet) (fun t v => let u := ucoord tet t v in
    (0 <=? ix u) && (ix u <=? 1) && (0 <=? iy u) && (iy u <=? 1) && (0 <=? iz u) && (iz u <=? 1)) = true) by (destruct tet; vm_compute; reflexivity).
  assert (H := all2_spec A Ht Hv). cbn zeta beta in H. lia.
Qed.
Lemma wf_in_root tet e : wf tet e -> 0 < LEN tet (lv e) /\ sx e + LEN tet (lv e) <= ROOT_LEN tet /\ sy e + LEN tet (lv e) <= ROOT_LEN tet /\ sz e + LEN tet (lv e) <= ROOT_LEN tet.
Proof.
  intros [H1 H2 H3 H4 H5 H6 H7 H8 _]. rewrite ROOT_pow, LEN_pow by lia. split; [apply pow2_pos; lia|].
  split; [|split]; (apply al_gap; [lia|assumption|apply al_pow; lia|lia]).
Qed.
Lemma simplex_anchor tet p : tree_path tet p ->
  let e := walk tet p in
  get_anchor tet e = compute_integer_coords tet e 0 /\
  forall v, In v (vertices tet e) -> ix (get_anchor tet e) <= ix v <= ROOT_LEN tet /\ iy (get_anchor tet e) <= iy v <= ROOT_LEN tet /\ iz (get_anchor tet e) <= iz v <= ROOT_LEN tet.
Proof.
  intros Hp. cbn zeta. destruct (walk_wf Hp) as [W _]. set (e := walk tet p) in *. clearbody e. assert (EA : get_anchor tet e = (sx e, sy e, sz e)).
  { unfold get_anchor. destruct tet; [reflexivity|]. now rewrite (wf_z0 W eq_refl). }
  rewrite EA. assert (Ht := wf_ty W). destruct (wf_in_root W) as (L0 & LX & LY & LZ). split.
  - rewrite coords_unit by (auto; destruct tet; cbn; lia). unfold scale. cbn [ix iy iz fst snd]. replace (ucoord tet (ty e) 0) with (0, 0, 0) by (destruct tet; reflexivity). cbn [ix iy iz fst snd]. now rewrite !Z.mul_0_r, !Z.add_0_r.
  - intros v Hv. unfold vertices in Hv. apply in_map_iff in Hv. destruct Hv as (c & <- & Hc). assert (Hc' : 0 <= c < CORNERS tet) by (destruct tet; cbn in *; intuition lia).
    rewrite coords_unit by auto. destruct (ucoord_range Ht Hc') as (U1 & U2 & U3). unfold scale. cbn [ix iy iz fst snd]. nia.
Qed.
Lemma prism_anchor_refuted :
  (forall p, p_path p -> 0 < zlen p -> p_anchor (p_walk p) = (0, 0, 0)) /\
  exists p, p_path p /\ 0 < zlen p /\ ~ In (p_anchor (p_walk p)) (p_vertices (p_walk p)).
Proof.
  split.
  - intros p Hp _. unfold p_anchor. rewrite p_walk_eq. cbn [ptri pline]. destruct (walk_wf (p_t_path Hp)) as [[H1 H2 H3 H4 H5 H6 H7 H8 _] _]. destruct (l_walk_wf (p_l_path Hp)) as [[B0 B1 B2] _].
    rewrite ROOT_pow, LROOT_pow, !Z.div_small by assumption. reflexivity.
  - exists [5; 5]. split; [split; [repeat constructor; vm_compute; congruence|vm_compute; congruence]|]. split; [vm_compute; reflexivity|]. vm_compute. intuition discriminate.
Qed.
Lemma prism_lowest_vertex p : p_path p ->
  forall v, In v (p_vertices (p_walk p)) ->
    ix (p_vertex (p_walk p) 0) <= ix v <= PROOT /\ iy (p_vertex (p_walk p) 0) <= iy v <= PROOT /\ iz (p_vertex (p_walk p) 0) <= iz v <= PROOT.
Proof.
  intros Hp v Hv. assert (A := p_walk_aligned Hp). unfold p_vertices in Hv. apply in_map_iff in Hv. destruct Hv as (c & <- & Hc). assert (Hc' : 0 <= c < 6) by (cbn in Hc; intuition lia).
  rewrite !p_vertex_unit by (auto; lia). assert (Hh := p_h_pos A). destruct (p_div A) as (E1 & E2 & E3 & E4 & E5).
  destruct (walk_wf (p_t_path Hp)) as [W _]. destruct (wf_in_root W) as (L0 & LX & LY & LZ). destruct (l_walk_wf (p_l_path Hp)) as [[B0 B1 B2] _].
  assert (B3 : lx (l_walk (lpart p)) + LLEN (ll (l_walk (lpart p))) <= LROOT).
  { rewrite LROOT_pow, LLEN_pow by lia. apply al_gap; [lia|exact B1|apply al_pow; lia|lia]. }
  assert (EQ := p_walk_eq p). assert (TY := p_walk_ty Hp).
  replace (walk false (tpart p)) with (ptri (p_walk p)) in LX, LY by (now rewrite EQ). replace (l_walk (lpart p)) with (pline (p_walk p)) in B3 by (now rewrite EQ).
  rewrite E1, E3 in LX. rewrite E1, E4 in LY. rewrite E2, E5 in B3. change (ROOT_LEN false) with (256 * PROOT) in *. change LROOT with (512 * PROOT) in B3.
  destruct (@ucoord_range false (ty (ptri (p_walk p))) (c mod 3) TY ltac:(change (CORNERS false) with 3; lia)) as (U1 & U2 & _).
  unfold scale, p_unit. cbn [ix iy iz fst snd]. change (0 mod 3) with 0. change (0 / 3) with 0. change (ucoord false (ty (ptri (p_walk p))) 0) with (0, 0, 0). cbn [ix iy iz fst snd].
  assert (0 <= c / 3 <= 1) by lia. set (h := p_h (p_walk p)) in *. set (a := p_a (p_walk p)) in *. set (R := PROOT) in *. clearbody h a R. set (u := ucoord false (ty (ptri (p_walk p))) (c mod 3)) in *. clearbody u. set (k := c / 3) in *. clearbody k.
  clear -Hh LX LY B3 U1 U2 H. nia.
Qed.

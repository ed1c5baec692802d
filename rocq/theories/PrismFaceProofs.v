(** The faces of prisms: neighbours, the boundary of the root, the children at a face. *)
From Coq Require Import QArith Lqa.
From Verif Require Import Prelude PathSpec GeoSpec BitLemmas SimplexModel SimplexSpec LineModel LineSpec SimplexPathProofs SimplexProofs SimplexOrderProofs
  SimplexGeoProofs SimplexAncProofs SimplexTileProofs SimplexFaceProofs SimplexFaceChildProofs LineProofs LineGeoProofs PrismModel PrismSpec PrismProofs PrismGeoProofs.
Open Scope Z_scope.

(** ** the vertices of a face are products too *)
Definition pv (a : ipt) (z : Z) : ipt := (ix a / 256, iy a / 256, z / 512).
Definition p_face_tri (e : prism) (f : Z) : list ipt := if f <? 3 then face_vertices false (ptri e) f else vertices false (ptri e).
Definition p_face_line (e : prism) (f : Z) : list Z := if f <? 3 then [l_coords (pline e) 0; l_coords (pline e) 1] else [l_coords (pline e) (f - 3)].
Lemma p_vertex_pv e v : p_vertex e v = pv (compute_integer_coords false (ptri e) (v mod 3)) (l_coords (pline e) (v / 3)).
Proof. unfold p_vertex, pv. destruct (compute_integer_coords false (ptri e) (v mod 3)) as [[x y] z]. reflexivity. Qed.
Lemma p_face_vertices_iff e f v : 0 <= f < 5 ->
  In v (p_face_vertices e f) <-> exists a z, In a (p_face_tri e f) /\ In z (p_face_line e f) /\ v = pv a z.
Proof.
  intros Hf. unfold p_face_vertices, p_face_tri, p_face_line, face_vertices, vertices.
  assert (E : forall l, map (p_vertex e) l = map (fun v => pv (compute_integer_coords false (ptri e) (v mod 3)) (l_coords (pline e) (v / 3))) l)
    by (intros l; apply map_ext; intros w; apply p_vertex_pv). rewrite E.
  set (C := compute_integer_coords false (ptri e)). set (L := l_coords (pline e)). clearbody C L.
  assert (f = 0 \/ f = 1 \/ f = 2 \/ f = 3 \/ f = 4) as [-> | [-> | [-> | [-> | ->]]]] by lia.
  all: match goal with |- context [p_face_corner_numbers ?f] => let v := eval vm_compute in (p_face_corner_numbers f) in change (p_face_corner_numbers f) with v end.
  all: try match goal with |- context [face_corner_numbers false ?f] => let v := eval vm_compute in (face_corner_numbers false f) in change (face_corner_numbers false f) with v end.
  all: try (change (corner_numbers false) with [0;1;2]).
  all: cbn [map Z.ltb Z.compare Pos.compare Pos.compare_cont Z.sub Z.opp Z.add Z.pos_sub Pos.pred_double Z.pred_double Pos.sub Pos.sub_mask].
  all: change (0 mod 3) with 0; change (1 mod 3) with 1; change (2 mod 3) with 2; change (3 mod 3) with 0; change (4 mod 3) with 1; change (5 mod 3) with 2;
       change (0 / 3) with 0; change (1 / 3) with 0; change (2 / 3) with 0; change (3 / 3) with 1; change (4 / 3) with 1; change (5 / 3) with 1;
       try (change (3 - 3) with 0); try (change (4 - 3) with 1).
  all: split; [intros H; cbn [In] in H; repeat match goal with H : _ \/ _ |- _ => destruct H as [H|H] end; try contradiction; subst v; eexists _, _; (split; [|split; [|reflexivity]]); cbn [In]; tauto
             |intros (a & z & Ha & Hz & ->); cbn [In] in Ha, Hz |- *; repeat match goal with H : _ \/ _ |- _ => destruct H as [H|H] end; try contradiction; subst a z; tauto].
Qed.

(** ** neighbours *)
Lemma tri_dual e f : 0 <= ty e < 2 -> 0 <= f < 3 -> snd (face_neighbour false e f) = 2 - f.
Proof.
  intros Ht Hf. rewrite nb_unit by auto. assert (all2 2 3 (fun t f => snd (nb_tab false t f) =? 2 - f) = true) as A by (vm_compute; reflexivity).
  assert (H := all2_spec A Ht Hf). cbn beta in H. apply Z.eqb_eq in H. destruct (nb_tab false (ty e) f) as [[o t'] g]. cbn [snd] in H. subst g.
  destruct (scale (LEN false (lv e)) (sx e, sy e, sz e) o) as [[a b] c]. reflexivity.
Qed.
Lemma p_face_neighbour_spec e f : p_aligned e -> 0 <= f < 5 ->
  let '(n, g) := p_face_neighbour e f in
  p_aligned n /\ 0 <= g < 5 /\ p_level n = p_level e /\ n <> e /\ p_face_neighbour n g = (e, f) /\
  (forall v, In v (p_face_vertices e f) <-> In v (p_face_vertices n g)).
Proof.
  intros (A & B & E & M) Hf. unfold p_face_neighbour. destruct (Z.ltb_spec f 3) as [H3|H3].
  - assert (N := face_neighbour_spec A (f:=f) ltac:(change (FACES false) with 3; lia)). assert (D := @tri_dual (ptri e) f (ag_ty A) ltac:(lia)).
    destruct (face_neighbour false (ptri e) f) as [n g]. cbn [fst snd] in *. subst g. destruct N as (An & Hg & Ln & Ne & Nb & V).
    split; [unfold p_aligned; cbn [ptri pline]; rewrite Ln; auto|]. split; [lia|]. split; [reflexivity|]. split; [intros X; apply Ne; rewrite <- X; reflexivity|].
    destruct (Z.ltb_spec (2 - f) 3); [|lia]. cbn [pline ptri]. rewrite Nb. cbn [fst]. split; [replace (2 - (2 - f)) with f by lia; now destruct e|].
    intros v. rewrite !p_face_vertices_iff by lia. unfold p_face_tri, p_face_line. cbn [pline ptri]. destruct (Z.ltb_spec f 3); [|lia]. destruct (Z.ltb_spec (2 - f) 3); [|lia].
    split; intros (a & z & Ha & Hz & EV); exists a, z; (split; [apply V; exact Ha|auto]).
  - assert (exists c, f = c + 3 /\ 0 <= c < 2) as (c & -> & Hc) by (exists (f - 3); lia).
    assert (N := @l_face_neighbour_spec (pline e) c B Hc).
    assert (EQ : (if c + 3 =? 3 then (Prism (fst (l_face_neighbour (pline e) 0)) (ptri e), 4) else (Prism (fst (l_face_neighbour (pline e) 1)) (ptri e), 3)) =
                 (Prism (fst (l_face_neighbour (pline e) c)) (ptri e), 4 - c)) by (assert (c = 0 \/ c = 1) as [-> | ->] by lia; reflexivity).
    rewrite EQ. assert (D : snd (l_face_neighbour (pline e) c) = 1 - c) by (assert (c = 0 \/ c = 1) as [-> | ->] by lia; reflexivity).
    destruct (l_face_neighbour (pline e) c) as [n g]. cbn [fst snd] in *. subst g. destruct N as (Bn & Ln & Hg & VC & Ne & Nb).
    split; [unfold p_aligned; cbn [ptri pline]; rewrite Ln; auto|]. split; [lia|]. split; [unfold p_level; cbn [pline]; exact Ln|]. split; [intros X; apply Ne; rewrite <- X; reflexivity|].
    destruct (Z.ltb_spec (4 - c) 3); [lia|]. cbn [pline ptri]. split.
    { assert (EQ2 : (if 4 - c =? 3 then (Prism (fst (l_face_neighbour n 0)) (ptri e), 4) else (Prism (fst (l_face_neighbour n 1)) (ptri e), 3)) =
                 (Prism (fst (l_face_neighbour n (1 - c))) (ptri e), 3 + c)) by (assert (c = 0 \/ c = 1) as [-> | ->] by lia; reflexivity).
      rewrite EQ2, Nb. cbn [fst]. rewrite (Z.add_comm 3 c). now destruct e. }
    intros v. rewrite !p_face_vertices_iff by lia. unfold p_face_tri, p_face_line. cbn [pline ptri]. destruct (Z.ltb_spec (c + 3) 3); [lia|]. destruct (Z.ltb_spec (4 - c) 3); [lia|].
    replace (c + 3 - 3) with c by lia. replace (4 - c - 3) with (1 - c) by lia. rewrite VC. reflexivity.
Qed.
Lemma p_face_neighbour_disjoint e f P : p_aligned e -> 0 <= f < 5 ->
  ~ (interior (p_vertices e) P /\ interior (p_vertices (fst (p_face_neighbour e f))) P).
Proof.
  intros A Hf. assert (N := p_face_neighbour_spec A Hf). destruct (p_face_neighbour e f) as [n g] eqn:En. destruct N as (An & _). cbn [fst].
  rewrite (proj2 (hull_prism P A)), (proj2 (hull_prism P An)). intros [[H1 H2] [H3 H4]]. unfold p_face_neighbour in En. destruct (Z.ltb_spec f 3) as [F|F].
  - injection En as <- _. cbn [ptri] in H3. eapply (@face_neighbour_disjoint false (ptri e) f (tri_pt P)); [apply A|change (FACES false) with 3; lia|eauto].
  - destruct A as (_ & B & _). assert (L : 0 < LLEN (ll (pline e))) by (destruct B; rewrite LLEN_pow by lia; apply pow2_pos; lia). rewrite Zlt_Qlt in L. change (inject_Z 0) with 0%Q in L.
    destruct (Z.eqb_spec f 3); injection En as <- _; cbn [pline] in H4; unfold l_face_neighbour, l_coords in H2, H4; cbn [fst ll lx Z.eqb Z.sub Z.opp Z.add] in H2, H4;
      rewrite ?inject_Z_plus, ?inject_Z_opp in H2, H4; unfold Z.sub in H4; rewrite ?inject_Z_plus, ?inject_Z_opp in H4; lra.
Qed.

(** ** inside of the root, and its boundary *)
Lemma zip_parts l t : valid_path 2 l -> valid_path 4 t -> length l = length t -> exists p, valid_path 8 p /\ lpart p = l /\ tpart p = t.
Proof.
  revert t. induction l as [|a l IH]; intros [|b t] Hl Ht E; try discriminate E.
  - exists []. repeat split. constructor.
  - inversion Hl; subst. inversion Ht; subst. injection E as E. destruct (IH t) as (p & V & E1 & E2); auto. exists ((4 * a + b) :: p). split; [constructor; [lia|exact V]|].
    unfold lpart, tpart in *. cbn [map]. rewrite E1, E2. split; f_equal; lia.
Qed.
Lemma p_is_inside_root_iff e : p_aligned e -> p_is_inside_root e = true <-> exists p, p_path p /\ e = p_walk p.
Proof.
  intros (A & B & E & M). unfold p_is_inside_root. rewrite andb_true_iff, (is_inside_root_walk A), (l_is_inside_root_iff B). split.
  - intros [(t & Ht & Et) (l & Hl & El)]. destruct (walk_wf Ht) as [_ LT]. destruct (l_walk_wf Hl) as [_ LL]. rewrite <- Et in LT. rewrite <- El in LL.
    destruct (@zip_parts l t) as (p & V & E1 & E2); [apply Hl|apply Ht|unfold zlen in *; lia|].
    exists p. split; [split; [exact V|rewrite <- tpart_len, E2; lia]|]. rewrite p_walk_eq, E1, E2, <- Et, <- El. now destruct e.
  - intros (p & Hp & ->). rewrite p_walk_eq. cbn [ptri pline]. split; eexists; (split; [|reflexivity]); auto using p_l_path, p_t_path.
Qed.
Lemma p_walk_inside p : p_path p -> p_is_inside_root (p_walk p) = true.
Proof. intros Hp. apply p_is_inside_root_iff; [now apply p_walk_aligned|eauto]. Qed.
Lemma p_root_boundary_neighbour p f : p_path p -> 0 <= f < 5 ->
  p_is_root_boundary (p_walk p) f = negb (p_is_inside_root (fst (p_face_neighbour (p_walk p) f))).
Proof.
  intros Hp Hf. assert (HI := p_walk_inside Hp). unfold p_is_inside_root in HI. apply andb_true_iff in HI. destruct HI as [IT IL]. rewrite p_walk_eq in *. cbn [ptri pline] in *.
  unfold p_is_root_boundary, p_face_neighbour, p_is_inside_root. destruct (Z.ltb_spec f 3) as [F|F]; cbn [ptri pline fst].
  - rewrite IL, andb_true_r. apply root_boundary_iff; auto; [|change (FACES false) with 3; lia]. destruct (walk_wf (p_t_path Hp)) as [W _]. now apply wf_aligned.
  - destruct (Z.eqb_spec f 3); cbn [ptri pline fst]; rewrite IT; cbn [andb].
    + assert (H := @l_root_boundary_neighbour _ 0 (p_l_path Hp) ltac:(lia)). destruct (l_is_root_boundary _ 0), (l_is_inside_root (fst _)); cbn [negb]; intuition congruence.
    + assert (H := @l_root_boundary_neighbour _ 1 (p_l_path Hp) ltac:(lia)). destruct (l_is_root_boundary _ 1), (l_is_inside_root (fst _)); cbn [negb]; intuition congruence.
Qed.
Lemma p_neighbor_inside_iff p f : p_path p -> 0 <= f < 5 ->
  match p_neighbor_inside (p_walk p) f with
  | Some n => n = p_face_neighbour (p_walk p) f /\ exists q, p_path q /\ fst n = p_walk q
  | None => forall q, p_path q -> fst (p_face_neighbour (p_walk p) f) <> p_walk q
  end.
Proof.
  intros Hp Hf. unfold p_neighbor_inside. assert (N := p_face_neighbour_spec (p_walk_aligned Hp) Hf). destruct (p_face_neighbour (p_walk p) f) as [n g]. destruct N as (An & _). cbn [fst].
  assert (H := p_is_inside_root_iff An). destruct (p_is_inside_root n); [split; auto; now apply H|]. intros q Hq E. enough (false = true) by discriminate. apply H. eauto.
Qed.

(** the triangle's vertices are multiples of 256, the line's of 512 *)
Lemma tri_256 e v : p_aligned e -> 0 <= v < 3 ->
  let a := compute_integer_coords false (ptri e) v in ix a = 256 * (ix a / 256) /\ iy a = 256 * (iy a / 256) /\ iz a = 0.
Proof.
  intros A Hv. cbn zeta. destruct (p_div A) as (E1 & E2 & E3 & E4 & E5). rewrite coords_unit by (try apply A; exact Hv). rewrite E1, E3, E4, (ag_z0 (proj1 A) eq_refl). unfold scale. cbn [ix iy iz fst snd].
  replace (256 * ix (p_a e) + 256 * p_h e * ix (ucoord false (ty (ptri e)) v)) with ((ix (p_a e) + p_h e * ix (ucoord false (ty (ptri e)) v)) * 256) by ring.
  replace (256 * iy (p_a e) + 256 * p_h e * iy (ucoord false (ty (ptri e)) v)) with ((iy (p_a e) + p_h e * iy (ucoord false (ty (ptri e)) v)) * 256) by ring.
  rewrite !Z.div_mul by lia. split; [ring|]. split; [ring|]. replace (iz (ucoord false (ty (ptri e)) v)) with 0; [ring|].
  unfold ucoord, ucoord2. destruct (v =? 0); [reflexivity|]. destruct (v =? 1); [destruct (ty (ptri e) =? 0); reflexivity|reflexivity].
Qed.
Lemma face_tri_256 e f a : p_aligned e -> In a (p_face_tri e f) -> ix a = 256 * (ix a / 256) /\ iy a = 256 * (iy a / 256) /\ iz a = 0.
Proof.
  intros A. unfold p_face_tri, face_vertices, vertices. intros H. assert (exists v, 0 <= v < 3 /\ a = compute_integer_coords false (ptri e) v) as (v & Hv & ->).
  { destruct (f <? 3); apply in_map_iff in H; destruct H as (v & <- & Hv); exists v; split; auto; [unfold face_corner_numbers in Hv; apply filter_In in Hv; destruct Hv as [Hv _]|];
    change (corner_numbers false) with [0;1;2] in Hv; cbn in Hv; intuition lia. }
  apply (tri_256 A Hv).
Qed.
Lemma pline_512 e v : p_aligned e -> l_coords (pline e) v = 512 * (l_coords (pline e) v / 512).
Proof.
  intros A. destruct (p_div A) as (E1 & E2 & E3 & E4 & E5). unfold l_coords. rewrite E2, E5. destruct (v =? 0).
  - replace (512 * iz (p_a e)) with (iz (p_a e) * 512) by ring. rewrite Z.div_mul by lia. ring.
  - replace (512 * iz (p_a e) + 512 * p_h e) with ((iz (p_a e) + p_h e) * 512) by ring. rewrite Z.div_mul by lia. ring.
Qed.
Lemma p_plane_tri e f a z rf : p_aligned e -> In a (p_face_tri e f) -> 0 <= rf < 3 -> (p_on_root_plane rf (pv a z) <-> on_root_plane false rf a).
Proof.
  intros A Ha Hr. destruct (@face_tri_256 e f a A Ha) as (X & Y & _). unfold p_on_root_plane, on_root_plane, pv. cbn [ix iy iz fst snd]. change PROOT with 2097152. change (ROOT_LEN false) with 536870912.
  set (x := ix a / 256) in *. set (y := iy a / 256) in *. clearbody x y. rewrite X, Y. assert (rf = 0 \/ rf = 1 \/ rf = 2) as [-> | [-> | ->]] by lia; cbn [Z.eqb Pos.eqb]; lia.
Qed.
Lemma p_plane_line e v a rf : p_aligned e -> 3 <= rf < 5 -> (p_on_root_plane rf (pv a (l_coords (pline e) v)) <-> l_coords (pline e) v = (rf - 3) * LROOT).
Proof.
  intros A Hr. assert (Z := pline_512 v A). unfold p_on_root_plane, pv. cbn [ix iy iz fst snd]. change PROOT with 2097152. change LROOT with 1073741824.
  set (z := l_coords (pline e) v / 512) in *. clearbody z. rewrite Z. assert (rf = 3 \/ rf = 4) as [-> | ->] by lia; cbn [Z.eqb Pos.eqb]; lia.
Qed.
Lemma p_root_face_iff p f rf : p_path p -> 0 <= f < 5 -> 0 <= rf < 5 ->
  (forall v, In v (p_face_vertices (p_walk p) f) -> p_on_root_plane rf v) <-> (p_is_root_boundary (p_walk p) f = true /\ rf = p_tree_face (p_walk p) f).
Proof.
  intros Hp Hf Hr. assert (A := p_walk_aligned Hp). assert (HI := p_walk_inside Hp). unfold p_is_inside_root in HI. apply andb_true_iff in HI. destruct HI as [IT IL].
  assert (AT := proj1 A). unfold p_tree_face, p_is_root_boundary.
  assert (F : (forall v, In v (p_face_vertices (p_walk p) f) -> p_on_root_plane rf v) <->
              (forall a z, In a (p_face_tri (p_walk p) f) -> In z (p_face_line (p_walk p) f) -> p_on_root_plane rf (pv a z))).
  { split; intros H; [intros a z Ha Hz; apply H, p_face_vertices_iff; eauto|]. intros v Hv. apply p_face_vertices_iff in Hv; [|auto]. destruct Hv as (a & z & Ha & Hz & ->). auto. }
  rewrite F. clear F. assert (LH : 0 < LLEN (ll (pline (p_walk p)))) by (destruct A as (_ & [B _] & _); rewrite LLEN_pow by lia; apply pow2_pos; lia).
  assert (LL : forall c, 0 <= c < 2 -> l_is_root_boundary (pline (p_walk p)) c = true <-> l_coords (pline (p_walk p)) c = c * LROOT).
  { intros c Hc. rewrite p_walk_eq. cbn [pline]. apply l_root_boundary_iff; auto using p_l_path. }
  destruct (Z.ltb_spec rf 3) as [R3|R3]; destruct (Z.ltb_spec f 3) as [F3|F3].
  - assert (T := @root_face_iff false _ f rf AT IT ltac:(change (FACES false) with 3; lia) ltac:(change (FACES false) with 3; lia)). change (tree_face false (ptri (p_walk p)) f) with f in T. rewrite <- T.
    unfold p_face_tri, p_face_line. destruct (Z.ltb_spec f 3); [|lia].
    assert (PP : forall a z, In a (face_vertices false (ptri (p_walk p)) f) -> (p_on_root_plane rf (pv a z) <-> on_root_plane false rf a)).
    { intros a z Ha. apply (@p_plane_tri (p_walk p) f); auto; [|lia]. unfold p_face_tri. destruct (Z.ltb_spec f 3); [auto|lia]. }
    split; [intros HH a Ha; apply (PP a (l_coords (pline (p_walk p)) 0) Ha), HH; [exact Ha|now left]|intros HH a z Ha Hz; apply PP; auto].
  - split; [|lia]. intros HH. exfalso. unfold p_face_tri, p_face_line in HH. destruct (Z.ltb_spec f 3); [lia|].
    assert (V : forall a, In a (vertices false (ptri (p_walk p))) -> on_root_plane false rf a).
    { intros a Ha. eapply (@p_plane_tri (p_walk p) f); auto; [unfold p_face_tri; destruct (Z.ltb_spec f 3); [lia|exact Ha]|lia|apply HH; [exact Ha|now left]]. }
    assert (G : forall g, 0 <= g < 3 -> rf = g).
    { intros g Hg. assert (T := @root_face_iff false _ g rf AT IT ltac:(change (FACES false) with 3; lia) ltac:(change (FACES false) with 3; lia)). apply T.
      intros v Hv. apply V. unfold face_vertices, vertices in *. apply in_map_iff in Hv. destruct Hv as (w & <- & Hw). apply in_map. unfold face_corner_numbers in Hw. now apply filter_In in Hw. }
    assert (X0 := G 0 ltac:(lia)). assert (X1 := G 1 ltac:(lia)). lia.
  - split; [|lia]. intros HH. exfalso. unfold p_face_tri, p_face_line in HH. destruct (Z.ltb_spec f 3); [|lia].
    assert (exists a, In a (face_vertices false (ptri (p_walk p)) f)) as (a & Ha).
    { unfold face_vertices. assert (f = 0 \/ f = 1 \/ f = 2) as [-> | [-> | ->]] by lia; eexists; left; reflexivity. }
    assert (Z0 := HH a _ Ha (or_introl eq_refl)). assert (Z1 := HH a _ Ha (or_intror (or_introl eq_refl))). rewrite p_plane_line in Z0, Z1 by (auto; lia).
    unfold l_coords in Z0, Z1. cbn [Z.eqb] in Z0, Z1. lia.
  - unfold p_face_tri, p_face_line. destruct (Z.ltb_spec f 3); [lia|]. replace (if f =? 3 then 0 else 1) with (f - 3) by (destruct (Z.eqb_spec f 3); lia). rewrite LL by lia.
    assert (exists a, In a (vertices false (ptri (p_walk p)))) as (a & Ha) by (eexists; left; reflexivity).
    split.
    + intros HH. specialize (HH a _ Ha (or_introl eq_refl)). rewrite p_plane_line in HH by (auto; lia). unfold l_coords in HH |- *.
      destruct (Z.eq_dec rf f) as [->|N]; [auto|]. exfalso. assert (IL' := IL). rewrite p_walk_eq in IL', HH, LH. cbn [pline] in *. destruct (l_walk_wf (p_l_path Hp)) as [[B0 B1 B2] _].
      assert (B3 : lx (l_walk (lpart p)) + LLEN (ll (l_walk (lpart p))) <= LROOT).
      { rewrite LROOT_pow, LLEN_pow by lia. apply al_gap; try lia; auto. apply al_pow. lia. }
      assert (f = 3 /\ rf = 4 \/ f = 4 /\ rf = 3) as [[-> ->] | [-> ->]] by lia; change (3 - 3) with 0 in *; change (4 - 3) with 1 in *; cbn [Z.eqb] in HH;
        change LROOT with 1073741824 in *; lia.
    + intros [HH ->] b z Hb [<-|[]]. rewrite p_plane_line by (auto; lia). exact HH.
Qed.
Lemma p_root_planes v rf : 0 <= v < 6 -> 0 <= rf < 5 -> (p_on_root_plane rf (p_vertex p_root v) <-> In v (p_face_corner_numbers rf)).
Proof.
  intros Hv Hr. assert (v = 0 \/ v = 1 \/ v = 2 \/ v = 3 \/ v = 4 \/ v = 5) as D by lia. assert (rf = 0 \/ rf = 1 \/ rf = 2 \/ rf = 3 \/ rf = 4) as D2 by lia.
  destruct D as [-> | [-> | [-> | [-> | [-> | ->]]]]], D2 as [-> | [-> | [-> | [-> | ->]]]]; vm_compute; split; intros; try tauto; try discriminate; intuition discriminate.
Qed.

(** ** the children at a face *)
Definition p_off (t i : Z) : ipt := (ix (ubits false (Tc false t (i mod 4))), iy (ubits false (Tc false t (i mod 4))), i / 4).
Definition p_sub_ok (t f i g : Z) : bool :=
  let t' := Tt false t (i mod 4) in let o := p_off t i in
  forallb (fun v => existsb (fun a => existsb (fun b => ieqb (iadd o (p_unit t' v)) (iadd (p_unit t a) (p_unit t b)))
     (p_face_corner_numbers f)) (p_face_corner_numbers f)) (p_face_corner_numbers g).
Lemma p_child_unit p i : p_path p -> zlen p < PMAX -> 0 <= i < 8 ->
  let e := p_walk p in let c := p_child e i in
  p_aligned c /\ p_h e = 2 * p_h c /\ ty (ptri c) = Tt false (ty (ptri e)) (i mod 4) /\ p_a c = scale (p_h c) (p_a e) (p_off (ty (ptri e)) i).
Proof.
  intros Hp Hl Hi. cbn zeta. assert (A := p_walk_aligned Hp). assert (AC : p_aligned (p_child (p_walk p) i)) by (rewrite <- p_walk_snoc; apply p_walk_aligned, p_path_snoc; auto).
  destruct (walk_wf (p_t_path Hp)) as [WT LT]. rewrite tpart_len in LT. destruct (l_walk_wf (p_l_path Hp)) as [WL LL]. rewrite lpart_len in LL.
  assert (W : wf false (ptri (p_walk p))) by (rewrite p_walk_eq; exact WT). assert (HT : lv (ptri (p_walk p)) < MAXLEVEL false) by (rewrite p_walk_eq; cbn [ptri]; change (MAXLEVEL false) with 29; change PMAX with 21 in *; lia).
  assert (EL : lv (ptri (p_walk p)) = zlen p) by (rewrite p_walk_eq; exact LT).
  destruct (@child_anchor false (ptri (p_walk p)) (i mod 4) W HT ltac:(change (CHILDREN false) with 4; lia)) as (C1 & C2 & C3). cbn zeta in *.
  split; [exact AC|]. change (ptri (p_child (p_walk p) i)) with (child false (ptri (p_walk p)) (i mod 4)).
  assert (EH : p_h (p_walk p) = 2 * p_h (p_child (p_walk p) i)).
  { unfold p_h. change (ptri (p_child (p_walk p) i)) with (child false (ptri (p_walk p)) (i mod 4)). rewrite C1, EL, <- pow2_S by lia. f_equal. lia. }
  split; [exact EH|]. split; [exact C2|].
  destruct (p_div A) as (_ & E2 & E3 & E4 & E5). destruct (p_div AC) as (D1 & D2 & D3 & D4 & D5).
  change (ptri (p_child (p_walk p) i)) with (child false (ptri (p_walk p)) (i mod 4)) in *. rewrite C1 in D1. rewrite D1, E3, E4 in C3. unfold scale in C3 |- *. cbn [ix iy iz fst snd] in C3 |- *.
  assert (CX := f_equal ix C3). assert (CY := f_equal iy C3). clear C3. cbn [ix iy iz fst snd] in CX, CY. unfold p_off. cbn [ix iy iz fst snd].
  assert (EX : ix (p_a (p_child (p_walk p) i)) = ix (p_a (p_walk p)) + p_h (p_child (p_walk p) i) * ix (ubits false (Tc false (ty (ptri (p_walk p))) (i mod 4)))) by (clear -CX CY D3 D4; nia).
  assert (EY : iy (p_a (p_child (p_walk p) i)) = iy (p_a (p_walk p)) + p_h (p_child (p_walk p) i) * iy (ubits false (Tc false (ty (ptri (p_walk p))) (i mod 4)))) by (clear -CX CY D3 D4; nia).
  assert (EZ : iz (p_a (p_child (p_walk p) i)) = iz (p_a (p_walk p)) + p_h (p_child (p_walk p) i) * (i / 4)).
  { change (pline (p_child (p_walk p) i)) with (l_child (pline (p_walk p)) (i / 4)) in D2, D5. unfold l_child in D2, D5. cbn [ll lx] in D2, D5. rewrite D2, E5 in D5.
    assert (i / 4 = 0 \/ i / 4 = 1) as Q by lia. destruct Q as [Q|Q]; rewrite Q in D5 |- *; cbn [Z.eqb] in D5; lia. }
  rewrite <- EX, <- EY, <- EZ. destruct (p_a (p_child (p_walk p) i)) as [[a b] c]. reflexivity.
Qed.
Lemma p_face_vertices_unit e f : p_aligned e -> p_face_vertices e f = map (fun v => scale (p_h e) (p_a e) (p_unit (ty (ptri e)) v)) (p_face_corner_numbers f).
Proof.
  intros A. apply map_ext_in. intros v Hv. apply p_vertex_unit; auto. unfold p_face_corner_numbers in Hv. apply filter_In in Hv. destruct Hv as [Hv _]. cbn in Hv. intuition lia.
Qed.
Lemma p_subface_sub_ok p i f g : p_path p -> zlen p < PMAX -> 0 <= i < 8 ->
  p_subface (p_walk p) f (p_child (p_walk p) i) g <-> p_sub_ok (ty (ptri (p_walk p))) f i g = true.
Proof.
  intros Hp Hl Hi. assert (A := p_walk_aligned Hp). destruct (p_child_unit Hp Hl Hi) as (AC & EH & ET & EA). cbn zeta in *. assert (Hh := p_h_pos AC).
  unfold p_subface. rewrite !p_face_vertices_unit by auto. rewrite EH, ET, EA. set (h := p_h (p_child (p_walk p) i)) in *. set (a := p_a (p_walk p)). set (t := ty (ptri (p_walk p))). clearbody h a t. clear -Hh.
  assert (M : forall v x y, midpoint (scale h (scale h a (p_off t i)) (p_unit (Tt false t (i mod 4)) v)) (scale (2 * h) a (p_unit t x)) (scale (2 * h) a (p_unit t y)) <->
      iadd (p_off t i) (p_unit (Tt false t (i mod 4)) v) = iadd (p_unit t x) (p_unit t y)).
  { intros v x y. rewrite scale_scale. set (u1 := iadd (p_off _ _) _). set (ua := p_unit t x). set (ub := p_unit t y).
    clearbody u1 ua ub. destruct u1 as [[x1 y1] z1], ua as [[x2 y2] z2], ub as [[x3 y3] z3]. unfold midpoint, scale, iadd. cbn [ix iy iz fst snd].
    split.
    - intros (E1 & E2 & E3). assert (x1 = x2 + x3) by nia. assert (y1 = y2 + y3) by nia. assert (z1 = z2 + z3) by nia. congruence.
    - intros E. inversion E. subst. repeat split; ring. }
  unfold p_sub_ok. rewrite forallb_forall. split.
  - intros H v Hv. specialize (H _ (in_map _ _ _ Hv)). destruct H as (x & y & Ha & Hb & Hm).
    apply in_map_iff in Ha, Hb. destruct Ha as (ka & <- & Ha), Hb as (kb & <- & Hb). apply M in Hm.
    apply existsb_exists. exists ka. split; auto. apply existsb_exists. exists kb. split; auto. now apply ieqb_eq.
  - intros H m Hm. apply in_map_iff in Hm. destruct Hm as (v & <- & Hv). specialize (H v Hv). apply existsb_exists in H.
    destruct H as (ka & Ha & H). apply existsb_exists in H. destruct H as (kb & Hb & H). apply ieqb_eq in H. apply M in H.
    eexists _, _. split; [|split; [|exact H]]; apply (in_map (fun v => scale (2 * h) a (p_unit t v))); auto.
Qed.
Definition p_faceids (t f : Z) : list Z := p_child_ids_at_face (Prism (Line 0 0) (Simp 0 t 0 0 0)) f.
Definition p_faces_ok (t f : Z) : bool :=
  let l := p_faceids t f in
  (Z.of_nat (length l) =? 4) && increasing l && forallb (fun i => (0 <=? i) && (i <? 8)) l &&
  forallb (fun i => Bool.eqb (zmem i l) (existsb (p_sub_ok t f i) (range 5))) (range 8) &&
  forallb (fun k => forallb (fun g => Bool.eqb (p_sub_ok t f (znth (-1) l k) g) (g =? f)) (range 5)) (range 4).
Lemma p_tab_faces t f : 0 <= t < 2 -> 0 <= f < 5 -> p_faces_ok t f = true.
Proof. intros Ht Hf. assert (all2 2 5 p_faces_ok = true) as A by (vm_compute; reflexivity). exact (all2_spec A Ht Hf). Qed.
Lemma p_faceids_eq e f : p_child_ids_at_face e f = p_faceids (ty (ptri e)) f. Proof. reflexivity. Qed.
Lemma p_walk_ty p : p_path p -> 0 <= ty (ptri (p_walk p)) < 2.
Proof. intros Hp. apply (ag_ty (proj1 (p_walk_aligned Hp))). Qed.
Lemma p_children_at_face_ids p f : p_path p -> 0 <= f < 5 ->
  zlen (p_child_ids_at_face (p_walk p) f) = p_num_face_children f /\ increasing (p_child_ids_at_face (p_walk p) f) = true /\
  (forall i, In i (p_child_ids_at_face (p_walk p) f) -> 0 <= i < 8).
Proof.
  intros Hp Hf. assert (T := p_tab_faces (p_walk_ty Hp) Hf). unfold p_faces_ok in T. rewrite !andb_true_iff in T. rewrite p_faceids_eq.
  destruct T as ((((T1 & T2) & T3) & _) & _). split; [unfold zlen, p_num_face_children; destruct (3 <=? f); lia|]. split; [exact T2|].
  intros i Hi. rewrite forallb_forall in T3. apply T3 in Hi. lia.
Qed.
Lemma p_children_at_face_exact p f i : p_path p -> zlen p < PMAX -> 0 <= f < 5 -> 0 <= i < 8 ->
  In i (p_child_ids_at_face (p_walk p) f) <-> exists g, 0 <= g < 5 /\ p_subface (p_walk p) f (p_child (p_walk p) i) g.
Proof.
  intros Hp Hl Hf Hi. assert (T := p_tab_faces (p_walk_ty Hp) Hf). unfold p_faces_ok in T. rewrite !andb_true_iff in T. rewrite p_faceids_eq.
  destruct T as ((((T1 & T2) & T3) & T4) & _). rewrite forallb_forall in T4. specialize (T4 i (proj2 (in_range _ _) Hi)).
  apply eqb_prop in T4. rewrite <- zmem_In, T4, existsb_exists. split; intros (g & Hg & Hs); exists g; rewrite in_range in *; (split; [auto|]);
    now apply p_subface_sub_ok.
Qed.
Lemma p_face_child_face_exact p f k g : p_path p -> zlen p < PMAX -> 0 <= f < 5 -> 0 <= k < p_num_face_children f -> 0 <= g < 5 ->
  p_subface (p_walk p) f (p_child (p_walk p) (znth (-1) (p_child_ids_at_face (p_walk p) f) k)) g <-> g = p_face_child_face (p_walk p) f k.
Proof.
  intros Hp Hl Hf Hk Hg. assert (T := p_tab_faces (p_walk_ty Hp) Hf). unfold p_faces_ok in T. rewrite !andb_true_iff in T. rewrite p_faceids_eq.
  assert (Hk' : 0 <= k < 4) by (unfold p_num_face_children in Hk; destruct (3 <=? f); lia).
  destruct T as ((((T1 & T2) & T3) & T4) & T5). rewrite forallb_forall in T5. specialize (T5 k (proj2 (in_range _ _) Hk')).
  rewrite forallb_forall in T5. specialize (T5 g (proj2 (in_range _ _) Hg)). apply eqb_prop in T5.
  rewrite p_subface_sub_ok; auto; [rewrite T5; apply Z.eqb_eq|].
  destruct (p_children_at_face_ids Hp Hf) as (L & _ & R). apply R. rewrite p_faceids_eq. apply znth_In. unfold zlen. lia.
Qed.
(** the face of the parent *)
Definition p_fpf_ok (t i : Z) : bool :=
  forallb (fun g => let pf := if g <? 3 then (if existsb (fun f => sub_ok false t f (i mod 4) g) (range 3) then g else -1) else (if i / 4 =? g - 3 then g else -1) in
    forallb (fun f => Bool.eqb (p_sub_ok t f i g) (f =? pf)) (range 5)) (range 5).
Lemma p_tab_fpf t i : 0 <= t < 2 -> 0 <= i < 8 -> p_fpf_ok t i = true.
Proof. intros Ht Hi. assert (all2 2 8 p_fpf_ok = true) as A by (vm_compute; reflexivity). exact (all2_spec A Ht Hi). Qed.
Lemma p_face_parent_face_exact p i g : p_path p -> zlen p < PMAX -> 0 <= i < 8 -> 0 <= g < 5 ->
  let pf := p_face_parent_face (p_child (p_walk p) i) g in
  (forall f, 0 <= f < 5 -> p_subface (p_walk p) f (p_child (p_walk p) i) g <-> f = pf) /\ (pf = -1 \/ 0 <= pf < 5).
Proof.
  intros Hp Hl Hi Hg. cbn zeta. assert (T := p_tab_fpf (p_walk_ty Hp) Hi). unfold p_fpf_ok in T. rewrite forallb_forall in T. specialize (T g (proj2 (in_range _ _) Hg)). cbn zeta in T.
  destruct (walk_wf (p_t_path Hp)) as [WT LT]. rewrite tpart_len in LT. destruct (l_walk_wf (p_l_path Hp)) as [WL LL]. rewrite lpart_len in LL.
  assert (W : wf false (ptri (p_walk p))) by (rewrite p_walk_eq; exact WT). assert (HT : lv (ptri (p_walk p)) < MAXLEVEL false) by (rewrite p_walk_eq; cbn [ptri]; change (MAXLEVEL false) with 29; change PMAX with 21 in *; lia).
  assert (W' : lwf (pline (p_walk p))) by (rewrite p_walk_eq; exact WL). assert (HT' : ll (pline (p_walk p)) < LMAX) by (rewrite p_walk_eq; cbn [pline]; change LMAX with 30; change PMAX with 21 in *; lia).
  assert (E : p_face_parent_face (p_child (p_walk p) i) g = if g <? 3 then (if existsb (fun f => sub_ok false (ty (ptri (p_walk p))) f (i mod 4) g) (range 3) then g else -1) else (if i / 4 =? g - 3 then g else -1)).
  { unfold p_face_parent_face. change (ptri (p_child (p_walk p) i)) with (child false (ptri (p_walk p)) (i mod 4)). change (pline (p_child (p_walk p) i)) with (l_child (pline (p_walk p)) (i / 4)).
    destruct (Z.ltb_spec g 3) as [G|G]; cbn [andb].
    - destruct (Z.leb_spec 3 g); [lia|]. cbn [andb].
      destruct (@face_parent_face_exact false (ptri (p_walk p)) (i mod 4) g W HT ltac:(change (CHILDREN false) with 4; lia) ltac:(change (FACES false) with 3; lia)) as (F1 & F2 & F3). cbn zeta in *. change (FACES false) with 3 in *.
      destruct (existsb _ (range 3)) eqn:EX.
      + apply existsb_exists in EX. destruct EX as (f & Hf & S). rewrite in_range in Hf. rewrite <- subface_sub_ok in S by (auto; change (CHILDREN false) with 4; lia). apply (F1 f Hf) in S. rewrite <- S. destruct (Z.eqb_spec f (-1)); [lia|reflexivity].
      + rewrite F2; [reflexivity|]. intros f Hf S. rewrite subface_sub_ok in S by (auto; change (CHILDREN false) with 4; lia). enough (false = true) by discriminate. rewrite <- EX. apply existsb_exists. exists f. rewrite in_range. auto.
    - destruct (Z.leb_spec 3 g); [|lia]. cbn [andb]. rewrite l_face_parent_face_child by (auto; lia). destruct (Z.eqb_spec (i / 4) (g - 3)) as [Q|Q]; [|reflexivity].
      destruct (Z.eqb_spec (g - 3) (-1)); [lia|reflexivity]. }
  rewrite <- E in T. split.
  - intros f Hf. rewrite p_subface_sub_ok by auto. rewrite forallb_forall in T. specialize (T f (proj2 (in_range _ _) Hf)). apply eqb_prop in T. rewrite T. apply Z.eqb_eq.
  - rewrite E. destruct (g <? 3); [destruct (existsb _ _)|destruct (_ =? _)]; lia.
Qed.
(** the corners of a face as the code lists them *)
Lemma p_face_corner_ok f k : 0 <= f < 5 -> 0 <= k < zlen (p_face_corner_numbers f) -> p_face_corner f k = znth (-1) (p_face_corner_numbers f) k.
Proof.
  intros Hf Hk. assert (T : forallb (fun f => forallb (fun k => p_face_corner f k =? znth (-1) (p_face_corner_numbers f) k) (range (zlen (p_face_corner_numbers f)))) (range 5) = true) by (vm_compute; reflexivity).
  rewrite forallb_forall in T. specialize (T f (proj2 (in_range _ _) Hf)). rewrite forallb_forall in T. apply Z.eqb_eq, T, in_range, Hk.
Qed.

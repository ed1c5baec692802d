(** The vocabulary of CubeSpec.v in terms of the one of HyperSpec.v, and the consequences for the quadrilaterals and hexahedra of the default scheme. *)
From Coq Require Import QArith.
From Verif Require Import Prelude PathSpec GeoSpec SchemeModel SchemeSpec SchemeProofs SchemeUniformProofs SchemeInstances FaceModel FaceSpec FaceProofs NeighborModel NeighborProofs.
From Verif Require Import BitLemmas SimplexModel SimplexFaceChildProofs SimplexPathProofs SimplexOrderProofs LineModel LineSpec LineProofs.
From Verif Require Import HyperModel HyperSpec HyperProofs HyperOrderProofs HyperScheme HyperGeoProofs HyperFaceProofs HyperNbProofs HyperFlaws HyperCrossProofs HyperMoreProofs CubeModel CubeSpec TransferProofs CubeScheme.
Open Scope Z_scope.

Lemma c_path_eq oct p : c_path oct p <-> h_path (cclass oct) p. Proof. unfold c_path, h_path. now rewrite c_num_children_eq, c_maxlevel_eq. Qed.
Lemma c_path_snoc oct p i : c_path oct (p ++ [i]) <-> c_path oct p /\ 0 <= i < c_num_children oct /\ zlen p < c_maxlevel oct.
Proof. rewrite !c_path_eq, c_num_children_eq, c_maxlevel_eq. apply h_path_snoc. Qed.
Lemma c_walk_eq oct p : c_path oct p -> c_walk oct p = h_walk (cclass oct) p.
Proof.
  intros H. induction p as [|i p IH] using rev_ind; [reflexivity|]. assert (H' := proj1 (c_path_snoc oct p i) H). destruct H' as (Hp & Hi & HL). unfold c_walk. rewrite fold_left_app. cbn [fold_left]. fold (c_walk oct p). rewrite (IH Hp), h_walk_snoc.
  apply c_path_eq in Hp. apply c_child_eq; [apply hin_valid; now exists p|]. now rewrite (h_walk_level (proj2 Hp)).
Qed.
Lemma c_walk_snoc oct p i : c_walk oct (p ++ [i]) = c_child oct (c_walk oct p) i.
Proof. unfold c_walk. now rewrite fold_left_app. Qed.
Lemma c_walk_hin oct p : c_path oct p -> hin (cclass oct) (c_walk oct p).
Proof. intros H. rewrite (c_walk_eq H). apply hin_valid. exists p. split; [now apply c_path_eq|reflexivity]. Qed.
Lemma c_walk_level oct p : c_path oct p -> hl (c_walk oct p) = zlen p.
Proof. intros H. rewrite (c_walk_eq H). apply c_path_eq in H. exact (h_walk_level (proj2 H)). Qed.
Lemma c_child_walk oct p i : c_path oct p -> zlen p < c_maxlevel oct -> c_child oct (c_walk oct p) i = h_child (cclass oct) (h_walk (cclass oct) p) i.
Proof. intros H HL. rewrite c_child_eq; [now rewrite (c_walk_eq H)|now apply c_walk_hin|now rewrite (c_walk_level H)]. Qed.
Lemma c_children_eq oct p : c_path oct p -> zlen p < c_maxlevel oct -> c_children_of oct (c_walk oct p) = h_children_of (cclass oct) (h_walk (cclass oct) p).
Proof. intros H HL. unfold c_children_of, h_children_of. rewrite c_num_children_eq. apply map_ext. intros i. now apply c_child_walk. Qed.
Lemma c_aligned_eq oct e : c_aligned oct e <-> h_aligned (cclass oct) e.
Proof. unfold c_aligned, h_aligned. rewrite c_maxlevel_eq, c_dim_eq, Nat2Z.id. replace (hbits (cclass oct)) with 30 by now destruct oct. reflexivity. Qed.

(** ** geometry *)
Lemma c_vertex_eq oct e v : length (hx e) = hdim (cclass oct) -> 0 <= v < c_num_children oct -> c_vertex oct e v = h_vertex (cclass oct) e v.
Proof.
  intros H Hv. unfold c_vertex, h_vertex. f_equal. destruct oct; cbn [cclass hdim c_num_children] in *; destruct e as [l w]; cbn [hx] in H.
  - destruct w as [|x [|y [|z [|u t]]]]; try discriminate H. cbn [c_coords]. unfold o_coords, h_coords, cx, cy, cz. cbn [hl hx imap]. change (h_len PHex) with p4_len. set (s := p4_len l). clearbody s.
    assert (v = 0 \/ v = 1 \/ v = 2 \/ v = 3 \/ v = 4 \/ v = 5 \/ v = 6 \/ v = 7) as [-> | [-> | [-> | [-> | [-> | [-> | [-> | ->]]]]]]] by lia; reflexivity.
  - destruct w as [|x [|y [|z t]]]; try discriminate H. cbn [c_coords]. unfold q_coords, h_coords, cx, cy. cbn [hl hx imap]. change (h_len PQuad) with p4_len. set (s := p4_len l). clearbody s.
    assert (v = 0 \/ v = 1 \/ v = 2 \/ v = 3) as [-> | [-> | [-> | ->]]] by lia; reflexivity.
Qed.
Lemma c_vertices_eq oct e : length (hx e) = hdim (cclass oct) -> c_vertices oct e = h_vertices (cclass oct) e.
Proof.
  intros H. unfold c_vertices, h_vertices. replace (hcorners (cclass oct)) with (c_num_children oct) by now destruct oct. apply map_ext_in. intros v Hv. apply in_zseq in Hv. apply c_vertex_eq; [exact H|]. destruct oct; cbn [c_num_children] in *; lia.
Qed.
Lemma c_face_corners_eq oct f : 0 <= f < c_num_faces oct -> c_face_corners oct f = h_face_corners (cclass oct) f.
Proof.
  intros Hf. unfold c_face_corners, h_face_corners. replace (h_num_face_corners (cclass oct)) with (c_num_face_corners oct) by now destruct oct. apply map_ext_in. intros j Hj. apply in_zseq in Hj. apply c_corner_eq; [now rewrite <- c_num_faces_eq|]. destruct oct; cbn in *; lia.
Qed.
Lemma c_corner_range oct f v : 0 <= f < c_num_faces oct -> In v (c_face_corners oct f) -> 0 <= v < c_num_children oct.
Proof.
  assert (T : forallb (fun f => forallb (fun v => (0 <=? v) && (v <? c_num_children oct)) (c_face_corners oct f)) (zseq 0 (Z.to_nat (c_num_faces oct))) = true) by (destruct oct; vm_compute; reflexivity).
  intros Hf Hv. rewrite forallb_forall in T. specialize (T f ltac:(apply in_zseq; lia)). rewrite forallb_forall in T. specialize (T v Hv). lia.
Qed.
Lemma c_face_vertices_eq oct e f : length (hx e) = hdim (cclass oct) -> 0 <= f < c_num_faces oct -> c_face_vertices oct e f = h_face_vertices (cclass oct) e f.
Proof.
  intros H Hf. unfold c_face_vertices, h_face_vertices. rewrite <- (c_face_corners_eq Hf). apply map_ext_in. intros v Hv. apply c_vertex_eq; [exact H|]. now apply c_corner_range with (f := f).
Qed.
Lemma c_subface_eq oct e f d g : length (hx e) = hdim (cclass oct) -> length (hx d) = hdim (cclass oct) -> 0 <= f < c_num_faces oct -> 0 <= g < c_num_faces oct ->
  (c_subface oct e f d g <-> h_subface (cclass oct) e f d g).
Proof. intros He Hd Hf Hg. unfold c_subface, h_subface. now rewrite !c_face_vertices_eq. Qed.
Lemma h_child_length c e i : length (hx (h_child c e i)) = length (hx e). Proof. unfold h_child. cbn [hx]. apply imap_length. Qed.
Lemma h_walk_length c p : h_path c p -> length (hx (h_walk c p)) = hdim c. Proof. intros H. apply (h_walk_aligned H). Qed.
Lemma c_nb_length e f : length (hx (fst (c_face_neighbour e f))) = length (hx e). Proof. unfold c_face_neighbour, p4_face_neighbor. cbn [fst hx]. apply imap_length. Qed.

Lemma c_children_tile oct p : c_path oct p -> zlen p < c_maxlevel oct -> let e := c_walk oct p in
  (forall P, hull (c_vertices oct e) P <-> exists i, 0 <= i < c_num_children oct /\ hull (c_vertices oct (c_child oct e i)) P) /\
  (forall P i, 0 <= i < c_num_children oct -> interior (c_vertices oct (c_child oct e i)) P -> interior (c_vertices oct e) P) /\
  (forall P i j, 0 <= i < c_num_children oct -> 0 <= j < c_num_children oct -> i <> j -> ~ (interior (c_vertices oct (c_child oct e i)) P /\ interior (c_vertices oct (c_child oct e j)) P)).
Proof.
  intros Hp HL e. assert (Hq := proj1 (c_path_eq oct p) Hp). assert (Lw := h_walk_length Hq).
  assert (HC : forall i, c_vertices oct (c_child oct e i) = h_vertices (cclass oct) (h_child (cclass oct) (h_walk (cclass oct) p) i)) by (intros i; unfold e; rewrite c_child_walk by auto; apply c_vertices_eq; now rewrite h_child_length).
  assert (HE : c_vertices oct e = h_vertices (cclass oct) (h_walk (cclass oct) p)) by (unfold e; rewrite (c_walk_eq Hp); now apply c_vertices_eq).
  rewrite HE, c_num_children_eq. setoid_rewrite HC. apply h_children_tile; [now apply h_walk_aligned|]. rewrite (h_walk_level (proj2 Hq)). now rewrite <- c_maxlevel_eq.
Qed.
Lemma c_neighbour_spec oct e f : c_aligned oct e -> 0 <= f < c_num_faces oct ->
  let (n, g) := c_face_neighbour e f in
  c_aligned oct n /\ 0 <= g < c_num_faces oct /\ hl n = hl e /\ n <> e /\ c_face_neighbour n g = (e, f) /\
  (forall v, In v (c_face_vertices oct e f) <-> In v (c_face_vertices oct n g)).
Proof.
  intros A Hf. apply c_aligned_eq in A. assert (Hf' := Hf). rewrite c_num_faces_eq in Hf'. rewrite (@c_neighbour_eq oct) by (auto; apply A). assert (H := h_face_neighbour_spec A Hf'). destruct (h_face_neighbour (cclass oct) e f) as [n g].
  destruct H as (H1 & H2 & H3 & H4 & H5 & H6). rewrite (@c_neighbour_eq oct) by (auto; apply H1). rewrite <- c_num_faces_eq in H2. rewrite !c_face_vertices_eq by (auto; first [apply A|apply H1]). rewrite c_aligned_eq. auto 10.
Qed.
Lemma c_neighbour_disjoint oct e f P : c_aligned oct e -> 0 <= f < c_num_faces oct -> ~ (interior (c_vertices oct e) P /\ interior (c_vertices oct (fst (c_face_neighbour e f))) P).
Proof.
  intros A Hf. apply c_aligned_eq in A. rewrite !c_vertices_eq by (rewrite ?c_nb_length; apply A). rewrite c_num_faces_eq in Hf. rewrite (@c_neighbour_eq oct) by (auto; apply A). now apply h_neighbour_disjoint.
Qed.
Lemma c_inside_root oct e : c_aligned oct e -> (p4_is_inside_root e = true <-> exists p, c_path oct p /\ e = c_walk oct p).
Proof.
  intros A. apply c_aligned_eq in A. rewrite (@c_inside_eq oct e A), (h_inside_root A). split; intros (p & Hp & E); exists p.
  - apply c_path_eq in Hp. split; [exact Hp|]. now rewrite (c_walk_eq Hp).
  - rewrite (c_walk_eq Hp) in E. apply c_path_eq in Hp. auto.
Qed.
Lemma c_neighbor_inside_spec oct p f : c_path oct p -> 0 <= f < c_num_faces oct ->
  match c_face_neighbor_inside (c_walk oct p) f with
  | (Some n, g) => (n, g) = c_face_neighbour (c_walk oct p) f /\ exists q, c_path oct q /\ n = c_walk oct q
  | (None, g) => g = snd (c_face_neighbour (c_walk oct p) f) /\ forall q, c_path oct q -> fst (c_face_neighbour (c_walk oct p) f) <> c_walk oct q
  end.
Proof.
  intros Hp Hf. assert (A : c_aligned oct (c_walk oct p)) by (apply c_aligned_eq; apply (c_walk_hin Hp)). assert (N := c_neighbour_spec A Hf). unfold c_face_neighbor_inside. destruct (c_face_neighbour (c_walk oct p) f) as [n g]. destruct N as (N & _).
  assert (I := c_inside_root N). cbn [fst snd]. destruct (p4_is_inside_root n).
  - split; [reflexivity|]. now apply I.
  - split; [reflexivity|]. intros q Hq E. assert (false = true) by (apply I; now exists q). discriminate.
Qed.
Lemma c_root_boundary oct p f : c_path oct p -> 0 <= f < c_num_faces oct -> c_is_root_boundary oct (c_walk oct p) f = negb (p4_is_inside_root (fst (c_face_neighbour (c_walk oct p) f))).
Proof.
  intros Hp Hf. assert (H := c_walk_hin Hp). rewrite c_num_faces_eq in Hf. rewrite c_root_boundary_eq by auto. rewrite (@c_neighbour_eq oct) by (auto; apply H). rewrite (@c_inside_eq oct) by (apply h_nb_aligned; apply H). rewrite (c_walk_eq Hp). apply h_root_boundary; [now apply c_path_eq|exact Hf].
Qed.
Lemma c_tree_face_spec oct p f rf : c_path oct p -> 0 <= f < c_num_faces oct -> 0 <= rf < c_num_faces oct ->
  ((forall v, In v (c_face_vertices oct (c_walk oct p) f) -> c_on_root_plane rf v) <-> (c_is_root_boundary oct (c_walk oct p) f = true /\ rf = c_tree_face f)).
Proof.
  intros Hp Hf Hr. assert (H := c_walk_hin Hp). rewrite c_face_vertices_eq by (auto; apply H). rewrite c_num_faces_eq in *. rewrite c_root_boundary_eq by auto. rewrite (c_walk_eq Hp).
  assert (E : forall v, c_on_root_plane rf v <-> h_on_root_plane (cclass oct) rf v) by (intros v; now destruct oct). setoid_rewrite E. apply h_tree_face_spec; auto. now apply c_path_eq.
Qed.

(** ** children at faces *)
Lemma c_children_at_face_exact oct p f i : c_path oct p -> zlen p < c_maxlevel oct -> 0 <= f < c_num_faces oct -> 0 <= i < c_num_children oct ->
  (In i (c_child_ids_at_face oct f) <-> exists g, 0 <= g < c_num_faces oct /\ c_subface oct (c_walk oct p) f (c_child oct (c_walk oct p) i) g).
Proof.
  intros Hp HL Hf Hi. assert (Hq := proj1 (c_path_eq oct p) Hp). rewrite c_num_faces_eq, c_num_children_eq, c_maxlevel_eq in *. rewrite c_ids_eq by exact Hf. rewrite <- (h_walk_level (proj2 Hq)) in HL.
  rewrite (h_children_at_face_exact (h_walk_aligned Hq) HL Hf Hi). assert (LW := h_walk_length Hq).
  split; intros (g & Hg & H); exists g; (split; [exact Hg|]); rewrite (h_walk_level (proj2 Hq)) in HL; rewrite c_child_walk, (c_walk_eq Hp) in * by (auto; now rewrite c_maxlevel_eq);
    (apply c_subface_eq in H || apply c_subface_eq); rewrite ?h_child_length, ?c_num_faces_eq; auto.
Qed.
Lemma c_face_child_face_exact oct p f k g : c_path oct p -> zlen p < c_maxlevel oct -> 0 <= f < c_num_faces oct -> 0 <= k < c_num_face_children oct -> 0 <= g < c_num_faces oct ->
  (c_subface oct (c_walk oct p) f (c_child oct (c_walk oct p) (znth (-1) (c_child_ids_at_face oct f) k)) g <-> g = c_face_child_face f k).
Proof.
  intros Hp HL Hf Hk Hg. assert (Hq := proj1 (c_path_eq oct p) Hp). assert (LW := h_walk_length Hq). rewrite c_child_walk, (c_walk_eq Hp) by auto. rewrite c_subface_eq by (rewrite ?h_child_length; auto). rewrite c_num_faces_eq, c_maxlevel_eq in *. rewrite c_ids_eq by exact Hf.
  rewrite <- (h_walk_level (proj2 Hq)) in HL. apply (@h_face_child_face_exact (cclass oct) _ f k g (h_walk_aligned Hq) HL Hf); [|exact Hg]. replace (h_num_face_children (cclass oct)) with (c_num_face_children oct) by now destruct oct. exact Hk.
Qed.
Lemma c_face_parent_face_exact oct p i g : c_path oct p -> zlen p < c_maxlevel oct -> 0 <= i < c_num_children oct -> 0 <= g < c_num_faces oct ->
  let e := c_walk oct p in let pf := c_face_parent_face oct (c_child oct e i) g in
  (forall f, 0 <= f < c_num_faces oct -> c_subface oct e f (c_child oct e i) g <-> f = pf) /\ (pf = -1 \/ 0 <= pf < c_num_faces oct).
Proof.
  intros Hp HL Hi Hg e pf. assert (Hq := proj1 (c_path_eq oct p) Hp). assert (LW := h_walk_length Hq). unfold pf, e. rewrite c_child_walk, (c_walk_eq Hp) by auto.
  rewrite c_num_faces_eq, c_num_children_eq, c_maxlevel_eq in *. assert (Hs := proj2 (h_path_snoc (cclass oct) p i) (conj Hq (conj Hi HL))). rewrite <- h_walk_snoc. rewrite c_parent_face_walk by assumption. rewrite h_walk_snoc.
  destruct (h_face_parent_face_exact Hq HL Hi Hg) as [H1 H2]. cbv zeta in *. split; [|exact H2]. intros f Hf. rewrite <- (H1 f Hf). apply c_subface_eq; rewrite ?h_child_length, ?c_num_faces_eq; auto.
Qed.
Lemma c_descendants_at_face oct p f L : c_path oct p -> zlen p <= L <= c_maxlevel oct -> 0 <= f < c_num_faces oct ->
  exists i j, 0 <= i < c_num_children oct /\ 0 <= j < c_num_children oct /\ hd (-1) (c_child_ids_at_face oct f) = i /\ last (c_child_ids_at_face oct f) (-1) = j /\
  c_first_descendant_face oct (c_walk oct p) f L = c_walk oct (p ++ repeat i (Z.to_nat (L - zlen p))) /\
  c_last_descendant_face oct (c_walk oct p) f L = c_walk oct (p ++ repeat j (Z.to_nat (L - zlen p))).
Proof.
  intros Hp HL Hf. assert (Hq := proj1 (c_path_eq oct p) Hp). assert (Hn := c_walk_hin Hp). rewrite c_num_faces_eq, c_num_children_eq, c_maxlevel_eq in *. rewrite c_ids_eq by exact Hf. rewrite c_first_face_eq, c_last_face_eq by auto.
  destruct (ids_facts Hf) as (_ & _ & _ & _ & E1 & E2 & R1 & R2 & _). exists (fid f), (lid (cclass oct) f). rewrite (c_walk_eq Hp). rewrite (h_first_face_walk Hq HL Hf), (h_last_face_walk Hq HL Hf).
  assert (PA : forall i, 0 <= i < hchildren (cclass oct) -> c_path oct (p ++ repeat i (Z.to_nat (L - zlen p)))).
  { intros i Hi. apply c_path_eq. apply h_path_app. split; [exact Hq|]. split; [apply Forall_forall; intros x Hx; apply repeat_spec in Hx; lia|]. unfold zlen at 2. rewrite repeat_length. unfold zlen in *. lia. }
  rewrite !c_walk_eq by auto. auto 10.
Qed.

(** ** counts *)
Lemma c_count_leaves_exact oct p L : c_path oct p -> zlen p <= L <= c_maxlevel oct -> c_count_leaves oct (c_walk oct p) L = c_num_children oct ^ (L - zlen p).
Proof.
  intros Hp HL. unfold c_count_leaves. rewrite (c_walk_level Hp). pose proof (zlen_nonneg p). destruct (Z.ltb_spec L (zlen p)); [lia|]. rewrite c_dim_eq, c_num_children_eq. rewrite c_maxlevel_eq in HL.
  exact (proj1 (@h_count_value (cclass oct) (L - zlen p) ltac:(lia) (fun E => match cclass_hex E with end))).
Qed.
(** ** lines and quadrilaterals as faces *)
Lemma l_walk_cv p : l_path p -> cv (l_walk p) = h_walk HLine p.
Proof.
  intros H. induction p as [|i p IH] using rev_ind; [reflexivity|]. unfold l_walk. rewrite fold_left_app. cbn [fold_left]. fold (l_walk p). destruct H as [H1 H2]. apply valid_app in H1. destruct H1 as [H1 H3]. inversion H3; subst. rewrite zlen_snoc in H2. unfold LMAX in H2.
  rewrite l_child_cv by assumption. rewrite IH by (split; [assumption|unfold LMAX; lia]). now rewrite h_walk_snoc.
Qed.
Lemma cv_inj a b : cv a = cv b -> a = b. Proof. destruct a as [k x], b as [m y]. unfold cv. cbn [LineModel.ll LineModel.lx]. intros E. injection E as -> ->. reflexivity. Qed.
Lemma l_path_h p : l_path p <-> h_path HLine p. Proof. reflexivity. Qed.
Lemma cv_vertex b v : 0 <= v < 2 -> h_vertex HLine (cv b) v = (l_coords b v, 0, 0).
Proof. intros Hv. destruct b as [l x]. unfold cv. cbn [ll lx]. rewrite h_vertex_line by exact Hv. unfold l_coords. cbn [ll lx]. change (h_len HLine) with LLEN. set (s := LLEN l). clearbody s. assert (v = 0 \/ v = 1) as [-> | ->] by lia; cbn [Z.eqb]; f_equal; f_equal; lia. Qed.
Lemma c_symmetry_eq o sign v : c_symmetry o sign v = h_symmetry PQuad o sign v. Proof. reflexivity. Qed.
Lemma q_transform_walk p o sign sm : c_path false p -> 0 <= o < 4 ->
  exists q, c_path false q /\ zlen q = zlen p /\ q_transform_face (c_walk false p) None o sign sm = Ok (c_walk false q) /\ q_transform_face (c_walk false q) None o sign (negb sm) = Ok (c_walk false p) /\
  (forall v, In v (c_vertices false (c_walk false q)) <-> exists w, In w (c_vertices false (c_walk false p)) /\ if sm then v = c_symmetry o sign w else c_symmetry o sign v = w).
Proof.
  intros Hp Ho. assert (V := c_walk_hin Hp). cbn [cclass] in V. assert (A : PQuad <> HHex) by discriminate. assert (B : PQuad <> PHex) by discriminate. destruct (@h_transform_in PQuad _ o sign sm A B V Ho) as (b & H1 & H2 & H3 & H4 & _).
  assert (H5 := @h_transform_image PQuad _ o sign sm _ V Ho H1). assert (Hb := H2). apply hin_valid in H2. destruct H2 as (q & Hq & E). assert (Hq' := proj2 (c_path_eq false q) Hq). exists q. rewrite (c_walk_eq Hq'). cbn [cclass]. rewrite <- E.
  split; [exact Hq'|]. split; [rewrite (c_walk_level Hp) in H3; rewrite E, (h_walk_level (proj2 Hq)) in H3; exact H3|]. rewrite !q_transform_eq by (first [apply V|apply Hb]). split; [exact H1|]. split; [exact H4|].
  intros v. rewrite !(@c_vertices_eq false) by (first [apply V|apply Hb]). exact (H5 v).
Qed.

(** ** the anchor *)
Lemma c_coord_bound oct p x : c_path oct p -> In x (hx (c_walk oct p)) -> 0 <= x /\ x + p4_len (hl (c_walk oct p)) <= 2 ^ 30.
Proof.
  intros Hp Hx. assert (V := c_walk_hin Hp). assert (A := proj2 (c_aligned_eq oct _) (proj1 V)). assert (I : p4_is_inside_root (c_walk oct p) = true) by (apply (c_inside_root A); now exists p).
  unfold p4_is_inside_root in I. rewrite forallb_forall in I. specialize (I x Hx). apply andb_true_iff in I. destruct I as [I1 I2]. apply Z.leb_le in I1. apply Z.ltb_lt in I2. change P4_ROOT_LEN with (2 ^ 30) in I2.
  destruct A as (A1 & _ & A3). rewrite Forall_forall in A3. destruct (A3 x Hx) as (n & ->). set (l := hl (c_walk oct p)) in *. assert (0 <= l <= 30) by (destruct oct; cbn [c_maxlevel] in A1; lia).
  unfold p4_len. change P4_MAXLEVEL with 30. rewrite Z.shiftl_mul_pow2, Z.mul_1_l by lia. split; [exact I1|]. assert (E : 2 ^ 30 = 2 ^ l * 2 ^ (30 - l)) by (rewrite <- Z.pow_add_r by lia; f_equal; lia). rewrite E in I2 |- *. assert (P0 : 0 < 2 ^ (30 - l)) by (apply Z.pow_pos_nonneg; lia). apply Z.mul_lt_mono_pos_r in I2; [|exact P0]. replace (n * 2 ^ (30 - l) + 2 ^ (30 - l)) with ((n + 1) * 2 ^ (30 - l)) by ring. apply Z.mul_le_mono_nonneg_r; lia.
Qed.
Lemma to_ipt3 a b c : to_ipt [a; b; c] = (a, b, c). Proof. reflexivity. Qed.
Lemma to_ipt2 a b : to_ipt [a; b] = (a, b, 0). Proof. reflexivity. Qed.
Lemma c_anchor_spec oct p : c_path oct p -> let e := c_walk oct p in let a := to_ipt (c_anchor oct e) in
  a = c_vertex oct e 0 /\ forall v, In v (c_vertices oct e) -> ix a <= ix v <= 2 ^ 30 /\ iy a <= iy v <= 2 ^ 30 /\ iz a <= iz v <= 2 ^ 30.
Proof.
  intros Hp e a. assert (L := proj1 (proj2 (proj1 (c_walk_hin Hp)))). assert (B := fun x => @c_coord_bound oct p x Hp). fold e in L, B. unfold a. clearbody e. destruct e as [l w]. cbn [hx hl] in *. set (s := p4_len l) in *.
  assert (S0 : 0 <= s) by (unfold s, p4_len; apply Z.shiftl_nonneg; lia). unfold c_vertices, c_vertex. destruct oct.
  - destruct w as [|x [|y [|z [|u t]]]]; try discriminate L. assert (Bx := B x ltac:(cbn; auto)). assert (By := B y ltac:(cbn; auto)). assert (Bz := B z ltac:(cbn; auto)). unfold c_anchor, c_coords, o_coords, cx, cy, cz. cbn [hl hx]. fold s.
    change (znth 0 [x; y; z] 0) with x; change (znth 0 [x; y; z] 1) with y; change (znth 0 [x; y; z] 2) with z. split.
    + change (Z.land 0 1) with 0; change (Z.land 0 2) with 0; change (Z.land 0 4) with 0. cbn [Z.eqb]. now rewrite !Z.add_0_r.
    + intros v Hv. apply in_map_iff in Hv. destruct Hv as (k & <- & _). clearbody s.
      rewrite !to_ipt3. cbn [ix iy iz fst snd]. destruct (Z.land k 1 =? 0), (Z.land k 2 =? 0), (Z.land k 4 =? 0); rewrite ?Z.mul_0_l, ?Z.mul_1_l; clear - Bx By Bz S0; lia.
  - destruct w as [|x [|y [|z t]]]; try discriminate L. assert (Bx := B x ltac:(cbn; auto)). assert (By := B y ltac:(cbn; auto)). unfold c_anchor, c_coords, q_coords, cx, cy. cbn [hl hx]. fold s.
    change (znth 0 [x; y] 0) with x; change (znth 0 [x; y] 1) with y. split.
    + change (Z.land 0 1) with 0; change (Z.land 0 2) with 0. cbn [Z.eqb]. now rewrite !Z.add_0_r.
    + intros v Hv. apply in_map_iff in Hv. destruct Hv as (k & <- & _). clearbody s.
      rewrite !to_ipt2, to_ipt3. cbn [ix iy iz fst snd]. destruct (Z.land k 1 =? 0), (Z.land k 2 =? 0); rewrite ?Z.mul_0_l, ?Z.mul_1_l; clear - Bx By S0; lia.
Qed.

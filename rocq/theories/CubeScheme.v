(** The quadrilaterals and hexahedra of the default scheme as a value of type [scheme], and the proof of its laws: on the elements of the
    tree their functions agree with those of the classes PQuad and PHex of HyperModel.v. *)
From Coq Require Import Sorting.Sorted.
From Verif Require Import Prelude PathSpec SchemeModel SchemeSpec SchemeProofs SchemeUniformProofs SchemeInstances FaceModel FaceSpec FaceProofs NeighborModel NeighborProofs EclassModel.
From Verif Require Import BitLemmas SimplexModel SimplexPathProofs SimplexOrderProofs LineModel LineSpec LineProofs.
From Verif Require Import HyperModel HyperSpec HyperProofs HyperOrderProofs HyperScheme HyperGeoProofs HyperFaceProofs HyperNbProofs HyperFlaws HyperCrossProofs CubeModel TransferProofs.

(** t8_default_quad.cxx, t8_default_hex.cxx, and p4est for the functions that are called through (see CubeModel.v) *)
Definition cube_scheme (oct : bool) : scheme := {|
  elt := hcube; s_root := c_root oct; s_level := hl; s_maxlevel := c_maxlevel oct; s_max_children := c_num_children oct;
  s_num_children := fun _ => c_num_children oct; s_num_siblings := c_num_siblings oct;
  s_child := c_child oct; s_parent := h_parent (cclass oct); s_child_id := p4_child_id oct;
  s_is_family := p4_is_family oct;
  s_equal := h_equal; s_compare := h_compare (cclass oct); s_nca := h_nca (cclass oct); s_is_ancestor := c_is_ancestor oct; s_linear_id := h_linear_id (cclass oct);
  s_set_linear_id := fun L id => match h_set_linear_id (cclass oct) L id with Ok e => e | _ => c_root oct end;
  s_successor := fun e => match h_successor (cclass oct) e with Ok s => s | _ => e end;
  s_first_desc := h_first_descendant (cclass oct); s_last_desc := h_last_descendant (cclass oct); s_count_root := c_count_root oct;
  s_ancestor_id := p4_ancestor_id oct |}.
Definition cube_faces (oct : bool) : faces (cube_scheme oct) := @Faces (cube_scheme oct)
  (fun _ => c_num_faces oct) (fun _ => c_num_faces oct) (fun _ => c_child_ids_at_face oct) (fun _ => c_face_child_face) (c_face_parent_face oct)
  (c_first_descendant_face oct) (c_last_descendant_face oct).

(** ** the elements *)
Lemma hin_phex l x y z : hin PHex (Cube l [x; y; z]) -> 0 <= l <= 18 /\ (al (30 - l) x /\ 0 <= x < 2 ^ 30) /\ (al (30 - l) y /\ 0 <= y < 2 ^ 30) /\ (al (30 - l) z /\ 0 <= z < 2 ^ 30).
Proof.
  intros H. assert (A := fun k Hk => @hin_al PHex _ k H Hk). destruct H as [(H1 & _) H2]. cbn [hl hx hmax hbits hdim] in *. split; [exact H1|].
  pose proof (H2 0 ltac:(lia)). pose proof (H2 1 ltac:(lia)). pose proof (H2 2 ltac:(lia)). pose proof (A 0 ltac:(lia)). pose proof (A 1 ltac:(lia)). pose proof (A 2 ltac:(lia)). auto.
Qed.
Lemma pquad_shape e : hin PQuad e -> exists l x y, e = Cube l [x; y].
Proof. intros [(_ & H & _) _]. destruct e as [l [|x [|y [|z t]]]]; try discriminate H. now exists l, x, y. Qed.
Lemma phex_shape e : hin PHex e -> exists l x y z, e = Cube l [x; y; z].
Proof. intros [(_ & H & _) _]. destruct e as [l [|x [|y [|z [|w t]]]]]; try discriminate H. now exists l, x, y, z. Qed.
Lemma p4_len_pow l : 0 <= l <= 30 -> p4_len l = 2 ^ (30 - l). Proof. intros H. unfold p4_len, P4_MAXLEVEL. apply shiftl1_pow. lia. Qed.
Lemma p4_lor l x : 0 <= l < 30 -> al (30 - l) x -> Z.lor x (p4_len (l + 1)) = x + p4_len (l + 1).
Proof.
  intros Hl Hx. rewrite p4_len_pow by lia. apply (@lor_high_low x (2 ^ (30 - (l + 1))) (30 - l)); [lia| |exact Hx]. pose proof (@pow2_pos (30 - (l + 1)) ltac:(lia)). split; [lia|]. apply Z.pow_lt_mono_r; lia.
Qed.
Lemma if_add (b : bool) x h : (if b then x else x + h) = x + (if b then 0 else h).
Proof. destruct b; lia. Qed.
Lemma c_child_eq oct e i : hin (cclass oct) e -> hl e < c_maxlevel oct -> c_child oct e i = h_child (cclass oct) e i.
Proof.
  intros H HL. destruct oct; cbn [cclass c_maxlevel] in *.
  - destruct (phex_shape H) as (l & x & y & z & ->). apply hin_phex in H. destruct H as (Hl & [Hx _] & [Hy _] & [Hz _]). cbn [hl] in HL. cbn [c_child]. unfold o_child, h_child, cx, cy, cz. cbn [hl hx imap]. f_equal.
    change (h_len PHex (l + 1)) with (p4_len (l + 1)). change (znth 0 [x; y; z] 0) with x. change (znth 0 [x; y; z] 1) with y. change (znth 0 [x; y; z] 2) with z.
    change (Z.shiftl 1 0) with 1. change (Z.shiftl 1 (0 + 1)) with 2. change (Z.shiftl 1 (0 + 1 + 1)) with 4. rewrite !p4_lor by (auto; lia). rewrite <- !if_add. reflexivity.
  - destruct (pquad_shape H) as (l & x & y & ->). apply hin_pquad in H. destruct H as (Hl & [Hx _] & [Hy _]). cbn [hl] in HL. cbn [c_child]. unfold q_child, h_child, cx, cy. cbn [hl hx imap]. f_equal.
    change (h_len PQuad (l + 1)) with (p4_len (l + 1)). change (znth 0 [x; y] 0) with x. change (znth 0 [x; y] 1) with y.
    change (Z.shiftl 1 0) with 1. change (Z.shiftl 1 (0 + 1)) with 2. rewrite !p4_lor by (auto; lia). rewrite <- !if_add. reflexivity.
Qed.
Lemma c_is_ancestor_walk oct p q : h_path (cclass oct) p -> h_path (cclass oct) q -> (c_is_ancestor oct (h_walk (cclass oct) p) (h_walk (cclass oct) q) = true <-> prefix p q).
Proof.
  intros Hp Hq. unfold c_is_ancestor. rewrite (h_walk_level (proj2 Hp)), (h_walk_level (proj2 Hq)). pose proof (zlen_nonneg p). destruct (Z.ltb_spec (zlen q) (zlen p)).
  - split; [discriminate|]. intros (r & ->). rewrite zlen_app in *. pose proof (zlen_nonneg r). lia.
  - rewrite Z.eqb_eq. rewrite (h_linear_id_coarse Hp) by lia. rewrite (h_linear_id_coarse Hq) by lia. rewrite firstn_zlen_all. rewrite prefix_firstn. unfold zlen in *. rewrite Nat2Z.id. split.
    + intros E. split; [lia|]. symmetry. apply (@num_inj (hchildren (cclass oct))); [apply hN_pos|apply Hp|apply valid_firstn, Hq|rewrite firstn_length; lia|exact E].
    + intros [_ ->]. reflexivity.
Qed.
Lemma c_maxlevel_eq oct : c_maxlevel oct = hmax (cclass oct). Proof. now destruct oct. Qed.
Lemma c_num_children_eq oct : c_num_children oct = hchildren (cclass oct). Proof. now destruct oct. Qed.
Lemma c_num_faces_eq oct : c_num_faces oct = hfaces (cclass oct). Proof. now destruct oct. Qed.
Lemma c_dim_eq oct : c_dim oct = Z.of_nat (hdim (cclass oct)). Proof. now destruct oct. Qed.
Lemma cclass_hex oct : cclass oct <> HHex. Proof. now destruct oct. Qed.
Lemma valid_hin c e : valid (S := hyper_scheme c) e <-> hin c e. Proof. rewrite hyper_valid. apply hin_valid. Qed.

Section cube.
Variable oct : bool.
Notation c := (cclass oct).
Lemma cube_replaced : cube_scheme oct = @replaced (hyper_scheme c) (c_child oct) (c_num_siblings oct) (p4_child_id oct) (c_is_ancestor oct) (c_count_root oct) (p4_ancestor_id oct).
Proof. destruct oct; reflexivity. Qed.
Lemma cube_Hch e i : valid (S := hyper_scheme c) e -> s_level (s := hyper_scheme c) e < s_maxlevel (hyper_scheme c) -> 0 <= i < hchildren c -> c_child oct e i = s_child (s := hyper_scheme c) e i.
Proof. intros V HL _. apply valid_hin in V. apply c_child_eq; [exact V|]. rewrite c_maxlevel_eq. exact HL. Qed.
Lemma cube_Hns (e : hcube) : c_num_siblings oct e = hchildren c. Proof. now destruct oct. Qed.
Lemma cube_Hcid e : valid (S := hyper_scheme c) e -> 0 < s_level (s := hyper_scheme c) e -> p4_child_id oct e = s_child_id (s := hyper_scheme c) e.
Proof. intros _ HL. change (0 < hl e) in HL. unfold p4_child_id. now rewrite (proj2 (Z.eqb_neq (hl e) 0)) by lia. Qed.
Lemma cube_Hanc a b : valid (S := hyper_scheme c) a -> valid (S := hyper_scheme c) b -> (c_is_ancestor oct a b = true <-> s_is_ancestor (s := hyper_scheme c) a b = true).
Proof.
  intros Va Vb. apply hyper_valid in Va, Vb. destruct Va as (p & Hp & ->). destruct Vb as (q & Hq & ->). rewrite (@c_is_ancestor_walk oct p q Hp Hq). symmetry. exact (h_is_ancestor_walk Hp Hq).
Qed.
Lemma cube_Hcnt L : 0 <= L <= s_maxlevel (hyper_scheme c) -> c_count_root oct L = s_count_root (hyper_scheme c) L.
Proof.
  intros HL. change (0 <= L <= hmax c) in HL. change (c_count_root oct L = h_count_root c L). unfold c_count_root, h_count_root. rewrite c_dim_eq.
  destruct (h_count_value HL (fun E => match cclass_hex E with end)) as [-> ->]. reflexivity.
Qed.
Lemma cube_Haid e L : valid (S := hyper_scheme c) e -> 1 <= L <= s_level (s := hyper_scheme c) e -> p4_ancestor_id oct e L = s_ancestor_id (s := hyper_scheme c) e L.
Proof. intros _ HL. unfold p4_ancestor_id. now rewrite (proj2 (Z.eqb_neq L 0)) by lia. Qed.
Lemma cube_Hfam (l : list hcube) e : hd_error l = Some e -> s_is_family (s := hyper_scheme c) l = true -> 0 < s_level (s := hyper_scheme c) e.
Proof.
  intros HE HF. change (0 < hl e). destruct l as [|a l]; [discriminate HE|]. injection HE as ->. apply h_family_true in HF. unfold h_is_family in HF. change (znth cube0 (e :: l) 0) with e in HF.
  destruct (Z.leb_spec (hl e) 0); [discriminate HF|assumption].
Qed.
Theorem cube_ulaws : ulaws (cube_scheme oct) (hchildren c).
Proof. rewrite cube_replaced. exact (rp_ulaws (hyper_ulaws c) cube_Hch cube_Hns cube_Hcid cube_Hanc cube_Hcnt cube_Haid cube_Hfam). Qed.
Theorem cube_laws : laws (cube_scheme oct). Proof. eapply ulaws_laws. exact cube_ulaws. Qed.

(** ** faces *)
Lemma c_ids_eq f : 0 <= f < hfaces c -> c_child_ids_at_face oct f = h_child_ids_at_face c f.
Proof.
  assert (T : forallb (fun f => if list_eq_dec Z.eq_dec (c_child_ids_at_face oct f) (h_child_ids_at_face c f) then true else false) (zseq 0 (Z.to_nat (hfaces c))) = true) by (destruct oct; vm_compute; reflexivity).
  intros Hf. rewrite forallb_forall in T. specialize (T f ltac:(apply in_zseq; lia)). now destruct (list_eq_dec _ _ _).
Qed.
(** the corners of a face that the tables of p4est list *)
Lemma c_corner_eq f j : 0 <= f < hfaces c -> 0 <= j < h_num_face_corners c -> c_face_corner oct f j = h_face_corner f j.
Proof.
  assert (T : forallb (fun f => forallb (fun j => c_face_corner oct f j =? h_face_corner f j) (zseq 0 (Z.to_nat (h_num_face_corners c)))) (zseq 0 (Z.to_nat (hfaces c))) = true) by (destruct oct; vm_compute; reflexivity).
  intros Hf Hj. rewrite forallb_forall in T. specialize (T f ltac:(apply in_zseq; lia)). rewrite forallb_forall in T. specialize (T j ltac:(apply in_zseq; lia)). now apply Z.eqb_eq.
Qed.
Definition pf_tab (i g : Z) : Z := if existsb (Z.eqb i) (face_corners oct g) then g else -1.
Lemma c_parent_face_walk p i g : h_path c (p ++ [i]) -> 0 <= g < hfaces c -> c_face_parent_face oct (h_walk c (p ++ [i])) g = h_face_parent_face c (h_walk c (p ++ [i])) g.
Proof.
  intros H Hg. rewrite (h_parent_face_child H Hg). assert (LV := h_walk_level (proj2 H)). rewrite zlen_snoc in LV. pose proof (zlen_nonneg p). assert (Hi := proj1 (proj2 (proj1 (h_path_snoc c p i) H))).
  assert (CI : p4_child_id oct (h_walk c (p ++ [i])) = i). { unfold p4_child_id. rewrite (proj2 (Z.eqb_neq (hl (h_walk c (p ++ [i]))) 0)) by lia. exact (h_child_id_walk H). }
  assert (T : forallb (fun i => forallb (fun g => pf_tab i g =? (if bitk (g / 2) i =? g mod 2 then g else -1)) (zseq 0 (Z.to_nat (hfaces c)))) (zseq 0 (Z.to_nat (hchildren c))) = true) by (unfold pf_tab; destruct oct; vm_compute; reflexivity).
  rewrite forallb_forall in T. specialize (T i ltac:(apply in_zseq; lia)). rewrite forallb_forall in T. specialize (T g ltac:(apply in_zseq; lia)). apply Z.eqb_eq in T. rewrite <- T. unfold pf_tab.
  assert (L4 : length (face_corners oct g) = if oct then 4%nat else 2%nat).
  { assert (Q : forallb (fun g => Nat.eqb (length (face_corners oct g)) (if oct then 4 else 2)) (zseq 0 (Z.to_nat (hfaces c))) = true) by (destruct oct; vm_compute; reflexivity). rewrite forallb_forall in Q. apply Nat.eqb_eq. apply Q. apply in_zseq. lia. }
  unfold c_face_parent_face, c_face_corner. destruct oct.
  - unfold o_face_parent_face, c_face_corner. rewrite CI. rewrite (proj2 (Z.eqb_neq (hl (h_walk (cclass true) (p ++ [i]))) 0)) by lia.
    destruct (face_corners true g) as [|a [|b [|d [|w [|v t]]]]]; try discriminate L4. change (znth 0 [a; b; d; w] 0) with a. change (znth 0 [a; b; d; w] 1) with b. change (znth 0 [a; b; d; w] 2) with d. change (znth 0 [a; b; d; w] 3) with w. cbn [existsb]. rewrite orb_false_r, !orb_assoc. reflexivity.
  - unfold q_face_parent_face, c_face_corner. rewrite CI. rewrite (proj2 (Z.eqb_neq (hl (h_walk (cclass false) (p ++ [i]))) 0)) by lia.
    destruct (face_corners false g) as [|a [|b [|d t]]]; try discriminate L4. change (znth 0 [a; b] 0) with a. change (znth 0 [a; b] 1) with b. cbn [existsb]. rewrite orb_false_r. reflexivity.
Qed.
Lemma c_parent_face_eq e g : hin c e -> 0 <= g < hfaces c -> 0 < hl e -> c_face_parent_face oct e g = h_face_parent_face c e g.
Proof.
  intros H Hg HL. apply hin_valid in H. destruct H as (p & Hp & ->). rewrite (h_walk_level (proj2 Hp)) in HL. destruct (exists_last (l:=p)) as (q & i & ->); [intros ->; discriminate|]. now apply c_parent_face_walk.
Qed.
Lemma c_parent_face_root e g : hl e = 0 -> c_face_parent_face oct e g = g.
Proof. intros H. unfold c_face_parent_face, o_face_parent_face, q_face_parent_face. destruct oct; now rewrite H. Qed.
End cube.
Ltac faces4 Hf := match type of Hf with 0 <= ?f < _ => assert (f = 0 \/ f = 1 \/ f = 2 \/ f = 3) as [-> | [-> | [-> | ->]]] by lia end.
Ltac faces6 Hf := match type of Hf with 0 <= ?f < _ => assert (f = 0 \/ f = 1 \/ f = 2 \/ f = 3 \/ f = 4 \/ f = 5) as [-> | [-> | [-> | [-> | [-> | ->]]]]] by lia end.
Lemma c_first_face_eq oct e f L : hin (cclass oct) e -> 0 <= f < hfaces (cclass oct) -> c_first_descendant_face oct e f L = h_first_descendant_face (cclass oct) e f L.
Proof.
  intros H Hf. destruct oct; cbn [cclass] in *.
  - destruct (phex_shape H) as (l & x & y & z & ->). cbn [hfaces] in Hf. faces6 Hf; reflexivity.
  - destruct (pquad_shape H) as (l & x & y & ->). cbn [hfaces] in Hf. faces4 Hf; reflexivity.
Qed.
Lemma tb_add (b : bool) x s : (if b then x + s else x) = x + Z.b2z b * s. Proof. destruct b; cbn [Z.b2z]; lia. Qed.
Lemma c_last_face_eq oct e f L : hin (cclass oct) e -> 0 <= f < hfaces (cclass oct) -> c_last_descendant_face oct e f L = h_last_descendant_face (cclass oct) e f L.
Proof.
  intros H Hf. unfold c_last_descendant_face, p4_corner_descendant, h_last_descendant_face. destruct oct; cbn [cclass] in *.
  - destruct (phex_shape H) as (l & x & y & z & ->). cbn [hfaces] in Hf. cbn [hl hx imap]. f_equal. change (h_len PHex) with p4_len. set (s := p4_len l - p4_len L). clearbody s. rewrite !tb_add. faces6 Hf; reflexivity.
  - destruct (pquad_shape H) as (l & x & y & ->). cbn [hfaces] in Hf. cbn [hl hx imap]. f_equal. change (h_len PQuad) with p4_len. set (s := p4_len l - p4_len L). clearbody s. rewrite !tb_add. faces4 Hf; reflexivity.
Qed.
Lemma cube_Hpf oct (e : hcube) f : valid (S := hyper_scheme (cclass oct)) e -> is_face (hyper_faces (cclass oct)) e f -> 0 < s_level (s := hyper_scheme (cclass oct)) e -> c_face_parent_face oct e f = h_face_parent_face (cclass oct) e f.
Proof. intros V Hf HL. apply c_parent_face_eq; [now apply valid_hin|exact Hf|exact HL]. Qed.
Lemma cube_Hpf0 oct f : is_face (hyper_faces (cclass oct)) (h_root (cclass oct)) f -> -1 <= c_face_parent_face oct (h_root (cclass oct)) f <= hfaces (cclass oct).
Proof. intros Hf. rewrite c_parent_face_root by reflexivity. change (0 <= f < hfaces (cclass oct)) in Hf. lia. Qed.
Theorem cube_flaws oct : flaws (cube_faces oct).
Proof.
  assert (I := fun e f (_ : valid (S := hyper_scheme (cclass oct)) e) (_ : s_level (s := hyper_scheme (cclass oct)) e < s_maxlevel (hyper_scheme (cclass oct))) Hf => @c_ids_eq oct f Hf).
  assert (F1 := fun e f L V (_ : s_level (s := hyper_scheme (cclass oct)) e <= L <= s_maxlevel (hyper_scheme (cclass oct))) Hf => @c_first_face_eq oct e f L (proj1 (@valid_hin _ e) V) Hf).
  assert (F2 := fun e f L V (_ : s_level (s := hyper_scheme (cclass oct)) e <= L <= s_maxlevel (hyper_scheme (cclass oct))) Hf => @c_last_face_eq oct e f L (proj1 (@valid_hin _ e) V) Hf).
  destruct oct.
  - exact (@rp_flaws (hyper_scheme PHex) 8 (hyper_ulaws PHex) (c_child true) (c_num_siblings true) (p4_child_id true) (c_is_ancestor true) (c_count_root true) (p4_ancestor_id true)
    (@cube_Hch true) (@cube_Hns true) (@cube_Hcid true) (@cube_Hanc true) (@cube_Hcnt true) (@cube_Haid true) (@cube_Hfam true) (hyper_faces PHex) (cube_faces true) (hyper_flaws PHex)
    (fun _ => eq_refl) (fun _ => eq_refl) I (fun _ _ _ _ _ _ => eq_refl) (@cube_Hpf true) (@cube_Hpf0 true) F1 F2).
  - exact (@rp_flaws (hyper_scheme PQuad) 4 (hyper_ulaws PQuad) (c_child false) (c_num_siblings false) (p4_child_id false) (c_is_ancestor false) (c_count_root false) (p4_ancestor_id false)
    (@cube_Hch false) (@cube_Hns false) (@cube_Hcid false) (@cube_Hanc false) (@cube_Hcnt false) (@cube_Haid false) (@cube_Hfam false) (hyper_faces PQuad) (cube_faces false) (hyper_flaws PQuad)
    (fun _ => eq_refl) (fun _ => eq_refl) I (fun _ _ _ _ _ _ => eq_refl) (@cube_Hpf false) (@cube_Hpf0 false) F1 F2).
Qed.

(** ** neighbours *)
Lemma c_neighbour_eq oct e f : length (hx e) = hdim (cclass oct) -> 0 <= f < hfaces (cclass oct) -> c_face_neighbour e f = h_face_neighbour (cclass oct) e f.
Proof.
  intros H Hf. unfold c_face_neighbour, h_face_neighbour, p4_face_neighbor. assert (E : forall x s, x - s = x + s * -1) by (intros; lia).
  destruct oct; cbn [cclass hfaces hdim] in *; destruct e as [l v]; cbn [hx] in H.
  - destruct v as [|x [|y [|z [|w t]]]]; try discriminate H. cbn [hl hx imap]. change (h_len PHex) with p4_len. set (s := p4_len l). clearbody s. rewrite !E. rewrite <- (Z.mul_1_r s) at 2 4 6. faces6 Hf; reflexivity.
  - destruct v as [|x [|y [|z t]]]; try discriminate H. cbn [hl hx imap]. change (h_len PQuad) with p4_len. set (s := p4_len l). clearbody s. rewrite !E. rewrite <- (Z.mul_1_r s) at 2 4. faces4 Hf; reflexivity.
Qed.
Lemma c_inside_k oct e : length (hx e) = hdim (cclass oct) -> (p4_is_inside_root e = true <-> forall k, 0 <= k < D (cclass oct) -> 0 <= hk e k < 2 ^ 30).
Proof.
  intros H. unfold p4_is_inside_root. rewrite forallb_forall. change P4_ROOT_LEN with (2 ^ 30). split.
  - intros A k Hk. specialize (A (hk e k)). rewrite andb_true_iff, Z.leb_le, Z.ltb_lt in A. apply A. unfold hk, znth. apply nth_In. lia.
  - intros A x Hx. apply (In_nth _ _ 0) in Hx. destruct Hx as (n & Hn & <-). specialize (A (Z.of_nat n) ltac:(lia)). unfold hk, znth in A. rewrite Nat2Z.id in A. lia.
Qed.
Lemma c_inside_eq oct e : h_aligned (cclass oct) e -> p4_is_inside_root e = h_is_inside_root (cclass oct) e.
Proof.
  intros H. apply eq_true_iff_eq. rewrite (@c_inside_k oct e (proj1 (proj2 H))). rewrite (inside_k H). now destruct oct.
Qed.
Lemma c_root_boundary_eq oct e f : hin (cclass oct) e -> 0 <= f < hfaces (cclass oct) -> c_is_root_boundary oct e f = h_is_root_boundary (cclass oct) e f.
Proof.
  intros H Hf. destruct oct; cbn [cclass] in *.
  - destruct (phex_shape H) as (l & x & y & z & ->). cbn [hfaces] in Hf. faces6 Hf; reflexivity.
  - destruct (pquad_shape H) as (l & x & y & ->). cbn [hfaces] in Hf. faces4 Hf; reflexivity.
Qed.

(** ** faces as elements of one dimension less *)
(** the outcome of the extrusion; where its assertion fails the root *)
Definition quad_extrude (l : dline) (root_face : Z) : hcube * Z := match q_extrude_face l root_face with Ok r => r | _ => (c_root false, root_face) end.
Definition hex_extrude (b : hcube) (root_face : Z) : hcube * Z := match o_extrude_face b root_face with Ok r => r | _ => (c_root true, root_face) end.
(** t8_forest.cxx:1515-1519: the face element is transformed in place *)
Definition quad_transform (b : hcube) (orientation : Z) (sign is_smaller : bool) : hcube := match q_transform_face b None orientation sign is_smaller with Ok r => r | _ => b end.
(** t8_eclass.h: T8_ECLASS_QUAD, T8_ECLASS_HEX *)
Definition quad_crossing : crossing (cube_scheme false) := @Crossing (cube_scheme false)
  c_face_neighbour p4_is_inside_root (fun _ face => c_tree_face face) 2
  dline (fun e face => Ok (q_boundary_face e face)) (fun l orientation _ _ => l_transform_face l orientation) quad_extrude.
Definition hex_crossing : crossing (cube_scheme true) := @Crossing (cube_scheme true)
  c_face_neighbour p4_is_inside_root (fun _ face => c_tree_face face) 4
  hcube (fun e face => Ok (o_boundary_face e face)) quad_transform hex_extrude.

(** a line of the default scheme as a line of the standalone scheme *)
Definition cv (l : dline) : hcube := Cube (ll l) [lx l].
Lemma quot_same x a : 0 < a -> Z.quot (x * a) a = x. Proof. intros H. apply Z.quot_mul. lia. Qed.
Lemma q_boundary_eq e f : hin PQuad e -> 0 <= f < 4 -> cv (q_boundary_face e f) = h_boundary_face PQuad e f.
Proof.
  intros H Hf. destruct (pquad_shape H) as (l & x & y & ->). unfold q_boundary_face. change LROOT with P4_ROOT_LEN. rewrite quot_same by reflexivity. unfold cv. cbn [ll lx hl].
  unfold h_boundary_face. cbn [hx hl]. unfold boundary_coords. change (hbits (FC PQuad) - hbits PQuad) with 0. rewrite !Z.shiftl_0_r. faces4 Hf; reflexivity.
Qed.
Lemma q_extrude_eq b rf : hin HLine (cv b) -> 0 <= rf < 4 -> q_extrude_face b rf = Ok (h_extrude_face PQuad (cv b) rf).
Proof.
  intros H Hf. destruct b as [l x]. unfold q_extrude_face. cbn [ll lx]. change LROOT with P4_ROOT_LEN. rewrite quot_same by reflexivity. unfold h_extrude_face, cv. cbn [hl hx ll lx].
  change (hbits (FC PQuad) - hbits PQuad) with 0. change (zseq 0 (hdim PQuad)) with [0; 1]. cbn [map]. rewrite !Z.shiftr_0_r. faces4 Hf; reflexivity.
Qed.
Lemma l_child_cv b j : 0 <= j < 2 -> cv (l_child b j) = h_child HLine (cv b) j.
Proof. intros Hj. destruct b as [l x]. assert (j = 0 \/ j = 1) as [-> | ->] by lia; reflexivity. Qed.
Lemma l_transform_cv b o s m : 0 <= o < 2 -> cv (l_transform_face b o) = h_transform HLine (cv b) o s m.
Proof.
  intros Ho. destruct b as [l x]. unfold l_transform_face, h_transform, h_transform_face, cv. cbn [hl hx ll lx hbits hmax]. destruct (o =? 0); [reflexivity|]. f_equal. f_equal. change (LROOT) with (Z.shiftl 1 30). unfold LLEN, LMAX. change (znth 0 [x] 0) with x. lia.
Qed.
Lemma q_transform_eq b o s m : length (hx b) = 2%nat -> q_transform_face b None o s m = h_transform_face PQuad b o s m.
Proof.
  intros H. destruct b as [l [|x [|y [|z t]]]]; try discriminate H. destruct s; reflexivity.
Qed.
Lemma o_boundary_eq e f : hin PHex e -> 0 <= f < 6 -> o_boundary_face e f = h_boundary_face PHex e f.
Proof.
  intros H Hf. destruct (phex_shape H) as (l & x & y & z & ->). unfold o_boundary_face. change (Z.quot P4_ROOT_LEN P4_ROOT_LEN) with 1. rewrite !Z.mul_1_r.
  unfold h_boundary_face. cbn [hx hl]. unfold boundary_coords. change (hbits (FC PHex) - hbits PHex) with 0. rewrite !Z.shiftl_0_r. faces6 Hf; reflexivity.
Qed.
Lemma o_extrude_eq b rf : hin PQuad b -> 0 <= rf < 6 -> o_extrude_face b rf = Ok (h_extrude_face PHex b rf).
Proof.
  intros H Hf. destruct (pquad_shape H) as (l & x & y & ->). unfold o_extrude_face. cbn [hl]. rewrite !quot_same by reflexivity. unfold h_extrude_face. cbn [hl hx].
  change (hbits (FC PHex) - hbits PHex) with 0. change (zseq 0 (hdim PHex)) with [0; 1; 2]. cbn [map]. rewrite !Z.shiftr_0_r. faces6 Hf; reflexivity.
Qed.
Lemma cv_shape b : hin HLine b -> exists l, cv l = b.
Proof. intros [(_ & H & _) _]. destruct b as [l [|x [|y t]]]; try discriminate H. now exists (Line l x). Qed.
Lemma h_child_hin c e i : hin c e -> hl e < hmax c -> 0 <= i < hchildren c -> hin c (h_child c e i).
Proof.
  intros H HL Hi. apply hin_valid. apply hin_valid in H. destruct H as (p & Hp & ->). exists (p ++ [i]). rewrite (h_walk_level (proj2 Hp)) in HL. split; [apply h_path_snoc; auto|now rewrite h_walk_snoc].
Qed.
Lemma h_nb_aligned' c e f : valid (S := hyper_scheme c) e -> h_aligned c (fst (h_face_neighbour c e f)).
Proof. intros V. apply valid_hin in V. apply h_nb_aligned. apply V. Qed.

Lemma quad_crossing_ok : @crossing_ok (cube_scheme false) (cube_faces false) quad_crossing 4 2 (c_is_root_boundary false)
  (fun b L => hin HLine (cv b) /\ ll b = L) l_child 2.
Proof.
  assert (I := fun e f (_ : valid (S := hyper_scheme (cclass false)) e) (_ : s_level (s := hyper_scheme (cclass false)) e < s_maxlevel (hyper_scheme (cclass false))) Hf => @c_ids_eq false f Hf).
  assert (F1 := fun e f L V (_ : s_level (s := hyper_scheme (cclass false)) e <= L <= s_maxlevel (hyper_scheme (cclass false))) Hf => @c_first_face_eq false e f L (proj1 (@valid_hin _ e) V) Hf).
  assert (F2 := fun e f L V (_ : s_level (s := hyper_scheme (cclass false)) e <= L <= s_maxlevel (hyper_scheme (cclass false))) Hf => @c_last_face_eq false e f L (proj1 (@valid_hin _ e) V) Hf).
  refine (@rp_crossing (hyper_scheme PQuad) 4 (hyper_ulaws PQuad) (c_child false) (c_num_siblings false) (p4_child_id false) (c_is_ancestor false) (c_count_root false) (p4_ancestor_id false)
    (@cube_Hch false) (@cube_Hns false) (@cube_Hcid false) (@cube_Hanc false) (@cube_Hcnt false) (@cube_Haid false) (@cube_Hfam false) (hyper_faces PQuad) (cube_faces false) (hyper_flaws PQuad)
    (fun _ => eq_refl) (fun _ => eq_refl) I (fun _ _ _ _ _ _ => eq_refl) (@cube_Hpf false) (@cube_Hpf0 false) F1 F2 (hyper_crossing PQuad) quad_crossing 4 2 (h_is_root_boundary PQuad) (c_is_root_boundary false)
    (fun b L => hin HLine b /\ hl b = L) (h_child HLine) 2 (hyper_crossing_ok PQuad) cv (fun b L => hin HLine (cv b) /\ ll b = L) l_child _ _ _ _ _ _ _ _ _ eq_refl _ _ _);
    cbn [x_bd x_neighbor x_inside x_tree_face x_eclass x_boundary x_transform x_extrude quad_crossing hyper_crossing].
  - intros b L [H1 H2]. split; [exact H1|exact H2].
  - intros b L [H1 H2]. destruct (cv_shape H1) as (l & <-). exists l. split; [reflexivity|]. split; [exact H1|exact H2].
  - intros [l x] [l' x'] L _ E. injection E as <- <-. reflexivity.
  - intros b L j [H1 H2] HL Hj. rewrite l_child_cv by exact Hj. split; [reflexivity|]. change (L < 29) in HL. split; [|unfold l_child; cbn [ll]; lia]. apply h_child_hin; [exact H1| |exact Hj]. change (ll b < 30). lia.
  - intros e f V Hf. apply c_root_boundary_eq; [now apply valid_hin|exact Hf].
  - intros e f V Hf. apply (@c_neighbour_eq false); [apply valid_hin in V; apply V|exact Hf].
  - intros e V. apply valid_hin in V. apply (@c_inside_k false); apply V.
  - intros e f V Hf. apply (@c_inside_eq false). now apply h_nb_aligned'.
  - reflexivity.
  - intros e f V Hf R. apply valid_hin in V. exists (q_boundary_face e f). rewrite q_boundary_eq by (assumption || exact Hf). split; [reflexivity|]. split; [reflexivity|]. split; [apply (h_boundary_in V Hf)|reflexivity].
  - intros b L o s m [H1 H2] Ho. now apply l_transform_cv.
  - intros b L rf [H1 H2] HL Hr. unfold quad_extrude. now rewrite q_extrude_eq.
Qed.
Lemma hex_crossing_ok : @crossing_ok (cube_scheme true) (cube_faces true) hex_crossing 6 4 (c_is_root_boundary true)
  (fun b L => hin PQuad b /\ hl b = L) (c_child false) 4.
Proof.
  assert (I := fun e f (_ : valid (S := hyper_scheme (cclass true)) e) (_ : s_level (s := hyper_scheme (cclass true)) e < s_maxlevel (hyper_scheme (cclass true))) Hf => @c_ids_eq true f Hf).
  assert (F1 := fun e f L V (_ : s_level (s := hyper_scheme (cclass true)) e <= L <= s_maxlevel (hyper_scheme (cclass true))) Hf => @c_first_face_eq true e f L (proj1 (@valid_hin _ e) V) Hf).
  assert (F2 := fun e f L V (_ : s_level (s := hyper_scheme (cclass true)) e <= L <= s_maxlevel (hyper_scheme (cclass true))) Hf => @c_last_face_eq true e f L (proj1 (@valid_hin _ e) V) Hf).
  refine (@rp_crossing (hyper_scheme PHex) 8 (hyper_ulaws PHex) (c_child true) (c_num_siblings true) (p4_child_id true) (c_is_ancestor true) (c_count_root true) (p4_ancestor_id true)
    (@cube_Hch true) (@cube_Hns true) (@cube_Hcid true) (@cube_Hanc true) (@cube_Hcnt true) (@cube_Haid true) (@cube_Hfam true) (hyper_faces PHex) (cube_faces true) (hyper_flaws PHex)
    (fun _ => eq_refl) (fun _ => eq_refl) I (fun _ _ _ _ _ _ => eq_refl) (@cube_Hpf true) (@cube_Hpf0 true) F1 F2 (hyper_crossing PHex) hex_crossing 6 4 (h_is_root_boundary PHex) (c_is_root_boundary true)
    (fun b L => hin PQuad b /\ hl b = L) (h_child PQuad) 4 (hyper_crossing_ok PHex) (fun b => b) (fun b L => hin PQuad b /\ hl b = L) (c_child false) _ _ _ _ _ _ _ _ _ eq_refl _ _ _);
    cbn [x_bd x_neighbor x_inside x_tree_face x_eclass x_boundary x_transform x_extrude hex_crossing hyper_crossing].
  - intros b L [H1 H2]. split; [exact H1|exact H2].
  - intros b L H. exists b. split; [reflexivity|exact H].
  - intros b b' L _ E. now symmetry.
  - intros b L j [H1 H2] HL Hj. change (L < 18) in HL. assert (E : c_child false b j = h_child PQuad b j) by (apply (@c_child_eq false); [exact H1|change (hl b < 29); lia]). rewrite E. split; [reflexivity|].
    split; [|unfold h_child; cbn [hl]; lia]. apply h_child_hin; [exact H1| |exact Hj]. change (hl b < 29). lia.
  - intros e f V Hf. apply c_root_boundary_eq; [now apply valid_hin|exact Hf].
  - intros e f V Hf. apply (@c_neighbour_eq true); [apply valid_hin in V; apply V|exact Hf].
  - intros e V. apply valid_hin in V. apply (@c_inside_k true); apply V.
  - intros e f V Hf. apply (@c_inside_eq true). now apply h_nb_aligned'.
  - reflexivity.
  - intros e f V Hf R. apply valid_hin in V. exists (o_boundary_face e f). rewrite o_boundary_eq by (assumption || exact Hf). split; [reflexivity|]. split; [reflexivity|]. split; [apply (h_boundary_in V Hf)|reflexivity].
  - intros b L o s m [H1 H2] Ho. unfold quad_transform, h_transform. now rewrite q_transform_eq by apply H1.
  - intros b L rf [H1 H2] HL Hr. unfold hex_extrude. now rewrite o_extrude_eq.
Qed.

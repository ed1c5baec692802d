(** Children of triangles and tetrahedra at a face. *)
From Verif Require Import Prelude PathSpec GeoSpec SimplexModel SimplexSpec BitLemmas SimplexProofs SimplexPathProofs SimplexOrderProofs
  SimplexGeoProofs SimplexAncProofs SimplexTileProofs SimplexFaceProofs.

Definition ubits (tet : bool) (c : Z) : ipt := (Z.b2z (Z.testbit c 0), Z.b2z (Z.testbit c 1), if tet then Z.b2z (Z.testbit c 2) else 0).
Definition sub_ok (tet : bool) (t f i g : Z) : bool :=
  let t' := Tt tet t i in let o := ubits tet (Tc tet t i) in
  forallb (fun v => existsb (fun a => existsb (fun b => ieqb (iadd o (ucoord tet t' v)) (iadd (ucoord tet t a) (ucoord tet t b)))
     (face_corner_numbers tet f)) (face_corner_numbers tet f)) (face_corner_numbers tet g).

Lemma child_anchor tet e i : wf tet e -> lv e < MAXLEVEL tet -> 0 <= i < CHILDREN tet ->
  let c := child tet e i in
  lv c = lv e + 1 /\ ty c = Tt tet (ty e) i /\
  (sx c, sy c, sz c) = scale (LEN tet (lv e + 1)) (sx e, sy e, sz e) (ubits tet (Tc tet (ty e) i)).
Proof.
  intros W Hl Hi. cbn zeta. rewrite child_step by (auto; apply W). split; [reflexivity|]. split; [reflexivity|].
  unfold scale, ubits. cbn [ix iy iz fst snd]. rewrite LEN_pow by lia.
  replace (MAXLEVEL tet - (lv e + 1)) with (MAXLEVEL tet - lv e - 1) by lia.
  rewrite (proj1 (coordfn_x tet)), (proj1 (coordfn_y tet)). f_equal; [f_equal; ring|].
  destruct tet; [rewrite (proj1 coordfn_z); ring|]. cbn. lia.
Qed.

Lemma subface_sub_ok tet e i f g : wf tet e -> lv e < MAXLEVEL tet -> 0 <= i < CHILDREN tet ->
  subface tet e f (child tet e i) g <-> sub_ok tet (ty e) f i g = true.
Proof.
  intros W Hl Hi. destruct (child_anchor W Hl Hi) as (C1 & C2 & C3). cbn zeta in *.
  assert (Ht := wf_ty W). assert (Ht' := tab_Tt_range Ht Hi).
  unfold subface. rewrite (@face_vertices_unit tet e f Ht). rewrite (@face_vertices_unit tet (child tet e i) g) by (now rewrite C2).
  rewrite C1, C2, C3. rewrite (LEN_half Hl). set (h := LEN tet (lv e + 1)). assert (Hh : 0 < h) by (apply LEN_pos; lia). clearbody h.
  assert (M : forall v a b, midpoint (scale h (scale h (sx e, sy e, sz e) (ubits tet (Tc tet (ty e) i))) (ucoord tet (Tt tet (ty e) i) v))
      (scale (2 * h) (sx e, sy e, sz e) (ucoord tet (ty e) a)) (scale (2 * h) (sx e, sy e, sz e) (ucoord tet (ty e) b)) <->
      iadd (ubits tet (Tc tet (ty e) i)) (ucoord tet (Tt tet (ty e) i) v) = iadd (ucoord tet (ty e) a) (ucoord tet (ty e) b)).
  { intros v a b. rewrite scale_scale. set (u1 := iadd (ubits _ _) _). set (ua := ucoord tet (ty e) a). set (ub := ucoord tet (ty e) b).
    clearbody u1 ua ub. destruct u1 as [[x1 y1] z1], ua as [[x2 y2] z2], ub as [[x3 y3] z3]. unfold midpoint, scale, iadd. cbn [ix iy iz fst snd].
    split.
    - intros (E1 & E2 & E3). assert (x1 = x2 + x3) by nia. assert (y1 = y2 + y3) by nia. assert (z1 = z2 + z3) by nia. congruence.
    - intros E. inversion E. subst. repeat split; ring. }
  unfold sub_ok. rewrite forallb_forall. split.
  - intros H v Hv. specialize (H _ (in_map _ _ _ Hv)). destruct H as (a & b & Ha & Hb & Hm).
    apply in_map_iff in Ha, Hb. destruct Ha as (ka & <- & Ha), Hb as (kb & <- & Hb). apply M in Hm.
    apply existsb_exists. exists ka. split; auto. apply existsb_exists. exists kb. split; auto. now apply ieqb_eq.
  - intros H m Hm. apply in_map_iff in Hm. destruct Hm as (v & <- & Hv). specialize (H v Hv). apply existsb_exists in H.
    destruct H as (ka & Ha & H). apply existsb_exists in H. destruct H as (kb & Hb & H). apply ieqb_eq in H. apply M in H.
    eexists _, _. split; [|split; [|exact H]]; apply (in_map (fun v => scale (2 * h) (sx e, sy e, sz e) (ucoord tet (ty e) v))); auto.
Qed.

(** everything about one face of one type, checked on the tables *)
Definition faceids (tet : bool) (t f : Z) : list Z := child_ids_at_face tet (Simp 0 t 0 0 0) f.
Definition fcf (tet : bool) (t f k : Z) : Z := face_child_face tet (Simp 0 t 0 0 0) f k.
Definition range (n : Z) : list Z := zseq 0 (Z.to_nat n).
Definition zmem (x : Z) (l : list Z) : bool := existsb (Z.eqb x) l.
Fixpoint increasing (l : list Z) : bool := match l with a :: ((b :: _) as l') => (a <? b) && increasing l' | _ => true end.
Definition faces_ok (tet : bool) (t f : Z) : bool :=
  let l := faceids tet t f in
  (Z.of_nat (length l) =? FACE_CHILDREN tet) && increasing l && forallb (fun i => (0 <=? i) && (i <? CHILDREN tet)) l &&
  forallb (fun i => Bool.eqb (zmem i l) (existsb (sub_ok tet t f i) (range (FACES tet)))) (range (CHILDREN tet)) &&
  forallb (fun k => forallb (fun g => Bool.eqb (sub_ok tet t f (znth (-1) l k) g) (g =? fcf tet t f k)) (range (FACES tet)))
     (range (FACE_CHILDREN tet)) &&
  forallb (fun k => (0 <=? fcf tet t f k) && (fcf tet t f k <? FACES tet)) (range (FACE_CHILDREN tet)).
Lemma tab_faces tet t f : 0 <= t < NUM_TYPES tet -> 0 <= f < FACES tet -> faces_ok tet t f = true.
Proof.
  intros Ht Hf. assert (all2 (NUM_TYPES tet) (FACES tet) (faces_ok tet) = true) as A by (destruct tet; vm_compute; reflexivity).
  exact (all2_spec A Ht Hf).
Qed.
Lemma faceids_eq tet e f : child_ids_at_face tet e f = faceids tet (ty e) f. Proof. reflexivity. Qed.
Lemma fcf_eq tet e f k : face_child_face tet e f k = fcf tet (ty e) f k. Proof. reflexivity. Qed.
Lemma in_range n x : In x (range n) <-> 0 <= x < n.
Proof. unfold range. rewrite in_zseq. lia. Qed.
Lemma zmem_In x l : zmem x l = true <-> In x l.
Proof. unfold zmem. rewrite existsb_exists. split; [intros (y & Hy & E); now apply Z.eqb_eq in E; subst|]. intros H. exists x. split; auto. apply Z.eqb_refl. Qed.

Lemma znth_In {A} (d : A) l k : 0 <= k < zlen l -> In (znth d l k) l.
Proof. unfold znth, zlen. intros. apply nth_In. lia. Qed.

Lemma children_at_face_ids tet e f : wf tet e -> 0 <= f < FACES tet ->
  zlen (child_ids_at_face tet e f) = FACE_CHILDREN tet /\ increasing (child_ids_at_face tet e f) = true /\
  (forall i, In i (child_ids_at_face tet e f) -> 0 <= i < CHILDREN tet).
Proof.
  intros W Hf. assert (T := tab_faces (wf_ty W) Hf). unfold faces_ok in T. rewrite !andb_true_iff in T. rewrite faceids_eq.
  destruct T as (((((T1 & T2) & T3) & _) & _) & _). repeat split; auto; [unfold zlen; lia| |];
  rewrite forallb_forall in T3; apply T3 in H; lia.
Qed.
Lemma children_at_face_exact tet e f i : wf tet e -> lv e < MAXLEVEL tet -> 0 <= f < FACES tet -> 0 <= i < CHILDREN tet ->
  In i (child_ids_at_face tet e f) <-> exists g, 0 <= g < FACES tet /\ subface tet e f (child tet e i) g.
Proof.
  intros W Hl Hf Hi. assert (T := tab_faces (wf_ty W) Hf). unfold faces_ok in T. rewrite !andb_true_iff in T. rewrite faceids_eq.
  destruct T as (((((T1 & T2) & T3) & T4) & _) & _). rewrite forallb_forall in T4. specialize (T4 i (proj2 (in_range _ _) Hi)).
  apply eqb_prop in T4. rewrite <- zmem_In, T4, existsb_exists. split; intros (g & Hg & Hs); exists g; rewrite in_range in *; split; auto;
    now apply subface_sub_ok.
Qed.
Lemma face_child_face_exact tet e f k g : wf tet e -> lv e < MAXLEVEL tet -> 0 <= f < FACES tet -> 0 <= k < FACE_CHILDREN tet -> 0 <= g < FACES tet ->
  0 <= face_child_face tet e f k < FACES tet /\
  (subface tet e f (child tet e (znth (-1) (child_ids_at_face tet e f) k)) g <-> g = face_child_face tet e f k).
Proof.
  intros W Hl Hf Hk Hg. assert (T := tab_faces (wf_ty W) Hf). unfold faces_ok in T. rewrite !andb_true_iff in T. rewrite faceids_eq, fcf_eq.
  destruct T as (((((T1 & T2) & T3) & T4) & T5) & T6). rewrite forallb_forall in T5, T6. specialize (T5 k (proj2 (in_range _ _) Hk)).
  specialize (T6 k (proj2 (in_range _ _) Hk)). rewrite forallb_forall in T5. specialize (T5 g (proj2 (in_range _ _) Hg)). apply eqb_prop in T5.
  split; [lia|]. rewrite subface_sub_ok; auto; [|].
  - rewrite T5. apply Z.eqb_eq.
  - destruct (children_at_face_ids W Hf) as (L & _ & R). apply R. rewrite faceids_eq. apply znth_In. rewrite faceids_eq in L. unfold zlen in L. unfold zlen. lia.
Qed.

(** face of the parent *)
Definition fpf_ok (tet : bool) (t i : Z) : bool :=
  forallb (fun g => let cid := Tc tet t i in let c := Simp 1 (Tt tet t i) 0 0 0 in
    let pf := (let parent_type := t in let child_id := type_cid_to_beyid tet (ty c) cid in
      if tet then
        if (parent_type =? ty c) && negb (g =? child_id) then g
        else if parent_type_type_to_face parent_type (ty c) =? g then
          (if (g =? 1) || (g =? 2) then Z.lxor g 3 else g)
        else -1
      else if negb (parent_type =? ty c) then -1
      else if negb (g =? child_id) then g else -1) in
    if existsb (fun f => sub_ok tet t f i g) (range (FACES tet))
    then sub_ok tet t pf i g && (0 <=? pf) && (pf <? FACES tet) && forallb (fun f => Bool.eqb (sub_ok tet t f i g) (f =? pf)) (range (FACES tet))
    else pf =? -1) (range (FACES tet)).
Lemma tab_fpf tet t i : 0 <= t < NUM_TYPES tet -> 0 <= i < CHILDREN tet -> fpf_ok tet t i = true.
Proof.
  intros Ht Hi. assert (all2 (NUM_TYPES tet) (CHILDREN tet) (fpf_ok tet) = true) as A by (destruct tet; vm_compute; reflexivity).
  exact (all2_spec A Ht Hi).
Qed.
Lemma face_parent_face_exact tet e i g : wf tet e -> lv e < MAXLEVEL tet -> 0 <= i < CHILDREN tet -> 0 <= g < FACES tet ->
  let pf := face_parent_face tet (child tet e i) g in
  (forall f, 0 <= f < FACES tet -> subface tet e f (child tet e i) g <-> f = pf) /\
  ((forall f, 0 <= f < FACES tet -> ~ subface tet e f (child tet e i) g) -> pf = -1) /\
  (pf = -1 \/ 0 <= pf < FACES tet).
Proof.
  intros W Hl Hi Hg. assert (Ht := wf_ty W). assert (T := tab_fpf Ht Hi). unfold fpf_ok in T. rewrite forallb_forall in T.
  specialize (T g (proj2 (in_range _ _) Hg)). cbn zeta in T. cbn [ty] in T.
  assert (Hcid : compute_cubeid tet (child tet e i) (lv e + 1) = Tc tet (ty e) i).
  { rewrite child_step by auto. apply cubeid_step_same; auto. now apply tab_Tc_range. }
  destruct (child_anchor W Hl Hi) as (C1 & C2 & _). cbn zeta in C1, C2.
  unfold face_parent_face. assert (H0 := wf_lv W). rewrite C1. destruct (Z.eqb_spec (lv e + 1) 0); [lia|]. rewrite Hcid, C2.
  rewrite tab_Pt_Tc by auto. cbn zeta.
  match goal with |- context [if tet then ?a else ?b] => set (pf := if tet then a else b) in * end.
  destruct (existsb (fun f => sub_ok tet (ty e) f i g) (range (FACES tet))) eqn:E.
  - rewrite !andb_true_iff in T. destruct T as (((T1 & T2) & T3) & T4). rewrite forallb_forall in T4. split; [|split].
    + intros f Hf. rewrite subface_sub_ok by auto. specialize (T4 f (proj2 (in_range _ _) Hf)). apply eqb_prop in T4. rewrite T4. apply Z.eqb_eq.
    + intros H. exfalso. apply (H pf); [lia|]. now apply subface_sub_ok.
    + right. lia.
  - split; [|split; [lia|left; lia]]. intros f Hf. rewrite subface_sub_ok by auto. split; [|lia]. intros S. exfalso.
    assert (existsb (fun f => sub_ok tet (ty e) f i g) (range (FACES tet)) = true) by (apply existsb_exists; exists f; split; auto; now apply in_range). congruence.
Qed.

(** ** root faces *)
Lemma root_face_iff tet e f rf : aligned tet e -> is_inside_root tet e = true -> 0 <= f < FACES tet -> 0 <= rf < FACES tet ->
  (forall v, In v (face_vertices tet e f) -> on_root_plane tet rf v) <-> (is_root_boundary tet e f = true /\ rf = tree_face tet e f).
Proof.
  intros A HI Hf Hr. assert (HL := ag_lv A). assert (Ht := ag_ty A). assert (Hh := @LEN_pos tet (lv e) ltac:(lia)).
  assert (Z0 := ag_z0 A). rewrite (@face_vertices_unit tet e f Ht). unfold is_root_boundary, tree_face.
  assert (I : 0 <= sx e /\ sx e + LEN tet (lv e) <= ROOT_LEN tet /\ 0 <= sy e /\ 0 <= sz e /\ sz e <= sx e /\ sy e <= sx e /\
    (tet = true -> sy e <= sz e /\ (sz e = sx e -> ty e < 3) /\ (sy e = sz e -> ty e = 0 \/ 4 <= ty e) /\ (sx e = sy e -> ty e = 0)) /\
    (tet = false -> sx e = sy e -> ty e = 0)).
  { apply (is_inside_root_iff A) in HI. destruct HI as [W [I1 I2 I3 I4 I5 I6]]. cbn [init_root lv ty sx sy sz] in *. rewrite ?Z.sub_0_r in *.
    assert (sx e + LEN tet (lv e) <= ROOT_LEN tet).
    { rewrite ROOT_pow, LEN_pow by lia. apply al_gap; try lia; try apply A. apply al_pow. lia. }
    destruct tet.
    - specialize (I3 eq_refl). specialize (I5 eq_refl). specialize (I6 eq_refl). cbn [NUM_TYPES] in Ht.
      unfold rel, gxy, gxz, gyz in *. cbn [Z.eqb orb] in I4, I5, I6.
      repeat split; try discriminate; lia.
    - specialize (Z0 eq_refl). unfold rel, gxy in I4. cbn [Z.eqb] in I4. repeat split; try discriminate; lia. }
  clear HI A. destruct e as [l t x y z]. cbn [lv ty sx sy sz] in *.
  assert (HR := eq_refl (ROOT_LEN tet)). revert HR. generalize (ROOT_LEN tet) at 1 as R.
  unfold on_root_plane. set (RR := ROOT_LEN tet) in *. set (h := LEN tet l) in *. clearbody RR h. intros R _.
  assert (FA : forall (Q : ipt -> Prop) (g : Z -> ipt) l, (forall v, In v (map g l) -> Q v) <-> Forall (fun i => Q (g i)) l).
  { intros Q g ll. rewrite Forall_forall. split; [intros H i Hi; apply H, in_map, Hi|]. intros H v Hv. apply in_map_iff in Hv.
    destruct Hv as (i & <- & Hi). auto. }
  rewrite FA. destruct I as (J1 & J2 & J3 & J4 & J5 & J6 & J7 & J8).
  destruct tet; [specialize (J7 eq_refl); destruct J7 as (K1 & K2 & K3 & K4); clear J8|specialize (J8 eq_refl); specialize (Z0 eq_refl); subst z; clear J7];
    cbn [NUM_TYPES FACES] in *; split_range Ht; split_range Hf; split_range Hr;
    match goal with |- context [Forall _ ?l] => let v := eval vm_compute in l in change l with v end;
    rewrite ?Forall_cons_iff, ?Forall_nil_iff; unfold scale; cbn [ix iy iz fst snd];
    repeat match goal with |- context [?f (ucoord ?b ?t ?v)] => let w := eval vm_compute in (f (ucoord b t v)) in change (f (ucoord b t v)) with w end;
    repeat match goal with |- context [tab1 ?a ?b] => let w := eval vm_compute in (tab1 a b) in change (tab1 a b) with w end; cbn [Z.eqb Pos.eqb andb]; rewrite ?Z.mul_0_r, ?Z.mul_1_r, ?Z.add_0_r, ?Z.eqb_eq;
    split; intros HH; repeat split; lia.
Qed.

(** the planes are those of the root's faces: exactly the vertices of face rf of the root lie on plane rf *)
Lemma on_root_plane_root tet v rf : 0 <= v < CORNERS tet -> 0 <= rf < FACES tet ->
  on_root_plane tet rf (compute_integer_coords tet init_root v) <-> v <> rf.
Proof.
  intros Hv Hr. destruct tet; cbn [CORNERS FACES] in *; split_range Hv; split_range Hr; vm_compute; split; congruence.
Qed.

Lemma root_face_to_face_inv tet e f : aligned tet e -> is_inside_root tet e = true -> 0 <= f < FACES tet ->
  is_root_boundary tet e f = true -> root_face_to_face tet e (tree_face tet e f) = f.
Proof.
  intros A HI Hf HB. assert (Ht := ag_ty A). unfold is_root_boundary, root_face_to_face, tree_face in *.
  destruct tet; [|reflexivity]. destruct e as [l t x y z]. cbn [ty NUM_TYPES FACES] in *.
  split_range Ht; split_range Hf; cbn -[Z.sub] in HB; try discriminate; vm_compute; reflexivity.
Qed.

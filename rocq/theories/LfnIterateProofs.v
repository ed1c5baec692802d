(** t8_forest_iterate_faces, with the callback that collects leaves, finds the leaves at a face. *)
From Coq Require Import Sorting.Sorted.
From Verif Require Import Prelude PathSpec SchemeModel SchemeSpec SchemeProofs SchemeOrderProofs LeafModel LeafSpec LeafProofs SearchModel SplitProofs SearchProofs SearchMainProofs.
From Verif Require Import OwnerModel FaceModel FaceSpec FaceProofs LfnModel.
Set Implicit Arguments.

Section iterate.
Variable cls : Z -> scheme.
Variable t : Z.
Notation S := (cls t).
Notation elt := (elt S).
Notation M := (s_maxlevel S).
Notation el e := (existT (fun t => SchemeModel.elt (cls t)) t e).
Hypothesis LW : laws S.
Variable F : faces S.
Hypothesis FL : flaws F.
Variable dbg : bool.
Variable all : list elt.
Hypothesis OA : ordered all.
Variable offset : Z.
Implicit Types (e x c : elt) (leaves pre post : list elt) (f g i : Z).
Notation found := (found cls).
Notation cb := (lfn_cb (cls := cls) dbg (t := t) all offset).

Lemma only_leaf e leaves : ordered leaves -> Forall (below e) leaves -> In e leaves -> leaves = [e].
Proof.
  intros O B I. rewrite Forall_forall in B. assert (Ve : valid e) by apply (below_valid (B e I)). destruct (In_nth_error _ _ I) as (k & Ek).
  assert (Q : forall j x, nth_error leaves j = Some x -> j = k).
  { intros j x Ej. assert (Bx := B x (nth_error_In _ _ Ej)). destruct (below_not_before LW Bx) as [N1 N2]. destruct (Nat.lt_trichotomy j k) as [C|[C|C]]; [|exact C|]; exfalso.
    - apply N2. exact (sorted_before LW O Ej Ek C).
    - apply N1. exact (sorted_before LW O Ek Ej C). }
  destruct leaves as [|a [|b l]]; [destruct I|destruct I as [->|[]]; reflexivity|]. pose proof (Q 0%nat a eq_refl). pose proof (Q 1%nat b eq_refl). lia.
Qed.
Lemma nth_order leaves k k' x y : ordered leaves -> nth_error leaves k = Some x -> nth_error leaves k' = Some y -> before x y -> (k < k')%nat.
Proof.
  intros O Ex Ey B. assert (Vx := nth_valid O Ex). assert (Vy := nth_valid O Ey). pose proof (lo_hi LW Vx) as Lx. pose proof (lo_hi LW Vy) as Ly.
  destruct (Nat.lt_trichotomy k k') as [C|[C|C]]; [exact C| |]; exfalso.
  - rewrite <- C, Ex in Ey. injection Ey as ->. unfold before in B. lia.
  - assert (B' := sorted_before LW O Ey Ex C). unfold before in *. lia.
Qed.

(** the leaves among [leaves] at the face f of e, with their faces and indices *)
Definition collects e f leaves first (r : found) : Prop := StronglySorted Z.lt (map snd r) /\
  forall y g i, In (y, g, i) r <-> exists x k, y = el x /\ nth_error leaves k = Some x /\ i = offset + first + Z.of_nat k /\
    In (x, g) (face_descend F (Z.to_nat (s_level x - s_level e)) e f).

Section loop.
Variables (rec : elt -> Z -> list elt -> Z -> found -> outcome found) (e : elt) (f : Z) (leaves : list elt) (first : Z) (offs : list Z).
Hypothesis Ve : valid e.
Hypothesis Le : s_level e < M.
Hypothesis Hf : is_face F e f.
Hypothesis OL : ordered leaves.
Hypothesis BL : Forall (below e) leaves.
Hypothesis NE : ~ In e leaves.
Hypothesis HO : SplitProofs.offsets_ok (anc e leaves) (s_num_children e) (zlen leaves) offs.
Hypothesis HR : forall i g pre por post st, 0 <= i < s_num_children e -> is_face F (s_child e i) g -> leaves = pre ++ por ++ post -> Forall (below (s_child e i)) por ->
  Forall (fun x => ~ below (s_child e i) x) (pre ++ post) -> exists r, rec (s_child e i) g por (zlen pre + first) st = Ok (st ++ r) /\ collects (s_child e i) g por (zlen pre + first) r.
Lemma loop_ok : forall ids done st, f_child_ids F e f = done ++ ids ->
  exists r, faces_loop F rec e f leaves first offs (zlen done) ids st = Ok (st ++ r) /\ StronglySorted Z.lt (map snd r) /\
  forall y g i, In (y, g, i) r <-> exists x k p id, y = el x /\ nth_error leaves k = Some x /\ i = offset + first + Z.of_nat k /\ nth_error ids p = Some id /\
    below (s_child e id) x /\ In (x, g) (face_descend F (Z.to_nat (s_level x - s_level (s_child e id))) (s_child e id) (f_child_face F e f (zlen done + Z.of_nat p))).
Proof.
  destruct (fl_ids FL Ve Le Hf) as (_ & SI & RI).
  induction ids as [|id ids IH]; intros done st ED; cbn [faces_loop].
  - exists []. rewrite app_nil_r. split; [reflexivity|]. split; [constructor|]. intros y g i. split; [intros []|]. intros (x & k & p & id & _ & _ & _ & H & _). now destruct p.
  - assert (Hid : 0 <= id < s_num_children e). { rewrite Forall_forall in RI. apply RI. rewrite ED. apply in_or_app. right. now left. }
    assert (Hg : is_face F (s_child e id) (f_child_face F e f (zlen done))).
    { apply (fl_child_face FL Ve Le Hf). apply in_face_children. exists (length done), id. split; [|split; reflexivity]. rewrite ED, nth_error_app2, Nat.sub_diag by lia. reflexivity. }
    destruct HO as [LO KO]. pose proof (valid_nchild LW Ve) as NC.
    destruct (nth_error offs (Z.to_nat id)) as [a|] eqn:Ea; [|apply nth_error_None in Ea; unfold zlen in LO; lia].
    destruct (nth_error offs (Z.to_nat (id + 1))) as [b|] eqn:Eb; [|apply nth_error_None in Eb; unfold zlen in LO; lia].
    destruct (portion_spec LW Ve OL BL NE HO Hid Ea Eb) as (Ra & Rb & pre & post & EL & Za & BP & NP).
    set (por := firstn (Z.to_nat (b - a)) (skipn (Z.to_nat a) leaves)) in *.
    assert (ED' : f_child_ids F e f = (done ++ [id]) ++ ids) by (rewrite ED, <- app_assoc; reflexivity).
    assert (ZD : zlen (done ++ [id]) = zlen done + 1) by (rewrite zlen_app; reflexivity).
    assert (SEP : forall k x p id' k' x', nth_error leaves k = Some x -> below (s_child e id) x -> nth_error ids p = Some id' -> nth_error leaves k' = Some x' -> below (s_child e id') x' -> (k < k')%nat).
    { intros k x p id' k' x' Ex Bx Ep Ex' Bx'. apply (nth_order (x := x) (y := x') OL Ex Ex'). assert (Hlt : id < id').
      { rewrite ED in SI. apply sorted_app in SI. destruct SI as (_ & SI & _). apply StronglySorted_inv in SI. destruct SI as [_ FA]. rewrite Forall_forall in FA. apply FA. exact (nth_error_In _ _ Ep). }
      assert (Hid' : 0 <= id' < s_num_children e). { rewrite Forall_forall in RI. apply RI. rewrite ED. apply in_or_app. right. right. exact (nth_error_In _ _ Ep). }
      assert (SB := sibling_before LW Ve Le (i := id) (j := id') ltac:(lia) ltac:(lia)). pose proof (below_nested LW Bx). pose proof (below_nested LW Bx'). unfold before in *. lia. }
    destruct (Z.ltb_spec a b) as [C|C].
    + destruct (Z.ltb_spec (zlen leaves) b) as [C'|_]; [lia|]. destruct (HR st Hid Hg EL BP NP) as (r1 & E1 & S1 & Q1). rewrite Za in E1, Q1. rewrite E1. cbn [obind].
      rewrite <- ZD. destruct (IH (done ++ [id]) (st ++ r1) ED') as (r2 & E2 & S2 & Q2). rewrite E2. exists (r1 ++ r2). rewrite app_assoc. split; [reflexivity|].
      assert (N1 : forall k x, nth_error por k = Some x -> nth_error leaves (Z.to_nat a + k) = Some x /\ below (s_child e id) x).
      { intros k x E. split; [|rewrite Forall_forall in BP; exact (BP x (nth_error_In _ _ E))]. rewrite EL, nth_error_app2 by (unfold zlen in Za; lia).
        replace (Z.to_nat a + k - length pre)%nat with k by (unfold zlen in Za; lia). rewrite nth_error_app1; [exact E|]. apply nth_error_Some. congruence. }
      split.
      * rewrite map_app. apply sorted_app. split; [exact S1|]. split; [exact S2|]. intros u v Hu Hv. apply in_map_iff in Hu, Hv. destruct Hu as ([[y g] i] & <- & Hu). destruct Hv as ([[y' g'] i'] & <- & Hv). cbn [snd].
        apply Q1 in Hu. apply Q2 in Hv. destruct Hu as (x & k & _ & Ex & -> & _). destruct Hv as (x' & k' & p & id' & _ & Ex' & -> & Ep & Bx' & _).
        destruct (N1 _ _ Ex) as [Ex1 Bx1]. pose proof (SEP _ _ _ _ _ _ Ex1 Bx1 Ep Ex' Bx'). lia.
      * intros y g i. rewrite in_app_iff, Q1, Q2. split.
        -- intros [(x & k & A1 & A2 & A3 & A4)|(x & k & p & id' & A1 & A2 & A3 & A4 & A5 & A6)].
           ++ destruct (N1 _ _ A2) as [B1 B2]. exists x, (Z.to_nat a + k)%nat, O, id. split; [exact A1|]. split; [exact B1|]. split; [lia|]. split; [reflexivity|]. split; [exact B2|].
              replace (zlen done + Z.of_nat 0) with (zlen done) by lia. exact A4.
           ++ exists x, k, (Datatypes.S p), id'. rewrite ZD in A6. replace (zlen done + Z.of_nat (Datatypes.S p)) with (zlen done + 1 + Z.of_nat p) by lia. auto 7.
        -- intros (x & k & [|p] & id' & A1 & A2 & A3 & A4 & A5 & A6).
           ++ injection A4 as <-. replace (zlen done + Z.of_nat 0) with (zlen done) in A6 by lia. left. exists x, (k - Z.to_nat a)%nat.
              assert (HK : (length pre <= k < length pre + length por)%nat).
              { destruct (Nat.lt_ge_cases k (length pre)) as [H|H].
                - exfalso. rewrite EL, nth_error_app1 in A2 by exact H. rewrite Forall_forall in NP. apply (NP x); [|exact A5]. apply in_or_app. left. exact (nth_error_In _ _ A2).
                - split; [exact H|]. destruct (Nat.lt_ge_cases k (length pre + length por)) as [H'|H']; [exact H'|]. exfalso. rewrite EL, nth_error_app2, nth_error_app2 in A2 by lia.
                  rewrite Forall_forall in NP. apply (NP x); [|exact A5]. apply in_or_app. right. exact (nth_error_In _ _ A2). }
              split; [exact A1|]. split.
              { rewrite EL, nth_error_app2, nth_error_app1 in A2 by lia. replace (k - Z.to_nat a)%nat with (k - length pre)%nat by (unfold zlen in Za; lia). exact A2. }
              split; [unfold zlen in Za; lia|exact A6].
           ++ right. exists x, k, p, id'. rewrite ZD. replace (zlen done + 1 + Z.of_nat p) with (zlen done + Z.of_nat (Datatypes.S p)) by lia. auto 7.
    + rewrite <- ZD. destruct (IH (done ++ [id]) st ED') as (r2 & E2 & S2 & Q2). rewrite E2. exists r2. split; [reflexivity|]. split; [exact S2|]. intros y g i. rewrite Q2. split.
      * intros (x & k & p & id' & A1 & A2 & A3 & A4 & A5 & A6). exists x, k, (Datatypes.S p), id'. rewrite ZD in A6. replace (zlen done + Z.of_nat (Datatypes.S p)) with (zlen done + 1 + Z.of_nat p) by lia. auto 7.
      * intros (x & k & [|p] & id' & A1 & A2 & A3 & A4 & A5 & A6).
        -- exfalso. injection A4 as <-. assert (por = []) as EP. { unfold por. replace (Z.to_nat (b - a)) with O by lia. reflexivity. } rewrite EP in EL. cbn [app] in EL. rewrite Forall_forall in NP. apply (NP x); [|exact A5].
           rewrite <- EL. exact (nth_error_In _ _ A2).
        -- exists x, k, p, id'. rewrite ZD. replace (zlen done + 1 + Z.of_nat p) with (zlen done + Z.of_nat (Datatypes.S p)) by lia. auto 7.
Qed.
End loop.

Lemma iterate_ok fuel : forall e f leaves first st pre post, all = pre ++ leaves ++ post -> zlen pre = first -> valid e -> is_face F e f -> Forall (below e) leaves ->
  Forall (fun x => ~ below e x) (pre ++ post) -> M - s_level e < Z.of_nat fuel ->
  exists r, iterate_faces F dbg all cb fuel e f leaves first st = Ok (st ++ r) /\ collects e f leaves first r.
Proof.
  induction fuel as [|fuel IH]; intros e f leaves first st pre post EA Zp V Hf B N HF; [pose proof (valid_level LW V); lia|]. cbn [iterate_faces].
  destruct leaves as [|l0 ls] eqn:EL.
  { exists []. rewrite app_nil_r. split; [reflexivity|]. split; [constructor|]. intros y g i. split; [intros []|]. intros (x & k & _ & H & _). now destruct k. }
  rewrite <- EL in *. assert (HL0 : leaves = l0 :: ls) by exact EL. clear EL. assert (OL : ordered leaves). { rewrite EA in OA. exact (infix_ordered LW OA). }
  assert (NA : all <> []). { rewrite EA, HL0. destruct pre; discriminate. }
  assert (IA : forall x, In x leaves -> In x all) by (intros x Hx; rewrite EA; apply in_or_app; right; apply in_or_app; now left).
  assert (IE : In e all -> In e leaves).
  { rewrite EA. intros H. apply in_app_or in H. destruct H as [H|H]; [exfalso|apply in_app_or in H; destruct H as [H|H]; [exact H|exfalso]]; rewrite Forall_forall in N; apply (N e); try (now apply below_refl); apply in_or_app; auto. }
  destruct (find_spec LW OA NA V) as (q & Eq & Hq). unfold element_is_leaf at 1. rewrite Eq. cbn [obind].
  destruct Hq as [[-> NI]|[Hq0 Hq1]].
  - change (0 <=? -1) with false. cbn [negb]. rewrite andb_true_r.
    assert (NL : ~ In e leaves) by (intros H; apply NI, IA, H).
    assert (CK : leaves_check all e leaves = Ok true).
    { unfold leaves_check. rewrite HL0 at 1. assert (I0 : In l0 leaves) by (rewrite HL0; now left). assert (B0 : below e l0) by (rewrite Forall_forall in B; auto). destruct (below_valid B0) as [_ V0].
      destruct (find_spec LW OA NA V0) as (j & Ej & Hj). unfold element_is_leaf. rewrite Ej. cbn [obind]. destruct Hj as [[_ Hj]|[Hj _]]; [exfalso; apply Hj, IA, I0|]. rewrite (proj2 (Z.leb_le 0 j) Hj).
      assert (L0 : s_level e < s_level l0). { destruct (below_level LW B0) as [A1 A2]. destruct (Z.eq_dec (s_level e) (s_level l0)) as [Q|Q]; [exfalso; apply NL; rewrite (A2 Q); exact I0|lia]. }
      rewrite (proj2 (Z.ltb_lt _ _) L0). cbn [andb]. f_equal. apply forallb_forall. intros x Hx. rewrite Forall_forall in B. assert (Bx := B x Hx). apply (is_ancestor_below LW V); [apply (below_valid Bx)|exact Bx]. }
    replace (if dbg then leaves_check all e leaves else Ok true) with (Ok true : outcome bool) by (rewrite CK; now destruct dbg). cbn [obind negb orb lfn_cb].
    destruct (split_array_spec LW V OL B NL) as (offs & Eo & Ho). rewrite Eo. cbn [obind].
    assert (Le : s_level e < M). { assert (I0 : In l0 leaves) by (rewrite HL0; now left). rewrite Forall_forall in B. apply (proper_child LW (B l0 I0)). intros ->. contradiction. }
    destruct (@loop_ok (iterate_faces F dbg all cb fuel) e f leaves first offs V Le Hf OL B NL Ho) with (ids := f_child_ids F e f) (done := @nil Z) (st := st) as (r & Er & Sr & Qr); [|reflexivity|].
    { intros i g pre' por post' st' Hi Hg EL BP NP. destruct (valid_child LW V Le Hi) as (Vc & Lc & _). apply IH with (pre := pre ++ pre') (post := post' ++ post); auto.
      - rewrite EA, EL, <- !app_assoc. reflexivity.
      - rewrite zlen_app. lia.
      - rewrite <- app_assoc, Forall_app. rewrite Forall_app in N, NP. destruct N as [Na Nb]. destruct NP as [Pa Pb].
        assert (BC := below_child LW V Le Hi). assert (UP : forall x, ~ below e x -> ~ below (s_child e i) x) by (intros x H H'; apply H; exact (below_trans LW BC H')).
        split; [exact (Forall_impl _ UP Na)|]. apply Forall_app. split; [exact Pa|]. apply Forall_app. split; [exact Pb|exact (Forall_impl _ UP Nb)].
      - lia. }
    change (zlen (@nil Z)) with 0 in Er. exists r. split; [exact Er|]. split; [exact Sr|]. intros y g i. rewrite Qr. change (zlen (@nil Z)) with 0. split.
    + intros (x & k & p & id & A1 & A2 & A3 & A4 & A5 & A6). exists x, k. split; [exact A1|]. split; [exact A2|]. split; [exact A3|].
      destruct (fl_ids FL V Le Hf) as (_ & _ & RI). rewrite Forall_forall in RI. destruct (valid_child LW V Le (RI id (nth_error_In _ _ A4))) as (Vc & Lc & _). pose proof (proj1 (below_level LW A5)).
      replace (Z.to_nat (s_level x - s_level e)) with (Datatypes.S (Z.to_nat (s_level x - s_level (s_child e id)))) by lia. cbn [face_descend]. apply in_flat_map. exists (s_child e id, f_child_face F e f (0 + Z.of_nat p)).
      split; [|exact A6]. apply in_face_children. exists p, id. split; [exact A4|]. split; reflexivity.
    + intros (x & k & A1 & A2 & A3 & A4). assert (Bx : below e x) by (rewrite Forall_forall in B; exact (B x (nth_error_In _ _ A2))).
      assert (Lx : s_level e < s_level x). { destruct (below_level LW Bx) as [Q1 Q2]. destruct (Z.eq_dec (s_level e) (s_level x)) as [Q|Q]; [exfalso; apply NL; rewrite (Q2 Q); exact (nth_error_In _ _ A2)|lia]. }
      replace (Z.to_nat (s_level x - s_level e)) with (Datatypes.S (Z.to_nat (s_level x - s_level e - 1))) in A4 by lia. cbn [face_descend] in A4. apply in_flat_map in A4. destruct A4 as ([c h] & Ic & A4). cbn [fst snd] in A4.
      destruct (face_child LW FL V Le Hf Ic) as (Vc & Lc & _ & Hh & _). apply in_face_children in Ic. destruct Ic as (p & id & Ep & -> & ->). exists x, k, p, id.
      split; [exact A1|]. split; [exact A2|]. split; [exact A3|]. split; [exact Ep|]. pose proof (valid_level LW (nth_valid OL A2)).
      destruct (face_descend_in LW FL Vc (ltac:(lia) : s_level (s_child e id) + Z.of_nat (Z.to_nat (s_level x - s_level e - 1)) <= M) Hh A4) as (_ & _ & BB & _). split; [exact BB|].
      replace (0 + Z.of_nat p) with (Z.of_nat p) by lia. replace (s_level x - s_level (s_child e id)) with (s_level x - s_level e - 1) by lia. exact A4.
  - rewrite (proj2 (Z.leb_le 0 q) Hq0). cbn [negb]. rewrite andb_false_r. cbn [obind negb orb]. assert (I := IE (nth_error_In _ _ Hq1)). assert (EL := only_leaf OL B I).
    unfold lfn_cb at 1. cbn [negb]. unfold element_is_leaf. rewrite Eq. cbn [obind]. rewrite (proj2 (Z.leb_le 0 q) Hq0). replace (if dbg then Ok true else Ok true) with (Ok true : outcome bool) by (now destruct dbg). cbn [obind negb].
    rewrite (proj2 (Z.ltb_ge first 0)) by (unfold zlen in Zp; lia). assert (EN : nth_error all (Z.to_nat first) = Some e).
    { rewrite EA, EL. cbn [app]. rewrite nth_error_app2 by (unfold zlen in Zp; lia). replace (Z.to_nat first - length pre)%nat with O by (unfold zlen in Zp; lia). reflexivity. }
    rewrite EN. cbn [obind]. exists [(el e, f, offset + first)]. split; [reflexivity|]. split; [cbn [map snd]; repeat constructor|]. intros y g i. split.
    + intros [H|[]]. injection H as <- <- <-. exists e, O. split; [reflexivity|]. split; [rewrite EL; reflexivity|]. split; [lia|]. rewrite Z.sub_diag. cbn [Z.to_nat face_descend]. now left.
    + intros (x & k & -> & A2 & -> & A4). rewrite EL in A2. destruct k as [|k]; [|destruct k; discriminate]. cbn [nth_error] in A2. injection A2 as <-. rewrite Z.sub_diag in A4. cbn [Z.to_nat face_descend] in A4. destruct A4 as [A4|[]]. injection A4 as <-. left. f_equal. lia.
Qed.
End iterate.

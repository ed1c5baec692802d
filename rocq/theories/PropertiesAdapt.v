(** Properties C18-C20: one adaptation step.  Vocabulary: SchemeSpec.v (leaves, regions), AdaptSpec.v (what a step has to do).
    The theorems hold for every scheme that satisfies [laws] (SchemeSpec.v); SchemeInstances.v proves the laws for the vertex, line,
    triangle and tetrahedron schemes. *)
From Verif Require Import Prelude PathSpec LineModel SimplexModel VertexModel SchemeModel SchemeSpec SchemeProofs SchemeOrderProofs SchemeInstances.
From Verif Require Import AdaptModel AdaptSpec AdaptFamilyProofs AdaptProofs AdaptMainProofs.

(** C18: for every callback, with or without recursion, with or without removal: the new leaves are ordered and do not overlap; in a
    tree with holes each of them is an ancestor or a descendant of an old leaf *)
Theorem C18_adapt_ordered : forall (S : scheme) (St : Type) cb (A : aenv) ltree fuel (st st' : St) (from new : list (elt S)) rem0 rem,
  laws S -> a_maxlevel A <= s_maxlevel S -> leaves_ok A from -> Forall (fun x => s_level x <= a_maxlevel A) from ->
  adapt_tree cb A fuel st ltree from rem0 = Ok (st', new, rem) ->
  ordered new /\ (a_incomplete A = true -> Forall (fun x => exists y, In y from /\ (below x y \/ below y x)) new).
Proof.
  intros S St cb A ltree fuel st st' from new rem0 rem LW HM HO HL H. destruct (adapt_tree_inv LW HM HO HL H) as (H1 & _ & _ & H2 & _). exact (conj H1 H2).
Qed.
Print Assumptions C18_adapt_ordered.

(** C18: without removal the new leaves cover the region of the old ones: exactly in a tree without holes; in a tree with holes at
    least, because an incomplete family is replaced by its whole parent.  In recursive mode the callback must not ask to refine an
    element of the maximum level (see the refutation below). *)
Theorem C18_adapt_preserves_domain : forall (S : scheme) (St : Type) cb (A : aenv) ltree fuel (st st' : St) (from new : list (elt S)) rem0 rem,
  laws S -> a_maxlevel A <= s_maxlevel S -> leaves_ok A from -> Forall (fun x => s_level x <= a_maxlevel A) from ->
  cb_keeps cb -> (a_recursive A = true -> cb_respects_maxlevel cb A) ->
  adapt_tree cb A fuel st ltree from rem0 = Ok (st', new, rem) ->
  rem = rem0 /\ incl (region from) (region new) /\ (a_incomplete A = false -> region new = region from /\ contiguous new).
Proof.
  intros S St cb A ltree fuel st st' from new rem0 rem LW HM HO HL CK ND H. destruct (adapt_tree_inv LW HM HO HL H) as (H1 & _ & _ & _ & H2).
  destruct (H2 CK ND) as (H3 & H4 & H5). split; [exact H3|]. split; [exact H4|]. intros C. split; [exact (H5 C)|].
  unfold leaves_ok in HO. rewrite C in HO. exact (contiguous_region HO (ordered_valid H1) (H5 C)).
Qed.
Print Assumptions C18_adapt_preserves_domain.

(** C18: the step ends (for every callback that returns -2, -1, 0 or 1, and -1 only for families); it aborts only if all elements of
    the tree were removed, so it never aborts if the callback removes nothing *)
Theorem C18_adapt_ends : forall (S : scheme) (St : Type) cb (A : aenv) ltree (st : St) (from : list (elt S)) rem0,
  laws S -> a_maxlevel A <= s_maxlevel S -> leaves_ok A from -> Forall (fun x => s_level x <= a_maxlevel A) from -> cb_ok cb ->
  exists n, forall fuel, (n <= fuel)%nat ->
    (exists st' new rem, adapt_tree cb A fuel st ltree from rem0 = Ok (st', new, rem) /\ (from <> [] -> new <> [])) \/
    (adapt_tree cb A fuel st ltree from rem0 = AssertFail /\ ~ (cb_keeps cb /\ (a_recursive A = true -> cb_respects_maxlevel cb A))).
Proof.
  intros S St cb A ltree st from rem0 LW HM HO HL CB. destruct (@adapt_tree_total S LW St cb A ltree HM st from rem0 CB HO HL) as (n & Hn). exists n. intros fuel Hf.
  destruct (Hn fuel Hf) as (st' & tel & r & E & _ & K). destruct from as [|e from].
  - left. exists st', tel, (rem0 || r). split; [exact E|]. congruence.
  - destruct tel as [|x tel].
    + right. split; [exact E|]. intros [K1 K2]. exact (K K1 K2 ltac:(discriminate) eq_refl).
    + left. exists st', (x :: tel), (rem0 || r). split; [exact E|]. discriminate.
Qed.
Print Assumptions C18_adapt_ends.

(** C18 for all trees of a process: every tree keeps its region; the element offsets of the trees are the running totals and the
    number of local elements is the total *)
Theorem C18_adapt_forest : forall (St : Type) (cb : callback St) (A : aenv) fuel (st st' : St) ts out n rem,
  a_incomplete A = false -> (forall S, cb_keeps (cb S)) -> (a_recursive A = true -> forall S, cb_respects_maxlevel (cb S) A) ->
  (forall t, In t ts -> laws (t_scheme t) /\ a_maxlevel A <= s_maxlevel (t_scheme t) /\ contiguous (t_elems t) /\
    Forall (fun x => s_level x <= a_maxlevel A) (t_elems t)) ->
  adapt_forest cb A fuel st ts = Ok (st', out, n, rem) ->
  Forall2 (trees_rel (fun S l l' => region l' = region l /\ contiguous l' /\ Forall (fun x => s_level x <= a_maxlevel A) l')) ts (map fst out) /\
  n = fold_right Z.add 0 (map (fun x => zlen (t_elems (fst x))) out) /\
  (forall i t o, nth_error out i = Some (t, o) -> zlen (t_elems t) <> 0 -> o = fold_right Z.add 0 (map (fun x => zlen (t_elems (fst x))) (firstn i out))).
Proof.
  intros St cb A fuel st st' ts out n rem C CK ND HT H.
  assert (STEP : forall t st lt r st' new r', In t ts -> adapt_tree (cb (t_scheme t)) A fuel st lt (t_elems t) r = Ok (st', new, r') ->
    region new = region (t_elems t) /\ contiguous new /\ Forall (fun x => s_level x <= a_maxlevel A) new).
  { intros t st1 lt r st1' new r' I E. destruct (HT t I) as (LW & HM & HO & HL).
    assert (HO' : leaves_ok A (t_elems t)) by (unfold leaves_ok; rewrite C; exact HO).
    destruct (C18_adapt_preserves_domain LW HM HO' HL (CK _) (fun R => ND R _) E) as (_ & _ & D). destruct (D C) as [D1 D2].
    destruct (adapt_tree_inv LW HM HO' HL E) as (_ & D3 & _). exact (conj D1 (conj D2 D3)). }
  exact (adapt_trees_spec STEP H).
Qed.
Print Assumptions C18_adapt_forest.

(** C19: without recursion the step does exactly what the callback says (relation [adapts]): going through the leaves in order the
    callback is asked once at each position, with the family that starts there or with the single leaf; 1 replaces the leaf by its
    children (below the maximum level), 0 keeps it, -1 replaces the family by its parent and continues behind it, -2 removes the leaf *)
Theorem C19_adapt_obeys_callback : forall (S : scheme) (St : Type) cb (A : aenv) ltree fuel (st : St) (from : list (elt S)) rem,
  laws S -> a_maxlevel A <= s_maxlevel S -> a_recursive A = false -> cb_ok cb -> leaves_ok A from -> zlen from <= Z.of_nat fuel ->
  exists st' new r, adapts cb A ltree [] from st st' new r /\
    adapt_tree cb A fuel st ltree from rem = match from, new with _ :: _, [] => AssertFail | _, _ => Ok (st', new, rem || r) end.
Proof. intros S St cb A ltree fuel st from rem LW HM. exact (@adapt_tree_exact S LW St cb A ltree HM fuel st from rem). Qed.
Print Assumptions C19_adapt_obeys_callback.

(** C19: the relation determines the result, so it is a full specification *)
Theorem C19_adapts_deterministic : forall (S : scheme) (St : Type) cb (A : aenv) ltree pre (rest : list (elt S)) (st st1 st2 : St) n1 n2 r1 r2,
  laws S -> adapts cb A ltree pre rest st st1 n1 r1 -> adapts cb A ltree pre rest st st2 n2 r2 -> st1 = st2 /\ n1 = n2 /\ r1 = r2.
Proof. intros S St cb A ltree pre rest st st1 st2 n1 n2 r1 r2 LW. exact (@adapts_det S LW St cb A ltree pre rest st st1 n1 r1 st2 n2 r2). Qed.
Print Assumptions C19_adapts_deterministic.

(** C19: recursive refinement: the callback is asked again about every child it created, until it says neither 1 nor -1 *)
Theorem C19_adapt_recursive : forall (S : scheme) (St : Type) cb (A : aenv) ltree (st : St) (from : list (elt S)) rem,
  laws S -> a_maxlevel A <= s_maxlevel S -> leaves_ok A from -> Forall (fun x => s_level x <= a_maxlevel A) from -> cb_ok cb ->
  a_recursive A = true -> cb_no_coarsen cb -> cb_respects_maxlevel cb A ->
  exists n, forall fuel, (n <= fuel)%nat -> exists st' new r, adapts_rec cb A ltree [] from st st' new r /\
    adapt_tree cb A fuel st ltree from rem = match from, new with _ :: _, [] => AssertFail | _, _ => Ok (st', new, rem || r) end.
Proof.
  intros S St cb A ltree st from rem LW HM HO HL CB HR NC RM. destruct (@adapt_tree_total S LW St cb A ltree HM st from rem CB HO HL) as (n & Hn). exists n. intros fuel Hf.
  destruct (Hn fuel Hf) as (st' & tel & r & E & K & _). exact (ex_intro _ st' (ex_intro _ tel (ex_intro _ r (conj (K HR NC RM) E)))).
Qed.
Print Assumptions C19_adapt_recursive.

(** C20 *)
Theorem C20_adapt_levels : forall (S : scheme) (St : Type) cb (A : aenv) ltree fuel (st st' : St) (from new : list (elt S)) rem0 rem,
  laws S -> a_maxlevel A <= s_maxlevel S -> leaves_ok A from -> Forall (fun x => s_level x <= a_maxlevel A) from ->
  adapt_tree cb A fuel st ltree from rem0 = Ok (st', new, rem) -> Forall (fun x => 0 <= s_level x <= a_maxlevel A) new.
Proof.
  intros S St cb A ltree fuel st st' from new rem0 rem LW HM HO HL H. destruct (adapt_tree_inv LW HM HO HL H) as (H1 & H2 & _).
  apply ordered_valid in H1. rewrite Forall_forall in *. intros x Hx. exact (conj (proj1 (valid_level LW (H1 x Hx))) (H2 x Hx)).
Qed.
Print Assumptions C20_adapt_levels.

(** ** concrete cases *)
Definition ex_env (rec inc : bool) : aenv := AEnv rec inc LMAX 0 1 1.
Definition ln (p : list Z) : elt line_scheme := gwalk line_scheme p.
(** leaves of a line: two of level 2, one of level 1 (the second one a family member whose sibling is finer) *)
Definition ex_from : list (elt line_scheme) := [ln [0; 0]; ln [0; 1]; ln [1; 0]; ln [1; 1; 0]; ln [1; 1; 1]].
Lemma ex_path p : forallb (fun i => (0 <=? i) && (i <? 2)) p = true -> zlen p <= LMAX -> gpath line_scheme p.
Proof.
  intros H HL. apply line_path. split; [|exact HL]. rewrite forallb_forall in H. apply Forall_forall. intros i Hi. specialize (H i Hi). lia.
Qed.
Lemma ex_contiguous : contiguous ex_from.
Proof.
  assert (LW := line_laws). assert (V : forall p, forallb (fun i => (0 <=? i) && (i <? 2)) p = true -> zlen p <= 4 -> valid (ln p) /\ s_level (ln p) < s_maxlevel line_scheme).
  { intros p H HL. assert (HP : gpath line_scheme p) by (apply ex_path; auto; cbv [LMAX]; lia). split; [exact (valid_walk HP)|]. unfold ln. rewrite (law_level LW HP). change (s_maxlevel line_scheme) with 30. lia. }
  assert (C : forall p, s_children (ln p) = [ln (p ++ [0]); ln (p ++ [1])]) by (intros p; unfold ln; rewrite !gwalk_snoc; reflexivity).
  assert (R : contiguous [ln []]) by (split; [constructor; [apply V; auto; vm_compute; congruence|constructor]|]; exists (cell_id (ln [])); rewrite region_one; apply (cells_ids LW); apply V; auto; vm_compute; congruence).
  refine (contiguous_region R _ _).
  - unfold ex_from. repeat constructor; apply V; auto; vm_compute; congruence.
  - assert (K : forall p, forallb (fun i => (0 <=? i) && (i <? 2)) p = true -> zlen p <= 4 -> cells (ln p) = cells (ln (p ++ [0])) ++ cells (ln (p ++ [1]))).
    { intros p H1 H2. destruct (V p H1 H2) as [V1 V2]. rewrite <- (cells_children LW V1 V2), C. cbn [region flat_map]. now rewrite app_nil_r. }
    unfold ex_from. rewrite !region_cons. change (region (S := line_scheme) []) with (@nil (elt line_scheme)). rewrite !app_nil_r.
    rewrite (K []) by (try reflexivity; vm_compute; congruence). cbn [app]. rewrite (K [0]), (K [1]) by (try reflexivity; vm_compute; congruence). cbn [app].
    rewrite (K [1; 1]) by (try reflexivity; vm_compute; congruence). cbn [app]. now rewrite <- !app_assoc.
Qed.
Example ex_leaves rec : leaves_ok (ex_env rec false) ex_from. Proof. exact ex_contiguous. Qed.
Example ex_levels rec : Forall (fun x => s_level x <= a_maxlevel (ex_env rec false)) ex_from.
Proof. repeat constructor; vm_compute; congruence. Qed.
(** coarsen every family, refine single leaves of level 2 *)
Definition ex_cb (st : Z) (t i : Z) (b : bool) (l : list (elt line_scheme)) : Z * Z :=
  (st + 1, if b then -1 else match l with [e] => if s_level e <=? 2 then 1 else 0 | _ => 0 end).
Example ex_cb_ok : cb_ok ex_cb /\ cb_keeps ex_cb /\ forall rec, cb_respects_maxlevel ex_cb (ex_env rec false).
Proof.
  split; [|split].
  - intros st t i b l. unfold ex_cb. destruct b; cbn [snd]; [split; [lia|auto]|]. destruct l as [|e [|]]; try destruct (_ <=? 2); split; lia.
  - intros st t i b l. unfold ex_cb. destruct b; cbn [snd]; [lia|]. destruct l as [|e [|]]; try destruct (_ <=? 2); lia.
  - intros rec st t i e. unfold ex_cb. cbn [snd a_maxlevel ex_env]. destruct (Z.leb_spec (s_level e) 2); intros; [cbv [LMAX]; lia|lia].
Qed.
Example C18_C19_ex : adapt_tree ex_cb (ex_env false false) 10 0 0 ex_from false = Ok (3, [ln [0]; ln [1; 0; 0]; ln [1; 0; 1]; ln [1; 1]], false).
Proof. vm_compute. reflexivity. Qed.
(** recursive mode: coarsening the last family completes another one *)
Definition ex_cb2 (st : Z) (t i : Z) (b : bool) (l : list (elt line_scheme)) : Z * Z := (st + 1, if b then -1 else 0).
Example C18_recursive_ex : adapt_tree ex_cb2 (ex_env true false) 10 0 0 ex_from false = Ok (5, [ln []], false).
Proof. vm_compute. reflexivity. Qed.
(** a tree with a hole: the remaining child of [0] is coarsened to [0] *)
Definition ex_hole : list (elt line_scheme) := [ln [0; 1]; ln [1; 0]; ln [1; 1; 0]; ln [1; 1; 1]].
Example C18_incomplete_ex : leaves_ok (ex_env false true) ex_hole /\
  adapt_tree ex_cb2 (ex_env false true) 10 0 0 ex_hole false = Ok (3, [ln [0]; ln [1; 0]; ln [1; 1]], false).
Proof.
  split; [|vm_compute; reflexivity]. assert (H := contiguous_ordered ex_contiguous). change ex_from with ([ln [0; 0]] ++ ex_hole) in H.
  apply (ordered_app line_laws) in H. apply H.
Qed.
(** removal *)
Definition ex_cb3 (st : Z) (t i : Z) (b : bool) (l : list (elt line_scheme)) : Z * Z := (st, if i =? 2 then -2 else 0).
Example C18_removal_ex : adapt_tree ex_cb3 (ex_env false false) 10 0 0 ex_from false = Ok (0, [ln [0; 0]; ln [0; 1]; ln [1; 1; 0]; ln [1; 1; 1]], true).
Proof. vm_compute. reflexivity. Qed.

(** C18 fails without the restriction on recursive callbacks: a callback that asks to refine the leftmost element whatever its level
    makes the leftmost finest element disappear, although nothing was removed *)
Definition ex_cb_left (st : unit) (t i : Z) (b : bool) (l : list (elt line_scheme)) : unit * Z :=
  (tt, match l with e :: _ => if lx e =? 0 then 1 else 0 | _ => 0 end).
Theorem C18_adapt_recursive_refuted : exists (new : list (elt line_scheme)) rem,
  let from := [s_root line_scheme] in let A := ex_env true false in
  cb_ok ex_cb_left /\ cb_keeps ex_cb_left /\ a_maxlevel A = s_maxlevel line_scheme /\ contiguous from /\
  adapt_tree ex_cb_left A 100 tt 0 from false = Ok (tt, new, rem) /\ ~ incl (region from) (region new).
Proof.
  destruct (adapt_tree ex_cb_left (ex_env true false) 100 tt 0 [s_root line_scheme] false) as [[[[] new] rem]| | |] eqn:E; try (vm_compute in E; discriminate).
  exists new, rem. cbn [a_maxlevel ex_env]. split; [|split; [|split; [reflexivity|split; [|split; [exact E|]]]]].
  - intros st t i b l. unfold ex_cb_left. cbn [snd]. destruct l as [|e l]; try destruct (_ =? 0); split; lia.
  - intros st t i b l. unfold ex_cb_left. cbn [snd]. destruct l as [|e l]; try destruct (_ =? 0); lia.
  - split; [constructor; [apply valid_root|constructor]|]. exists (cell_id (s_root line_scheme)). rewrite region_one. apply (cells_ids line_laws), valid_root.
  - intros I.
    assert (F : forallb (fun x => 1 <=? cell_id x) new = true) by (vm_compute in E; injection E as <- <-; vm_compute; reflexivity).
    assert (V : Forall valid new).
    { refine (ordered_valid (proj1 (adapt_tree_inv line_laws (A := ex_env true false) _ _ _ E))); [vm_compute; congruence| |repeat constructor; vm_compute; congruence].
      split; [constructor; [apply valid_root|constructor]|]. exists (cell_id (s_root line_scheme)). rewrite region_one. apply (cells_ids line_laws), valid_root. }
    destruct (cells_hd line_laws (valid_root line_scheme)) as (r & Hr). rewrite region_one in I.
    destruct (cells (s_root line_scheme)) as [|c cs]; [discriminate|]. cbn [map] in Hr. injection Hr as Hc _.
    assert (J := I c (or_introl eq_refl)). apply in_flat_map in J. destruct J as (x & Hx & Jx). rewrite forallb_forall in F. specialize (F x Hx).
    assert (In (cell_id c) (map (@cell_id line_scheme) (cells x))) as K by (apply in_map_iff; exists c; auto).
    rewrite Forall_forall in V. apply (@cells_in line_scheme line_laws x (cell_id c) (V x Hx)) in K. change (cell_id c = 0) in Hc. rewrite Hc in K. unfold lo in K. lia.
Qed.
Print Assumptions C18_adapt_recursive_refuted.

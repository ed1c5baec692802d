(** Filling and reading the messages. *)
From Verif Require Import Prelude OffsetModel PathSpec SchemeProofs NetModel PartitionModel PartitionSpec PartitionRangeProofs.

Section elements.
Variable E : Type.
Implicit Types (t : ptree E) (ts rest pre : list (ptree E)) (f : pforest E) (ps : list (Z * list E)).

Definition count ts : Z := zlen (flat_map (@pt_elems E) ts).
Lemma count_cons t ts : count (t :: ts) = zlen (pt_elems t) + count ts.
Proof. unfold count. cbn [flat_map]. apply zlen_app. Qed.
Lemma count_app ts pre : count (ts ++ pre) = count ts + count pre.
Proof. unfold count. rewrite flat_map_app. apply zlen_app. Qed.
Lemma count_ge0 ts : 0 <= count ts.
Proof. apply zlen_ge0. Qed.
Lemma zlen_tag first ts : zlen (tag_trees first ts) = count ts.
Proof.
  revert first. induction ts as [|t ts IH]; intros first; [reflexivity|]. cbn [tag_trees]. rewrite zlen_app, IH, count_cons. f_equal. unfold zlen. now rewrite map_length.
Qed.
Lemma tag_app first ts pre : tag_trees first (ts ++ pre) = tag_trees first ts ++ tag_trees (first + zlen ts) pre.
Proof.
  revert first. induction ts as [|t ts IH]; intros first; cbn [tag_trees app].
  - unfold zlen. cbn [length]. now replace (first + Z.of_nat 0) with first by lia.
  - rewrite IH, <- app_assoc. do 3 f_equal. rewrite zlen_cons. lia.
Qed.
Lemma trees_ok_app off ts pre : trees_ok off (ts ++ pre) <-> trees_ok off ts /\ trees_ok (off + count ts) pre.
Proof.
  revert off. induction ts as [|t ts IH]; intros off; cbn [trees_ok app].
  - change (count []) with 0. replace (off + 0) with off by lia. tauto.
  - rewrite IH, count_cons. replace (off + zlen (pt_elems t) + count ts) with (off + (zlen (pt_elems t) + count ts)) by lia. tauto.
Qed.
Lemma get_tree_at pre t rest : get_tree (pre ++ t :: rest) (zlen pre) = Ok t.
Proof.
  unfold get_tree. destruct (Z.ltb_spec (zlen pre) 0) as [C|C]; [assert (H := zlen_ge0 pre); lia|]. unfold zlen. rewrite Nat2Z.id, nth_error_app2 by lia. now rewrite Nat.sub_diag.
Qed.

(** messages: pieces of trees (class, elements) *)
Fixpoint infos_of (first : Z) ps : list tinfo := match ps with [] => [] | p :: r => TInfo first (fst p) (zlen (snd p)) :: infos_of (first + 1) r end.
Definition elems_of ps : list E := flat_map snd ps.
Fixpoint tag_pieces (first : Z) ps : list (Z * Z * E) :=
  match ps with [] => [] | p :: r => map (fun e => (first, fst p, e)) (snd p) ++ tag_pieces (first + 1) r end.
(** the message m carries the sequence s *)
Definition carries (m : msg E) (s : list (Z * Z * E)) : Prop :=
  exists first ps, m = Msg (infos_of first ps) (elems_of ps) /\ ps <> [] /\ Forall (fun p => snd p <> []) ps /\ tag_pieces first ps = s.

(** the trees of rest (the first of them starting at element off) up to element y *)
Fixpoint cutn (off : Z) rest (y : Z) : list (Z * list E) :=
  match rest with
  | [] => []
  | t :: r => if y <? off then [] else (pt_class t, firstn (Z.to_nat (y - off + 1)) (pt_elems t)) :: cutn (off + zlen (pt_elems t)) r y
  end.
Lemma cutn_nonempty off rest y : trees_ok off rest -> Forall (fun p => snd p <> []) (cutn off rest y).
Proof.
  revert off. induction rest as [|t r IH]; intros off H; cbn [cutn]; [constructor|]. destruct (Z.ltb_spec y off) as [C|C]; [constructor|]. destruct H as (_ & N & H). constructor; [|apply IH, H].
  cbn [snd]. destruct (pt_elems t) as [|e es]; [congruence|]. replace (Z.to_nat (y - off + 1)) with (S (Z.to_nat (y - off))) by lia. discriminate.
Qed.
Lemma firstn_map (A B : Type) (g : A -> B) n (l : list A) : firstn n (map g l) = map g (firstn n l).
Proof. revert l. induction n as [|n IH]; intros [|x l]; cbn [firstn map]; [reflexivity|reflexivity|reflexivity|now rewrite IH]. Qed.
Lemma skipn_map (A B : Type) (g : A -> B) n (l : list A) : skipn n (map g l) = map g (skipn n l).
Proof. revert l. induction n as [|n IH]; intros [|x l]; cbn [skipn map]; [reflexivity|reflexivity|reflexivity|apply IH]. Qed.
Lemma cutn_tag off rest y first : tag_pieces first (cutn off rest y) = firstn (Z.to_nat (y + 1 - off)) (tag_trees first rest).
Proof.
  revert off first. induction rest as [|t r IH]; intros off first; cbn [cutn tag_trees]; [now rewrite firstn_nil|].
  destruct (Z.ltb_spec y off) as [C|C]; [replace (Z.to_nat (y + 1 - off)) with 0%nat by lia; reflexivity|].
  cbn [tag_pieces fst snd]. rewrite IH, firstn_app, firstn_map, map_length. f_equal; [do 2 f_equal; lia|]. f_equal. unfold zlen. lia.
Qed.

(** the tree of local element x *)
Definition tree_at ts (ct x : Z) : Prop :=
  x < count ts -> exists pre t rest, ts = pre ++ t :: rest /\ zlen pre = ct /\ pt_offset t <= x < pt_offset t + zlen (pt_elems t).

Lemma count_tail fuel : forall ts x y ct off pre rest n il, ts = pre ++ rest -> trees_ok off rest -> y + 1 <= off + count rest -> ct < zlen pre -> (length rest < fuel)%nat ->
  exists il', count_loop fuel ts x y ct (Z.min (y + 1) off) (zlen pre) n il = Ok (n + zlen (cutn off rest y), il') /\
    (cutn off rest y = [] -> il' = il) /\ (cutn off rest y <> [] -> trees_ok 0 ts -> off = count pre -> tree_at ts (zlen pre - 1 + zlen (cutn off rest y) + b2z il') (y + 1)).
Proof.
  induction fuel as [|fuel IH]; intros ts x y ct off pre rest n il Ets OK Hy Hct Hf; [lia|]. cbn [count_loop].
  destruct (Z.leb_spec (Z.min (y + 1) off) y) as [C|C].
  - destruct rest as [|t r]; [change (count []) with 0 in Hy; lia|]. subst ts. rewrite get_tree_at. cbn [obind]. unfold tree_first_last_el.
    rewrite (proj2 (Z.eqb_neq (zlen pre) ct)) by lia. cbn [trees_ok] in OK. destruct OK as (O1 & O2 & O3). rewrite O1.
    assert (Lt : 0 < zlen (pt_elems t)) by (destruct (pt_elems t); [congruence|rewrite zlen_cons; assert (Q := zlen_ge0 l); lia]).
    rewrite count_cons in Hy. cbn [cutn]. destruct (Z.ltb_spec y off); [lia|]. cbn [length] in Hf.
    set (last := if y <? off + zlen (pt_elems t) then y - off else zlen (pt_elems t) - 1).
    assert (Hl : last - 0 + 1 = Z.min (y + 1) (off + zlen (pt_elems t)) - off) by (unfold last; destruct (Z.ltb_spec y (off + zlen (pt_elems t))); lia).
    destruct (Z.ltb_spec (last - 0 + 1) 0); [lia|]. replace (Z.min (y + 1) off) with off by lia. rewrite Hl. replace (off + (Z.min (y + 1) (off + zlen (pt_elems t)) - off)) with (Z.min (y + 1) (off + zlen (pt_elems t))) by lia.
    destruct (IH (pre ++ t :: r) x y ct (off + zlen (pt_elems t)) (pre ++ [t]) r (n + 1) (y - off =? zlen (pt_elems t) - 1)) as (il' & E1 & E2 & E3);
      [now rewrite <- app_assoc|exact O3|lia|rewrite zlen_app; change (zlen [t]) with 1; lia|lia|].
    rewrite zlen_app in E1, E3. change (zlen [t]) with 1 in E1, E3. exists il'. rewrite E1. rewrite zlen_cons. split; [do 2 f_equal; lia|]. split; [discriminate|].
    intros _ OKt Ho. destruct (cutn (off + zlen (pt_elems t)) r y) as [|c cs] eqn:Ec.
    + rewrite (E2 eq_refl). change (zlen []) with 0. clear E1 E2 E3. intros Hlt. rewrite count_app, count_cons in Hlt.
      destruct (Z.eqb_spec (y - off) (zlen (pt_elems t) - 1)) as [D|D]; cbn [b2z].
      * destruct r as [|t' r]; [change (count []) with 0 in Hlt; lia|]. exists (pre ++ [t]), t', r. rewrite <- app_assoc. split; [reflexivity|]. split; [rewrite zlen_app; change (zlen [t]) with 1; lia|].
        cbn [trees_ok] in O3. destruct O3 as (O4 & O5 & _). rewrite O4. assert (0 < zlen (pt_elems t')) by (destruct (pt_elems t') as [|z zs]; [congruence|rewrite zlen_cons; assert (Q := zlen_ge0 zs); lia]). lia.
      * exists pre, t, r. split; [reflexivity|]. split; [lia|]. rewrite O1. destruct (Z.ltb_spec y (off + zlen (pt_elems t))) as [G|G]; [lia|].
        exfalso. destruct r as [|t' r]; [change (count []) with 0 in Hy; lia|]. cbn [cutn] in Ec. destruct (Z.ltb_spec y (off + zlen (pt_elems t))); [lia|discriminate].
    + replace (zlen pre - 1 + (zlen (c :: cs) + 1) + b2z il') with (zlen pre + 1 - 1 + zlen (c :: cs) + b2z il') by lia. apply E3; [discriminate|exact OKt|].
      rewrite count_app, count_cons. change (count []) with 0. lia.
  - assert (Ec : cutn off rest y = []) by (destruct rest as [|t r]; [reflexivity|]; cbn [cutn]; destruct (Z.ltb_spec y off); [reflexivity|lia]).
    exists il. rewrite Ec. change (zlen []) with 0. split; [do 2 f_equal; lia|]. split; [reflexivity|congruence].
Qed.
Lemma fill_tail y : forall rest ts fl x ct off pre, ts = pre ++ rest -> trees_ok off rest -> ct < zlen pre ->
  fill_loop (length (cutn off rest y)) ts fl x y ct (zlen pre - ct) = Ok (infos_of (zlen pre + fl) (cutn off rest y), elems_of (cutn off rest y)).
Proof.
  induction rest as [|t r IH]; intros ts fl x ct off pre Ets OK Hct; cbn [cutn]; [reflexivity|]. destruct (Z.ltb_spec y off) as [C|C]; [reflexivity|].
  cbn [length fill_loop]. subst ts. replace (zlen pre - ct + ct) with (zlen pre) by lia. rewrite get_tree_at. cbn [obind]. unfold tree_first_last_el.
  rewrite (proj2 (Z.eqb_neq (zlen pre) ct)) by lia. cbn [trees_ok] in OK. destruct OK as (O1 & O2 & O3). rewrite O1.
  assert (Lt : 0 < zlen (pt_elems t)) by (destruct (pt_elems t); [congruence|rewrite zlen_cons; assert (Q := zlen_ge0 l); lia]).
  set (last := if y <? off + zlen (pt_elems t) then y - off else zlen (pt_elems t) - 1).
  assert (Hl : last - 0 + 1 = Z.min (y + 1) (off + zlen (pt_elems t)) - off) by (unfold last; destruct (Z.ltb_spec y (off + zlen (pt_elems t))); lia).
  rewrite Hl. set (k := Z.min (y + 1) (off + zlen (pt_elems t)) - off). unfold copy_range. destruct (Z.ltb_spec k 0); [unfold k in *; lia|]. destruct (Z.eqb_spec k 0); [unfold k in *; lia|].
  rewrite (proj2 (Z.leb_le 0 0)) by lia. rewrite (proj2 (Z.leb_le (0 + k) _)) by (unfold k; lia). cbn [andb obind]. change (Z.to_nat 0) with 0%nat. cbn [skipn].
  assert (Ef : firstn (Z.to_nat k) (pt_elems t) = firstn (Z.to_nat (y - off + 1)) (pt_elems t)).
  { unfold k. destruct (Z.leb_spec (y + 1) (off + zlen (pt_elems t))) as [G|G]; [f_equal; lia|]. unfold zlen in *. rewrite !firstn_all2 by lia. reflexivity. }
  rewrite Ef.
  assert (R := IH (pre ++ t :: r) fl x ct (off + zlen (pt_elems t)) (pre ++ [t])). rewrite zlen_app in R. change (zlen [t]) with 1 in R.
  replace (zlen pre - ct + 1) with (zlen pre + 1 - ct) by lia. rewrite R; [|now rewrite <- app_assoc|exact O3|lia].
  cbn [obind fst snd infos_of]. unfold elems_of. cbn [flat_map snd]. replace (zlen pre + 1 + fl) with (zlen pre + fl + 1) by lia.
  assert (Lk : zlen (firstn (Z.to_nat (y - off + 1)) (pt_elems t)) = k) by (unfold zlen at 1; rewrite firstn_length; unfold k, zlen in *; lia). rewrite Lk. reflexivity.
Qed.
Lemma fill_buffer_spec f ct x y : local_forest f -> tree_at (pf_trees f) ct x -> 0 <= x -> x <= y -> y < pf_num f ->
  exists m ct', fill_buffer f ct x y = Ok (m, ct') /\ carries m (part (tagged f) x (y + 1)) /\ tree_at (pf_trees f) ct' (y + 1).
Proof.
  intros (OK & Hn & _) Ht H0 H1 H2. unfold tagged in *. rewrite zlen_tag in Hn. set (ts := pf_trees f) in *. destruct (Ht ltac:(lia)) as (pre & t & rest & Ets & Hct & Hx). clear Ht.
  assert (OK' := OK). rewrite Ets in OK'. apply trees_ok_app in OK'. destruct OK' as [OKp OKr]. cbn [trees_ok] in OKr. destruct OKr as (O1 & O2 & O3). rewrite Z.add_0_l in *.
  unfold fill_buffer. fold ts. replace (length ts + 2)%nat with (S (length ts + 1)) by lia. cbn [count_loop]. rewrite (proj2 (Z.leb_le x y)) by lia. assert (GT : get_tree ts (zlen pre) = Ok t) by (rewrite Ets; apply get_tree_at). rewrite <- Hct, GT. cbn [obind].
  assert (TF : forall tid, tid = zlen pre -> tree_first_last_el t tid x y (zlen pre) = (x - pt_offset t, Z.min (y + 1) (pt_offset t + zlen (pt_elems t)) - 1 - pt_offset t, y - pt_offset t =? zlen (pt_elems t) - 1)).
  { intros tid ->. unfold tree_first_last_el. rewrite Z.eqb_refl. f_equal. f_equal. destruct (Z.ltb_spec y (pt_offset t + zlen (pt_elems t))); lia. }
  rewrite TF by reflexivity. set (k := Z.min (y + 1) (pt_offset t + zlen (pt_elems t)) - 1 - pt_offset t - (x - pt_offset t) + 1).
  assert (Hk : k = Z.min (y + 1) (pt_offset t + zlen (pt_elems t)) - x) by (unfold k; lia). destruct (Z.ltb_spec k 0); [lia|].
  replace (x + k) with (Z.min (y + 1) (pt_offset t + zlen (pt_elems t))) by lia.
  rewrite O1 in *. set (off := count pre + zlen (pt_elems t)) in *.
  assert (Hfuel : (length rest < length ts + 1)%nat) by (rewrite Ets, app_length; cbn [length]; lia).
  assert (Hcnt : y + 1 <= off + count rest) by (unfold off; rewrite Ets, count_app, count_cons in Hn; lia).
  destruct (@count_tail (length ts + 1) ts x y (zlen pre) off (pre ++ [t]) rest 1 (y - count pre =? zlen (pt_elems t) - 1)) as (il' & E1 & E2 & E3);
    [rewrite Ets, <- app_assoc; reflexivity|exact O3|exact Hcnt|rewrite zlen_app; change (zlen [t]) with 1; lia|exact Hfuel|].
  rewrite zlen_app in E1, E3. change (zlen [t]) with 1 in E1, E3. replace (0 + 1) with 1 by lia. rewrite E1. cbn [obind].
  set (cs := cutn off rest y) in *.
  replace (Z.to_nat (1 + zlen cs)) with (S (length cs)) by (unfold zlen; lia). cbn [fill_loop]. replace (0 + zlen pre) with (zlen pre) by lia. rewrite GT. cbn [obind]. rewrite TF by reflexivity.
  replace (Z.min (y + 1) off - 1 - count pre - (x - count pre) + 1) with k by lia. clearbody k.
  unfold copy_range at 1. destruct (Z.ltb_spec k 0); [lia|]. destruct (Z.eqb_spec k 0); [lia|]. rewrite (proj2 (Z.leb_le 0 (x - count pre))) by lia. rewrite (proj2 (Z.leb_le (x - count pre + k) _)) by lia. cbn [andb obind].
  assert (R := @fill_tail y rest ts (pf_first f) x (zlen pre) off (pre ++ [t])). rewrite zlen_app in R. change (zlen [t]) with 1 in R. fold cs in R.
  replace (zlen pre + 1 - zlen pre) with (0 + 1) in R by lia. rewrite R; [|rewrite Ets, <- app_assoc; reflexivity|exact O3|lia]. clear R. cbn [obind fst snd].
  set (piece := firstn (Z.to_nat k) (skipn (Z.to_nat (x - count pre)) (pt_elems t))).
  eexists _, _. split; [reflexivity|]. split.
  - exists (zlen pre + pf_first f), ((pt_class t, piece) :: cs).
    assert (Lp : zlen piece = k) by (unfold piece, zlen; rewrite firstn_length, skipn_length; unfold zlen in *; lia).
    split; [|split; [discriminate|split]].
    + cbn [infos_of fst snd]. rewrite Lp. unfold elems_of. cbn [flat_map snd]. do 3 f_equal. lia.
    + constructor; [cbn [snd]; intros Z0; rewrite Z0 in Lp; change (zlen []) with 0 in Lp; lia|apply cutn_nonempty, O3].
    + rewrite Ets, tag_app, part_app_r by (rewrite zlen_tag; lia). rewrite zlen_tag. cbn [tag_pieces tag_trees fst snd]. replace (pf_first f + zlen pre) with (zlen pre + pf_first f) by lia.
      unfold cs. rewrite cutn_tag. unfold part. rewrite skipn_app, firstn_app. f_equal.
      * rewrite skipn_map, firstn_map. unfold piece. f_equal. destruct (Z.leb_spec (y + 1) off) as [G|G]; [f_equal; lia|]. rewrite !firstn_all2; [reflexivity|rewrite skipn_length; unfold zlen in *; lia|rewrite skipn_length; unfold zlen in *; lia].
      * rewrite skipn_length, map_length. replace (Z.to_nat (x - count pre) - length (pt_elems t))%nat with 0%nat by (unfold zlen in *; lia). cbn [skipn]. f_equal. unfold off, zlen in *. lia.
  - destruct cs as [|c cs'] eqn:Ecs.
    + rewrite (E2 eq_refl). change (zlen []) with 0. clear E1 E2 E3. intros Hlt. destruct (Z.eqb_spec (y - count pre) (zlen (pt_elems t) - 1)) as [D|D]; cbn [b2z].
      * destruct rest as [|t' r]; [rewrite Ets, count_app, count_cons in Hlt; change (count []) with 0 in Hlt; lia|]. exists (pre ++ [t]), t', r. rewrite <- app_assoc. split; [exact Ets|]. split; [rewrite zlen_app; change (zlen [t]) with 1; lia|].
        cbn [trees_ok] in O3. destruct O3 as (O4 & O5 & _). rewrite O4. assert (0 < zlen (pt_elems t')) by (destruct (pt_elems t') as [|z zs]; [congruence|rewrite zlen_cons; assert (Q := zlen_ge0 zs); lia]). unfold off. lia.
      * exists pre, t, rest. split; [exact Ets|]. split; [lia|]. rewrite O1. destruct (Z.ltb_spec y off) as [G|G]; [unfold off in *; lia|].
        exfalso. destruct rest as [|t' r]; [change (count []) with 0 in Hcnt; lia|]. unfold cs in Ecs. cbn [cutn] in Ecs. destruct (Z.ltb_spec y off); [lia|discriminate].
    + replace (zlen pre + (1 + zlen (c :: cs') - 1 + b2z il')) with (zlen pre + 1 - 1 + zlen (c :: cs') + b2z il') by lia. apply E3; [discriminate|exact OK|]. rewrite count_app, count_cons. change (count []) with 0. unfold off. lia.
Qed.

(** ** Reading messages *)
Definition grown f (g : pforest E) (s : list (Z * Z * E)) : Prop := local_forest g /\ pf_first g = pf_first f /\ tagged g = tagged f ++ s.
Lemma last_tree_offset off ts t : trees_ok off (ts ++ [t]) -> pt_offset t = off + count ts.
Proof. rewrite trees_ok_app. cbn [trees_ok]. tauto. Qed.
Lemma recv_tail ps : forall first i f, Forall (fun p => snd p <> []) ps -> local_forest f -> pf_last f = first - 1 ->
  exists g, recv_trees i (infos_of first ps) (elems_of ps) f = Ok g /\ grown f g (tag_pieces first ps) /\ pf_last g = first + zlen ps - 1.
Proof.
  induction ps as [|[c es] ps IH]; intros first i f NE LF HL.
  - exists f. split; [reflexivity|]. split; [|change (zlen (@nil (Z * list E))) with 0; lia]. split; [exact LF|]. split; [reflexivity|]. cbn [tag_pieces]. now rewrite app_nil_r.
  - cbn [infos_of recv_trees fst snd ti_gtree ti_num ti_class]. destruct (Z.ltb_spec first (pf_last f)); [lia|]. inversion NE as [|? ? NE1 NE2]; subst. cbn [snd] in NE1.
    assert (Les : 0 < zlen es) by (destruct es; [congruence|rewrite zlen_cons; assert (Q := zlen_ge0 es); lia]).
    unfold elems_of. cbn [flat_map snd]. fold (elems_of ps). unfold copy_range. destruct (Z.ltb_spec (zlen es) 0); [lia|]. destruct (Z.eqb_spec (zlen es) 0); [lia|].
    rewrite (proj2 (Z.leb_le 0 0)) by lia. rewrite (proj2 (Z.leb_le (0 + zlen es) _)) by (rewrite zlen_app; assert (Q := zlen_ge0 (elems_of ps)); lia). cbn [andb obind].
    change (Z.to_nat 0) with 0%nat. cbn [skipn]. replace (Z.to_nat (zlen es)) with (length es) by (unfold zlen; lia). rewrite firstn_app, Nat.sub_diag, firstn_all. cbn [firstn]. rewrite app_nil_r.
    rewrite skipn_app, Nat.sub_diag, skipn_all. cbn [skipn app]. destruct (Z.ltb_spec (pf_last f) first); [|lia].
    destruct LF as (OK & Hn & Hl).
    assert (Eoff : (if pf_first f <=? pf_last f then do lt <- get_tree (pf_trees f) (zlen (pf_trees f) - 1); Ok (pt_offset lt + zlen (pt_elems lt)) else Ok 0) = Ok (count (pf_trees f))).
    { destruct (pf_trees f) as [|t0 r0] eqn:Et.
      - change (zlen []) with 0 in Hl. destruct (Z.leb_spec (pf_first f) (pf_last f)); [lia|]. reflexivity.
      - rewrite zlen_cons in Hl. assert (Q := zlen_ge0 r0). destruct (Z.leb_spec (pf_first f) (pf_last f)); [|lia].
        destruct (exists_last (l := t0 :: r0)) as (pre & lt & Ep); [discriminate|]. rewrite Ep in *. rewrite zlen_app. change (zlen [lt]) with 1. replace (zlen pre + 1 - 1) with (zlen pre) by lia. rewrite get_tree_at. cbn [obind].
        rewrite (last_tree_offset OK), count_app, count_cons. change (count []) with 0. do 2 f_equal. lia. }
    rewrite Eoff. cbn [obind].
    set (f1 := PForest (pf_first f) first (pf_num f + zlen es) (pf_trees f ++ [PTree c (count (pf_trees f)) es])).
    assert (T1 : tagged f1 = tagged f ++ map (fun e => (first, c, e)) es).
    { unfold tagged, f1. cbn [pf_first pf_trees]. rewrite tag_app. cbn [tag_trees pt_class pt_elems]. rewrite app_nil_r. replace (pf_first f + zlen (pf_trees f)) with first by lia. reflexivity. }
    assert (LF1 : local_forest f1).
    { split; [|split].
      - unfold f1. cbn [pf_trees]. apply trees_ok_app. split; [exact OK|]. cbn [trees_ok pt_offset pt_elems]. split; [lia|]. split; [exact NE1|exact I].
      - rewrite T1, zlen_app. unfold f1. cbn [pf_num]. unfold zlen at 3. rewrite map_length. fold (zlen es). lia.
      - unfold f1. cbn [pf_last pf_first pf_trees]. rewrite zlen_app. change (zlen [_]) with 1. lia. }
    destruct (IH (first + 1) (i + 1) f1 NE2 LF1) as (g & Eg & (G1 & G2 & G3) & G4); [unfold f1; cbn [pf_last]; lia|].
    exists g. split; [exact Eg|]. split; [|rewrite zlen_cons; lia]. split; [exact G1|]. split; [rewrite G2; reflexivity|]. rewrite G3, T1, <- app_assoc. reflexivity.
Qed.
(** the first piece belongs to the last tree of the forest *)
Lemma recv_join ps first c es f : Forall (fun p => snd p <> []) ((c, es) :: ps) -> local_forest f -> pf_last f = first -> pf_trees f <> [] ->
  (forall pre t, pf_trees f = pre ++ [t] -> pt_class t = c) ->
  exists g, recv_trees 0 (infos_of first ((c, es) :: ps)) (elems_of ((c, es) :: ps)) f = Ok g /\ grown f g (tag_pieces first ((c, es) :: ps)).
Proof.
  intros NE LF HL HT HC. cbn [infos_of recv_trees fst snd ti_gtree ti_num ti_class]. destruct (Z.ltb_spec first (pf_last f)); [lia|]. inversion NE as [|? ? NE1 NE2]; subst. cbn [snd] in NE1.
  assert (Les : 0 < zlen es) by (destruct es; [congruence|rewrite zlen_cons; assert (Q := zlen_ge0 es); lia]).
  unfold elems_of. cbn [flat_map snd]. fold (elems_of ps). unfold copy_range. destruct (Z.ltb_spec (zlen es) 0); [lia|]. destruct (Z.eqb_spec (zlen es) 0); [lia|].
  rewrite (proj2 (Z.leb_le 0 0)) by lia. rewrite (proj2 (Z.leb_le (0 + zlen es) _)) by (rewrite zlen_app; assert (Q := zlen_ge0 (elems_of ps)); lia). cbn [andb obind].
  change (Z.to_nat 0) with 0%nat. cbn [skipn]. replace (Z.to_nat (zlen es)) with (length es) by (unfold zlen; lia). rewrite firstn_app, Nat.sub_diag, firstn_all. cbn [firstn]. rewrite app_nil_r.
  rewrite skipn_app, Nat.sub_diag, skipn_all. cbn [skipn app]. destruct (Z.ltb_spec (pf_last f) (pf_last f)); [lia|]. rewrite Z.eqb_refl. cbn [negb].
  destruct LF as (OK & Hn & Hl). destruct (exists_last HT) as (pre & t & Ep). specialize (HC pre t Ep). rewrite Ep in *. rewrite zlen_app in Hl. change (zlen [t]) with 1 in Hl.
  replace (pf_last f - pf_first f) with (zlen pre) by lia. rewrite get_tree_at. cbn [obind]. rewrite HC, Z.eqb_refl. cbn [negb obind].
  replace (Z.to_nat (zlen pre)) with (length pre) by (unfold zlen; lia). rewrite firstn_app, Nat.sub_diag, firstn_all. cbn [firstn]. rewrite app_nil_r.
  rewrite skipn_all2 by (rewrite app_length; unfold zlen; cbn [length]; lia).
  set (f1 := PForest (pf_first f) (pf_last f) (pf_num f + zlen es) (pre ++ [PTree c (pt_offset t) (pt_elems t ++ es)])).
  assert (T1 : tagged f1 = tagged f ++ map (fun e => (pf_last f, c, e)) es).
  { unfold tagged, f1. cbn [pf_first pf_trees]. rewrite Ep, !tag_app. cbn [tag_trees pt_class pt_elems]. rewrite !app_nil_r, HC, map_app, app_assoc. replace (pf_first f + zlen pre) with (pf_last f) by lia. reflexivity. }
  assert (LF1 : local_forest f1).
  { apply trees_ok_app in OK. destruct OK as (OK1 & O1 & O2 & _). split; [|split].
    - unfold f1. cbn [pf_trees]. apply trees_ok_app. split; [exact OK1|]. cbn [trees_ok pt_offset pt_elems]. split; [exact O1|]. split; [|exact I]. destruct (pt_elems t); [congruence|discriminate].
    - rewrite T1, zlen_app. unfold f1. cbn [pf_num]. unfold zlen at 3. rewrite map_length. fold (zlen es). lia.
    - unfold f1. cbn [pf_last pf_first pf_trees]. rewrite zlen_app. change (zlen [_]) with 1. lia. }
  destruct (@recv_tail ps (pf_last f + 1) (0 + 1) f1 NE2 LF1) as (g & Eg & (G1 & G2 & G3) & G4); [unfold f1; cbn [pf_last]; lia|].
  exists g. split; [exact Eg|]. split; [exact G1|]. split; [rewrite G2; reflexivity|]. rewrite G3, T1, <- app_assoc. reflexivity.
Qed.

Lemma consecutive_app_inv (a b : list (Z * Z * E)) : consecutive (a ++ b) -> consecutive a /\ consecutive b.
Proof.
  induction a as [|[[t c] e] a IH]; intros H; [split; [exact I|exact H]|]. destruct a as [|[[t' c'] e'] a].
  - split; [exact I|]. destruct b as [|[[? ?] ?] b]; [exact I|]. exact (proj2 H).
  - destruct H as [H1 H2]. destruct (IH H2) as [A B]. split; [|exact B]. split; [exact H1|exact A].
Qed.
Lemma consecutive_join (a b : list (Z * Z * E)) (t c : Z) e (t' c' : Z) e' : consecutive ((a ++ [(t, c, e)]) ++ (t', c', e') :: b) -> (t' = t /\ c' = c) \/ t' = t + 1.
Proof. rewrite <- app_assoc. intros H. apply consecutive_app_inv in H. destruct H as [_ [H _]]. exact H. Qed.

Lemma tagged_last f pre t : local_forest f -> pf_trees f = pre ++ [t] -> exists a e, tagged f = a ++ [(pf_last f, pt_class t, e)].
Proof.
  intros (OK & Hn & Hl) Ep. rewrite Ep in *. rewrite zlen_app in Hl. change (zlen [t]) with 1 in Hl. apply trees_ok_app in OK. destruct OK as (_ & _ & NE & _).
  destruct (exists_last NE) as (es & e & Ee). unfold tagged. rewrite Ep, tag_app. cbn [tag_trees]. rewrite app_nil_r, Ee, map_app, app_assoc. cbn [map].
  replace (pf_first f + zlen pre) with (pf_last f) by lia. eauto.
Qed.
Lemma recv_message_spec prev m s f : carries m s -> local_forest f -> (prev = 0 <-> pf_trees f = []) -> consecutive (tagged f ++ s) ->
  exists g, recv_message prev m f = Ok g /\ local_forest g /\ tagged g = tagged f ++ s.
Proof.
  intros (first & ps & -> & NP & NE & Es) LF HP C. destruct ps as [|[c es] ps]; [congruence|]. unfold recv_message. cbn [m_infos m_elems]. destruct (Z.eqb_spec prev 0) as [Z0|Z0].
  - apply HP in Z0. cbn [infos_of obind ti_gtree]. change (TInfo first (fst (c, es)) (zlen (snd (c, es))) :: infos_of (first + 1) ps) with (infos_of first ((c, es) :: ps)).
    assert (Ht : tagged f = []) by (unfold tagged; rewrite Z0; reflexivity).
    assert (LF1 : local_forest (PForest first (first - 1) (pf_num f) (pf_trees f))).
    { destruct LF as (OK & Hn & Hl). rewrite Ht in Hn. rewrite Z0. split; [exact I|]. split; [exact Hn|]. cbn [pf_last pf_first pf_trees]. change (zlen []) with 0. lia. }
    destruct (recv_tail 0 NE LF1 (first := first)) as (g & Eg & (G1 & G2 & G3) & _); [cbn [pf_last]; lia|]. exists g. split; [exact Eg|]. split; [exact G1|]. rewrite G3, Es, Ht. unfold tagged. cbn [pf_first pf_trees]. rewrite Z0. reflexivity.
  - cbn [obind]. assert (NT : pf_trees f <> []) by tauto. destruct (exists_last NT) as (pre & t & Ep). destruct (tagged_last LF Ep) as (a & e & Ta).
    assert (NE1 : es <> []) by (inversion NE; subst; assumption). destruct es as [|e0 es]; [congruence|]. cbn [tag_pieces fst snd map app] in Es. rewrite Ta, <- Es in C.
    apply consecutive_join in C. destruct C as [[C1 C2]|C1].
    + destruct (@recv_join ps first c (e0 :: es) f NE LF ltac:(lia) NT) as (g & Eg & G1 & G2 & G3).
      { intros pre' t' Ep'. rewrite Ep in Ep'. apply app_inj_tail in Ep'. destruct Ep' as [_ <-]. congruence. }
      exists g. split; [exact Eg|]. split; [exact G1|]. rewrite G3, <- Es. reflexivity.
    + destruct (recv_tail 0 NE LF (first := first)) as (g & Eg & (G1 & G2 & G3) & _); [lia|]. exists g. split; [exact Eg|]. split; [exact G1|]. rewrite G3, <- Es. reflexivity.
Qed.
Lemma carries_nonempty m s : carries m s -> s <> [].
Proof. intros (first & ps & _ & NP & NE & <-). destruct ps as [|[c es] ps]; [congruence|]. inversion NE as [|? ? N1 _]; subst. cbn [snd] in N1. destruct es; [congruence|]. discriminate. Qed.
Lemma recv_loop_spec inbox (sq : Z -> list (Z * Z * E)) procs : forall prev f, (forall p, In p procs -> exists m, inbox p = Some m /\ carries m (sq p)) ->
  local_forest f -> 0 <= prev -> (prev = 0 <-> pf_trees f = []) -> consecutive (tagged f ++ flat_map sq procs) ->
  exists g, recv_loop procs inbox prev f = Ok g /\ local_forest g /\ tagged g = tagged f ++ flat_map sq procs.
Proof.
  induction procs as [|p procs IH]; intros prev f H LF H0 HP C.
  - exists f. split; [reflexivity|]. split; [exact LF|]. cbn [flat_map]. now rewrite app_nil_r.
  - cbn [recv_loop flat_map] in *. destruct (H p (or_introl eq_refl)) as (m & Em & Cm). rewrite Em. assert (C1 := C). rewrite app_assoc in C1. apply consecutive_app_inv in C1. destruct C1 as [C1 _].
    destruct (recv_message_spec Cm LF HP C1) as (g & Eg & LG & Tg). rewrite Eg. cbn [obind].
    destruct (IH (prev + 1) g) as (h & Eh & LH & Th); auto; [intros q Hq; apply H; now right|lia| |rewrite Tg, <- app_assoc; exact C|].
    { split; [lia|]. intros Eg0. exfalso. apply (carries_nonempty Cm). unfold tagged in Tg at 1. rewrite Eg0 in Tg. cbn [tag_trees] in Tg. symmetry in Tg. now apply app_eq_nil in Tg. }
    exists h. split; [exact Eh|]. split; [exact LH|]. rewrite Th, Tg, app_assoc. reflexivity.
Qed.
End elements.

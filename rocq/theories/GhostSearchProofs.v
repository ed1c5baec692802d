(** The search for the remote elements: its bounds of the owners are right, and it finds exactly the local leaves that touch a leaf of
    another process. *)
From Coq Require Import Sorting.Sorted.
From Verif Require Import Prelude PathSpec SchemeModel SchemeSpec SchemeProofs SchemeOrderProofs LeafModel LeafSpec LeafProofs SearchModel SearchProofs SplitProofs SearchMainProofs.
From Verif Require Import PartitionModel PartitionSpec OwnerModel OwnerSpec OwnerProofs OwnerMainProofs FaceModel FaceSpec FaceProofs GhostModel GhostSpec GhostOwnerProofs GhostRemoteProofs.

(** arrays *)
Lemma set_at_length {A} (l : list A) k b : 0 <= k < zlen l -> length (set_at l k b) = length l.
Proof. intros H. unfold set_at, zlen in *. rewrite app_length, firstn_length. cbn [length]. rewrite skipn_length. lia. Qed.
Lemma set_at_nth {A} (l : list A) k b j : 0 <= k < zlen l -> nth_error (set_at l k b) j = if Nat.eqb j (Z.to_nat k) then Some b else nth_error l j.
Proof.
  intros H. unfold set_at, zlen in *. assert (LF : length (firstn (Z.to_nat k) l) = Z.to_nat k) by (rewrite firstn_length; lia). destruct (Nat.eqb_spec j (Z.to_nat k)) as [->|N].
  - rewrite nth_error_app2 by lia. now rewrite LF, Nat.sub_diag.
  - destruct (Nat.lt_ge_cases j (Z.to_nat k)) as [C|C].
    + rewrite nth_error_app1 by lia. apply nth_error_firstn'. exact C.
    + rewrite nth_error_app2 by lia. rewrite LF. destruct (j - Z.to_nat k)%nat as [|m] eqn:E; [lia|]. cbn [nth_error]. rewrite nth_error_skipn'. f_equal. lia.
Qed.
Lemma set_at_nth_in {A} (l : list A) k b d : 0 <= k < zlen l -> nth (Z.to_nat k) (set_at l k b) d = b.
Proof. intros H. apply nth_error_nth. rewrite set_at_nth by exact H. now rewrite Nat.eqb_refl. Qed.
Lemma set_at_firstn {A} (l : list A) k b n : 0 <= k < zlen l -> (n <= Z.to_nat k)%nat -> firstn n (set_at l k b) = firstn n l.
Proof.
  intros H Hn. unfold set_at, zlen in *. rewrite firstn_app, firstn_firstn, firstn_length. replace (min n (Z.to_nat k)) with n by lia.
  replace (n - min (Z.to_nat k) (length l))%nat with 0%nat by lia. cbn [firstn]. apply app_nil_r.
Qed.
Lemma get_set row k b j : 0 <= k < zlen row -> 0 <= j -> get_bounds (set_at row k (Some b)) j = if j =? k then Ok b else get_bounds row j.
Proof.
  intros H Hj. unfold get_bounds. destruct (Z.ltb_spec j 0); [lia|]. rewrite set_at_nth by exact H. destruct (Z.eqb_spec j k) as [->|N]; [now rewrite Nat.eqb_refl|].
  destruct (Nat.eqb_spec (Z.to_nat j) (Z.to_nat k)); [lia|reflexivity].
Qed.
Lemma set_ok row k b : 0 <= k < zlen row -> set_bounds row k b = Ok (set_at row k (Some b)).
Proof. intros H. unfold set_bounds. rewrite (proj2 (Z.leb_le 0 k)), (proj2 (Z.ltb_lt k (zlen row))) by lia. reflexivity. Qed.

(** picks *)
Lemma picks_app {A} (Pr : A -> Prop) l r l' r' : picks Pr l r -> picks Pr l' r' -> picks Pr (l ++ l') (r ++ r').
Proof. induction 1; intros H'; cbn [app]; [exact H'|apply picks_take; auto|apply picks_skip; auto]. Qed.
Lemma picks_none {A} (Pr : A -> Prop) l : (forall x, In x l -> ~ Pr x) -> picks Pr l [].
Proof. induction l as [|x l IH]; intros H; [constructor|]. apply picks_skip; [apply H; now left|]. apply IH. intros y Hy. apply H. now right. Qed.
Lemma picks_in {A} (Pr : A -> Prop) l r : picks Pr l r -> forall x, In x r <-> In x l /\ Pr x.
Proof.
  induction 1 as [|x l r Hx H IH|x l r Hx H IH]; intros y; cbn [In]; [tauto| |]; rewrite IH; [|intuition congruence]. split; [|intuition congruence]. intros [->|?]; intuition.
Qed.
Lemma picks_ext {A} (Pr Pr' : A -> Prop) l r : (forall x, In x l -> (Pr x <-> Pr' x)) -> picks Pr l r -> picks Pr' l r.
Proof. intros H P. induction P as [|x l r Hx P IH|x l r Hx P IH]; [constructor|apply picks_take|apply picks_skip]; try (apply IH; intros; apply H; now right); [apply H; auto; now left|intros H1; apply Hx, H; auto; now left]. Qed.
Lemma picks_fun {A} (Pr : A -> Prop) l r r' : picks Pr l r -> picks Pr l r' -> r = r'.
Proof. intros P. revert r'. induction P as [|x l r Hx P IH|x l r Hx P IH]; intros r' P'; inversion P'; subst; try contradiction; auto. f_equal. auto. Qed.
Lemma nth_of_firstn {A} (a b : list A) n k d : (k < n)%nat -> firstn n a = firstn n b -> nth k a d = nth k b d.
Proof.
  intros H E. rewrite <- (firstn_skipn n a), <- (firstn_skipn n b), E. destruct (Nat.lt_ge_cases k (length (firstn n b))) as [C|C].
  - now rewrite !app_nth1.
  - rewrite firstn_length in C. assert (La : (length a <= k)%nat) by (apply (f_equal (@length A)) in E; rewrite !firstn_length in E; lia). assert (Lb : (length b <= k)%nat) by lia.
    rewrite !nth_overflow; auto; rewrite app_length, firstn_length, skipn_length; [lia|]. apply (f_equal (@length A)) in E. rewrite !firstn_length in E. lia.
Qed.
Lemma firstn_le {A} (a b : list A) n k : (k <= n)%nat -> firstn n a = firstn n b -> firstn k a = firstn k b.
Proof. intros H E. replace k with (min k n) by lia. rewrite <- !firstn_firstn, E. reflexivity. Qed.

Definition inb (q : Z) (S : list Z) : bool := existsb (Z.eqb q) S.
Lemma inb_iff q S : inb q S = true <-> In q S.
Proof. unfold inb. rewrite existsb_exists. split; [intros (x & Hx & E); apply Z.eqb_eq in E; now subst|]. intros H. exists q. split; [exact H|apply Z.eqb_refl]. Qed.

Section forest.
Variable cls : Z -> scheme.
Notation leaf := {t : Z & elt (cls t)}.
Notation el t e := (existT (fun t => elt (cls t)) t e).
Variables (P K ml : Z) (lv : forall t, list (elt (cls t))) (loc : Z -> list leaf).
Hypothesis D : distributed P K ml lv loc.
Variable fc : forall t, faces (cls t).
Variable nb : leaf -> Z -> option (leaf * Z).
Hypothesis HM : mesh_ok fc nb K ml.
Variable dbg : bool.
Variable to : list Z.
Hypothesis ET : create_tree_offsets P K ml loc = Ok to.
Variables x0 me : Z.
Hypothesis Hme : 0 <= me < P.
Notation eo := (element_offsets P loc).
Notation fd := (create_first_desc P ml loc ++ [x0]).
Notation "'nface_owner'" := (nface_owner P ml loc fc nb).
Notation "'elem_owner'" := (elem_owner P ml loc).
Notation "'touches'" := (touches ml loc fc nb).
Notation "'good'" := (good P).

Lemma fine_loc x : In x (loc me) -> fine x.
Proof. intros H. destruct x as [t e]. destruct (leaf_ok D (in_loc_all D Hme H)) as (Ht & _ & V & _). split; [apply (class_ok HM Ht)|exact V]. Qed.

(** ** the row of the parent and the row of the element *)
Section tree.
Variable t : Z.
Hypothesis Ht : 0 <= t < K.
Notation elt := (elt (cls t)).
Variable mx : Z.
Implicit Types e : elt.
Notation row := (list (option (Z * Z))).
Definition prow_ok (e : elt) (r : row) : Prop := exists pb, get_bounds r mx = Ok pb /\ good pb (elem_owner e) /\
  forall f, is_face (fc t) e f -> exists b, (if 0 <=? f_parent_face (fc t) e f then get_bounds r (f_parent_face (fc t) e f) else Ok pb) = Ok b /\ good b (nface_owner e f).
Definition crow_ok (e : elt) (r : row) : Prop := exists ob, get_bounds r mx = Ok ob /\ good ob (elem_owner e) /\
  forall f, is_face (fc t) e f -> exists b, get_bounds r f = Ok b /\ good b (nface_owner e f).
Lemma row_child e i r : valid e -> s_level e < ml -> 0 <= i < s_num_children e -> crow_ok e r -> prow_ok (s_child e i) r.
Proof.
  intros V L Hi (ob & E1 & G1 & Q). destruct (class_ok HM Ht) as (LW & FL & ML). exists ob. split; [exact E1|]. split; [eapply good_sub; [|exact G1]; intros q; apply (elem_owner_up HM Ht); apply (below_child LW); auto; lia|].
  intros f Hf. destruct (Z.leb_spec 0 (f_parent_face (fc t) (s_child e i) f)) as [C|C].
  - assert (Hpf : is_face (fc t) e (f_parent_face (fc t) (s_child e i) f)). { destruct (fl_parent_face FL V (i := i) ltac:(lia) Hi Hf) as [[Q1|Q1] _]; [lia|exact Q1]. }
    destruct (Q _ Hpf) as (b & E2 & G2). exists b. split; [exact E2|]. eapply good_sub; [|exact G2]. intros q Hq. assert (R := @nface_child cls P K ml loc fc nb HM t e i f q Ht V L Hi Hf Hq).
    rewrite (proj2 (Z.leb_le _ _) C) in R. apply R.
  - exists ob. split; [reflexivity|]. eapply good_sub; [|exact G1]. intros q Hq. assert (R := @nface_child cls P K ml loc fc nb HM t e i f q Ht V L Hi Hf Hq). rewrite (proj2 (Z.leb_gt _ _) C) in R. exact R.
Qed.

(** ** the loop over the faces *)
Lemma faces_node e index bounds parent ifaces : forall r owned g, valid e -> s_level e <= ml -> Forall (is_face (fc t) e) ifaces -> NoDup ifaces -> f_num (fc t) e <= mx -> zlen r = mx + 1 ->
  (forall f, is_face (fc t) e f -> exists b, (if 0 <=? f_parent_face (fc t) e f then get_bounds bounds (f_parent_face (fc t) e f) else Ok parent) = Ok b /\ good b (nface_owner e f)) ->
  exists r' owned', face_loop fc nb dbg P ml me eo to fd e false index bounds parent ifaces (r, owned, g) = Ok (r', owned', g) /\ zlen r' = mx + 1 /\
    (forall k, 0 <= k -> ~ In k ifaces -> get_bounds r' k = get_bounds r k) /\ (owned' = true -> owned = true) /\
    forall f, In f ifaces -> exists b, get_bounds r' f = Ok b /\ good b (nface_owner e f) /\ (owned' = true -> b = (me, me)).
Proof.
  induction ifaces as [|f ifs IH]; intros r owned g V L FA ND NM LR HB; cbn [face_loop].
  - exists r, owned. split; [reflexivity|]. split; [exact LR|]. split; [auto|]. split; [auto|]. intros f [].
  - apply Forall_cons_iff in FA. destruct FA as [Hf FA]. inversion ND as [|? ? NI ND']; subst. destruct (HB f Hf) as ([lower upper] & E1 & G1). rewrite E1. cbn [obind].
    destruct (neigh_face_bounds_ok D HM dbg ET x0 Ht V L Hf G1) as (b' & E2 & G2). cbn [fst snd] in E2. rewrite E2. cbn [obind]. assert (Hk : 0 <= f < zlen r) by (destruct Hf; lia). rewrite (set_ok _ Hk). cbn [obind].
    set (owned1 := if negb (fst b' =? snd b') || negb (fst b' =? me) then false else owned).
    destruct (IH (set_at r f (Some b')) owned1 g V L FA ND' NM) as (r' & owned' & E3 & L3 & U3 & O3 & F3); [unfold zlen; rewrite set_at_length by exact Hk; exact LR|exact HB|].
    rewrite E3. exists r', owned'. split; [reflexivity|]. split; [exact L3|].
    assert (OW : owned1 = true -> owned = true /\ b' = (me, me)). { unfold owned1. destruct (Z.eqb_spec (fst b') (snd b')); cbn [negb orb]; [|discriminate]. destruct (Z.eqb_spec (fst b') me); cbn [negb]; [|discriminate]. intros ->. split; [reflexivity|]. destruct b'. cbn in *. congruence. }
    split; [|split].
    + intros k Hk0 Hn. rewrite U3 by (auto; intros H; apply Hn; now right). rewrite get_set by auto. destruct (Z.eqb_spec k f) as [->|_]; [exfalso; apply Hn; now left|reflexivity].
    + intros H. apply OW. auto.
    + intros f' [<-|Hf'].
      * exists b'. rewrite U3 by (auto; destruct Hf; lia). rewrite get_set by (auto; destruct Hf; lia). rewrite Z.eqb_refl. split; [reflexivity|]. split; [exact G2|]. intros H. apply OW. auto.
      * apply F3. exact Hf'.
Qed.
(** after the owners S were added for the element x *)
Definition with_owners (base : Z -> list (leaf * Z)) (x : leaf * Z) (S : list Z) (q : Z) : list (leaf * Z) := base q ++ if inb q S then [x] else [].
Lemma rem_ok_ext g (h h' : Z -> list (leaf * Z)) : (forall q, h q = h' q) -> rem_ok g h -> rem_ok g h'.
Proof.
  intros E (A & B & C & I). split; [exact A|]. split; [exact B|]. split; [|intros q; rewrite <- E; apply I]. apply Forall_forall. intros r Hr. rewrite <- E. rewrite Forall_forall in C. now apply C.
Qed.
Lemma add_owners_ok e index base owners : forall S g, fine (el t e) -> (forall q, earlier_all (base q) (el t e)) -> rem_ok g (with_owners base (el t e, index) S) ->
  exists S' g', add_owners dbg me e index owners g = Ok g' /\ rem_ok g' (with_owners base (el t e, index) S') /\ forall q, In q S' <-> In q S \/ (In q owners /\ q <> me).
Proof.
  induction owners as [|q owners IH]; intros S g Fe EA R; cbn [add_owners].
  - exists S, g. split; [reflexivity|]. split; [exact R|]. intros q. cbn [In]. tauto.
  - destruct (Z.eqb_spec q me) as [->|N]; cbn [negb].
    + destruct (IH S g Fe EA R) as (S' & g' & E & R' & Q). exists S', g'. split; [exact E|]. split; [exact R'|]. intros q. rewrite Q. cbn [In]. intuition congruence.
    + destruct (@add_remote_ok cls dbg g q t e index (base q) (with_owners base (el t e, index) S) (with_owners base (el t e, index) (q :: S)) Fe R) as (g1 & E1 & R1).
      * unfold with_owners. destruct (inb q S); [now right|left; apply app_nil_r].
      * apply EA.
      * intros q'. unfold with_owners. cbn [inb existsb]. fold (inb q' S). destruct (Z.eqb_spec q' q) as [->|_]; reflexivity.
      * rewrite E1. cbn [obind]. destruct (IH (q :: S) g1 Fe EA R1) as (S' & g' & E & R' & Q). exists S', g'. split; [exact E|]. split; [exact R'|]. intros q'. rewrite Q. cbn [In]. intuition congruence.
Qed.
Lemma faces_leaf e index bounds parent base ifaces : forall S r owned g, valid e -> s_level e <= ml -> fine (el t e) -> (forall q, earlier_all (base q) (el t e)) -> Forall (is_face (fc t) e) ifaces ->
  (forall f, is_face (fc t) e f -> exists b, (if 0 <=? f_parent_face (fc t) e f then get_bounds bounds (f_parent_face (fc t) e f) else Ok parent) = Ok b /\ good b (nface_owner e f)) ->
  rem_ok g (with_owners base (el t e, index) S) ->
  exists S' g', face_loop fc nb dbg P ml me eo to fd e true index bounds parent ifaces (r, owned, g) = Ok (r, owned, g') /\ rem_ok g' (with_owners base (el t e, index) S') /\
    forall q, In q S' <-> In q S \/ (q <> me /\ exists f, In f ifaces /\ nface_owner e f q).
Proof.
  induction ifaces as [|f ifs IH]; intros S r owned g V L Fe EA FA HB R; cbn [face_loop].
  - exists S, g. split; [reflexivity|]. split; [exact R|]. intros q. split; [auto|]. intros [?|(_ & f & [] & _)]. auto.
  - apply Forall_cons_iff in FA. destruct FA as [Hf FA]. destruct (HB f Hf) as ([lower upper] & E1 & G1). rewrite E1. cbn [obind].
    destruct (owners_at_neigh_face_ok D HM dbg ET x0 Ht V L Hf G1) as (ow & E2 & _ & I2). cbn [fst snd] in E2. rewrite E2. cbn [obind].
    destruct (add_owners_ok ow Fe EA R) as (S1 & g1 & E3 & R3 & I3). rewrite E3. cbn [obind].
    destruct (IH S1 r owned g1 V L Fe EA FA HB R3) as (S' & g' & E4 & R4 & I4). rewrite E4. exists S', g'. split; [reflexivity|]. split; [exact R4|].
    intros q. rewrite I4, I3, I2. split.
    + intros [[?|[[[]|Hq] N]]|(N & f' & Hf' & Hq)]; [auto|right; split; [exact N|]; exists f; split; [now left|exact Hq]|right; split; [exact N|]; exists f'; split; [now right|exact Hq]].
    + intros [?|(N & f' & [<-|Hf'] & Hq)]; [auto|left; right; auto|right; split; [exact N|]; exists f'; auto].
Qed.

(** ** the callback *)
Record data_ok (lN : Z) (e : elt) (d : bdata) : Prop := {
  do_tree : b_tree d = t;
  do_level : b_level d = lN;
  do_max : b_max d = mx;
  do_e : lN <= s_level e;
  do_len : s_level e - lN + 1 <= zlen (b_rows d);
  do_rows : Forall (fun r => zlen r = mx + 1) (b_rows d);
  do_row : prow_ok e (nth (Z.to_nat (s_level e - lN)) (b_rows d) [])
}.
(** the rows up to the one of the element are kept *)
Record data_after (lN : Z) (e : elt) (d d' : bdata) : Prop := {
  da_tree : b_tree d' = t;
  da_level : b_level d' = lN;
  da_max : b_max d' = mx;
  da_len : zlen (b_rows d) <= zlen (b_rows d');
  da_rows : Forall (fun r => zlen r = mx + 1) (b_rows d');
  da_keep : firstn (Z.to_nat (s_level e - lN + 1)) (b_rows d') = firstn (Z.to_nat (s_level e - lN + 1)) (b_rows d)
}.
Lemma faces_forall e : Forall (is_face (fc t) e) (zseq 0 (Z.to_nat (f_num (fc t) e))).
Proof. apply Forall_forall. intros f Hf. apply in_zseq in Hf. unfold is_face. lia. Qed.
Lemma callback_pre lN e d : data_ok lN e d -> valid e -> s_level e <= ml -> 0 <= mx -> exists rows bounds parent own row,
  (forall is_leaf index g, search_boundary fc nb dbg P ml me eo to fd e is_leaf index (d, g) =
     do r <- face_loop fc nb dbg P ml me eo to fd e is_leaf index bounds parent (zseq 0 (Z.to_nat (f_num (fc t) e))) (row, true, g);
     let '(row, owned, g) := r in
     Ok (BData (b_tree d) lN mx (set_at rows (s_level e - lN + 1) row), g, negb (owned && (fst own =? snd own)))) /\
  s_level e - lN + 1 < zlen rows /\ zlen (b_rows d) <= zlen rows /\ Forall (fun r => zlen r = mx + 1) rows /\
  firstn (Z.to_nat (s_level e - lN + 1)) rows = firstn (Z.to_nat (s_level e - lN + 1)) (b_rows d) /\ zlen row = mx + 1 /\
  get_bounds row mx = Ok own /\ good own (elem_owner e) /\
  (forall f, is_face (fc t) e f -> exists b, (if 0 <=? f_parent_face (fc t) e f then get_bounds bounds (f_parent_face (fc t) e f) else Ok parent) = Ok b /\ good b (nface_owner e f)).
Proof.
  intros DO V L Hmx. destruct DO as [DT DL DM DE DN DR (pb & E1 & G1 & Q1)]. set (i := s_level e - lN) in *.
  set (rows := if zlen (b_rows d) =? i + 1 then b_rows d ++ [repeat None (Z.to_nat (mx + 1))] else b_rows d).
  assert (LR : i + 1 < zlen rows). { unfold rows. destruct (Z.eqb_spec (zlen (b_rows d)) (i + 1)); [rewrite zlen_snoc|]; lia. }
  assert (LR2 : zlen (b_rows d) <= zlen rows). { unfold rows. destruct (Z.eqb_spec (zlen (b_rows d)) (i + 1)); [rewrite zlen_snoc|]; lia. }
  assert (FR : Forall (fun r => zlen r = mx + 1) rows). { unfold rows. destruct (Z.eqb_spec (zlen (b_rows d)) (i + 1)); [|exact DR]. apply Forall_app. split; [exact DR|]. constructor; [|constructor]. unfold zlen. rewrite repeat_length. lia. }
  assert (FK : firstn (Z.to_nat (i + 1)) rows = firstn (Z.to_nat (i + 1)) (b_rows d)).
  { unfold rows. destruct (Z.eqb_spec (zlen (b_rows d)) (i + 1)); [|reflexivity]. rewrite firstn_app. replace (Z.to_nat (i + 1) - length (b_rows d))%nat with 0%nat by (unfold zlen in *; lia). cbn [firstn]. apply app_nil_r. }
  assert (NB : nth (Z.to_nat i) rows [] = nth (Z.to_nat i) (b_rows d) []).
  { unfold rows. destruct (Z.eqb_spec (zlen (b_rows d)) (i + 1)); [|reflexivity]. apply app_nth1. unfold zlen in *. lia. }
  destruct (owners_bounds_ok D HM dbg ET x0 Ht V L G1) as (own & E2 & G2).
  set (row0 := nth (Z.to_nat (i + 1)) rows []). assert (L0 : zlen row0 = mx + 1). { rewrite Forall_forall in FR. apply FR. apply nth_In. unfold zlen in LR. lia. }
  exists rows, (nth (Z.to_nat i) (b_rows d) []), pb, own, (set_at row0 mx (Some own)).
  split; [|split; [exact LR|split; [exact LR2|split; [exact FR|split; [exact FK|split; [|split; [|split; [exact G2|exact Q1]]]]]]]].
  - intros is_leaf index g. unfold search_boundary. rewrite (proj2 (Z.eqb_eq t (b_tree d))) by (now symmetry). cbv zeta. rewrite DL, DM. fold i. destruct (Z.ltb_spec i 0); [lia|].
    assert (ER : (if zlen (b_rows d) <=? i + 1 then if zlen (b_rows d) =? i + 1 then Ok (b_rows d ++ [repeat None (Z.to_nat (mx + 1))]) else AssertFail else Ok (b_rows d)) = Ok rows).
    { unfold rows. destruct (Z.leb_spec (zlen (b_rows d)) (i + 1)) as [C|C]; [rewrite (proj2 (Z.eqb_eq _ _)) by lia; reflexivity|]. rewrite (proj2 (Z.eqb_neq (zlen (b_rows d)) (i + 1))) by lia. reflexivity. }
    rewrite ER. cbn [obind]. rewrite NB, E1. cbn [obind]. rewrite E2. cbn [obind]. fold row0. rewrite set_ok by lia. cbn [obind]. reflexivity.
  - unfold zlen. rewrite set_at_length by lia. exact L0.
  - rewrite get_set by lia. now rewrite Z.eqb_refl.
Qed.
Lemma callback_node lN e index d g : data_ok lN e d -> valid e -> s_level e <= ml -> f_num (fc t) e <= mx -> 0 <= mx ->
  exists d' ret, search_boundary fc nb dbg P ml me eo to fd e false index (d, g) = Ok (d', g, ret) /\ data_after lN e d d' /\ s_level e - lN + 1 < zlen (b_rows d') /\
    crow_ok e (nth (Z.to_nat (s_level e - lN + 1)) (b_rows d') []) /\
    (ret = false -> (exists q0, forall q, elem_owner e q -> q = q0) /\ forall f q, is_face (fc t) e f -> nface_owner e f q -> q = me).
Proof.
  intros DO V L NF Hmx. destruct (callback_pre DO V L Hmx) as (rows & bounds & parent & own & row & EQ & LR & LR2 & FR & FK & L0 & GO & G2 & Q1). rewrite EQ. clear EQ.
  assert (De := do_e DO).
  destruct (@faces_node e index bounds parent (zseq 0 (Z.to_nat (f_num (fc t) e))) row true g V L (faces_forall e) (NoDup_zseq _) NF L0 Q1) as (r' & owned & E3 & L3 & U3 & _ & F3).
  rewrite E3. cbn [obind]. eexists _, _. split; [reflexivity|]. split; [|split; [|split]].
  - assert (DT := do_tree DO). constructor; cbn [b_tree b_level b_max b_rows]; auto.
    + unfold zlen in *. rewrite set_at_length by (unfold zlen; lia). lia.
    + apply Forall_forall. intros x Hx. apply In_nth_error in Hx. destruct Hx as (j & Hj). rewrite set_at_nth in Hj by lia. destruct (Nat.eqb j _); [injection Hj as <-; exact L3|].
      rewrite Forall_forall in FR. apply FR. exact (nth_error_In _ _ Hj).
    + rewrite set_at_firstn by lia. exact FK.
  - cbn [b_rows]. unfold zlen in *. rewrite set_at_length by (unfold zlen; lia). exact LR.
  - cbn [b_rows]. rewrite set_at_nth_in by lia. exists own. rewrite U3; [|lia|intros H; apply in_zseq in H; lia]. split; [exact GO|]. split; [exact G2|].
    intros f Hf. destruct (F3 f) as (b & Eb & Gb & _); [apply in_zseq; destruct Hf; lia|]. eauto.
  - intros H. apply negb_false_iff, andb_true_iff in H. destruct H as [-> H]. apply Z.eqb_eq in H. split.
    + exists (fst own). intros q Hq. apply G2 in Hq. lia.
    + intros f q Hf Hq. destruct (F3 f) as (b & Eb & (_ & _ & Gb) & Me); [apply in_zseq; destruct Hf; lia|]. specialize (Gb q Hq). rewrite (Me eq_refl) in Gb. cbn in Gb. lia.
Qed.
Lemma callback_leaf lN e index d g base : data_ok lN e d -> In (el t e) (loc me) -> f_num (fc t) e <= mx -> 0 <= mx -> (forall q, earlier_all (base q) (el t e)) -> rem_ok g base ->
  exists d' g' ret S, search_boundary fc nb dbg P ml me eo to fd e true index (d, g) = Ok (d', g', ret) /\ data_after lN e d d' /\ rem_ok g' (with_owners base (el t e, index) S) /\
    forall q, In q S <-> 0 <= q < P /\ q <> me /\ touches (el t e) q.
Proof.
  intros DO I NF Hmx EA R. destruct (leaf_ok D (in_loc_all D Hme I)) as (_ & _ & V & L). assert (Fe := fine_loc I). assert (De := do_e DO).
  destruct (callback_pre DO V L Hmx) as (rows & bounds & parent & own & row & EQ & LR & LR2 & FR & FK & L0 & GO & G2 & Q1). rewrite EQ. clear EQ.
  assert (R0 : rem_ok g (with_owners base (el t e, index) [])) by (eapply rem_ok_ext; [|exact R]; intros q; unfold with_owners; cbn; now rewrite app_nil_r).
  destruct (@faces_leaf e index bounds parent base (zseq 0 (Z.to_nat (f_num (fc t) e))) [] row true g V L Fe EA (faces_forall e) Q1 R0) as (S & g' & E3 & R3 & I3).
  rewrite E3. cbn [obind]. eexists _, g', _, S. split; [reflexivity|]. split; [|split; [exact R3|]].
  - assert (DT := do_tree DO). constructor; cbn [b_tree b_level b_max b_rows]; auto.
    + unfold zlen in *. rewrite set_at_length by (unfold zlen; lia). lia.
    + apply Forall_forall. intros x Hx. apply In_nth_error in Hx. destruct Hx as (j & Hj). rewrite set_at_nth in Hj by lia. destruct (Nat.eqb j _); [injection Hj as <-; exact L0|].
      rewrite Forall_forall in FR. apply FR. exact (nth_error_In _ _ Hj).
    + rewrite set_at_firstn by lia. exact FK.
  - intros q. rewrite I3. split.
    + intros [[]|(N & f & Hf & Hq)]. apply in_zseq in Hf. assert (Hq0 : 0 <= q < P) by (destruct Hq as (t' & e' & f' & _ & Hq & _); exact Hq). split; [exact Hq0|]. split; [exact N|].
      apply (touches_iff D HM Hme Hq0 N I). exists f. split; [unfold is_face; lia|exact Hq].
    + intros (Hq0 & N & T). right. split; [exact N|]. apply (touches_iff D HM Hme Hq0 N I) in T. destruct T as (f & Hf & Hq). exists f. split; [apply in_zseq; destruct Hf; lia|exact Hq].
Qed.

(** ** the search of a tree *)
Notation LW := (proj1 (class_ok HM Ht)).
Variables (lN : Z) (N : elt) (all : list elt) (lt : Z).
Hypothesis OA : ordered all.
Hypothesis NN : valid N /\ s_level N = lN /\ f_max (fc t) N = mx.
Hypothesis AL : incl (map (fun e => el t e) all) (loc me).
Hypothesis MX : 0 <= mx.
Definition items (ls : list elt) (first : Z) : list (leaf * Z) := combine (map (fun e => el t e) ls) (zseq first (length ls)).
Lemma items_app l l' first : items (l ++ l') first = items l first ++ items l' (first + zlen l).
Proof. revert first. unfold items. induction l as [|x l IH]; intros first; cbn [map app length zseq combine]; [now rewrite Z.add_0_r|]. rewrite IH, zlen_cons. cbn [app]. replace (first + 1 + zlen l) with (first + (zlen l + 1)) by lia. reflexivity. Qed.
Lemma in_items x ls first : In x (items ls first) -> exists e, In e ls /\ fst x = el t e.
Proof. destruct x as [x i]. intros H. apply in_combine_l in H. apply in_map_iff in H. destruct H as (e & <- & He). eauto. Qed.
(** the remote elements so far: of the leaves [done], those that touch a leaf of q *)
Definition remote_of (q : Z) (x : leaf * Z) : Prop := 0 <= q < P /\ q <> me /\ touches (fst x) q.
Definition found (g : remotes cls) (done : list (leaf * Z)) : Prop := exists h, rem_ok g h /\ forall q, picks (remote_of q) done (h q).
Definition earlier (done : list (leaf * Z)) (ls : list elt) : Prop := forall y x, In y done -> In x ls -> In (fst y) (loc me) /\ gbefore (fst y) (el t x).
Notation cb := (boundary_cb fc nb dbg P ml me eo to fd).
Definition rec_claim (fuel : nat) : Prop := forall e ls first active d g done,
  below N e -> ordered ls -> Forall (below e) ls -> incl ls all -> (Z.to_nat (s_maxlevel (cls t) - s_level e) < fuel)%nat ->
  data_ok lN e d -> earlier done ls -> found g done ->
  exists d' g', c_search_recursion (@cb t) None all lt fuel e ls first active (Ok (d, g)) = Ok (Ok (d', g')) /\ data_after lN e d d' /\ found g' (done ++ items ls first).

Lemma children_claim fuel e ls first offs act d0 : rec_claim fuel ->
  below N e -> s_level e < ml -> ordered ls -> Forall (below e) ls -> ~ In e ls -> ls <> [] -> incl ls all -> (Z.to_nat (s_maxlevel (cls t) - s_level e) < Datatypes.S fuel)%nat ->
  SplitProofs.offsets_ok (anc e ls) (s_num_children e) (zlen ls) offs ->
  forall n k a d g done, 0 <= k -> k + Z.of_nat n = s_num_children e -> nth_error offs (Z.to_nat k) = Some a ->
    data_after lN e d0 d -> s_level e - lN + 1 < zlen (b_rows d) -> crow_ok e (nth (Z.to_nat (s_level e - lN + 1)) (b_rows d) []) -> lN <= s_level e ->
    earlier done ls -> found g (done ++ items (firstn (Z.to_nat a) ls) first) ->
  exists d' g', c_children_loop (c_search_recursion (@cb t) None all lt fuel) e ls first offs act (zseq k n) (Ok (d, g)) = Ok (Ok (d', g')) /\
    data_after lN e d0 d' /\ found g' (done ++ items ls first).
Proof.
  intros REC BN LE O B NI NE I Hf OK. destruct (below_valid BN) as [_ V]. destruct (class_ok HM Ht) as (_ & _ & ML). induction n as [|n IH]; intros k a d g done Hk Hn Ea DA LR CR DL EA FO.
  - cbn [zseq c_children_loop]. exists d, g. split; [reflexivity|]. split; [exact DA|]. assert (AE : a = zlen ls).
    { destruct OK as [_ OK]. destruct (OK _ _ Ea) as [Ra Pa]. destruct (Z.eq_dec a (zlen ls)) as [?|NA]; [assumption|exfalso]. specialize (Pa a ltac:(lia)).
      assert (C : anc e ls a < Z.of_nat (Z.to_nat k)); [|lia]. rewrite Z2Nat.id by lia. replace k with (s_num_children e) by lia.
      unfold anc. destruct (nth_error ls (Z.to_nat a)) as [x|] eqn:Ex; [|apply nth_error_None in Ex; unfold zlen in *; lia].
      assert (Ix := nth_error_In _ _ Ex). rewrite Forall_forall in B. destruct (proper_child LW (B x Ix)) as (HL & j & Hj & Bj); [intros ->; contradiction|].
      rewrite (proj2 (child_anc_id LW V HL Hj Bj)). lia. }
    rewrite AE in FO. unfold zlen in FO. rewrite Nat2Z.id, firstn_all in FO. exact FO.
  - cbn [zseq c_children_loop]. rewrite Ea.
    destruct (nth_error offs (Z.to_nat (k + 1))) as [b|] eqn:Eb; [|apply nth_error_None in Eb; destruct OK as [OK _]; unfold zlen in OK; lia].
    destruct (portion_spec LW V O B NI OK (i := k) ltac:(lia) Ea Eb) as (Ra & Rb & pre & post & E & LP & F1 & F2).
    destruct (valid_child LW V (i := k) ltac:(lia) ltac:(lia)) as (Vc & Lc & _).
    assert (AB : a <= b). { destruct (Z.le_gt_cases a b) as [C|C]; [exact C|]. destruct OK as [_ OK]. destruct (OK _ _ Ea) as [_ Pa]. destruct (OK _ _ Eb) as [Rb' Pb]. specialize (Pa b ltac:(lia)). specialize (Pb b ltac:(lia)). lia. }
    set (por := firstn (Z.to_nat (b - a)) (skipn (Z.to_nat a) ls)) in *.
    assert (FB : firstn (Z.to_nat b) ls = firstn (Z.to_nat a) ls ++ por).
    { unfold por. replace (Z.to_nat b) with (Z.to_nat a + Z.to_nat (b - a))%nat by lia. rewrite <- (firstn_skipn (Z.to_nat a) ls) at 1. rewrite firstn_app, firstn_firstn.
      rewrite firstn_length. replace (min (Z.to_nat a + Z.to_nat (b - a)) (Z.to_nat a)) with (Z.to_nat a) by lia. f_equal. f_equal. unfold zlen in *. lia. }
    assert (LA : zlen (firstn (Z.to_nat a) ls) = a) by (unfold zlen in *; rewrite firstn_length; lia).
    destruct (Z.ltb_spec a b) as [C|C].
    + destruct (Z.ltb_spec (zlen ls) b) as [C'|C']; [lia|].
      assert (OP : ordered por) by (apply (infix_ordered LW) with (pre := pre) (post := post); now rewrite <- E).
      assert (IP : incl por ls) by (intros x Hx; rewrite E, !in_app_iff; auto).
      destruct (REC (s_child e k) por (a + first) act d g (done ++ items (firstn (Z.to_nat a) ls) first)) as (d1 & g1 & E1 & DA1 & FO1); auto.
      * apply (below_trans LW BN). apply (below_child LW); auto; lia.
      * intros x Hx. apply I, IP, Hx.
      * lia.
      * destruct DA. constructor; auto; rewrite Lc; [lia|lia|]. replace (s_level e + 1 - lN) with (s_level e - lN + 1) by lia. apply row_child; auto; lia.
      * intros y x Hy Hx. apply in_app_iff in Hy. destruct Hy as [Hy|Hy]; [apply EA; auto|]. apply in_items in Hy. destruct Hy as (z & Hz & ->).
        split; [apply AL, (in_map (fun e => el t e)), I; rewrite <- (firstn_skipn (Z.to_nat a) ls); apply in_or_app; left; exact Hz|]. apply gbefore_same.
        assert (OB : ordered (firstn (Z.to_nat a) ls ++ por)). { rewrite <- FB. rewrite <- (firstn_skipn (Z.to_nat b) ls) in O. apply (ordered_app LW) in O. apply O. }
        apply (ordered_app LW) in OB. destruct OB as (_ & _ & OB). rewrite Forall_forall in OB. specialize (OB z Hz). rewrite Forall_forall in OB. auto.
      * rewrite E1. cbn [obind]. assert (KE : firstn (Z.to_nat (s_level e - lN + 2)) (b_rows d1) = firstn (Z.to_nat (s_level e - lN + 2)) (b_rows d)).
        { replace (s_level e - lN + 2) with (s_level (s_child e k) - lN + 1) by lia. apply (da_keep DA1). }
        apply (IH (k + 1) b); auto; try lia.
        -- destruct DA1, DA. constructor; auto; [lia|]. etransitivity; [|exact da_keep1]. eapply firstn_le; [|exact KE]. lia.
        -- destruct DA1. lia.
        -- erewrite nth_of_firstn; [exact CR| |exact KE]. lia.
        -- rewrite FB, items_app, LA, app_assoc. rewrite (Z.add_comm first a). exact FO1.
    + assert (a = b) by lia. subst b. apply (IH (k + 1) a); auto; lia.
Qed.
Lemma recursion_claim fuel : rec_claim fuel.
Proof.
  induction fuel as [|fuel IH]; intros e ls first active d g done BN O B I Hf DO EA FO; [lia|]. cbn [c_search_recursion]. destruct (below_valid BN) as [_ V].
  destruct (Z.eqb_spec (zlen ls) 0) as [Z0|Z0].
  { assert (ls = []) as -> by (unfold zlen in Z0; destruct ls; [reflexivity|cbn in Z0; lia]). exists d, g. split; [reflexivity|]. split; [|unfold items; cbn; now rewrite app_nil_r].
    destruct DO. constructor; auto. lia. }
  assert (NE : ls <> []) by (intros ->; apply Z0; reflexivity).
  assert (LM : forall x, In x ls -> In (el t x) (loc me) /\ s_level x <= ml).
  { intros x Hx. assert (Ix : In (el t x) (loc me)) by (apply AL, (in_map (fun e => el t e)), I, Hx). split; [exact Ix|]. apply (leaf_ok D (in_loc_all D Hme Ix)). }
  destruct (has_leaf NE B) as (x1 & Hx1 & Bx1). assert (Le : s_level e <= ml). { destruct (LM x1 Hx1) as [_ L]. pose proof (proj1 (below_level LW Bx1)). lia. }
  assert (NF : f_num (fc t) e <= mx). { destruct (class_ok HM Ht) as (_ & FL & _). destruct NN as (_ & _ & <-). apply (proj2 (fl_max FL BN)). }
  assert (DE := do_e DO).
  destruct (check_is_leaf_spec LW OA V O NE B I) as (b & Eb & Hb & Hb1). rewrite Eb. cbn [obind]. unfold boundary_cb at 1. destruct b.
  - rewrite (Hb1 eq_refl) in *. destruct (LM e (or_introl eq_refl)) as [Ie _]. destruct FO as (h & RO & PK).
    destruct (callback_leaf first (lN := lN) (d := d) (g := g) (base := h) DO Ie NF MX) as (d' & g' & ret & S & E & DA & RO' & HS).
    + intros q. apply Forall_forall. intros y Hy. apply (picks_in (PK q)) in Hy. destruct Hy as [Hy _]. destruct (EA y e Hy (or_introl eq_refl)) as [Iy By]. split; [apply fine_loc; exact Iy|exact By].
    + exact RO.
    + rewrite E. exists d', g'. split; [destruct ret; reflexivity|]. split; [exact DA|]. eexists. split; [exact RO'|]. intros q. unfold with_owners.
      unfold items. cbn [length zseq map combine]. apply picks_app; [apply PK|]. destruct (inb q S) eqn:Q.
      * apply inb_iff in Q. apply picks_take; [|constructor]. apply HS in Q. exact Q.
      * apply picks_skip; [|constructor]. intros R. apply HS in R. apply inb_iff in R. congruence.
  - assert (NI : ~ In e ls) by (intros Q0; apply Hb in Q0; discriminate).
    destruct (callback_node first g DO V Le NF MX) as (d1 & ret & E & DA & LR & CR & PR). rewrite E. destruct ret; cbn [negb].
    + destruct (split_array_spec LW V O B NI) as (offs & Eo & Ho). rewrite Eo. cbn [obind]. pose proof (valid_nchild LW V) as NC.
      destruct (nth_error offs 0) as [a|] eqn:Ea; [|apply nth_error_None in Ea; destruct Ho as [Ho _]; unfold zlen in Ho; lia].
      assert (HL : s_level e < ml). { destruct (LM x1 Hx1) as [_ L]. destruct (Z.eq_dec (s_level e) (s_level x1)) as [Q|Q]; [|pose proof (proj1 (below_level LW Bx1)); lia].
        exfalso. apply NI. rewrite (proj2 (below_level LW Bx1) Q). exact Hx1. }
      assert (A0 : a = 0).
      { destruct Ho as [_ OK]. destruct (OK _ _ Ea) as [Ra Pa]. destruct (Z.eq_dec a 0) as [?|NA]; [assumption|exfalso]. specialize (Pa 0 ltac:(lia)).
        assert (C : anc e ls 0 < 0) by (apply Pa; lia). unfold anc in C. destruct (nth_error ls (Z.to_nat 0)) as [x|] eqn:Ex; [|lia].
        assert (Ix := nth_error_In _ _ Ex). rewrite Forall_forall in B. destruct (proper_child LW (B x Ix)) as (HL' & j & Hj & Bj); [intros ->; contradiction|].
        rewrite (proj2 (child_anc_id LW V HL' Hj Bj)) in C. lia. }
      apply (@children_claim fuel e ls first offs [] d IH BN HL O B NI NE I Hf Ho _ 0 a d1 g done); auto; [lia|lia|].
      rewrite A0. cbn [Z.to_nat firstn]. unfold items. cbn. rewrite app_nil_r. exact FO.
    + exists d1, g. split; [reflexivity|]. split; [exact DA|]. destruct FO as (h & RO & PK). exists h. split; [exact RO|]. intros q. rewrite <- (app_nil_r (h q)). apply picks_app; [apply PK|].
      apply picks_none. intros y Hy (Hq & Nq & T). apply in_items in Hy. destruct Hy as (x & Hx & Ey). rewrite Ey in T. destruct (LM x Hx) as [Ix Lx].
      destruct (PR eq_refl) as [(q0 & Q0) PF]. apply (touches_iff D HM Hme Hq Nq Ix) in T. destruct T as (f & Hf' & NO). rewrite Forall_forall in B. assert (Bx := B x Hx).
      destruct (nface_up HM Ht Bx Lx Hf' NO) as [(f' & Hf1 & NO')|EO]; [apply Nq, (PF f' q Hf1 NO')|].
      apply Nq. rewrite (Q0 q EO). symmetry. apply Q0. split; [exact Hme|]. destruct (below_valid Bx) as [_ Vx].
      destruct (first_elem HM Ht Vx Lx) as (_ & Ly & By & _). exists (s_first_desc x ml). split; [exact (below_trans LW Bx By)|]. split; [exact Ly|]. exists x. auto.
Qed.
End tree.

Notation cb := (boundary_cb fc nb dbg P ml me eo to fd).
Lemma all_bounds (n : nat) b k : 0 <= k < Z.of_nat n -> get_bounds (repeat (Some b) n) k = Ok b.
Proof. intros H. unfold get_bounds. destruct (Z.ltb_spec k 0); [lia|]. assert (Q : nth_error (repeat (Some b) n) (Z.to_nat k) = Some (Some b)) by (apply nth_error_repeat; lia). now rewrite Q. Qed.
Lemma tree_claim t (ls : list (elt (cls t))) itree d g done : 0 <= t < K -> ls <> [] -> ordered ls -> incl (map (fun e => el t e) ls) (loc me) -> b_tree d <> t ->
  earlier done ls -> found g done ->
  exists d' g', c_search_tree (@cb t) None ls itree [] (Ok (d, g)) = Ok (Ok (d', g')) /\ b_tree d' = t /\ found g' (done ++ items ls 0).
Proof.
  intros Ht NE O IL DT EA FO. destruct (class_ok HM Ht) as (LW & FL & ML). destruct ls as [|x al] eqn:EQ; [congruence|]. rewrite <- EQ in *. set (y := last ls x).
  assert (N0 : nth_error ls 0 = Some x) by (rewrite EQ; reflexivity).
  assert (NY : nth_error ls (Z.to_nat (zlen ls - 1)) = Some y).
  { unfold y. rewrite EQ. unfold zlen. cbn [length]. replace (Z.to_nat (Z.of_nat (Datatypes.S (length al)) - 1)) with (length al) by lia.
    clear. generalize x at 1 2 as z. intros z. revert z x. induction al as [|a al IH]; intros z x; [reflexivity|]. cbn [length nth_error]. rewrite (IH a x). reflexivity. }
  assert (VA := ordered_valid O). rewrite Forall_forall in VA. assert (Vx : valid x) by (apply VA; eapply nth_error_In; eauto).
  assert (Vy : valid y) by (apply VA; eapply nth_error_In; eauto). destruct (nca_below LW Vx Vy) as (B1 & B2 & _). set (N := s_nca x y) in *.
  assert (VN : valid N) by apply (below_valid B1).
  assert (BA : Forall (below N) ls).
  { apply Forall_forall. intros z Hz. apply In_nth_error in Hz. destruct Hz as (k & Hk). destruct (Nat.eq_dec k 0) as [->|K0]; [rewrite N0 in Hk; now injection Hk as <-|].
    destruct (Nat.eq_dec k (Z.to_nat (zlen ls - 1))) as [->|K1]; [rewrite NY in Hk; now injection Hk as <-|].
    assert (k < length ls)%nat by (apply nth_error_Some; congruence). unfold zlen in K1, NY.
    apply (SchemeOrderProofs.between LW (e := x) (g := y)); auto; [apply VA; eapply nth_error_In; eauto|apply (sorted_before LW O N0 Hk); lia|].
    apply (sorted_before LW O Hk NY). lia. }
  unfold c_search_tree. rewrite N0, NY. fold N.
  set (mx := f_max (fc t) N). assert (MX : 0 <= mx) by (pose proof (fl_max FL (below_refl VN)); unfold mx; lia).
  set (d0 := BData t (s_level N) mx [repeat (Some (0, P - 1)) (Z.to_nat (mx + 1))]).
  assert (E0 : c_search_recursion (@cb t) None ls itree (Datatypes.S (Z.to_nat (s_maxlevel (cls t)))) N ls 0 [] (Ok (d, g)) =
               c_search_recursion (@cb t) None ls itree (Datatypes.S (Z.to_nat (s_maxlevel (cls t)))) N ls 0 [] (Ok (d0, g))).
  { cbn [c_search_recursion]. rewrite (proj2 (Z.eqb_neq (zlen ls) 0)) by (rewrite EQ, zlen_cons; pose proof (zlen_ge0 al); lia).
    destruct (check_is_leaf ls N ls) as [b| | |]; try reflexivity. cbn [obind]. unfold boundary_cb at 1 3.
    assert (ES : search_boundary fc nb dbg P ml me eo to fd N b 0 (d, g) = search_boundary fc nb dbg P ml me eo to fd N b 0 (d0, g)).
    { unfold search_boundary. rewrite (proj2 (Z.eqb_neq t (b_tree d))) by congruence. fold mx. fold d0. replace (t =? b_tree d0) with true by (unfold d0; cbn [b_tree]; now rewrite Z.eqb_refl). reflexivity. }
    rewrite ES. reflexivity. }
  rewrite E0. clear E0.
  assert (GA : forall Q : Z -> Prop, (forall q, Q q -> 0 <= q < P) -> good (0, P - 1) Q). { intros Q HQ. split; [cbn; lia|]. split; [cbn; lia|]. intros q H. apply HQ in H. cbn. lia. }
  destruct (@recursion_claim t Ht mx (s_level N) N ls itree O (conj VN (conj eq_refl eq_refl)) IL MX (Datatypes.S (Z.to_nat (s_maxlevel (cls t)))) N ls 0 [] d0 g done) as (d' & g' & E & DA & F); auto.
  - apply (below_refl VN).
  - apply incl_refl.
  - pose proof (valid_level LW VN). lia.
  - constructor; cbn [b_tree b_level b_max b_rows d0]; auto; try lia.
    + unfold zlen. cbn [length]. lia.
    + constructor; [|constructor]. unfold zlen. rewrite repeat_length. lia.
    + rewrite Z.sub_diag. cbn [Z.to_nat nth]. exists (0, P - 1). split; [apply all_bounds; lia|]. split; [apply GA; intros q Q; apply Q|].
      intros f Hf. exists (0, P - 1). split; [|apply GA; intros q (t' & e' & f' & _ & Q); apply Q]. destruct (Z.leb_spec 0 (f_parent_face (fc t) N f)) as [C|C]; [|reflexivity].
      apply all_bounds. pose proof (fl_up FL VN Hf). fold mx in H. lia.
  - exists d', g'. split; [exact E|]. split; [apply (da_tree DA)|exact F].
Qed.
(** all local trees *)
Definition tree_items (tr : ltree cls) : list (leaf * Z) := items (projT2 tr) 0.
Lemma trees_claim (ts : list (ltree cls)) : forall itree d g done,
  StronglySorted Z.lt (map (@projT1 _ _) ts) -> Forall (fun tr => b_tree d < projT1 tr) ts -> Forall (fun tr => projT2 tr <> []) ts ->
  StronglySorted (@gbefore cls) (map fst (done ++ flat_map tree_items ts)) -> incl (map fst (done ++ flat_map tree_items ts)) (loc me) -> found g done ->
  exists d' g', search_trees fc nb dbg P ml me eo to fd itree ts (Ok (d, g)) = Ok (d', g') /\ found g' (done ++ flat_map tree_items ts).
Proof.
  induction ts as [|[t ls] ts IH]; intros itree d g done ST BT NE SS IN FO; cbn [search_trees flat_map].
  - exists d, g. split; [reflexivity|]. now rewrite app_nil_r.
  - cbn [map projT1] in ST. inversion ST as [|? ? ST' FT]; subst. apply Forall_cons_iff in BT, NE. destruct BT as [BT BT'], NE as [NE NE']. cbn [projT1 projT2] in BT, NE.
    cbn [flat_map] in SS, IN |- *. change (tree_items (existT _ t ls)) with (items ls 0) in *. rewrite app_assoc in SS, IN |- *.
    assert (MI : map fst (items ls 0) = map (fun e => el t e) ls).
    { unfold items. generalize 0 as k. clear. induction ls as [|x l IH]; intros k; [reflexivity|]. cbn [map length zseq combine fst]. now rewrite IH. }
    assert (IL : incl (map (fun e => el t e) ls) (loc me)). { rewrite <- MI. intros x Hx. apply IN. rewrite !map_app, !in_app_iff. auto. }
    rewrite !map_app, !sorted_app_gen in SS. destruct SS as ((S0 & SL & SD) & SR & SA). rewrite MI in SL, SD, SA.
    assert (Ht : 0 <= t < K). { destruct ls as [|e l]; [congruence|]. assert (I0 : In (el t e) (loc me)) by (apply IL; now left). apply (leaf_ok D (in_loc_all D Hme I0)). }
    destruct (class_ok HM Ht) as (LW & _).
    assert (OL : ordered ls).
    { apply (ordered_iff LW). split.
      - apply Forall_forall. intros e He. apply (leaf_ok D (in_loc_all D Hme (IL _ (in_map (fun e => el t e) _ _ He)))).
      - clear - SL. induction ls as [|x l IH]; [constructor|]. cbn [map] in SL. inversion SL as [|? ? S1 F1]; subst. constructor; [now apply IH|]. apply Forall_forall. intros y Hy.
        rewrite Forall_forall in F1. apply gbefore_same, F1. now apply (in_map (fun e => el t e)). }
    destruct (@tree_claim t ls itree d g done Ht NE OL IL) as (d1 & g1 & E1 & D1 & F1); auto; [lia| |].
    { intros y x Hy Hx. split; [apply IN; rewrite !map_app, !in_app_iff; left; left; now apply in_map|]. rewrite Forall_forall in SD. specialize (SD _ (in_map fst _ _ Hy)). rewrite Forall_forall in SD. apply SD. now apply (in_map (fun e => el t e)). }
    rewrite E1. cbn [obind]. apply (IH (itree + 1) d1 g1); auto.
    + rewrite D1. apply Forall_forall. intros tr Htr. rewrite Forall_forall in FT. apply FT. now apply in_map.
    + rewrite !map_app, !sorted_app_gen, MI. auto.
Qed.
End forest.

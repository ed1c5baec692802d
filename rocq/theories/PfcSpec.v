(** Specification vocabulary for partition for coarsening (independent of the model).

    A forest of K trees; tree t has the class [cl t] and the leaves [lv t]. *)
From Verif Require Import Prelude SchemeModel SchemeSpec PartitionModel PartitionSpec.

Section spec.
(** the scheme of each class, the class and the leaves of each tree *)
Variable sch : Z -> scheme.
Variable K : Z.
Variable cl : Z -> Z.
Variable lv : forall t, list (elt (sch (cl t))).

(** a leaf of tree t in the global sequence: tree, class, element *)
Definition item (t : Z) (e : elt (sch (cl t))) : Z * Z * {c : Z & elt (sch c)} := (t, cl t, existT (fun c => elt (sch c)) (cl t) e).
(** the leaves of all trees, in order *)
Definition leaf_sequence : list (Z * Z * {c : Z & elt (sch c)}) := flat_map (fun t => map (@item t) (lv t)) (zseq 0 (Z.to_nat K)).
(** the leaves of each tree are in order and do not overlap; no element has more than 10 children (T8_ECLASS_MAX_CHILDREN) *)
Definition leaves_good : Prop := forall t, 0 <= t < K ->
  laws (sch (cl t)) /\ s_max_children (sch (cl t)) <= 10 /\ ordered (lv t) /\ lv t <> [].

(** x is an element of tree t all of whose children are leaves: a family *)
Definition family (t : Z) (x : elt (sch (cl t))) : Prop :=
  0 <= t < K /\ valid x /\ s_level x < s_maxlevel (sch (cl t)) /\ incl (s_children x) (lv t).
(** the family of x occupies the places s, ..., s + (number of children of x) - 1 of the global sequence *)
Definition family_at (t : Z) (x : elt (sch (cl t))) (s : Z) : Prop :=
  family x /\ 0 <= s /\ part leaf_sequence s (s + s_num_children x) = map (@item t) (s_children x).
(** place a of the global sequence is corrected to b: a place strictly inside a family is moved to its end, any other place is kept *)
Definition corrected (a b : Z) : Prop :=
  (exists t (x : elt (sch (cl t))) s, family_at x s /\ s < a < s + s_num_children x /\ b = s + s_num_children x) \/
  (b = a /\ forall t (x : elt (sch (cl t))) s, family_at x s -> ~ (s < a < s + s_num_children x)).
(** all children of x are stored on one rank *)
Definition on_one_rank (P : Z) (f : Z -> pforest {c : Z & elt (sch c)}) (t : Z) (x : elt (sch (cl t))) : Prop :=
  exists q, 0 <= q < P /\ forall y, In y (s_children x) -> In (item y) (tagged (f q)).
End spec.
Arguments item {sch cl t} e.
Arguments leaf_sequence {sch} K cl lv.
Arguments leaves_good {sch} K {cl} lv.
Arguments family {sch} K {cl} lv {t} x.
Arguments family_at {sch} K {cl} lv {t} x s.
Arguments corrected {sch} K {cl} lv a b.
Arguments on_one_rank {sch cl} P f {t} x.

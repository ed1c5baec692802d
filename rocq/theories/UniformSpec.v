(** Specification vocabulary for uniform forests (independent of the model). *)
From Verif Require Import Prelude.

(** the number of elements in the first t trees, if tree number i has [counts] i elements *)
Definition psum (counts : list Z) (t : Z) : Z := fold_right Z.add 0 (firstn (Z.to_nat t) counts).
Definition total (counts : list Z) : Z := fold_right Z.add 0 counts.
Definition count_of (counts : list Z) (t : Z) : Z := nth (Z.to_nat t) counts 0.
(** Number the elements of all trees consecutively.  Process p of P has the elements number [cut N P p] to [cut N P (p+1) - 1]. *)
Definition cut (N P p : Z) : Z := p * N / P.
(** element number g is element number j of tree t *)
Definition position (counts : list Z) (g t j : Z) : Prop := 0 <= t < zlen counts /\ 0 <= j < count_of counts t /\ g = psum counts t + j.

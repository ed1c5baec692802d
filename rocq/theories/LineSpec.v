(** Specification vocabulary for lines. *)
From Verif Require Import Prelude PathSpec SimplexModel LineModel.

(** the line reached from the root by taking children number p_1, p_2, ... *)
Definition l_walk (p : list Z) : dline := fold_left l_child p l_root.
Definition l_path (p : list Z) : Prop := valid_path 2 p /\ zlen p <= LMAX.

(** Property C08 for lists of elements of the tree that need not be consecutive.  Vocabulary: PathSpec.v, SimplexSpec.v, PyramidSpec.v. *)
From Verif Require Import Prelude PathSpec SimplexModel SimplexSpec SimplexProofs SimplexPathProofs PyramidModel PyramidSpec PyramidProofs PyramidIdProofs PyramidScheme PyramidFamilyProofs PropertiesPyramid.

(** ten elements of the tree of a pyramid whose first one is the first child of a pyramid are recognised exactly if they are its children *)
Theorem C08_pyramid_first_child : forall p ps, y_path p -> zlen p < YMAX -> is_pyra (y_walk p) = true -> Forall y_path ps -> zlen ps = 10 -> hd [] ps = p ++ [0] ->
  (y_is_family (map y_walk ps) = true <-> map y_walk ps = y_children_of (y_walk p)).
Proof.
  intros p ps Hp HL PP F LN H0. split.
  - apply y_family_first; auto. unfold zlen in LN. lia.
  - intros ->. destruct (y_walk_wf Hp) as [W L]. apply y_family; [exact W|rewrite L; exact HL].
Qed.
Print Assumptions C08_pyramid_first_child.
(** elements of the tree of a pyramid are determined by level, type and coordinates *)
Theorem C01_pyramid_determined : forall p q, y_path p -> y_path q -> yt (y_walk p) = yt (y_walk q) -> p = q.
Proof. intros p q. exact (@y_yt_inj p q). Qed.
Print Assumptions C01_pyramid_determined.
Example C08_pyramid_first_child_ex : let ps := map (fun i => ex_pyr2 ++ [i]) (zseq 0 10) in Forall y_path ps /\ zlen ps = 10 /\ y_is_family (map y_walk ps) = true /\
  y_is_family (map y_walk (map (fun i => ex_pyr2 ++ [i]) (zseq 0 9) ++ [[4; 8; 9; 0; 9]])) = false.
Proof.
  cbn zeta. split; [|split; [reflexivity|split; vm_compute; reflexivity]]. apply Forall_forall. intros q Hq. apply in_map_iff in Hq. destruct Hq as (i & <- & Hi). apply in_zseq in Hi. apply y_path_snoc.
  split; [apply ex_pyr2_path|]. split; [vm_compute; reflexivity|]. change (y_num_children (y_walk ex_pyr2)) with 10. lia.
Qed.

(** This does not hold of tetrahedra: the type of the last element is not tested.  The list consists of the first seven children of a
    tetrahedron and the last child of another one in the same cube *)
Theorem C08_tetrahedron_last_type_refuted : exists p ps, tree_path true p /\ zlen p < MAXLEVEL true /\ Forall (tree_path true) ps /\ zlen ps = CHILDREN true /\ hd [] ps = p ++ [0] /\
  is_family true (map (walk true) ps) = true /\ map (walk true) ps <> children_of true (walk true p).
Proof.
  exists [1], [[1;0];[1;1];[1;2];[1;3];[1;4];[1;5];[1;6];[2;7]].
  split; [split; [repeat constructor; vm_compute; congruence|vm_compute; congruence]|]. split; [vm_compute; reflexivity|].
  split; [repeat constructor; vm_compute; congruence|]. split; [vm_compute; reflexivity|]. split; [reflexivity|]. split; [vm_compute; reflexivity|].
  intros E. apply (f_equal (fun l => ty (nth 7 l dsimp))) in E. vm_compute in E. discriminate E.
Qed.
Print Assumptions C08_tetrahedron_last_type_refuted.

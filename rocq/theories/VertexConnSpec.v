(** What a user relies on from the vertex connectivity of a coarse mesh *)
From Coq Require Import Sorting.Sorted Permutation.
From Verif Require Import Prelude EclassModel CmeshModel CmeshSpec VertexConnModel.

(** the global vertices ids are set for tree t; the ids are natural numbers of type t8_gloidx_t *)
Definition sets_vertices (pkg : Z) (calls : list call) (t : Z) (ids : list Z) : Prop := In (set_global_vertices pkg t ids) calls /\ forall v, In v ids -> 0 <= v < 2 ^ 63.
(** Calls that set the global vertices of all trees, as many as the tree has vertices *)
Record vertex_calls (pkg dim n : Z) (calls : list call) : Prop := {
  vc_mesh : mesh_calls dim n calls;
  vc_all : forall t, 0 <= t < n -> exists ids, sets_vertices pkg calls t ids;
  vc_ids : forall t ids k, sets_vertices pkg calls t ids -> In (SetClass t k) calls -> zlen ids = eclass_num_vertices k
}.
(** vertex i of tree t is the global vertex v *)
Definition vertex_of (pkg : Z) (calls : list call) (t i v : Z) : Prop := exists ids, sets_vertices pkg calls t ids /\ nth_error ids (Z.to_nat i) = Some v /\ 0 <= i.

(** (tree, vertex) pairs in ascending order *)
Definition pair_lt (a b : Z * Z) : Prop := fst a < fst b \/ (fst a = fst b /\ snd a < snd b).
(** What a finished list of trees at vertices answers, if (t, i) is at the global vertex v when at_vertex t i v: exactly the vertices of trees at v, in
    ascending order, and nothing for other global vertices; the number of global vertices is the number of different ones *)
Definition lists_right (s : vtt) (at_vertex : Z -> Z -> Z -> Prop) : Prop :=
  (forall v, 0 <= v -> (exists t i, at_vertex t i v) -> exists l, get_tree_list s v = Ok l /\ StronglySorted pair_lt l /\ (forall t i, In (t, i) l <-> at_vertex t i v) /\ num_trees_at_vertex s v = Ok (zlen l)) /\
  (forall v, (forall t i, ~ at_vertex t i v) -> get_tree_list s v = AssertFail) /\
  (exists vs, NoDup vs /\ (forall v, In v vs <-> exists t i, at_vertex t i v) /\ num_global_vertices s = zlen vs).

(** All local trees and ghosts of a mesh have a class; tree t has a vertex i *)
Definition known (c : cmesh) (lt : Z) : Prop := 0 <= lt < zlen (c_trees c) + zlen (c_ghosts c).
Definition has_classes (c : cmesh) : Prop := forall lt, known c lt -> exists k, get_class c lt = Ok k /\ 0 <= k < 8.
Definition has_vertex (c : cmesh) (lt i : Z) : Prop := exists k, get_class c lt = Ok k /\ 0 <= i < eclass_num_vertices k.
(** A list of (global vertex, (tree, vertex)) that contains every vertex of every tree and ghost exactly once *)
Record complete (c : cmesh) (l : list (Z * (Z * Z))) : Prop := {
  cp_range : forall v t i, In (v, (t, i)) l -> 0 <= v /\ known c t /\ has_vertex c t i;
  cp_all : forall t i, known c t -> has_vertex c t i -> exists v, In (v, (t, i)) l;
  cp_once : NoDup (map snd l)
}.

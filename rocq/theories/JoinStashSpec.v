(** Calls that set the classes and vertices of the trees of a mesh, in any order and among other calls *)
From Coq Require Import SpecFloat.
From Verif Require Import Prelude EclassModel FloatModel CmeshModel CmeshSpec JoinModel JoinSpec JoinStashModel.

(** the bytes of the coordinates of a list of points *)
Definition vertex_data (bytes_of : spec_float -> list Z) (ps : list point) : list Z := flat_map bytes_of (flat_map coords ps).
(** Every tree gets its class once and its vertices at least once, and no other tree gets any.  bytes_of gives the eight bytes of the double. *)
Record stashed (m : list jtree) (bytes_of : spec_float -> list Z) (pkg : Z) (calls : list call) : Prop := {
  st_class : forall t c, In (SetClass t c) calls <-> 0 <= t < zlen m /\ c = j_class (znth no_jtree m t);
  st_once : NoDup (class_ids calls);
  st_vertices : forall t data, In (SetAttribute t pkg VERTICES_KEY data) calls <-> 0 <= t < zlen m /\ data = vertex_data bytes_of (j_points (znth no_jtree m t));
  st_bytes : forall p c, is_vertex m p -> In c (coords p) -> length (bytes_of c) = 8%nat /\ double_of (bytes_of c) = c
}.
(** the calls that set the vertices of the trees in their order *)
Definition vertex_calls (m : list jtree) (bytes_of : spec_float -> list Z) (pkg : Z) : list call :=
  map (fun t => SetAttribute t pkg VERTICES_KEY (vertex_data bytes_of (j_points (znth no_jtree m t)))) (zseq 0 (length m)).

(** The ownership protocol of the API as documented, and what it has to guarantee. *)
From Coq Require Import Relations.
From Verif Require Import Prelude RefcountModel.

(** The objects an object points to. *)
Definition ptr (p : option Z) : list Z := match p with Some x => [x] | None => [] end.
Definition refs (o : object) : list Z :=
  match o with
  | OScheme | OGeometry => []
  | OCmesh c => ptr (c_set_from c) ++ ptr (c_geometry_handler c) ++ ptr (c_partition_scheme c)
  | OForest f => ptr (f_set_from f) ++ ptr (f_scheme f) ++ ptr (f_cmesh f)
  | OSearch f => ptr f
  end.

Definition alive (h : heap) (x : Z) : Prop := exists c, read h x = Ok c.
Definition points_to (h : heap) (x y : Z) : Prop := exists c, read h x = Ok c /\ In y (refs (obj c)).

(** References the program itself holds, per object. *)
Definition owns := Z -> Z.

(** An object can still be used: the program holds a reference to it or to an object through which it can be reached. *)
Definition reachable (h : heap) (own : owns) (x : Z) : Prop :=
  exists y, 1 <= own y /\ clos_refl_trans Z (points_to h) y x.

(** Number of times [x] occurs in a list. *)
Definition cnt (x : Z) (l : list Z) : Z := Z.of_nat (count_occ Z.eq_dec l x).

(** ** What the program gives away and gets by a call *)

(** "We take ownership" in the documentation of the set functions. *)
Definition given (k : call) : list Z :=
  match k with
  | SchemeUnref s => [s]
  | CmeshUnref c | CmeshDestroy c => [c]
  | CmeshSetDerive _ from => ptr from
  | CmeshSetPartitionUniform _ s => [s]
  | ForestUnref f => [f]
  | ForestSetCmesh _ c => [c]
  | ForestSetScheme _ s => [s]
  | ForestSetCopy _ from => [from]
  | ForestSetAdapt _ from | ForestSetPartition _ from | ForestSetBalance _ from _ => ptr from
  | ForestNewUniform c s => [c; s]
  | ForestNewAdapt from => [from]
  | SearchDelete x => [x]
  | _ => []
  end.
(** New objects get the next number. *)
Definition gotten (h : heap) (k : call) : list Z :=
  match k with
  | SchemeNew | CmeshInit | ForestInit | ForestNewUniform _ _ | ForestNewAdapt _ | SearchNew _ => [zlen h]
  | SchemeRef x | CmeshRef x | ForestRef x => [x]
  | _ => []
  end.
Definition own_after (h : heap) (own : owns) (k : call) : owns :=
  fun x => own x - cnt x (given k) + cnt x (gotten h k).

(** ** When a call is allowed *)

Definition is_scheme (h : heap) (x : Z) : Prop := exists n, read h x = Ok (Cell n OScheme).
Definition is_cmesh (h : heap) (x : Z) (c : cmesh) : Prop := exists n, read h x = Ok (Cell n (OCmesh c)).
Definition is_forest (h : heap) (x : Z) (f : forest) : Prop := exists n, read h x = Ok (Cell n (OForest f)).
Definition is_search (h : heap) (x : Z) : Prop := exists n p, read h x = Ok (Cell n (OSearch p)).
Definition committed_cmesh (h : heap) (x : Z) : Prop := exists c, is_cmesh h x c /\ c_committed c = true.
Definition committed_forest (h : heap) (x : Z) : Prop := exists f, is_forest h x f /\ f_committed f = true.

(** A set function that is given a forest to start from: it has to be committed, and none was set before. *)
Definition may_set_from (h : heap) (f : forest) (from : option Z) : Prop :=
  match from with None => True | Some g => committed_forest h g /\ f_set_from f = None end.

(** Everything that t8_forest_commit needs has been set, and nothing contradictory. *)
Definition ready (f : forest) : Prop :=
  match f_set_from f with
  | None => f_cmesh f <> None /\ f_scheme f <> None /\ f_from_method f = FROM_LAST
  | Some _ => f_cmesh f = None /\ f_scheme f = None /\ f_from_method f <> FROM_LAST
  end.

Definition state_ok (h : heap) (own : owns) (k : call) : Prop :=
  match k with
  | SchemeNew | CmeshInit | ForestInit => True
  | SchemeRef s => reachable h own s /\ is_scheme h s
  | SchemeUnref s => is_scheme h s
  | CmeshRef c => reachable h own c /\ exists m, is_cmesh h c m
  | CmeshUnref c => exists m, is_cmesh h c m
  | CmeshDestroy c => exists m, read h c = Ok (Cell 1 (OCmesh m))
  | CmeshSetDerive c from =>
      1 <= own c /\ (exists m, is_cmesh h c m /\ c_committed m = false) /\
      match from with None => True | Some d => committed_cmesh h d end
  | CmeshRegisterGeometry c => 1 <= own c /\ exists m, is_cmesh h c m /\ c_committed m = false
  | CmeshSetPartitionUniform c s =>
      1 <= own c /\ (exists m, is_cmesh h c m /\ c_committed m = false /\ c_partition_scheme m = None) /\ is_scheme h s
  | CmeshSetPartition c | CmeshCommit c => 1 <= own c /\ exists m, is_cmesh h c m /\ c_committed m = false
  | ForestRef f => reachable h own f /\ exists g, is_forest h f g
  | ForestUnref f => exists g, is_forest h f g
  | ForestSetCmesh x c =>
      1 <= own x /\ committed_cmesh h c /\
      exists f, is_forest h x f /\ f_committed f = false /\ f_cmesh f = None /\ f_set_from f = None
  | ForestSetScheme x s =>
      1 <= own x /\ is_scheme h s /\
      exists f, is_forest h x f /\ f_committed f = false /\ f_scheme f = None /\ f_set_from f = None
  | ForestSetCopy x from =>
      1 <= own x /\ committed_forest h from /\
      exists f, is_forest h x f /\ f_committed f = false /\ f_cmesh f = None /\ f_scheme f = None /\ f_set_from f = None
  | ForestSetAdapt x from =>
      1 <= own x /\ exists f, is_forest h x f /\ f_committed f = false /\ f_cmesh f = None /\ f_scheme f = None /\
        f_adapt_fn f = false /\ may_set_from h f from
  | ForestSetPartition x from =>
      1 <= own x /\ exists f, is_forest h x f /\ f_committed f = false /\ f_cmesh f = None /\ f_scheme f = None /\
        may_set_from h f from
  | ForestSetBalance x from _ =>
      1 <= own x /\ exists f, is_forest h x f /\ f_committed f = false /\ may_set_from h f from
  | ForestCommit x rounds =>
      1 <= own x /\ (1 <= rounds)%nat /\ exists f, is_forest h x f /\ f_committed f = false /\ ready f
  | ForestNewUniform c s => committed_cmesh h c /\ is_scheme h s
  | ForestNewAdapt from => committed_forest h from
  | SearchNew f => reachable h own f /\ committed_forest h f
  | SearchUpdate x f => 1 <= own x /\ is_search h x /\ 1 <= own f /\ committed_forest h f
  | SearchDelete x => is_search h x
  end.

(** The program holds the references it gives away. *)
Definition allowed (h : heap) (own : owns) (k : call) : Prop :=
  (forall x, cnt x (given k) <= own x) /\ state_ok h own k.

(** A program that keeps to the protocol, started with [h] and [own]. *)
Fixpoint keeps_protocol (h : heap) (own : owns) (ks : list call) : Prop :=
  match ks with
  | [] => True
  | k :: r => allowed h own k /\ forall h1, exec h k = Ok h1 -> keeps_protocol h1 (own_after h own k) r
  end.
(** The references held after the program has run. *)
Fixpoint own_end (h : heap) (own : owns) (ks : list call) : owns :=
  match ks with
  | [] => own
  | k :: r => match exec h k with Ok h1 => own_end h1 (own_after h own k) r | _ => own end
  end.

(** All pointers in living objects. *)
Definition pointers (h : heap) : list Z :=
  flat_map (fun v => match v with Some c => refs (obj c) | None => [] end) h.

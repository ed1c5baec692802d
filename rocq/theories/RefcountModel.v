(** Reference counts and ownership of schemes, geometry handlers, coarse meshes, forests and searches on one process.

    The heap is the list of all objects ever allocated; an object's number is its place, [None] is freed memory.  A read
    of or write to freed memory is [Oob], a violated T8_ASSERT (or a pointer to an object of another type) is
    [AssertFail].  What the objects contain besides the members modelled here (trees, elements, communicators, ...) is
    not represented. *)
From Verif Require Import Prelude.

(** The members of t8_forest (t8_forest_types.h:68-150) that matter.  Pointers are [option Z]; [NULL] is [None]. *)
Record forest := Forest {
  f_committed : bool; f_cmesh : option Z; f_scheme : option Z; f_set_from : option Z;
  f_from_method : Z; f_adapt_fn : bool; f_no_repartition : bool }.

(** The members of t8_cmesh (t8_cmesh_types.h). *)
Record cmesh := Cmesh {
  c_committed : bool; c_set_from : option Z; c_geometry_handler : option Z; c_partition_scheme : option Z;
  c_set_partition : bool }.

Inductive object :=
| OScheme                        (* t8_scheme *)
| OGeometry                      (* t8_geometry_handler *)
| OCmesh (c : cmesh)
| OForest (f : forest)
| OSearch (forest : option Z).   (* t8_search_base; not reference counted, owned by the caller *)

(** An object and its reference count (sc_refcount_t). *)
Record cell := Cell { rc : Z; obj : object }.
Definition heap := list (option cell).

Definition read (h : heap) (x : Z) : outcome cell :=
  match (if x <? 0 then None else nth (Z.to_nat x) h None) with Some c => Ok c | None => Oob end.
(** The heap with another content at [x]; T8_FREE writes [None]. *)
Fixpoint set_nth (h : heap) (i : nat) (v : option cell) : heap :=
  match h, i with [], _ => [] | _ :: r, O => v :: r | a :: r, S j => a :: set_nth r j v end.
Definition write (h : heap) (x : Z) (v : option cell) : heap := set_nth h (Z.to_nat x) v.
(** T8_ALLOC and t8_refcount_init: a new object with count 1; its number is [zlen h]. *)
Definition alloc (h : heap) (o : object) : heap := h ++ [Some (Cell 1 o)].

(** A NULL pointer must not be dereferenced. *)
Definition nonnull (p : option Z) : outcome Z := match p with Some x => Ok x | None => AssertFail end.
Definition is_null (p : option Z) : bool := match p with None => true | Some _ => false end.
Definition check (b : bool) : outcome unit := if b then Ok tt else AssertFail.

(** sc_refcount_ref: asserts a positive count and increments it. *)
Definition refcount_ref (h : heap) (x : Z) : outcome heap :=
  do c <- read h x;
  if 0 <? rc c then Ok (write h x (Some (Cell (rc c + 1) (obj c)))) else AssertFail.

(** sc_refcount_unref: asserts a positive count, decrements it and tells whether it is zero now. *)
Definition refcount_unref (h : heap) (x : Z) : outcome (heap * bool) :=
  do c <- read h x;
  if 0 <? rc c then Ok (write h x (Some (Cell (rc c - 1) (obj c))), rc c - 1 =? 0) else AssertFail.

(** ** Schemes and geometry handlers *)

(** t8_scheme::unref (t8_scheme.hxx:128-137); the destructor (77-84) finds the count inactive. *)
Definition scheme_unref (h : heap) (x : Z) : outcome heap :=
  do c <- read h x;
  match obj c with
  | OScheme => do r <- refcount_unref h x; Ok (if snd r then write (fst r) x None else fst r)
  | _ => AssertFail
  end.

(** t8_geometry_handler::unref (t8_geometry_handler.hxx:267-274). *)
Definition geometry_unref (h : heap) (x : Z) : outcome heap :=
  do c <- read h x;
  match obj c with
  | OGeometry => do r <- refcount_unref h x; Ok (if snd r then write (fst r) x None else fst r)
  | _ => AssertFail
  end.

(** "if (p != nullptr) unref (p)". *)
Definition if_nonnull (p : option Z) (f : Z -> outcome heap) (h : heap) : outcome heap :=
  match p with Some x => f x | None => Ok h end.

(** ** Coarse meshes *)

Definition read_cmesh (h : heap) (x : Z) : outcome (Z * cmesh) :=
  do c <- read h x; match obj c with OCmesh m => Ok (rc c, m) | _ => AssertFail end.

(** t8_cmesh_unref and t8_cmesh_reset (t8_cmesh.cxx:1192-1268).  The memory is released when the members have been
    unreferenced; here the object is taken from the heap before, so that an access to it from the unreferencing of the
    members would be [Oob].  The recursion is over set_from. *)
Fixpoint cmesh_unref (fuel : nat) (h : heap) (x : Z) : outcome heap :=
  match fuel with O => OutOfFuel | S fuel' =>
    do m <- read_cmesh h x;
    do r <- refcount_unref h x;
    if negb (snd r) then Ok (fst r)
    else
      let m := snd m in
      let h0 := write (fst r) x None in
      do h1 <- (if negb (c_committed m) then if_nonnull (c_set_from m) (fun y => cmesh_unref fuel' h0 y) h0
                else do _ <- check (is_null (c_set_from m)); Ok h0);
      do h2 <- if_nonnull (c_geometry_handler m) (geometry_unref h1) h1;
      if_nonnull (c_partition_scheme m) (scheme_unref h2) h2
  end.
Definition cmesh_fuel : nat := 2.

(** t8_cmesh_init (t8_cmesh.cxx:215-246). *)
Definition cmesh_init (h : heap) : heap := alloc h (OCmesh (Cmesh false None None None false)).

(** Overwrite the members of a coarse mesh. *)
Definition put_cmesh (h : heap) (x : Z) (n : Z) (m : cmesh) : heap := write h x (Some (Cell n (OCmesh m))).

(** t8_cmesh_set_derive (t8_cmesh.cxx:257-274).  A coarse mesh set earlier is released; [x] is taken from the heap
    meanwhile, so that an access to it would be [Oob]. *)
Definition cmesh_set_derive (h : heap) (x : Z) (from : option Z) : outcome heap :=
  do m <- read_cmesh h x;
  let c := snd m in
  do _ <- check (negb (c_committed c));
  do _ <- match from with None => Ok tt | Some y => do d <- read_cmesh h y; check (c_committed (snd d)) end;
  let h0 := write h x None in
  do h1 <- if_nonnull (c_set_from c) (fun y => cmesh_unref cmesh_fuel h0 y) h0;
  Ok (put_cmesh h1 x (fst m)
        (Cmesh (c_committed c) from (c_geometry_handler c) (c_partition_scheme c) (c_set_partition c))).

(** t8_cmesh_register_geometry (t8_cmesh_geometry.cxx:36-43). *)
Definition cmesh_register_geometry (h : heap) (x : Z) : outcome heap :=
  do m <- read_cmesh h x;
  let c := snd m in
  if is_null (c_geometry_handler c) then
    let h1 := alloc h OGeometry in
    Ok (put_cmesh h1 x (fst m) (Cmesh (c_committed c) (c_set_from c) (Some (zlen h)) (c_partition_scheme c)
                                  (c_set_partition c)))
  else Ok h.

(** t8_cmesh_set_partition_uniform (t8_cmesh.cxx:339-358). *)
Definition cmesh_set_partition_uniform (h : heap) (x : Z) (scheme : Z) : outcome heap :=
  do m <- read_cmesh h x;
  let c := snd m in
  do _ <- check (negb (c_committed c));
  Ok (put_cmesh h x (fst m) (Cmesh (c_committed c) (c_set_from c) (c_geometry_handler c) (Some scheme) true)).

(** t8_cmesh_set_partition_range and t8_cmesh_set_partition_offsets (t8_cmesh.cxx:291-337). *)
Definition cmesh_set_partition (h : heap) (x : Z) : outcome heap :=
  do m <- read_cmesh h x;
  let c := snd m in
  do _ <- check (negb (c_committed c));
  Ok (put_cmesh h x (fst m) (Cmesh (c_committed c) (c_set_from c) (c_geometry_handler c) (c_partition_scheme c) true)).

(** t8_cmesh_commit (t8_cmesh_commit.cxx:542-645): takes over the geometry handler of set_from, releases set_from.
    A partitioned coarse mesh can also result from the stash; this does not change set_partition.  As above [x] is taken
    from the heap meanwhile. *)
Definition cmesh_commit (h : heap) (x : Z) : outcome heap :=
  do m <- read_cmesh h x;
  let c := snd m in
  do _ <- check (negb (c_committed c));
  match c_set_from c with
  | None => Ok (put_cmesh h x (fst m)
                  (Cmesh true None (c_geometry_handler c) (c_partition_scheme c) (c_set_partition c)))
  | Some y =>
      let h0 := write h x None in
      do d <- read_cmesh h0 y;
      do g <- (match c_geometry_handler c, c_geometry_handler (snd d) with
               | None, Some g => do h1 <- refcount_ref h0 g; Ok (h1, Some g)
               | g, _ => Ok (h0, g)
               end);
      (* t8_cmesh_partition or t8_cmesh_copy reads set_from and its scheme *)
      do _ <- read_cmesh (fst g) y;
      do _ <- match c_partition_scheme c with None => Ok tt | Some s => do _ <- read (fst g) s; Ok tt end;
      do h3 <- cmesh_unref cmesh_fuel (fst g) y;
      Ok (put_cmesh h3 x (fst m) (Cmesh true None (snd g) (c_partition_scheme c) (c_set_partition c)))
  end.

(** ** Forests *)

Definition FROM_ADAPT : Z := 1.
Definition FROM_PARTITION : Z := 2.
Definition FROM_BALANCE : Z := 4.
Definition FROM_LAST : Z := 8.
Definition has (method flag : Z) : bool := negb (Z.land method flag =? 0).

Definition read_forest (h : heap) (x : Z) : outcome (Z * forest) :=
  do c <- read h x; match obj c with OForest f => Ok (rc c, f) | _ => AssertFail end.
Definition put_forest (h : heap) (x : Z) (n : Z) (f : forest) : heap := write h x (Some (Cell n (OForest f))).

(** t8_forest_unref and t8_forest_reset (t8_forest.cxx:4321-4399); as for coarse meshes the object is taken from the heap
    before its members are unreferenced.  The ghost layer, which has no other owner, is part of the forest. *)
Fixpoint forest_unref (fuel : nat) (h : heap) (x : Z) : outcome heap :=
  match fuel with O => OutOfFuel | S fuel' =>
    do m <- read_forest h x;
    do r <- refcount_unref h x;
    if negb (snd r) then Ok (fst r)
    else
      let f := snd m in
      let h0 := write (fst r) x None in
      do h1 <- (if negb (f_committed f) then if_nonnull (f_set_from f) (fun y => forest_unref fuel' h0 y) h0
                else do _ <- check (is_null (f_set_from f)); Ok h0);
      do h2 <- if_nonnull (f_scheme f) (scheme_unref h1) h1;
      if_nonnull (f_cmesh f) (fun y => cmesh_unref cmesh_fuel h2 y) h2
  end.
Definition forest_fuel : nat := 2.

(** t8_forest_init (t8_forest.cxx:2890-2919). *)
Definition forest_init (h : heap) : heap := alloc h (OForest (Forest false None None None FROM_LAST false false)).

(** t8_forest_set_cmesh (t8_forest.cxx:2949-2970). *)
Definition forest_set_cmesh (h : heap) (x c : Z) : outcome heap :=
  do m <- read_forest h x;
  let f := snd m in
  do _ <- check (negb (f_committed f) && is_null (f_cmesh f) && is_null (f_set_from f));
  Ok (put_forest h x (fst m) (Forest false (Some c) (f_scheme f) None (f_from_method f) (f_adapt_fn f)
                                (f_no_repartition f))).

(** t8_forest_set_scheme (t8_forest.cxx:2972-2984). *)
Definition forest_set_scheme (h : heap) (x s : Z) : outcome heap :=
  do m <- read_forest h x;
  let f := snd m in
  do _ <- check (negb (f_committed f) && is_null (f_scheme f) && is_null (f_set_from f));
  Ok (put_forest h x (fst m) (Forest false (f_cmesh f) (Some s) None (f_from_method f) (f_adapt_fn f)
                                (f_no_repartition f))).

(** t8_forest_set_copy (t8_forest.cxx:2998-3021). *)
Definition forest_set_copy (h : heap) (x y : Z) : outcome heap :=
  do m <- read_forest h x;
  let f := snd m in
  do _ <- check (negb (f_committed f) && is_null (f_cmesh f) && is_null (f_scheme f) && is_null (f_set_from f));
  Ok (put_forest h x (fst m) (Forest false None None (Some y) 0 false false)).

(** "if (forest->from_method == T8_FOREST_FROM_LAST) from_method = m; else from_method |= m". *)
Definition add_method (method flag : Z) : Z := if method =? FROM_LAST then flag else Z.lor method flag.
(** "if (set_from != nullptr) forest->set_from = set_from". *)
Definition overwrite (old new : option Z) : option Z := match new with Some y => Some y | None => old end.

(** t8_forest_set_partition (t8_forest.cxx:3023-3048). *)
Definition forest_set_partition (h : heap) (x : Z) (from : option Z) : outcome heap :=
  do m <- read_forest h x;
  let f := snd m in
  do _ <- check (negb (f_committed f) && is_null (f_cmesh f) && is_null (f_scheme f));
  Ok (put_forest h x (fst m) (Forest false None None (overwrite (f_set_from f) from)
        (add_method (f_from_method f) FROM_PARTITION) (f_adapt_fn f) (f_no_repartition f))).

(** t8_forest_set_balance (t8_forest.cxx:3050-3078). *)
Definition forest_set_balance (h : heap) (x : Z) (from : option Z) (no_repartition : bool) : outcome heap :=
  do m <- read_forest h x;
  let f := snd m in
  do _ <- check (negb (f_committed f));
  Ok (put_forest h x (fst m) (Forest false (f_cmesh f) (f_scheme f) (overwrite (f_set_from f) from)
        (add_method (f_from_method f) FROM_BALANCE) (f_adapt_fn f) no_repartition)).

(** t8_forest_set_adapt (t8_forest.cxx:3107-3135). *)
Definition forest_set_adapt (h : heap) (x : Z) (from : option Z) : outcome heap :=
  do m <- read_forest h x;
  let f := snd m in
  do _ <- check (negb (f_committed f) && is_null (f_cmesh f) && is_null (f_scheme f) && negb (f_adapt_fn f));
  Ok (put_forest h x (fst m) (Forest false None None (overwrite (f_set_from f) from)
        (add_method (f_from_method f) FROM_ADAPT) true (f_no_repartition f))).

(** t8_forest_partition_cmesh (t8_forest.cxx:3542-3565) for a forest with coarse mesh [c]: the new coarse mesh. *)
Definition partition_cmesh (h : heap) (c : Z) : outcome (heap * Z) :=
  let x := zlen h in
  do h1 <- cmesh_set_derive (cmesh_init h) x (Some c);
  do h2 <- cmesh_set_partition h1 x;
  do h3 <- cmesh_commit h2 x;
  Ok (h3, x).

(** The loop of t8_forest_balance (t8_forest_balance.cxx:207-282) for [rounds] rounds from [from] on; [commit] is
    t8_forest_commit.  The result is forest_temp. *)
Fixpoint balance_loop (commit : heap -> Z -> outcome heap) (repartition : bool) (rounds : nat) (h : heap) (from : Z)
  : outcome (heap * Z) :=
  match rounds with O => Ok (h, from) | S rounds' =>
    do _ <- read_forest h from;
    let temp := zlen h in
    do h1 <- forest_set_adapt (forest_init h) temp (Some from);
    do h2 <- commit h1 temp;
    do r <- (if repartition && negb (Nat.eqb rounds' 0) then
               let part := zlen h2 in
               do h3 <- forest_set_partition (forest_init h2) part (Some temp);
               do h4 <- commit h3 part;
               Ok (h4, part)
             else Ok (h2, temp));
    balance_loop commit repartition rounds' (fst r) (snd r)
  end.

(** t8_forest_balance (t8_forest_balance.cxx:154-340) for a forest with set_from [from]: reference neutral regarding
    [from].  How many rounds are needed depends on the meshes; [rounds] is arbitrary but positive. *)
Definition balance (commit : heap -> Z -> outcome heap) (repartition : bool) (rounds : nat) (h : heap) (from : Z)
  : outcome heap :=
  do _ <- read_forest h from;
  do h1 <- refcount_ref h from;
  do r <- balance_loop commit repartition rounds h1 from;
  do _ <- read_forest (fst r) (snd r);
  forest_unref forest_fuel (fst r) (snd r).

(** t8_forest_commit (t8_forest.cxx:3228-3489) of the forest [x].  Its members are local variables while commit runs and
    the object is taken from the heap, so that an access to it by another way would be [Oob]. *)
Fixpoint forest_commit (fuel : nat) (rounds : nat) (h : heap) (x : Z) : outcome heap :=
  match fuel with O => OutOfFuel | S fuel' =>
    do m <- read_forest h x;
    let f := snd m in
    do _ <- check ((0 <? fst m) && negb (f_committed f));
    match f_set_from f with
    | None =>
        do _ <- check (f_from_method f =? FROM_LAST);
        do c <- nonnull (f_cmesh f);
        do s <- nonnull (f_scheme f);
        do d <- read_cmesh h c;
        do _ <- read h s;
        Ok (put_forest h x (fst m) (Forest true (Some c) (Some s) None FROM_LAST (f_adapt_fn f) (f_no_repartition f)))
    | Some from =>
        let h0 := write h x None in
        do _ <- check (is_null (f_cmesh f) && is_null (f_scheme f) && (0 <=? f_from_method f)
                       && (f_from_method f <? FROM_LAST));
        do g <- read_forest h0 from;
        do _ <- check (f_committed (snd g));
        do c <- nonnull (f_cmesh (snd g));
        do s <- nonnull (f_scheme (snd g));
        do h1 <- refcount_ref h0 c;
        do h2 <- refcount_ref h1 s;
        let method := f_from_method f in
        (* adapt, line 3318 *)
        do a <- (if has method FROM_ADAPT then
                   do _ <- check (f_adapt_fn f);
                   if 0 <? method - FROM_ADAPT then
                     let temp := zlen h2 in
                     do k1 <- refcount_ref (forest_init h2) from;
                     do k2 <- forest_set_adapt k1 temp (Some from);
                     do k3 <- forest_commit fuel' rounds k2 temp;
                     Ok (k3, (temp, method - FROM_ADAPT))
                   else do _ <- read_forest h2 from; Ok (h2, (from, method - FROM_ADAPT))
                 else Ok (h2, (from, method)));
        (* partition, line 3353 *)
        let '(h3, (from3, method3)) := a in
        do b <- (if has method3 FROM_PARTITION then
                   if 0 <? method3 - FROM_PARTITION then
                     let temp := zlen h3 in
                     do k1 <- (if from =? from3 then refcount_ref (forest_init h3) from3 else Ok (forest_init h3));
                     do k2 <- forest_set_partition k1 temp (Some from3);
                     do k3 <- forest_commit fuel' rounds k2 temp;
                     Ok (k3, (temp, method3 - FROM_PARTITION))
                   else do _ <- read_forest h3 from3; Ok (h3, (from3, method3 - FROM_PARTITION))
                 else Ok (h3, (from3, method3)));
        (* balance, line 3389 *)
        let '(h4, (from4, method4)) := b in
        do h5 <- (if has method4 FROM_BALANCE then
                    do _ <- check (method4 - FROM_BALANCE =? 0);
                    balance (forest_commit fuel' rounds) (negb (f_no_repartition f)) rounds h4 from4
                  else Ok h4);
        (* lines 3407-3415 *)
        do h6 <- (if from =? from4 then Ok h5 else forest_unref forest_fuel h5 from4);
        do h7 <- forest_unref forest_fuel h6 from;
        do d <- read_cmesh h7 c;
        (* line 3461 *)
        do r <- (if c_set_partition (snd d) && has method3 FROM_PARTITION then partition_cmesh h7 c else Ok (h7, c));
        Ok (put_forest (fst r) x (fst m) (Forest true (Some (snd r)) (Some s) None 0 (f_adapt_fn f)
                                            (f_no_repartition f)))
    end
  end.
(** Intermediate forests are committed with one method only, so commit is nested at most once. *)
Definition commit_fuel : nat := 2.

(** t8_forest_new_uniform (t8_forest.cxx:4233-4269). *)
Definition forest_new_uniform (h : heap) (c s : Z) : outcome heap :=
  do d <- read_cmesh h c;
  do _ <- check (c_committed (snd d));
  let f := zlen h in
  let h0 := forest_init h in
  do r <- (if c_set_partition (snd d) then
             let u := zlen h0 in
             do h1 <- cmesh_set_derive (cmesh_init h0) u (Some c);
             do h2 <- refcount_ref h1 s;
             do h3 <- cmesh_set_partition_uniform h2 u s;
             do h4 <- cmesh_commit h3 u;
             Ok (h4, u)
           else Ok (h0, c));
  do h5 <- forest_set_cmesh (fst r) f (snd r);
  do h6 <- forest_set_scheme h5 f s;
  forest_commit commit_fuel 1 h6 f.

(** t8_forest_new_adapt (t8_forest.cxx:4271-4285). *)
Definition forest_new_adapt (h : heap) (from : Z) : outcome heap :=
  do h1 <- forest_set_adapt (forest_init h) (zlen h) (Some from);
  forest_commit commit_fuel 1 h1 (zlen h).

(** ** Searches (t8_forest_search.hxx:181-227) *)

Definition search_new (h : heap) (f : Z) : outcome heap :=
  do h1 <- refcount_ref h f;
  do m <- read_forest h1 f;
  do _ <- check (f_committed (snd m));
  Ok (alloc h1 (OSearch (Some f))).

Definition read_search (h : heap) (x : Z) : outcome (option Z) :=
  do c <- read h x; match obj c with OSearch f => Ok f | _ => AssertFail end.

(** update_forest, lines 206-217; [x] is taken from the heap meanwhile. *)
Definition search_update (h : heap) (x f : Z) : outcome heap :=
  do old <- read_search h x;
  let h0 := write h x None in
  do h1 <- if_nonnull old (forest_unref forest_fuel h0) h0;
  do m <- read_forest h1 f;
  do _ <- check (f_committed (snd m));
  do h2 <- refcount_ref h1 f;
  Ok (write h2 x (Some (Cell 1 (OSearch (Some f))))).

(** The destructor, lines 222-227, and the deallocation. *)
Definition search_delete (h : heap) (x : Z) : outcome heap :=
  do old <- read_search h x;
  if_nonnull old (forest_unref forest_fuel (write h x None)) (write h x None).

(** ** Calls a program makes *)

Inductive call :=
| SchemeNew | SchemeRef (s : Z) | SchemeUnref (s : Z)
| CmeshInit | CmeshRef (c : Z) | CmeshUnref (c : Z) | CmeshDestroy (c : Z)
| CmeshSetDerive (c : Z) (from : option Z) | CmeshRegisterGeometry (c : Z)
| CmeshSetPartitionUniform (c s : Z) | CmeshSetPartition (c : Z) | CmeshCommit (c : Z)
| ForestInit | ForestRef (f : Z) | ForestUnref (f : Z)
| ForestSetCmesh (f c : Z) | ForestSetScheme (f s : Z) | ForestSetCopy (f from : Z)
| ForestSetAdapt (f : Z) (from : option Z) | ForestSetPartition (f : Z) (from : option Z)
| ForestSetBalance (f : Z) (from : option Z) (no_repartition : bool)
| ForestCommit (f : Z) (rounds : nat)
| ForestNewUniform (c s : Z) | ForestNewAdapt (from : Z)
| SearchNew (f : Z) | SearchUpdate (x f : Z) | SearchDelete (x : Z).

(** t8_cmesh_destroy (t8_cmesh.cxx:1270-1276): asserts that the reference is the last one. *)
Definition cmesh_destroy (h : heap) (x : Z) : outcome heap :=
  do m <- read_cmesh h x;
  do _ <- check (fst m =? 1);
  cmesh_unref cmesh_fuel h x.

Definition exec (h : heap) (k : call) : outcome heap :=
  match k with
  | SchemeNew => Ok (alloc h OScheme)
  | SchemeRef s => refcount_ref h s
  | SchemeUnref s => scheme_unref h s
  | CmeshInit => Ok (cmesh_init h)
  | CmeshRef c => refcount_ref h c
  | CmeshUnref c => cmesh_unref cmesh_fuel h c
  | CmeshDestroy c => cmesh_destroy h c
  | CmeshSetDerive c from => cmesh_set_derive h c from
  | CmeshRegisterGeometry c => cmesh_register_geometry h c
  | CmeshSetPartitionUniform c s => cmesh_set_partition_uniform h c s
  | CmeshSetPartition c => cmesh_set_partition h c
  | CmeshCommit c => cmesh_commit h c
  | ForestInit => Ok (forest_init h)
  | ForestRef f => refcount_ref h f
  | ForestUnref f => forest_unref forest_fuel h f
  | ForestSetCmesh f c => forest_set_cmesh h f c
  | ForestSetScheme f s => forest_set_scheme h f s
  | ForestSetCopy f from => forest_set_copy h f from
  | ForestSetAdapt f from => forest_set_adapt h f from
  | ForestSetPartition f from => forest_set_partition h f from
  | ForestSetBalance f from b => forest_set_balance h f from b
  | ForestCommit f rounds => forest_commit commit_fuel rounds h f
  | ForestNewUniform c s => forest_new_uniform h c s
  | ForestNewAdapt from => forest_new_adapt h from
  | SearchNew f => search_new h f
  | SearchUpdate x f => search_update h x f
  | SearchDelete x => search_delete h x
  end.

(** A program is a sequence of calls. *)
Fixpoint run (h : heap) (ks : list call) : outcome heap :=
  match ks with [] => Ok h | k :: r => do h1 <- exec h k; run h1 r end.

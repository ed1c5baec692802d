(** Model of one adaptation step, src/t8_forest/t8_forest_adapt.cxx and t8_forest_is_incomplete_family (t8_forest.cxx:62-184).
    The element arrays are lists.  The adapt callback may keep state ([St]), which is threaded through all of its calls in the order
    of the code.  Its arguments [ltreeid], [lelement_id], [is_family] and the elements passed are kept; [forest], [forest_from],
    [tree_class] and [scheme] are constants of the call.  A violated T8_ASSERT on what the callback returned is [AssertFail].
    Memory management, profiling and log output are not modelled. *)
From Verif Require Import Prelude SchemeModel.

(** the parts of the forest and its environment that the step reads *)
Record aenv := AEnv {
  a_recursive : bool;       (** forest->set_adapt_recursive *)
  a_incomplete : bool;      (** forest_from->incomplete_trees *)
  a_maxlevel : Z;           (** forest->maxlevel *)
  a_rank : Z;               (** forest->mpirank *)
  a_size : Z;               (** forest->mpisize *)
  a_num_trees : Z           (** number of local trees *)
}.

Section adapt.
Variable S : scheme.
Notation elt := (elt S).
Variable St : Type.
(** the adapt callback: state, local tree, local element, is_family, elements *)
Variable cb : St -> Z -> Z -> bool -> list elt -> St * Z.
Variable A : aenv.
Notation el l i := (znth (s_root S) l i).

(** t8_forest.cxx:125-139: number of elements that directly follow each other with the parent of the first one *)
Fixpoint incomplete_run (level_current : Z) (parent_current : elt) (els : list elt) : Z :=
  match els with
  | [] => 0
  | e :: els' =>
      if negb (s_level e =? level_current) then 0
      else if negb (s_equal parent_current (s_parent e)) then 0
      else 1 + incomplete_run level_current parent_current els'
  end.

(** t8_forest.cxx:62-184 t8_forest_is_incomplete_family; [from] are the leaves of the tree, [els] the elements that start at index
    [el_considered].  The build is with MPI (168-181). *)
Definition is_incomplete_family (from : list elt) (ltree el_considered : Z) (els : list elt) : Z :=
  let e0 := el els 0 in
  if s_level e0 =? 0 then 0
  else
    let level_current := s_level e0 in
    let child_id_current := s_child_id e0 in
    let parent_current := s_parent e0 in
    (* 105-122 *)
    if (0 <? child_id_current) && (0 <? el_considered)
       && (let temp := el from (el_considered - 1) in
           (level_current <=? s_level temp) && (s_level (s_nca parent_current temp) =? level_current - 1)) then 0
    else
      (* 125-139: the loop starts with the second element *)
      let family_size := 1 + incomplete_run level_current parent_current (tl els) in
      (* 146-162 *)
      if (family_size <? zlen els)
         && (let next := el els family_size in
             (level_current <? s_level next) && (s_level (s_nca parent_current next) =? level_current - 1)) then 0
      (* 174-180 *)
      else if (el_considered =? 0) && (0 <? child_id_current) && (ltree =? 0) && (0 <? a_rank A) then 0
      else if (zlen from - s_num_siblings e0 <? el_considered) && (ltree =? a_num_trees A - 1) && (a_rank A <? a_size A - 1) then 0
      else family_size.

(** t8_forest_adapt.cxx:489-501: the elements stored in elements_from and the value of zz after the loop *)
Fixpoint gather (num_siblings : nat) (zz : Z) (rest : list elt) : list elt * Z :=
  match num_siblings, rest with
  | Datatypes.S n, e :: rest' =>
      if negb (a_incomplete A) && negb (s_child_id e =? zz) then ([e], zz)
      else let (b, z) := gather n (zz + 1) rest' in (e :: b, z)
  | _, _ => ([], zz)
  end.

(** 489-519: elements_from, is_family and num_elements_to_adapt_callback *)
Definition family_of (from : list elt) (ltree el_considered : Z) : list elt * bool * Z :=
  let e0 := el from el_considered in
  let num_siblings := s_num_siblings e0 in
  let (elements_from, zz) := gather (Z.to_nat num_siblings) 0 (skipn (Z.to_nat el_considered) from) in
  if a_incomplete A then
    let n := is_incomplete_family from ltree el_considered (firstn (Z.to_nat zz) elements_from) in
    if 0 <? n then (elements_from, true, n) else (elements_from, false, 1)
  else if (zz =? num_siblings) && s_is_family elements_from then (elements_from, true, num_siblings)
  else (elements_from, false, 1).

(** 158-172: the backward loop of t8_forest_pos; returns the final values of (el_iter, pos, element_compare); [n] bounds the number of
    iterations, it is the number of siblings *)
Fixpoint pos_loop (n : nat) (tel : list elt) (telements_pos num_siblings level_current : Z) (parent : elt) (el_iter pos : Z) (cmp : elt) : Z * Z * elt :=
  match n with
  | O => (el_iter, pos, cmp)
  | Datatypes.S n' =>
      if (el_iter <? num_siblings) && (el_iter <? zlen tel) then
        let pos := telements_pos - el_iter in
        let cmp := el tel pos in
        if negb (level_current =? s_level cmp) then (el_iter, pos, cmp)
        else if negb (s_equal parent (s_parent cmp)) then (el_iter, pos, cmp)
        else pos_loop n' tel telements_pos num_siblings level_current parent (el_iter + 1) pos cmp
      else (el_iter, pos, cmp)
  end.
Definition INT32_MIN : Z := - 2 ^ 31.

(** 110-209 t8_forest_pos.  During adaptation forest->incomplete_trees is -1 (428), so the branch 141-143 is never taken. *)
Definition forest_pos (tel : list elt) (telements_pos : Z) : Z :=
  let element := el tel telements_pos in
  let level_current := s_level element in
  let num_siblings := s_num_siblings element in
  let child_id := s_child_id element in
  if negb ((0 <? child_id) && (child_id =? num_siblings - 1)) || (level_current =? 0) then INT32_MIN
  else
    let parent := s_parent element in
    let '(el_iter, pos, cmp) := pos_loop (Z.to_nat num_siblings) tel telements_pos num_siblings level_current parent 1 (-1) element in
    let pos :=
      if (el_iter <? num_siblings) && (el_iter <? zlen tel) then
        (if (level_current <? s_level cmp) && (s_level (s_nca element cmp) =? level_current - 1) then INT32_MIN else pos) + 1
      else pos in
    if (pos =? 0) && (0 <? a_rank A) && (0 <? s_child_id (el tel pos)) then INT32_MIN else pos.

(** 248-310: the loop of t8_forest_adapt_coarsen_recursive; [fuel] bounds the number of iterations *)
Fixpoint coarsen_loop (fuel : nat) (st : St) (ltree lelement : Z) (tel : list elt) (el_coarsen num_siblings pos : Z) : outcome (St * list elt) :=
  if (el_coarsen <=? pos) && (pos <? zlen tel) then
    match fuel with
    | O => OutOfFuel
    | Datatypes.S fuel' =>
        let fam := firstn (Z.to_nat num_siblings) (skipn (Z.to_nat pos) tel) in
        let '(is_family, num) :=
          if a_incomplete A then (true, zlen tel - pos)
          else if (zlen fam =? num_siblings) && s_is_family fam then (true, num_siblings) else (false, 1) in
        if negb is_family then Ok (st, tel)
        else
          let (st, refine) := cb st ltree lelement true (firstn (Z.to_nat num) fam) in
          if refine =? -1 then
            let p := s_parent (el fam 0) in
            (* the parent overwrites the element at pos, the array is shortened *)
            let tel := firstn (Z.to_nat (zlen tel - (num - 1))) (firstn (Z.to_nat pos) tel ++ p :: skipn (Z.to_nat (pos + 1)) tel) in
            coarsen_loop fuel' st ltree lelement tel el_coarsen (s_num_siblings p) (forest_pos tel pos)
          else Ok (st, tel)
    end
  else Ok (st, tel).
(** 227-311 t8_forest_adapt_coarsen_recursive *)
Definition coarsen_recursive (fuel : nat) (st : St) (ltree lelement : Z) (tel : list elt) (el_coarsen : Z) : outcome (St * list elt) :=
  let last := zlen tel - 1 in
  coarsen_loop fuel st ltree lelement tel el_coarsen (s_num_siblings (el tel last)) (forest_pos tel last).

(** 329-378 t8_forest_adapt_refine_recursive; [lst] is elem_list *)
Fixpoint refine_recursive (fuel : nat) (st : St) (ltree lelement : Z) (lst tel : list elt) (removed : bool) : outcome (St * list elt * bool) :=
  match lst with
  | [] => Ok (st, tel, removed)
  | e :: lst' =>
      match fuel with
      | O => OutOfFuel
      | Datatypes.S fuel' =>
          let (st, refine) := cb st ltree lelement false [e] in
          if refine =? -1 then AssertFail
          else if refine =? 1 then
            if (s_level e <? a_maxlevel A) && s_refinable e then refine_recursive fuel' st ltree lelement (s_children e ++ lst') tel removed
            else refine_recursive fuel' st ltree lelement lst' tel removed
          else if refine =? -2 then refine_recursive fuel' st ltree lelement lst' tel true
          else if refine =? 0 then refine_recursive fuel' st ltree lelement lst' (tel ++ [e]) removed
          else AssertFail
      end
  end.

(** 595-599 and 614-618: recursive coarsening after an element was inserted *)
Definition maybe_coarsen (fuel : nat) (st : St) (ltree el_considered : Z) (tel : list elt) (el_coarsen num_children : Z) : outcome (St * list elt) :=
  if a_recursive A then
    let child_id := s_child_id (el tel (zlen tel - 1)) in
    if (0 <? child_id) && (child_id =? num_children - 1) then coarsen_recursive fuel st ltree el_considered tel el_coarsen
    else Ok (st, tel)
  else Ok (st, tel).

(** 469-628: the element loop of one tree; result: callback state, new elements, element_removed.
    [fuel] bounds the iterations of this loop and of the loops in it. *)
Fixpoint adapt_loop (fuel : nat) (st : St) (ltree : Z) (from : list elt) (el_considered : Z) (tel : list elt) (el_coarsen num_children : Z)
  (removed : bool) : outcome (St * list elt * bool) :=
  if el_considered <? zlen from then
    match fuel with
    | O => OutOfFuel
    | Datatypes.S fuel' =>
        let '(elements_from, is_family, num) := family_of from ltree el_considered in
        let num_siblings := s_num_siblings (el from el_considered) in
        let e0 := el elements_from 0 in
        let (st, refine) := cb st ltree el_considered is_family (firstn (Z.to_nat num) elements_from) in
        if negb is_family && (refine =? -1) then AssertFail
        else
          let refine := if (0 <? refine) && ((a_maxlevel A <=? s_level e0) || negb (s_refinable e0)) then 0 else refine in
          if refine =? 1 then
            let num_children := s_num_children e0 in
            if a_recursive A then
              match refine_recursive fuel st ltree el_considered (s_children e0) tel removed with
              | Ok (st, tel, removed) => adapt_loop fuel' st ltree from (el_considered + 1) tel (zlen tel) num_children removed
              | Oob => Oob | AssertFail => AssertFail | OutOfFuel => OutOfFuel
              end
            else adapt_loop fuel' st ltree from (el_considered + 1) (tel ++ s_children e0) el_coarsen num_children removed
          else if refine =? -1 then
            match maybe_coarsen fuel st ltree el_considered (tel ++ [s_parent e0]) el_coarsen num_siblings with
            | Ok (st, tel) => adapt_loop fuel' st ltree from (el_considered + num) tel el_coarsen num_siblings removed
            | Oob => Oob | AssertFail => AssertFail | OutOfFuel => OutOfFuel
            end
          else if refine =? 0 then
            match maybe_coarsen fuel st ltree el_considered (tel ++ [e0]) el_coarsen num_children with
            | Ok (st, tel) => adapt_loop fuel' st ltree from (el_considered + 1) tel el_coarsen num_children removed
            | Oob => Oob | AssertFail => AssertFail | OutOfFuel => OutOfFuel
            end
          else if refine =? -2 then adapt_loop fuel' st ltree from (el_considered + 1) tel el_coarsen num_children true
          else AssertFail
    end
  else Ok (st, tel, removed).

(** 442-651: one tree; removing all of its elements aborts (643-646) *)
Definition adapt_tree (fuel : nat) (st : St) (ltree : Z) (from : list elt) (removed : bool) : outcome (St * list elt * bool) :=
  match from with
  | [] => Ok (st, [], removed)
  | _ =>
      match adapt_loop fuel st ltree from 0 [] 0 (s_max_children S) removed with
      | Ok (_, [], _) => AssertFail
      | r => r
      end
  end.
End adapt.

(** A forest: the local trees, each with its class and its leaves *)
Record tree := Tree { t_scheme : scheme; t_elems : list (elt t_scheme) }.
(** a callback for all classes *)
Definition callback (St : Type) := forall S : scheme, St -> Z -> Z -> bool -> list (elt S) -> St * Z.

(** 440-652: all trees of a rank; result: callback state, new trees with their elements_offset, number of local elements,
    element_removed.  The offset of a tree without elements is not set by the code, the model returns 0 for it. *)
Fixpoint adapt_trees (St : Type) (cb : callback St) (A : aenv) (fuel : nat) (st : St) (ltree el_offset : Z) (ts : list tree) (removed : bool)
  : outcome (St * list (tree * Z) * Z * bool) :=
  match ts with
  | [] => Ok (st, [], el_offset, removed)
  | t :: ts' =>
      match adapt_tree (cb (t_scheme t)) A fuel st ltree (t_elems t) removed with
      | Ok (st, new, removed) =>
          match adapt_trees cb A fuel st (ltree + 1) (el_offset + zlen new) ts' removed with
          | Ok (st, ts'', n, removed) => Ok (st, (Tree new, if zlen (t_elems t) =? 0 then 0 else el_offset) :: ts'', n, removed)
          | r => r
          end
      | Oob => Oob | AssertFail => AssertFail | OutOfFuel => OutOfFuel
      end
  end.
Definition adapt_forest (St : Type) (cb : callback St) (A : aenv) (fuel : nat) (st : St) (ts : list tree) : outcome (St * list (tree * Z) * Z * bool) :=
  adapt_trees cb A fuel st 0 0 ts false.
(** 665-677: forest->incomplete_trees after the step; [removed] are the flags of all ranks *)
Definition new_incomplete (from_incomplete : bool) (removed : list bool) : bool := from_incomplete || existsb (fun b => b) removed.

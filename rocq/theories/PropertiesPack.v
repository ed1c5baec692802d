(** Property C16: packing elements into a message and unpacking them. *)
From Verif Require Import Prelude SchemeProofs SimplexModel LineModel PackModel PackSpec PackProofs.

(** ** Elements of the default schemes, all eight classes *)

(** For every sequence [es] of elements of one class and every buffer with enough room from position [pos] on: packing
    succeeds, advances the position by the size of the elements and changes only the bytes it has moved over.  Whatever
    buffer [msg] the receiver has, if it carries these bytes at these positions, unpacking as many elements, into
    structures with arbitrary old contents, gives [es] and consumes exactly these bytes. *)
Theorem C16_elements_round_trip : forall eclass es buf pos,
  packable eclass es -> 0 <= pos ->
  let n := zlen es * element_bytes eclass in
  pos + n <= zlen buf ->
  exists buf', element_pack eclass es (buf, pos) = Ok (buf', pos + n) /\
    changed_only pos (pos + n) buf buf' /\
    forall msg olds, carries pos (pos + n) buf' msg -> allocated eclass olds -> length olds = length es ->
      element_unpack eclass msg pos olds = Ok (es, pos + n).
Proof. intros eclass es buf pos He H0 n Hl. exact (round_trip eclass es buf pos He H0 Hl). Qed.
Print Assumptions C16_elements_round_trip.

(** The size function returns exactly the number of bytes that packing writes, as long as this number is an int. *)
Theorem C16_pack_size : forall eclass count,
  0 <= eclass <= 7 -> 0 <= count -> count * element_bytes eclass < 2 ^ 31 ->
  element_pack_size eclass count = count * element_bytes eclass.
Proof. intros eclass count Hc Hn Hs. exact (pack_size_exact eclass count Hc Hn Hs). Qed.
Print Assumptions C16_pack_size.

(** The use made of the three functions: a buffer of the computed size is filled completely and gives the sequence
    back. *)
Theorem C16_message : forall eclass es olds,
  packable eclass es -> allocated eclass olds -> length olds = length es -> 0 <= eclass <= 7 ->
  zlen es * element_bytes eclass < 2 ^ 31 ->
  exists msg, element_pack eclass es (repeat 0 (Z.to_nat (element_pack_size eclass (zlen es))), 0)
                = Ok (msg, element_pack_size eclass (zlen es)) /\
    zlen msg = element_pack_size eclass (zlen es) /\
    element_unpack eclass msg 0 olds = Ok (es, zlen msg).
Proof.
  intros eclass es olds He Ho Hl Hc Hs. pose proof (zlen_ge0 es) as H0.
  rewrite (pack_size_exact eclass _ Hc H0 Hs). pose proof (images_length _ _ He) as Hi.
  exists (images es). split; [exact (writes_all _ _ _ (pack_writes _ _ He) (eq_sym Hi))|]. split; [exact Hi|].
  exact (reads_all _ _ _ _ (unpack_reads _ _ _ He Ho Hl)).
Qed.
Print Assumptions C16_message.

(** Beyond 2^31 - 1 bytes the returned size is too small: 153391690 tetrahedra take 2147483660 bytes, the size
    returned is negative. *)
Theorem C16_pack_size_overflow_refuted :
  exists eclass count, 0 <= eclass <= 7 /\ 0 <= count < 2 ^ 32 /\
    element_pack_size eclass count < count * element_bytes eclass /\ element_pack_size eclass count < 0.
Proof. exists 5, 153391690. vm_compute. repeat split; discriminate || reflexivity. Qed.
Print Assumptions C16_pack_size_overflow_refuted.

(** Two pyramid elements, one of them a tetrahedron in the tree with coordinates outside of it. *)
Definition ex_pyras : list element :=
  [EPyra (Pyra (Simp 3 6 262144 0 131072) (-1)); EPyra (Pyra (Simp 18 3 (-8) 2097151 5) 4)].
Example ex_packable : packable 7 ex_pyras.
Proof.
  intros e [<-|[<-|[]]]; (split; [reflexivity|]); split; cbn -[Z.pow];
    unfold simplex_stored, int8, int32; cbn -[Z.pow]; repeat split; lia.
Qed.
Example ex_pyras_packed :
  element_pack 7 ex_pyras (repeat 9 34, 2)
  = Ok ([9; 9; 0; 0; 4; 0; 0; 0; 0; 0; 0; 0; 2; 0; 6; 3; 255;
         248; 255; 255; 255; 255; 255; 31; 0; 5; 0; 0; 0; 3; 18; 4; 9; 9], 32).
Proof. vm_compute. reflexivity. Qed.

(** ** Elements of the standalone schemes: any dimension *)

Theorem C16_standalone_round_trip : forall dim es olds,
  (forall e, In e es -> length (s_coords e) = dim /\ Forall int32 (s_coords e) /\ uint8 (s_level e)) ->
  (forall o, In o olds -> length (s_coords o) = dim) -> length olds = length es ->
  zlen es * (4 * Z.of_nat dim + 1) < 2 ^ 31 ->
  let size := standalone_pack_size (Z.of_nat dim) (zlen es) in
  exists msg, standalone_pack es (repeat 0 (Z.to_nat size), 0) = Ok (msg, size) /\ zlen msg = size /\
    standalone_unpack msg 0 olds = Ok (es, size).
Proof.
  intros dim es olds He Ho Hl Hs size.
  assert (Hf : Forall (sgood dim) es) by (apply Forall_forall; exact He).
  assert (Hg : Forall (fun o => length (s_coords o) = dim) olds) by (apply Forall_forall; exact Ho).
  pose proof (simages_length dim es Hf) as Hi. pose proof (zlen_ge0 (simages es)) as H0.
  assert (Es : size = zlen (simages es)).
  { unfold size, standalone_pack_size, mpi_pack_size. cbn [tsize].
    replace (Z.of_nat dim * Z.of_nat 4 + Z.of_nat 1) with (4 * Z.of_nat dim + 1) by lia.
    rewrite <- Hi in *. apply i32_small. lia. }
  exists (simages es). split; [exact (writes_all _ _ _ (standalone_writes es) Es)|]. split; [now symmetry|].
  rewrite Es. exact (reads_all _ _ _ _ (standalone_reads dim es olds Hf Hg Hl)).
Qed.
Print Assumptions C16_standalone_round_trip.

Example ex_standalone :
  standalone_pack [Standalone [-1; 256] 200] (repeat 0 9, 0) = Ok ([255; 255; 255; 255; 0; 1; 0; 0; 200], 9) /\
  standalone_unpack [255; 255; 255; 255; 0; 1; 0; 0; 200] 0 [Standalone [7; 7] 7] = Ok ([Standalone [-1; 256] 200], 9).
Proof. vm_compute. split; reflexivity. Qed.

(** ** The messages of partition for coarsening *)

Theorem C16_pfc_message : forall m,
  packable (m_eclass m) [m_parent m] -> int64 (m_itree m) -> int32 (m_num_siblings m) ->
  exists bytes, message_send m = Ok bytes /\ zlen bytes = message_size m /\ message_recv bytes = Ok m /\
    message_unpack bytes 0 = Ok (m, zlen bytes).
Proof.
  intros m Hp Hi Hn. pose proof (message_image_length m Hp) as Hl.
  assert (R : message_unpack (message_image m) 0 = Ok (m, zlen (message_image m)))
    by exact (reads_all _ _ _ _ (message_reads m Hp Hi Hn)).
  exists (message_image m). split.
  - unfold message_send. rewrite (writes_all _ _ _ (message_writes m Hp) (eq_sym Hl)). cbn [obind fst snd].
    rewrite <- Hl. unfold zlen. now rewrite Nat2Z.id, firstn_all.
  - split; [exact Hl|]. split; [unfold message_recv; now rewrite R|exact R].
Qed.
Print Assumptions C16_pfc_message.

Definition ex_message : pfc_message :=
  PfcMessage 4294967296 6 (EPrism (Prism (Line 2 524288) (Simp 2 1 524288 0 0))) 3.
Example ex_message_ok : packable (m_eclass ex_message) [m_parent ex_message] /\ int64 (m_itree ex_message) /\
  int32 (m_num_siblings ex_message) /\
  message_send ex_message
    = Ok [0; 0; 0; 0; 1; 0; 0; 0; 6; 0; 0; 0; 0; 0; 8; 0; 0; 0; 8; 0; 0; 0; 0; 0; 1; 2; 3; 0; 0; 0].
Proof.
  split; [|split; [|split]].
  - intros e [<-|[]]. split; [reflexivity|]. split; [|reflexivity]. cbn -[Z.pow].
    unfold triangle_stored, simplex_stored, line_stored, int8, int32; cbn -[Z.pow]; repeat split; lia.
  - unfold int64. cbn [m_itree ex_message]. lia.
  - unfold int32. cbn [m_num_siblings ex_message]. lia.
  - vm_compute. reflexivity.
Qed.

(** ** Vectors of user data *)

(** For every item type whose handler keeps its contract, sending and receiving a vector gives the vector back with
    its length, and the whole message is consumed. *)
Theorem C16_vector_round_trip : forall A (H : handler A) (good : A -> Prop) data,
  handler_ok H good -> Forall good data -> zlen data < 2 ^ 31 ->
  exists bytes, vector_send H data = Ok bytes /\ zlen bytes = vector_buffer_size H data /\
    vector_recv H bytes = Ok (data, zlen data) /\ unpack_vector_prefix H bytes 0 = Ok (data, zlen bytes).
Proof. intros A H good data HH Hg Hn. exact (vector_round_trip A H good HH data Hg Hn). Qed.
Print Assumptions C16_vector_round_trip.

(** A handler that keeps its contract: tetrahedra, packed by the scheme. *)
Definition tet_handler : handler element :=
  Handler (fun _ => element_pack_size 5 1) (fun e st => element_pack 5 [e] st)
    (fun buf pos old => do r <- element_unpack 5 buf pos [ETet (Simp 0 0 0 0 0)];
                        match fst r with [e] => Ok (e, snd r) | _ => AssertFail end)
    (ETet (Simp 0 0 0 0 0)).
Example tet_handler_ok : handler_ok tet_handler (fun e => class_of e = 5 /\ stored e).
Proof.
  intros a [Hc Hs]. split; [vm_compute; discriminate|]. intros buf pos H0 Hl.
  assert (Hp : packable 5 [a]).
  { intros e [<-|[]]. split; [exact Hc|]. split; [exact Hs|]. destruct a; try discriminate Hc. exact Logic.I. }
  destruct (C16_elements_round_trip (pos := pos) (buf := buf) Hp H0 Hl) as (buf' & E & C & U).
  exists buf'. split; [exact E|]. split; [exact C|]. intros msg old Hm. cbn [h_unpack tet_handler].
  change (ETet (Simp 0 0 0 0 0)) with (new_element 5).
  rewrite (U msg [new_element 5] Hm (@new_element_ok 5 ltac:(lia)) eq_refl). reflexivity.
Qed.

(** The test vectors of the project's own unit tests, run on the model: the
    modules [tags], [tags::standard], [tags::raw], [tags::payload],
    [tags::serialization] and [tags::util].  Each example cites the test it
    transcribes.  These are tests of the model, not proofs of properties: they
    compare the model with results which the project's authors observed on the
    real code.  Checks of [type_id] are comparisons of the constructor of the
    value; the user type [DummyTag] of src/tags/tests.rs:183-262 is a tag of
    type [OUser], below. *)
From Verif Require Import Base Types IO Hist ILInt Data Tags Factory Ctors Scanner Payload Open ConfIO.

Definition bytes_of (m : writer -> res tag_error unit * writer) : list N := vec_of (snd (m VecWriter_new)).
Definition ser (t : tag) : list N := bytes_of (serialize t).
Definition serv (v : value) : list N := bytes_of (serialize_value v).
Definition is_tag_io {A} (x : res tag_error A) : bool := match x with Err (TagIO _) => true | _ => false end.
Definition is_panic {E A} (x : res E A) : bool := match x with Panic => true | _ => false end.
(** [t.deserialize_value(&f, n, &mut ByteArrayReader::new(bs))]. *)
Definition dv (deser : reader -> res tag_error tag * reader) (v : value) (n : N) (bs : list N)
  : res tag_error unit * value * reader := deserialize_value deser v n (ByteArrayReader_new bs).
Definition res3 {A B C} (x : A * B * C) : A := fst (fst x).
Definition val3 {A B C} (x : A * B * C) : B := snd (fst x).
Definition rd3 {A B C} (x : A * B * C) : C := snd x.
(** The value after a successful [deserialize_value]. *)
Definition okv (x : res tag_error unit * value * reader) : option value :=
  match x with (Ok _, v, _) => Some v | _ => None end.
Definition dvu := dv untouchable_deserialize.
(** [ILStandardTagFactory::new(strict)]. *)
Definition fac (strict : bool) : engine := create_std_engine strict.
Definition dvf (s : bool) := dv (deserialize (fac s)).
Definition same (a b : tag) : bool := match iltag_are_equal a b with Ok x => x | _ => false end.
Definition to_read_only (m : writer -> res tag_error unit * writer) : bool := is_tag_io (fst (m read_only_writer)).
(** All bytes of the source were consumed. *)
Definition consumed (r : reader) : bool :=
  match r with RByteArray a o | RVec a o => lenN a =? o | _ => false end.

(** ** src/tags/tests.rs *)
(** test_constants, src/tags/tests.rs:43-47. *)
Example test_constants : IMPLICIT_ID_MAX = 0x0F /\ RESERVED_ID_MAX = 0x1F.
Proof. vm_compute. auto. Qed.
(** test_is_implicit_tag, src/tags/tests.rs:49-55; test_is_reserved_tag, 57-63. *)
Example test_is_implicit_tag : forallb is_implicit_tag (iota 16) && negb (is_implicit_tag 16) = true.
Proof. vm_compute. reflexivity. Qed.
Example test_is_reserved_tag : forallb is_reserved_tag (iota 32) && negb (is_reserved_tag 32) = true.
Proof. vm_compute. reflexivity. Qed.
(** test_tag_size_to_usize, src/tags/tests.rs:65-84. *)
Example test_tag_size_to_usize :
  tag_size_to_usize 0 = Ok 0 /\ tag_size_to_usize MAX_TAG_SIZE = Ok MAX_TAG_SIZE
  /\ tag_size_to_usize (MAX_TAG_SIZE + 1) = Err TagTooLarge.
Proof. vm_compute. auto. Qed.
(** test_serialize_ilint, src/tags/tests.rs:90-105; test_deserialize_ilint, 107-121. *)
Example test_serialize_ilint :
  bytes_of (serialize_ilint 0xcb3a208d5c1369e4) = [0xFF; 0xCB; 0x3A; 0x20; 0x8D; 0x5C; 0x13; 0x68; 0xEC]
  /\ to_read_only (serialize_ilint 0xcb3a208d5c1369e4) = true.
Proof. vm_compute. auto. Qed.
Example test_deserialize_ilint :
  let b := [0xFF; 0xCB; 0x3A; 0x20; 0x8D; 0x5C; 0x13; 0x68; 0xEC] in
  fst (deserialize_ilint (ByteArrayReader_new b)) = Ok 0xcb3a208d5c1369e4
  /\ is_tag_io (fst (deserialize_ilint (ByteArrayReader_new (drop_last b)))) = true.
Proof. vm_compute. auto. Qed.
(** test_serialize_bytes, src/tags/tests.rs:123-137; test_deserialize_bytes,
    139-155; test_deserialize_bytes_into_vec, 157-176. *)
Example test_serialize_bytes :
  bytes_of (serialize_bytes [0xFF; 0xCB; 0x3A; 0x20]) = [0xFF; 0xCB; 0x3A; 0x20]
  /\ to_read_only (serialize_bytes [0xFF; 0xCB; 0x3A; 0x20]) = true.
Proof. vm_compute. auto. Qed.
Example test_deserialize_bytes :
  let b := [0xFF; 0xCB; 0x3A; 0x20; 0x8D; 0x5C; 0x13; 0x68; 0xEC] in
  forallb (fun i => match fst (deserialize_bytes (N.of_nat i) (ByteArrayReader_new b)) with
                    | Ok v => leqb v (firstn i b) | _ => false end) (seq 0 9)
  && is_tag_io (fst (deserialize_bytes 10 (ByteArrayReader_new b))) = true.
Proof. vm_compute. reflexivity. Qed.

(** DummyTag, src/tags/tests.rs:183-262: an id and a size, whose value is the
    bytes 0, 1, 2, ... and which cannot be deserialized.  Its downcasts and
    creators are those of the trait and are checked below on library types. *)
Definition dummy_impl : user_impl (N * N) :=
  provided fst snd
    (fun t w => (fold_left (fun k (i : N) w => match k w with
                                                          | (Ok _, w') => serialize_uint W8 (i mod 256) w'
                                                          | y => y end) (iota (N.to_nat (snd t))) (fun w => (Ok tt, w))) w)
    (fun _ _ s => (Panic, s)) (fun _ => None).
Definition dummy (id size : N) : otag (N * N) := OUser (id, size).
(** test_iltag_size, src/tags/tests.rs:284-294. *)
Example test_iltag_size :
  map (o_size dummy_impl) [dummy 15 3; dummy 31 3; dummy 255 255] = [4; 5; 259].
Proof. vm_compute. reflexivity. Qed.
(** test_iltag_serialize, src/tags/tests.rs:296-323; test_iltag_to_bytes, 325-330. *)
Example test_iltag_serialize :
  o_to_bytes dummy_impl (dummy 15 4) = Ok [0x0F; 0; 1; 2; 3]
  /\ o_to_bytes dummy_impl (dummy 16 4) = Ok [0x10; 4; 0; 1; 2; 3]
  /\ o_to_bytes dummy_impl (dummy 255 256) = Ok ([248; 7; 248; 8] ++ iota 256)
  /\ is_tag_io (fst (o_serialize dummy_impl (dummy 255 256) read_only_writer)) = true.
Proof. vm_compute. auto. Qed.

(** test_tag_downcast_ref, src/tags/tests.rs:332-348; test_tag_downcast_mut,
    350-369; test_tag_downcast_ref_with_id, 371-392;
    test_tag_downcast_mut_with_id, 394-418; test_tag_id_downcast_ref, 420-433;
    test_tag_id_downcast_mut, 435-452; test_assert_tag_id_and_type_or_error,
    454-475; test_assert_tag_id_and_type, 477-495: one type and another, the id
    of the tag and another. *)
Example test_downcasts :
  let t := Tag 15 VNull in
  tag_downcast KNull t = Some t /\ tag_downcast KString t = None
  /\ tag_downcast_with_id KNull 15 t = Some t /\ tag_downcast_with_id KNull 14 t = None
  /\ tag_downcast_with_id KString 15 t = None
  /\ tag_id_downcast KNull 15 t = Ok t /\ tag_id_downcast KNull 14 t = Err UnexpectedTagType
  /\ tag_id_downcast KString 15 t = Err UnexpectedTagType
  /\ assert_tag_id_and_type_or_error KNull 15 t TagTooLarge = Ok tt
  /\ assert_tag_id_and_type_or_error KNull 14 t TagTooLarge = Err TagTooLarge
  /\ assert_tag_id_and_type_or_error KString 15 t TagTooLarge = Err TagTooLarge
  /\ assert_tag_id_and_type KNull 15 t = Ok tt
  /\ assert_tag_id_and_type KNull 14 t = Err UnexpectedTagType
  /\ assert_tag_id_and_type KString 15 t = Err UnexpectedTagType.
Proof. vm_compute. repeat (split; [reflexivity|]). reflexivity. Qed.

(** test_ildefaulttagcreator, src/tags/tests.rs:540-547;
    test_ildefaulttagcreator_bad_id, 549-556; test_ildefaultwithidtagcreator,
    561-571; test_ilrawtag_default_with_id, 789-794. *)
Example test_creators :
  ILDefaultTagCreator KString 17 = Some (Tag 17 (VString []))
  /\ ILDefaultTagCreator KString 16 = None
  /\ ILDefaultWithIdTagCreator KString 16 = Some (Tag 16 (VString []))
  /\ ILDefaultWithIdTagCreator KString 1231 = Some (Tag 1231 (VString []))
  /\ ILDefaultWithIdTagCreator KRaw 16 = Some (Tag 16 (VRaw [])).
Proof. vm_compute. repeat (split; [reflexivity|]). reflexivity. Qed.

(** test_iltagcreatorengine_new, src/tags/tests.rs:576-583;
    test_iltagcreatorengine_normal, 585-619; test_iltagcreatorengine_strict,
    621-653. *)
Definition two (s : bool) : engine :=
  let c := ILDefaultWithIdTagCreator KString in
  snd (register (snd (register (engine_new s) 16 c)) 17 c).
Definition created_none (x : res tag_error (option tag)) : bool := match x with Ok None => true | _ => false end.
Example test_iltagcreatorengine :
  strict (engine_new true) = true /\ strict (engine_new false) = false
  /\ create_tag (two false) 16 = Ok (Some (Tag 16 (VString [])))
  /\ create_tag (two false) 17 = Ok (Some (Tag 17 (VString [])))
  /\ create_tag (two false) 18 = Ok (Some (Tag 18 (VRaw [])))
  /\ create_tag (two true) 16 = Ok (Some (Tag 16 (VString [])))
  /\ create_tag (two true) 17 = Ok (Some (Tag 17 (VString [])))
  /\ create_tag (two true) 18 = Ok None
  /\ forallb (fun id => created_none (create_tag (two true) id) && created_none (create_tag (two false) id))
       (iota 16) = true.
Proof. vm_compute. repeat (split; [reflexivity|]). reflexivity. Qed.
(** test_iltagcreatorengine_deregister, src/tags/tests.rs:655-679. *)
Example test_iltagcreatorengine_deregister :
  let '(p, e) := deregister (two true) 16 in
  match p with Some c => c 16 = Some (Tag 16 (VString [])) | None => False end
  /\ match fst (deregister e 16), fst (deregister e 18) with None, None => True | _, _ => False end.
Proof. vm_compute. auto. Qed.

(** ILRawTag: src/tags/tests.rs:683-756. *)
Example test_ilrawtag :
  ILRawTag_new 16 = Ok (Tag 16 (VRaw [])) /\ ILRawTag_new 15 = Panic
  /\ construct c64 (Craw_with_capacity 16 17) = Some (Ok (Tag 16 (VRaw [])))
  /\ construct c64 (Craw_with_capacity 15 16) = Some Panic
  /\ construct c64 (Cwith_id_value 16 (VRaw [0; 1; 2; 3; 4])) = Some (Ok (Tag 16 (VRaw [0; 1; 2; 3; 4])))
  /\ construct c64 (Cwith_id_value 15 (VRaw [0; 1; 2; 3; 4])) = Some Panic
  /\ set_call (Smut_bytes (fun l => l ++ [0; 1; 2; 3; 4])) (Tag 16 (VRaw [])) = Some (Tag 16 (VRaw [0; 1; 2; 3; 4]))
  /\ set_call (Sset_value (VRaw [0; 1; 2])) (Tag 16 (VRaw [0; 1; 2; 3; 4])) = Some (Tag 16 (VRaw [0; 1; 2]))
  /\ value_size (VRaw []) = 0 /\ value_size (VRaw [0; 1; 2; 3; 4]) = 5.
Proof. vm_compute. repeat (split; [reflexivity|]). reflexivity. Qed.
(** test_ilrawtag_iltag_deserialize_value, src/tags/tests.rs:757-787: four calls
    on the same tag and reader. *)
Example test_ilrawtag_iltag_deserialize_value :
  let d := deserialize_value untouchable_deserialize in
  let '(x1, v1, r1) := d (VRaw []) 0 (ByteArrayReader_new [0; 1; 2; 3; 4]) in
  let '(x2, v2, r2) := d v1 5 r1 in
  let '(x3, v3, r3) := d v2 0 r2 in
  x1 = Ok tt /\ v1 = VRaw [] /\ x2 = Ok tt /\ v2 = VRaw [0; 1; 2; 3; 4] /\ x3 = Ok tt /\ v3 = VRaw []
  /\ is_tag_io (res3 (d v3 1 r3)) = true.
Proof. vm_compute. repeat (split; [reflexivity|]). reflexivity. Qed.

(** ** src/tags/standard/tests.rs *)
(** test_constants, src/tags/standard/tests.rs:35-65. *)
Example test_standard_constants :
  [IL_NULL_TAG_ID; IL_BOOL_TAG_ID; IL_INT8_TAG_ID; IL_UINT8_TAG_ID; IL_INT16_TAG_ID; IL_UINT16_TAG_ID;
   IL_INT32_TAG_ID; IL_UINT32_TAG_ID; IL_INT64_TAG_ID; IL_UINT64_TAG_ID; IL_ILINT_TAG_ID; IL_BIN32_TAG_ID;
   IL_BIN64_TAG_ID; IL_BIN128_TAG_ID; IL_SIGNED_ILINT_TAG_ID]
  = iota 15
  /\ [IL_BYTES_TAG_ID; IL_STRING_TAG_ID; IL_BINT_TAG_ID; IL_BDEC_TAG_ID; IL_ILINTARRAY_TAG_ID;
      IL_ILTAGARRAY_TAG_ID; IL_ILTAGSEQ_TAG_ID; IL_RANGE_TAG_ID; IL_VERSION_TAG_ID; IL_OID_TAG_ID;
      IL_DICTIONARY_TAG_ID; IL_STRING_DICTIONARY_TAG_ID]
     = [16; 17; 18; 19; 20; 21; 22; 23; 24; 25; 30; 31].
Proof. vm_compute. auto. Qed.

(** ** src/tags/standard/implicit/tests.rs *)
(** test_implicit_tag_size, src/tags/standard/implicit/tests.rs:188-208. *)
Example test_implicit_tag_size :
  map implicit_tag_size [0; 1; 2; 3; 4; 5; 6; 7; 8; 9; 10; 11; 12; 13; 14; 15; 16; 32]
  = [0; 1; 1; 1; 2; 2; 4; 4; 8; 8; 9; 4; 8; 16; 9; 0; 0; 0].
Proof. vm_compute. reflexivity. Qed.

(** test_simple_value_tag_struct_impl_func_impl,
    src/tags/standard/implicit/tests.rs:66-105, with the type, the default id, a
    default value and a sample. *)
Definition simple_ctors (k : kind) (id : N) (dflt sample : value) : Prop :=
  construct c64 (Cnew k) = Some (Ok (Tag id dflt))
  /\ construct c64 (Cwith_id k 123) = Some (Ok (Tag 123 dflt))
  /\ construct c64 (Cwith_value sample) = Some (Ok (Tag id sample))
  /\ construct c64 (Cwith_id_value 123 sample) = Some (Ok (Tag 123 sample))
  /\ set_call (Sset_value sample) (Tag id dflt) = Some (Tag id sample).
Ltac five := repeat (split; [vm_compute; reflexivity|]); vm_compute; reflexivity.
(** The tests named test_..._new in src/tags/standard/implicit/tests.rs:214-792. *)
Example test_implicit_new :
  (construct c64 (Cnew KNull) = Some (Ok (Tag 0 VNull)) /\ construct c64 (Cwith_id KNull 123) = Some (Ok (Tag 123 VNull)))
  /\ simple_ctors KBool 1 (VBool false) (VBool true)
  /\ simple_ctors (KSInt W8) 2 (VSInt W8 0) (VSInt W8 126)
  /\ simple_ctors (KUInt W8) 3 (VUInt W8 0) (VUInt W8 126)
  /\ simple_ctors (KSInt W16) 4 (VSInt W16 0) (VSInt W16 126)
  /\ simple_ctors (KUInt W16) 5 (VUInt W16 0) (VUInt W16 126)
  /\ simple_ctors (KSInt W32) 6 (VSInt W32 0) (VSInt W32 126)
  /\ simple_ctors (KUInt W32) 7 (VUInt W32 0) (VUInt W32 126)
  /\ simple_ctors (KSInt W64) 8 (VSInt W64 0) (VSInt W64 126)
  /\ simple_ctors (KUInt W64) 9 (VUInt W64 0) (VUInt W64 126)
  /\ simple_ctors KILInt 10 (VILInt 0) (VILInt 1234)
  /\ simple_ctors KBin32 11 (VBin32 0) (VBin32 0x3F9E0419)
  /\ simple_ctors KBin64 12 (VBin64 0) (VBin64 0x3FF3C083126E978D)
  /\ simple_ctors KSILInt 14 (VSILInt 0) (VSILInt 1234).
Proof. repeat (split; [five|]). five. Qed.
Example test_ilbin128tag_new :
  construct c64 (Cnew KBin128) = Some (Ok (Tag 13 (VBin128 (repeat 0 16))))
  /\ construct c64 (Cwith_id KBin128 123) = Some (Ok (Tag 123 (VBin128 (repeat 0 16))))
  /\ construct c64 (Cwith_value (VBin128 (iota 16))) = Some (Ok (Tag 13 (VBin128 (iota 16))))
  /\ construct c64 (Cwith_id_value 123 (VBin128 (iota 16))) = Some (Ok (Tag 123 (VBin128 (iota 16)))).
Proof. five. Qed.

(** test_simple_value_iltag_serialize_impl and
    test_simple_value_iltag_deserialize_impl,
    src/tags/standard/implicit/tests.rs:107-186, for a value, the value of a
    fresh tag, and the result of [to_be_bytes]. *)
Definition simple_wire (v fresh : value) (be : list N) : Prop :=
  let n := lenN be in
  value_size v = n /\ serv v = be /\ to_read_only (serialize_value fresh) = true
  /\ okv (dvu fresh n be) = Some v
  /\ is_tag_io (res3 (deserialize_value untouchable_deserialize v n (rd3 (dvu fresh n be)))) = true
  /\ res3 (dvu fresh (n + 1) (repeat 0 16)) = Err CorruptedData
  /\ res3 (dvu fresh (n - 1) (repeat 0 16)) = Err CorruptedData
  /\ is_tag_io (res3 (dvu fresh n (repeat 0 (length be - 1)))) = true.
(** src/tags/standard/implicit/tests.rs:341-582.  -1.2345678 and
    9.87654 as f32 are BF9E0651 and 411E064F, as f64 BFF3C0CA2A5B1D5D and
    4023C0C9D9D3458D. *)
Example test_implicit_wire :
  simple_wire (VSInt W8 (-123)) (VSInt W8 0) [0x85]
  /\ simple_wire (VSInt W8 123) (VSInt W8 0) [0x7B]
  /\ simple_wire (VUInt W8 0x12) (VUInt W8 0) [0x12]
  /\ simple_wire (VUInt W8 0xFE) (VUInt W8 0) [0xFE]
  /\ simple_wire (VSInt W16 (-0x1234)) (VSInt W16 0) [0xED; 0xCC]
  /\ simple_wire (VSInt W16 0x1234) (VSInt W16 0) [0x12; 0x34]
  /\ simple_wire (VUInt W16 0x1234) (VUInt W16 0) [0x12; 0x34]
  /\ simple_wire (VUInt W16 0xFEDC) (VUInt W16 0) [0xFE; 0xDC]
  /\ simple_wire (VSInt W32 (-0x12345678)) (VSInt W32 0) [0xED; 0xCB; 0xA9; 0x88]
  /\ simple_wire (VSInt W32 0x12345678) (VSInt W32 0) [0x12; 0x34; 0x56; 0x78]
  /\ simple_wire (VUInt W32 0x12345678) (VUInt W32 0) [0x12; 0x34; 0x56; 0x78]
  /\ simple_wire (VUInt W32 0xFEDCBA98) (VUInt W32 0) [0xFE; 0xDC; 0xBA; 0x98]
  /\ simple_wire (VSInt W64 (-0x1234567890ABCDEF)) (VSInt W64 0) [0xED; 0xCB; 0xA9; 0x87; 0x6F; 0x54; 0x32; 0x11]
  /\ simple_wire (VSInt W64 0x1234567890ABCDEF) (VSInt W64 0) [0x12; 0x34; 0x56; 0x78; 0x90; 0xAB; 0xCD; 0xEF]
  /\ simple_wire (VUInt W64 0x1234567890ABCDEF) (VUInt W64 0) [0x12; 0x34; 0x56; 0x78; 0x90; 0xAB; 0xCD; 0xEF]
  /\ simple_wire (VUInt W64 0xFEDCBA9876543210) (VUInt W64 0) [0xFE; 0xDC; 0xBA; 0x98; 0x76; 0x54; 0x32; 0x10]
  /\ simple_wire (VBin32 0xBF9E0651) (VBin32 0) [0xBF; 0x9E; 0x06; 0x51]
  /\ simple_wire (VBin32 0x411E064F) (VBin32 0) [0x41; 0x1E; 0x06; 0x4F]
  /\ simple_wire (VBin64 0xBFF3C0CA2A5B1D5D) (VBin64 0) [0xBF; 0xF3; 0xC0; 0xCA; 0x2A; 0x5B; 0x1D; 0x5D]
  /\ simple_wire (VBin64 0x4023C0C9D9D3458D) (VBin64 0) [0x40; 0x23; 0xC0; 0xC9; 0xD9; 0xD3; 0x45; 0x8D].
Proof. repeat (split; [five|]). five. Qed.
(** ILNullTag, src/tags/standard/implicit/tests.rs:219-253; ILBoolTag, 263-331. *)
Example test_ilnulltag :
  value_size VNull = 0 /\ serv VNull = [] /\ okv (dvu VNull 0 []) = Some VNull
  /\ res3 (dvu VNull 1 []) = Err CorruptedData.
Proof. five. Qed.
Example test_ilbooltag :
  let d := deserialize_value untouchable_deserialize in
  let r1 := dvu (VBool false) 1 [1; 0; 2] in
  let r2 := d (VBool false) 1 (rd3 r1) in
  let r3 := d (VBool false) 1 (rd3 r2) in
  value_size (VBool false) = 1 /\ serv (VBool false) = [0] /\ serv (VBool true) = [1]
  /\ to_read_only (serialize_value (VBool true)) = true
  /\ okv r1 = Some (VBool true) /\ okv r2 = Some (VBool false) /\ res3 r3 = Err CorruptedData
  /\ res3 (d (VBool false) 2 (rd3 r3)) = Err CorruptedData.
Proof. five. Qed.
(** ILBin128Tag, src/tags/standard/implicit/tests.rs:587-684. *)
Example test_ilbin128tag :
  let z := VBin128 (repeat 0 16) in
  value_size z = 16 /\ serv z = repeat 0 16 /\ serv (VBin128 (iota 16)) = iota 16
  /\ to_read_only (serialize_value (VBin128 (iota 16))) = true
  /\ okv (dvu z 16 (repeat 0 16)) = Some z /\ okv (dvu z 16 (iota 16)) = Some (VBin128 (iota 16))
  /\ res3 (dvu z 15 (iota 16)) = Err CorruptedData /\ res3 (dvu z 17 (iota 16)) = Err CorruptedData
  /\ is_tag_io (res3 (dvu z 16 (tl (iota 16)))) = true.
Proof. five. Qed.
(** ILILInt64Tag, src/tags/standard/implicit/tests.rs:689-778. *)
Definition ilint_tag_samples : list N :=
  [0xF7; 0xF8; 0x2345; 0x012345; 0x01234567; 0x0123456789; 0x0123456789AB; 0x0123456789ABCD; 0x0123456789ABCDEF].
Example test_ililint64tag :
  forallb (fun '(i, v) =>
    let e := enc v in
    (value_size (VILInt v) =? encoded_size v) && leqb (serv (VILInt v)) e
    && match okv (dvu (VILInt 0) (123 * i) e) with Some (VILInt x) => x =? v | _ => false end
    && is_tag_io (res3 (dvu (VILInt 0) (123 * i) (drop_last e))))
    (combine (iota 9) ilint_tag_samples) && to_read_only (serialize_value (VILInt 0)) = true.
Proof. vm_compute. reflexivity. Qed.
(** ILSignedILInt64Tag, src/tags/standard/implicit/tests.rs:793-862. *)
Example test_ilsignedilint64tag :
  forallb (fun '(i, v) =>
    let e := vec_of (snd (signed_encode v VecWriter_new)) in
    (value_size (VSILInt v) =? signed_encoded_size v) && leqb (serv (VSILInt v)) e
    && match okv (dvu (VSILInt 0) (123 * i) e) with Some (VSILInt x) => (x =? v)%Z | _ => false end
    && is_tag_io (res3 (dvu (VSILInt 0) (123 * i) (drop_last e))))
    (combine (iota (length signed_samples)) signed_samples) && to_read_only (serialize_value (VSILInt 0)) = true.
Proof. vm_compute. reflexivity. Qed.

(** ** src/tags/standard/explicit/tests.rs *)
(** SAMPLE_STRING_BIN, src/tags/standard/explicit/tests.rs:212-217. *)
Definition sample_string : list N :=
  [0x41; 0x20; 0x6a; 0x75; 0x73; 0x74; 0x69; 0xc3; 0xa7; 0x61; 0x2c; 0x20; 0x63; 0x65; 0x67; 0x61; 0x20; 0x70;
   0x61; 0x72; 0x61; 0x20; 0x75; 0x6d; 0x20; 0x64; 0x6f; 0x73; 0x20; 0x64; 0x6f; 0x69; 0x73; 0x20; 0x6c; 0x61;
   0x64; 0x6f; 0x73; 0x2c; 0x20; 0x6a; 0xc3; 0xa1; 0x20; 0x6e; 0xc3; 0xa3; 0x6f; 0x20; 0xc3; 0xa9; 0x20; 0x6a;
   0x75; 0x73; 0x74; 0x69; 0xc3; 0xa7; 0x61; 0x2e].
(** The macros of src/tags/standard/explicit/tests.rs:42-142 for the byte arrays
    (177-206) and the big integers (449-472). *)
Definition byte_tags (k : kind) (id : N) (mk : list N -> value) : Prop :=
  let s := [1; 2; 3; 4] in
  construct c64 (Cnew k) = Some (Ok (Tag id (mk [])))
  /\ construct c64 (Cwith_value (mk s)) = Some (Ok (Tag id (mk s)))
  /\ set_call (Smut_bytes (fun l => l ++ s)) (Tag id (mk [])) = Some (Tag id (mk s))
  /\ value_size (mk []) = 0 /\ value_size (mk s) = 4
  /\ serv (mk []) = [] /\ serv (mk s) = s
  /\ okv (dvu (mk s) 0 s) = Some (mk []) /\ okv (dvu (mk []) 4 s) = Some (mk s)
  /\ is_tag_io (res3 (dvu (mk []) 5 s)) = true.
Example test_byte_tags : byte_tags KBytes 16 VBytes /\ byte_tags KBigInt 18 VBigInt.
Proof. split; five. Qed.
(** test_ilstringtag_impl, src/tags/standard/explicit/tests.rs:219-250;
    value_size 252-259; serialize 261-279; deserialize 281-312. *)
Example test_ilstringtag :
  construct c64 (Cnew KString) = Some (Ok (Tag 17 (VString [])))
  /\ construct c64 (Cwith_id KString 123) = Some (Ok (Tag 123 (VString [])))
  /\ construct c64 (Cwith_value (VString sample_string)) = Some (Ok (Tag 17 (VString sample_string)))
  /\ construct c64 (Cwith_id_value 123 (VString sample_string)) = Some (Ok (Tag 123 (VString sample_string)))
  /\ set_call (Sset_value (VString sample_string)) (Tag 17 (VString [])) = Some (Tag 17 (VString sample_string))
  /\ set_call (Smut_bytes (fun l => l ++ sample_string)) (Tag 17 (VString [])) = Some (Tag 17 (VString sample_string))
  /\ value_size (VString []) = 0 /\ value_size (VString sample_string) = 62
  /\ serv (VString []) = [] /\ serv (VString sample_string) = sample_string
  /\ okv (dvu (VString sample_string) 0 sample_string) = Some (VString [])
  /\ okv (dvu (VString []) 62 sample_string) = Some (VString sample_string)
  /\ is_tag_io (res3 (dvu (VString []) 63 sample_string)) = true
  /\ res3 (dvu (VString []) 8 sample_string) = Err CorruptedData.
Proof. five. Qed.
(** test_string_tag_size_from_value, src/tags/standard/explicit/tests.rs:317-327;
    test_serialize_string_tag_from_value, 329-352;
    test_deserialize_string_tag_from_value_into, 354-399;
    test_deserialize_string_tag_from_value, 401-444. *)
Example test_string_tag_helpers :
  let t := Tag 17 (VString sample_string) in
  string_tag_size_from_value [] = size (Tag 17 (VString []))
  /\ string_tag_size_from_value sample_string = size t
  /\ bytes_of (serialize_string_tag_from_value []) = ser (Tag 17 (VString []))
  /\ bytes_of (serialize_string_tag_from_value sample_string) = ser t
  /\ fst (deserialize_string_tag_from_value (ByteArrayReader_new (ser (Tag 17 (VString []))))) = Ok []
  /\ fst (deserialize_string_tag_from_value (ByteArrayReader_new (ser t))) = Ok sample_string
  /\ is_tag_io (fst (deserialize_string_tag_from_value (ByteArrayReader_new (firstn 61 (ser t))))) = true
  /\ fst (deserialize_string_tag_from_value (ByteArrayReader_new (ser (Tag 17 (VRaw (firstn 8 sample_string))))))
     = Err CorruptedData
  /\ fst (snd (deserialize_string_tag_from_value_into ([1], ByteArrayReader_new (ser t)))) = sample_string.
Proof. five. Qed.
(** ILBigDecTag, src/tags/standard/explicit/tests.rs:477-578. *)
Example test_ilbigdectag :
  let v := VBigDec 0x12345678 (firstn 6 sample_string) in
  let exp := [0x12; 0x34; 0x56; 0x78; 0x41; 0x20; 0x6a; 0x75; 0x73; 0x74] in
  construct c64 (Cnew KBigDec) = Some (Ok (Tag 19 (VBigDec 0 [])))
  /\ construct c64 (Cwith_id KBigDec 1234) = Some (Ok (Tag 1234 (VBigDec 0 [])))
  /\ construct c64 (Cwith_value (VBigDec (-1) sample_string)) = Some (Ok (Tag 19 (VBigDec (-1) sample_string)))
  /\ construct c64 (Cwith_id_value 1234 (VBigDec (-1) sample_string))
     = Some (Ok (Tag 1234 (VBigDec (-1) sample_string)))
  /\ set_call (Sset_scale (-123)) (Tag 19 (VBigDec 0 [])) = Some (Tag 19 (VBigDec (-123) []))
  /\ set_call (Smut_bytes (fun l => l ++ sample_string)) (Tag 19 (VBigDec 0 []))
     = Some (Tag 19 (VBigDec 0 sample_string))
  /\ value_size (VBigDec 0 []) = 4 /\ value_size (VBigDec (-1) sample_string) = 66
  /\ serv (VBigDec 0 []) = [0; 0; 0; 0] /\ serv v = exp
  /\ okv (dvu v 4 [0xFF; 0xFF; 0xFF; 0xFF]) = Some (VBigDec (-1) [])
  /\ okv (dvu (VBigDec 0 []) 10 exp) = Some v
  /\ map (fun n => res3 (dvu (VBigDec 0 []) n exp)) [0; 1; 2] = repeat (Err CorruptedData) 3.
Proof. five. Qed.
(** ILILIntArrayTag, src/tags/standard/explicit/tests.rs:584-737. *)
Definition sample_ilint : list N :=
  [0xf7; 0xf8; 0xFEDC; 0xFEDCBA; 0xFEDCBA98; 0xFEDCBA76; 0xFEDCBA7654; 0xFEDCBA765432; 0xFEDCBA76543210].
Example test_ililintarraytag :
  let v := VILIntArray sample_ilint in let z := VILIntArray [] in
  let body := concat (map enc sample_ilint) in
  let exp := enc 9 ++ body in
  let n := lenN exp in
  construct c64 (Cnew KILIntArray) = Some (Ok (Tag 20 z))
  /\ construct c64 (Cwith_id KILIntArray 1234) = Some (Ok (Tag 1234 z))
  /\ construct c64 (Cwith_value v) = Some (Ok (Tag 20 v))
  /\ construct c64 (Cwith_id_value 1234 v) = Some (Ok (Tag 1234 v))
  /\ set_call (Smut_numbers (fun l => l ++ sample_ilint)) (Tag 20 z) = Some (Tag 20 v)
  /\ value_size z = 1 /\ value_size v = fold_left N.add (map encoded_size sample_ilint) (encoded_size 9)
  /\ serv z = enc 0 /\ serv v = exp
  /\ okv (dvu v 1 (enc 0)) = Some z /\ okv (dvu z n exp) = Some v
  /\ is_tag_io (res3 (dvu z (n - 1) exp)) = true /\ is_tag_io (res3 (dvu z n (drop_last exp))) = true
  /\ res3 (dvu z n (enc 8 ++ body)) = Err CorruptedData
  /\ is_tag_io (res3 (dvu z 1 [0xF8])) = true.
Proof. five. Qed.

(** ILTagSeqTag, src/tags/standard/explicit/tests.rs:742-945; ILTagArrayTag,
    951-1174.  The tags used by both. *)
Definition t_str : tag := Tag 17 (VString sample_string).
Definition t_num : tag := Tag 10 (VILInt 12345678).
Definition t_unk : tag := Tag 1234 (VILInt 12345678).
Definition t_nul : tag := Tag 0 VNull.
Definition sers (l : list tag) : list N := concat (map ser l).
Definition same_tags (l l' : list tag) : bool :=
  (lenN l =? lenN l') && forallb (fun '(a, b) => same a b) (combine l l').
Definition decoded_tags (x : res tag_error unit * value * reader) (l : list tag) : bool :=
  match okv x with Some (VSeq l') | Some (VArr l') => same_tags l' l | _ => false end.
Example test_iltagseqtag :
  let z := VSeq [] in let full := VSeq [Tag 17 (VString [])] in
  let l4 := [t_str; t_num; t_unk; t_nul] in let l3 := [t_str; t_num; t_nul] in
  construct c64 (Cnew KSeq) = Some (Ok (Tag 22 z)) /\ construct c64 (Cwith_id KSeq 1234) = Some (Ok (Tag 1234 z))
  /\ set_call (Smut_tags (fun l => l ++ [t_str])) (Tag 22 z) = Some (Tag 22 (VSeq [t_str]))
  /\ value_size z = 0 /\ value_size (VSeq [t_str]) = size t_str
  /\ value_size (VSeq l4) = fold_left N.add (map size l4) 0
  /\ serv z = [] /\ serv (VSeq [t_str]) = ser t_str /\ serv (VSeq l4) = sers l4
  /\ forallb (fun s => decoded_tags (dvf s full 0 []) [] && decoded_tags (dvf s z (size t_str) (ser t_str)) [t_str]
                       && decoded_tags (dvf s z (lenN (sers l3)) (sers l3)) l3
                       && is_tag_io (res3 (dvf s z (lenN (sers l3) - 2) (sers l3)))) [true; false] = true
  /\ decoded_tags (dvf false z (lenN (sers l4)) (sers l4)) l4 = true
  /\ is_tag_io (res3 (dvf false z (lenN (sers l4) - 2) (sers l4))) = true
  /\ is_err (res3 (dvf true z (lenN (sers l4)) (sers l4))) = true.
Proof. five. Qed.
(** The last two checks of each test reuse the reader, 1082-1095 and 1147-1160. *)
Example test_iltagarraytag :
  let z := VArr [] in let full := VArr [Tag 17 (VString [])] in
  let l4 := [t_str; t_num; t_unk; t_nul] in let l3 := [t_str; t_num; t_nul] in
  let l6 := l3 ++ [t_num; t_unk; t_nul] in
  let w l := enc (lenN l) ++ sers l in
  let again s l := let x := dvf s z (lenN (w l) - 2) (w l) in
    is_tag_io (res3 x)
    && match res3 (deserialize_value (deserialize (fac s)) (val3 x) (lenN (w l) - 1) (rd3 x)) with
       | Err CorruptedData => true | _ => false end in
  construct c64 (Cnew KArr) = Some (Ok (Tag 21 z)) /\ construct c64 (Cwith_id KArr 1234) = Some (Ok (Tag 1234 z))
  /\ set_call (Smut_tags (fun l => l ++ [t_str])) (Tag 21 z) = Some (Tag 21 (VArr [t_str]))
  /\ value_size z = 1 /\ value_size (VArr [t_str]) = 1 + size t_str
  /\ value_size (VArr l4) = fold_left N.add (map size l4) 1
  /\ serv z = [0] /\ serv (VArr [t_str]) = w [t_str] /\ serv (VArr l4) = w l4
  /\ forallb (fun s => decoded_tags (dvf s full 1 [0]) [] && decoded_tags (dvf s z (lenN (w [t_str])) (w [t_str])) [t_str]
                       && decoded_tags (dvf s z (lenN (w l3)) (w l3)) l3) [true; false] = true
  /\ decoded_tags (dvf false z (lenN (w l4)) (w l4)) l4 = true
  /\ again false l4 = true /\ again true l3 = true
  /\ is_err (res3 (dvf true z (lenN (w l6)) (w l6))) = true.
Proof. five. Qed.

(** ILRangeTag, src/tags/standard/explicit/tests.rs:1180-1353. *)
Definition u16be (n : N) : list N := bytes_of (serialize_uint W16 n).
Example test_ilrangetag :
  let z := VRange 0 0 in
  let one '(s, c) := let exp := enc s ++ u16be c in
    (value_size (VRange s c) =? encoded_size s + 2) && leqb (serv (VRange s c)) exp
    && match okv (dvu z (lenN exp) exp) with Some (VRange s' c') => (s' =? s) && (c' =? c) | _ => false end
    && is_err (res3 (dvu z (lenN exp - 1) exp)) && is_err (res3 (dvu z (lenN exp + 1) (exp ++ [0]))) in
  construct c64 (Cnew KRange) = Some (Ok (Tag 23 z)) /\ construct c64 (Cwith_id KRange 1234) = Some (Ok (Tag 1234 z))
  /\ construct c64 (Cwith_value (VRange 123 456)) = Some (Ok (Tag 23 (VRange 123 456)))
  /\ construct c64 (Cwith_id_value 1234 (VRange 123 456)) = Some (Ok (Tag 1234 (VRange 123 456)))
  /\ set_call (Sset_start 123) (Tag 23 z) = Some (Tag 23 (VRange 123 0))
  /\ set_call (Sset_count 456) (Tag 23 z) = Some (Tag 23 (VRange 0 456))
  /\ set_call (Sset_value (VRange 123 456)) (Tag 23 z) = Some (Tag 23 (VRange 123 456))
  /\ forallb one [(1, 2); (123123, 65535); (0xFFFFFFFFFFFFFFFF, 65535)] = true.
Proof. five. Qed.
(** ILVersionTag, src/tags/standard/explicit/tests.rs:1358-1508. *)
Example test_ilversiontag :
  let z := VVersion 0 0 0 0 in let v := VVersion 1 2 3 4 in
  let exp := [0; 0; 0; 1; 0; 0; 0; 2; 0; 0; 0; 3; 0; 0; 0; 4] in
  construct c64 (Cnew KVersion) = Some (Ok (Tag 24 z)) /\ construct c64 (Cwith_id KVersion 1234) = Some (Ok (Tag 1234 z))
  /\ construct c64 (Cwith_value v) = Some (Ok (Tag 24 v))
  /\ construct c64 (Cwith_id_value 1234 v) = Some (Ok (Tag 1234 v))
  /\ construct c64 (Cversion_with_slice 1 2 3 4) = Some (Ok (Tag 24 v))
  /\ construct c64 (Cversion_with_id_slice 1234 1 2 3 4) = Some (Ok (Tag 1234 v))
  /\ set_call (Sset_major 1) (Tag 24 z) = Some (Tag 24 (VVersion 1 0 0 0))
  /\ set_call (Sset_minor 2) (Tag 24 z) = Some (Tag 24 (VVersion 0 2 0 0))
  /\ set_call (Sset_revision 3) (Tag 24 z) = Some (Tag 24 (VVersion 0 0 3 0))
  /\ set_call (Sset_build 4) (Tag 24 z) = Some (Tag 24 (VVersion 0 0 0 4))
  /\ set_call (Sset_value v) (Tag 24 z) = Some (Tag 24 v)
  /\ set_call (Sset_value_from_slice 1 2 3 4) (Tag 24 z) = Some (Tag 24 v)
  /\ value_size z = 16 /\ value_size v = 16 /\ serv z = repeat 0 16 /\ serv v = exp
  /\ okv (dvu z 16 exp) = Some v
  /\ is_tag_io (res3 (dvu z 16 (drop_last exp))) = true
  /\ res3 (dvu z 15 exp) = Err CorruptedData /\ res3 (dvu z 17 exp) = Err CorruptedData.
Proof. five. Qed.
(** ILOIDTag, src/tags/standard/explicit/tests.rs:1514-1637. *)
Example test_iloidtag :
  let l := [0xFF; 0xFFFF; 0xFFFFFFFFFFFFFFFF; 0] in
  let v := VOID l in let z := VOID [] in
  let exp := enc 4 ++ concat (map enc l) in
  let n := lenN exp in
  construct c64 (Cnew KOID) = Some (Ok (Tag 25 z)) /\ construct c64 (Cwith_id KOID 1234) = Some (Ok (Tag 1234 z))
  /\ construct c64 (Cwith_value v) = Some (Ok (Tag 25 v))
  /\ construct c64 (Cwith_id_value 1234 v) = Some (Ok (Tag 1234 v))
  /\ set_call (Smut_numbers (fun x => x ++ l)) (Tag 25 z) = Some (Tag 25 v)
  /\ set_call (Sset_value v) (Tag 25 z) = Some (Tag 25 v)
  /\ value_size z = 1 /\ value_size v = fold_left N.add (map encoded_size l) 1
  /\ serv z = [0] /\ serv v = exp
  /\ okv (dvu v 1 [0]) = Some z /\ okv (dvu z n exp) = Some v
  /\ is_err (res3 (dvu v (n - 1) exp)) = true /\ is_err (res3 (dvu v (n + 1) exp)) = true
  /\ is_err (res3 (dvu v (n + 1) (firstn 14 exp))) = true.
Proof. five. Qed.

(** create_sample_ildicttag, src/tags/standard/explicit/tests.rs:1669-1675, and
    the sorted serialization. *)
Definition ka : list N := [97].
Definition kb : list N := [98].
Definition kc : list N := [99].
Definition inserted (k : list N) (x : tag) (t : tag) : tag :=
  match ILDictTag_insert k x t with Some (_, t') => t' | None => t end.
Definition insertedS (k x : list N) (t : tag) : tag :=
  match ILStrDictTag_insert k x t with Some (_, t') => t' | None => t end.
Definition sample_dict : tag :=
  inserted kb (Tag 8 (VSInt W64 0xFACADA)) (inserted ka t_str (inserted kc t_nul (Tag 30 (VDict [])))).
Definition getd (t : tag) (k : list N) : tag :=
  match ILDictTag_get k t with Some (Some x) => x | _ => Tag 0 VNull end.
Definition dict_wire (t : tag) : list N :=
  enc 3 ++ concat (map (fun k => bytes_of (serialize_string_tag_from_value k) ++ ser (getd t k)) [ka; kb; kc]).
Definition dict_back (s : bool) (t : tag) : bool :=
  match okv (dvf s (VDict []) (lenN (dict_wire t)) (dict_wire t)) with
  | Some v => match dict_len (Tag 30 v) with Some 3 => forallb (fun k => same (getd t k) (getd (Tag 30 v) k)) [ka; kb; kc]
                                         | _ => false end
  | None => false end.
(** test_ildicttag_impl, src/tags/standard/explicit/tests.rs:1643-1665;
    value_size 1677-1691; serialize 1693-1720; deserialize 1722-1806, 1809-1887. *)
Example test_ildicttag :
  let w := dict_wire sample_dict in let n := lenN w in
  let custom := inserted kc (Tag 1234 (VUInt W8 0)) sample_dict in
  construct c64 (Cnew KDict) = Some (Ok (Tag 30 (VDict [])))
  /\ construct c64 (Cwith_id KDict 1234) = Some (Ok (Tag 1234 (VDict [])))
  /\ dict_len sample_dict = Some 3
  /\ value_size (VDict []) = 1
  /\ value_size (tag_val sample_dict)
     = fold_left N.add (map (fun k => string_tag_size_from_value k + size (getd sample_dict k)) [ka; kb; kc]) 1
  /\ serv (VDict []) = [0] /\ serv (tag_val sample_dict) = w
  /\ forallb (fun s => match okv (dvf s (VDict [([120], t_nul)]) 1 [0]) with Some (VDict []) => true | _ => false end
                       && dict_back s sample_dict
                       && forallb (fun m => is_err (res3 (dvf s (VDict []) m w))) [n - 1; n - 4; n + 1])
       [true; false] = true
  /\ dict_back false custom = true
  /\ is_err (res3 (dvf true (VDict []) (lenN (dict_wire custom)) (dict_wire custom))) = true.
Proof. five. Qed.
(** ILStrDictTag, src/tags/standard/explicit/tests.rs:1892-2046. *)
Definition sample_strdict : tag :=
  insertedS kb kb (insertedS ka [65] (insertedS kc kc (Tag 31 (VStrDict [])))).
Definition gets (t : tag) (k : list N) : list N :=
  match ILStrDictTag_get k t with Some (Some x) => x | _ => [0] end.
Example test_ilstrdicttag :
  let str k := bytes_of (serialize_string_tag_from_value k) in
  let w := enc 3 ++ concat (map (fun k => str k ++ str (gets sample_strdict k)) [ka; kb; kc]) in
  let n := lenN w in let z := VStrDict [] in
  construct c64 (Cnew KStrDict) = Some (Ok (Tag 31 z))
  /\ construct c64 (Cwith_id KStrDict 1234) = Some (Ok (Tag 1234 z))
  /\ dict_len sample_strdict = Some 3
  /\ value_size z = 1 /\ value_size (tag_val sample_strdict) = n
  /\ serv z = [0] /\ serv (tag_val sample_strdict) = w
  /\ okv (dvu (VStrDict [([120], [121])]) 1 [0]) = Some z
  /\ option_map (fun v => (dict_len (Tag 31 v), map (gets (Tag 31 v)) [ka; kb; kc])) (okv (dvu z n w))
     = Some (Some 3, [[65]; kb; kc])
  /\ map (fun m => is_err (res3 (dvu z m w))) [n - 1; n - 4; n + 1] = repeat true 3
  /\ is_err (res3 (dvu z (lenN (dict_wire sample_dict)) (dict_wire sample_dict))) = true.
Proof. five. Qed.

(** ** src/tags/standard/factory/tests.rs *)
(** The registration tables, src/tags/standard/factory/tests.rs:63-167. *)
Example test_create_std_engine :
  forallb (fun s => forallb (fun '(id, k) => match create_tag (fac s) id with
                                             | Ok (Some t) => (tag_id t =? id) && if tag_downcast k t then true else false
                                             | _ => false end)
      [(0, KNull); (1, KBool); (2, KSInt W8); (3, KUInt W8); (4, KSInt W16); (5, KUInt W16); (6, KSInt W32);
       (7, KUInt W32); (8, KSInt W64); (9, KUInt W64); (10, KILInt); (11, KBin32); (12, KBin64); (13, KBin128);
       (14, KSILInt); (16, KBytes); (17, KString); (18, KBigInt); (19, KBigDec); (20, KILIntArray); (21, KArr);
       (22, KSeq); (23, KRange); (24, KVersion); (25, KOID); (30, KDict); (31, KStrDict)]
      && created_none (create_tag (fac s) 15)) [true; false] = true
  /\ map (fun id => create_tag (fac true) id) [26; 27; 28; 29; 32; 31313] = repeat (Ok None) 6
  /\ map (fun id => create_tag (fac false) id) [26; 27; 28; 29; 32; 31313]
     = map (fun id => Ok (Some (Tag id (VRaw [])))) [26; 27; 28; 29; 32; 31313].
Proof. five. Qed.
(** deserialize_tag_size, src/tags/standard/factory/tests.rs:204-247. *)
Example test_deserialize_tag_size :
  map (fun id => fst (deserialize_tag_size id (ByteArrayReader_new []))) (iota 16)
  = map (fun id => Ok (implicit_tag_size id)) (iota 16)
  /\ forallb (fun n => match fst (deserialize_tag_size 12345 (ByteArrayReader_new (enc n))) with
                       | Ok x => x =? n | _ => false end
                       && is_err (fst (deserialize_tag_size 12345 (ByteArrayReader_new (drop_last (enc n))))))
       [0; 10; 1234; MAX_TAG_SIZE] = true
  /\ fst (deserialize_tag_size 12345 (ByteArrayReader_new (enc (MAX_TAG_SIZE + 1)))) = Err TagTooLarge.
Proof. five. Qed.
(** deserialize_tag_value_into, src/tags/standard/factory/tests.rs:249-345. *)
Definition dtvi (n : N) (bs : list N) (t : tag) : res tag_error unit * tag * reader :=
  deserialize_tag_value_into (deserialize (fac true)) n t (ByteArrayReader_new bs).
Definition reads_as (x : res tag_error unit * tag * reader) (t : tag) : bool :=
  is_ok (res3 x) && same (val3 x) t.
Example test_deserialize_tag_value_into :
  let t := Tag 8 (VSInt W64 1234) in let d := Tag 8 (VSInt W64 0) in
  let w := serv (tag_val t) ++ [0] in
  reads_as (dtvi 8 w d) t = true /\ res3 (dtvi 9 w d) = Err CorruptedData
  /\ is_err (res3 (dtvi 8 (firstn 7 w) d)) = true
  /\ forallb (fun '(t, d) => let w := serv (tag_val t) ++ [0] in let n := lenN w in
                reads_as (dtvi (n - 1) w d) t && reads_as (dtvi n w d) t
                && is_err (res3 (dtvi n (drop_last (drop_last w)) d)))
       [(Tag 10 (VILInt 12346), Tag 10 (VILInt 0)); (Tag 14 (VSILInt 12346), Tag 14 (VSILInt 0))] = true.
Proof. five. Qed.
(** deserialize, src/tags/standard/factory/tests.rs:178-202 and 347-428. *)
Definition reads_tag (s : bool) (t : tag) (k : kind) : bool :=
  match deserialize (fac s) (VecReader_new (ser t)) with
  | (Ok t', r) => (tag_id t' =? tag_id t) && (if tag_downcast k t' then true else false) && same t t' && consumed r
  | _ => false end.
Definition unknown (s : bool) (t : tag) : bool :=
  match deserialize (fac s) (VecReader_new (ser t)) with (Err UnknownTag, _) => true | _ => false end.
Example test_factory_deserialize :
  forallb (fun s =>
    forallb (fun '(t, k) => reads_tag s t k)
      [(Tag 0 VNull, KNull); (Tag 4 (VSInt W16 0), KSInt W16); (Tag 10 (VILInt 127), KILInt);
       (Tag 10 (VILInt 12345), KILInt); (Tag 14 (VSILInt 1), KSILInt); (Tag 14 (VSILInt (-1)), KSILInt);
       (Tag 14 (VSILInt 9223372036854775807), KSILInt); (Tag 14 (VSILInt (-9223372036854775808)), KSILInt);
       (Tag 16 (VBytes (repeat 0 32)), KBytes)]
    && unknown s (Tag 15 VNull)
    && is_tag_io (fst (deserialize (fac s) (VecReader_new [4; 2])))) [true; false] = true
  /\ reads_tag false (Tag 12345 (VILInt 12345)) KRaw = true
  /\ reads_tag false (Tag 123123323 (VSInt W16 12345)) KRaw = true
  /\ unknown true (Tag 12345 (VILInt 12345)) = true
  /\ unknown true (Tag 123123323 (VSInt W16 12345)) = true.
Proof. five. Qed.
(** deserialize_into, src/tags/standard/factory/tests.rs:431-537; from_bytes,
    539-547. *)
Example test_factory_deserialize_into :
  forallb (fun '(t, d) =>
    let into bs d := deserialize_into (fac true) (ByteArrayReader_new bs) d in
    reads_as (into (ser t) d) t
    && is_err (res3 (into (drop_last (ser t)) d))
    && match res3 (into (ser t) (Tag 123 (tag_val d))) with Err UnexpectedTagType => true | _ => false end)
    [(Tag 8 (VSInt W64 1231312313), Tag 8 (VSInt W64 0)); (Tag 10 (VILInt 1231312313), Tag 10 (VILInt 0));
     (Tag 14 (VSILInt 1231312313), Tag 14 (VSILInt 0));
     (Tag 17 (VString [116; 101; 115; 116; 32; 109; 101]), Tag 17 (VString []))] = true
  /\ from_bytes (fac true) (ser (Tag 17 (VString [116; 101; 115; 116; 32; 109; 101])))
     = Ok (Tag 17 (VString [116; 101; 115; 116; 32; 109; 101])).
Proof. five. Qed.

(** ** src/tags/util/tests.rs *)
Definition abcde : list N := [97; 98; 99; 100; 101].
(** test_iltag_are_equal, src/tags/util/tests.rs:38-53. *)
Example test_iltag_are_equal :
  let a := Tag 17 (VString abcde) in
  map (iltag_are_equal a)
    [a; Tag 17 (VRaw abcde); Tag 1234 (VRaw abcde); Tag 17 (VString (firstn 4 abcde));
     Tag 17 (VString [98; 99; 100; 101; 102])]
  = [Ok true; Ok true; Ok false; Ok false; Ok false].
Proof. vm_compute. reflexivity. Qed.
(** test_iltag_clone_with_factory, src/tags/util/tests.rs:55-92; test_iltag_clone,
    94-118. *)
Example test_iltag_clone :
  let f := snd (register (fac true) 1234 (ILDefaultWithIdTagCreator KString)) in
  let a id := Tag id (VString abcde) in
  iltag_clone_with_factory f (a 17) = Ok (a 17) /\ iltag_clone_with_factory f (a 1234) = Ok (a 1234)
  /\ is_err (iltag_clone_with_factory f (a 1235)) = true
  /\ iltag_clone (a 17) = Ok (a 17) /\ iltag_clone (a 1234) = Ok (Tag 1234 (VRaw abcde))
  /\ same (a 1234) (Tag 1234 (VRaw abcde)) = true.
Proof. five. Qed.
(** test_limited_reader_ensure_empty, src/tags/util/tests.rs:120-141;
    test_untouchbletagfactory_deserialize, 155-164. *)
Example test_limited_reader_ensure_empty :
  let r n := (tt, LimitedReader_new (ByteArrayReader_new [0]) n) in
  fst (limited_reader_ensure_empty TagTooLarge (r 1)) = Err TagTooLarge
  /\ fst (limited_reader_ensure_empty CorruptedData (r 1)) = Err CorruptedData
  /\ fst (limited_reader_ensure_empty CorruptedData (r 0)) = Ok tt
  /\ fst (untouchable_deserialize (ByteArrayReader_new [])) = Panic.
Proof. five. Qed.

(** ** src/tags/payload/tests.rs *)
(** TestTagPayload, src/tags/payload/tests.rs:42-98. *)
Definition test_payload : payload_impl (N * N) :=
  {| p_default := (0, 0);
     p_serialized_size := fun _ => 6;
     p_serialize := fun x => serialize_uint W16 (fst x) ;;; serialize_uint W32 (snd x);
     p_deserialize := fun _ n =>
       (if negb (n =? 6) then fail CorruptedData else ret tt) ;;;
       a <- on_reader (deserialize_uint W16) ;; modify (fun x => (a, snd x)) ;;;
       b <- on_reader (deserialize_uint W32) ;; modify (fun x => (fst x, b)) |}.
(** src/tags/payload/tests.rs:100-236. *)
Example test_testtagpayload :
  let bs := [0xAB; 0xCD; 0xEF; 0x01; 0x23; 0x45] in
  let x := (0xABCD, 0xEF012345) in
  let d n bs := p_deserialize test_payload (fun r => (Panic, r)) n ((0, 0), VecReader_new bs) in
  payload_tag_new test_payload 1234 = APayload 1234 (0, 0)
  /\ any_id (payload_tag_new test_payload 1234) = 1234
  /\ any_value_size test_payload (APayload 1234 x) = 6
  /\ bytes_of (any_serialize_value test_payload (APayload 1234 x)) = bs
  /\ fst (d 6 bs) = Ok tt /\ fst (snd (d 6 bs)) = x
  /\ fst (d 5 bs) = Err CorruptedData /\ fst (d 7 bs) = Err CorruptedData
  /\ is_tag_io (fst (d 6 (tl bs))) = true.
Proof. five. Qed.

(** ** src/tags/raw/tests.rs *)
(** test_rawragoffset_impl, src/tags/raw/tests.rs:51-67. *)
Example test_rawragoffset_impl :
  let t := RawTagOffset_new 3 5 7 11 in
  ro_id t = 3 /\ ro_offset t = 5 /\ ro_header_size t = 7 /\ ro_value_size t = 11
  /\ ro_size c64 t = Ok 18 /\ ro_value_offset c64 t = Ok 12 /\ ro_next_tag_offset c64 t = Ok 23
  /\ ro_tag_start c64 t = 5 /\ ro_tag_end c64 t = Ok 23 /\ ro_value_start c64 t = Ok 12
  /\ ro_value_end c64 t = Ok 23.
Proof. five. Qed.
(** test_rawragoffset_impl_to_parent_space, src/tags/raw/tests.rs:69-119. *)
Example test_rawragoffset_impl_to_parent_space :
  let o := RawTagOffset_new in
  map (fun '(child, parent) => map_to_parent_space c64 child parent)
    [(o 4 0 2 8, o 3 5 7 10); (o 4 0 2 8, o 3 5 7 11); (o 4 1 2 8, o 3 5 7 11);
     (o 4 0 2 9, o 3 5 7 10); (o 4 1 2 8, o 3 5 7 10)]
  = [Ok (o 4 12 2 8); Ok (o 4 12 2 8); Ok (o 4 13 2 8); Err CorruptedData; Err CorruptedData].
Proof. vm_compute. reflexivity. Qed.
(** test_rawragoffset_impl_value_slice, src/tags/raw/tests.rs:121-130. *)
Example test_rawragoffset_impl_value_slice :
  let p := RawTagOffset_new 3 1 2 3 in
  ro_tag_slice c64 p (iota 10) = Ok [1; 2; 3; 4; 5] /\ ro_value_slice c64 p (iota 10) = Ok [3; 4; 5].
Proof. five. Qed.
(** create_sample_tag_seq, src/tags/raw/tests.rs:145-169. *)
Definition sample_tag_seq : list tag :=
  [Tag 13 (VBin128 (repeat 0 16)); Tag 11 (VBin32 0); Tag 12 (VBin64 0); Tag 1 (VBool false); Tag 10 (VILInt 0);
   Tag 4 (VSInt W16 0); Tag 6 (VSInt W32 0); Tag 8 (VSInt W64 0); Tag 2 (VSInt W8 0); Tag 0 VNull;
   Tag 14 (VSILInt 0); Tag 5 (VUInt W16 0); Tag 7 (VUInt W32 0); Tag 9 (VUInt W64 0); Tag 3 (VUInt W8 0);
   Tag 17 (VString [116; 97; 103; 49]); Tag 12345 (VString [116; 97; 103; 50])].
(** test_create_sample_tag_seq and test_serialize_tag_seq,
    src/tags/raw/tests.rs:171-188. *)
Example test_serialize_tag_seq :
  lenN sample_tag_seq = 17 /\ lenN (sers sample_tag_seq) = fold_left N.add (map size sample_tag_seq) 0.
Proof. five. Qed.
(** test_rawragscanner_next_tag, src/tags/raw/tests.rs:193-215;
    test_rawragscanner_next_tag_if_id, 217-247. *)
Fixpoint scan_as (next : N -> scanner -> res tag_error (option raw_tag_offset) * scanner) (l : list tag) (offs : N)
  (s : scanner) : option N :=
  match l with
  | [] => Some offs
  | t :: l' =>
      match next (tag_id t) s with
      | (Ok (Some o), s') =>
          match ro_next_tag_offset c64 o with
          | Ok n => if (ro_id o =? tag_id t) && (ro_offset o =? offs) && (n =? offs + size t)
                    then scan_as next l' (offs + size t) s' else None
          | _ => None end
      | _ => None end
  end.
Example test_rawragscanner :
  let w := sers sample_tag_seq in
  let s := RawTagScanner_new (ByteArrayReader_new w) in
  scan_as (fun _ => next_tag c64) sample_tag_seq 0 s = Some (lenN w)
  /\ scan_as (next_tag_if_id c64) sample_tag_seq 0 s = Some (lenN w)
  /\ fst (next_tag_if_id c64 1313123 s) = Err UnexpectedTagType.
Proof. five. Qed.

(** ** src/tags/serialization/tests.rs *)
(** test_deserializer_core and test_deserializer_struct,
    src/tags/serialization/tests.rs:40-150; test_serializer_core1, _core2 and
    test_serializer_struct, 194-294. *)
Example test_deserializer :
  (a <- deserialize_uint W8 ;; b <- deserialize_uint W16 ;; c <- deserialize_uint W32 ;; d <- deserialize_uint W64 ;;
   e <- deserialize_sint W8 ;; f <- deserialize_sint W16 ;; g <- deserialize_sint W32 ;; h <- deserialize_sint W64 ;;
   i <- deserialize_f32 ;; j <- deserialize_f64 ;; k <- deserialize_string 30 ;; l <- deserialize_ilint ;;
   ret ([a; b; c; d; i; j; l], [e; f; g; h], k)) (ByteArrayReader_new sample_values_bin)
  = (Ok ([0; 0x0102; 0x03040506; 0x0708090A0B0C0D0E; 0x1E1F2021; 0x2223242526272829; 0x494c496e74566264],
         [0x0f; 0x1011; 0x12131415; 0x161718191A1B1C1D]%Z, lagrimas), at_end)
  /\ forallb (fun w => is_tag_io (fst (deserialize_uint w at_end)) && is_tag_io (fst (deserialize_sint w at_end)))
       [W8; W16; W32; W64]
     && is_tag_io (fst (deserialize_f32 at_end)) && is_tag_io (fst (deserialize_f64 at_end))
     && is_tag_io (fst (deserialize_string 30 at_end)) && is_tag_io (fst (deserialize_ilint at_end))
     && is_tag_io (fst (deserialize_bytes 81 at_end)) = true
  /\ fst (deserialize_bytes 81 (ByteArrayReader_new sample_values_bin)) = Ok sample_values_bin.
Proof. five. Qed.
Example test_serializer :
  bytes_of (serialize_uint W8 0 ;;; serialize_uint W16 0x0102 ;;; serialize_uint W32 0x03040506 ;;;
            serialize_uint W64 0x0708090A0B0C0D0E ;;; serialize_sint W8 0x0f ;;; serialize_sint W16 0x1011 ;;;
            serialize_sint W32 0x12131415 ;;; serialize_sint W64 0x161718191A1B1C1D ;;; serialize_f32 0x1E1F2021 ;;;
            serialize_f64 0x2223242526272829 ;;; serialize_str lagrimas ;;; serialize_ilint 0x494c496e74566264)
  = sample_values_bin
  /\ forallb (fun w => to_read_only (serialize_uint w 1) && to_read_only (serialize_sint w 1%Z)) [W8; W16; W32; W64]
     && to_read_only (serialize_f32 1) && to_read_only (serialize_f64 1) && to_read_only (serialize_str lagrimas)
     && to_read_only (serialize_ilint 1) && to_read_only (serialize_bytes sample_values_bin) = true
  /\ bytes_of (serialize_bytes sample_values_bin) = sample_values_bin.
Proof. five. Qed.
(** src/tags/serialization/tests.rs:347-486. *)
Example test_signedilint_serializer :
  forallb (fun s =>
    let out := bytes_of (serialize_signed_ilint s) in
    leqb out (vec_of (snd (signed_encode s VecWriter_new)))
    && to_read_only (serialize_signed_ilint s)
    && match fst (deserialize_signed_ilint (ByteArrayReader_new out)) with Ok x => (x =? s)%Z | _ => false end
    && is_tag_io (fst (deserialize_signed_ilint (ByteArrayReader_new (drop_last out))))) signed_samples = true.
Proof. vm_compute. reflexivity. Qed.

(** Model of the constructors, accessors and setters of the tag structs:
    src/tags/mod.rs:673-736, src/tags/standard/implicit/mod.rs:71-127, 210-216,
    474-525 and the [impl] blocks of src/tags/standard/explicit/mod.rs.
    [&mut self] methods take the old tag and return the new one; a [&mut Vec]
    or [&mut HashMap] handed to the caller ([mut_value]) is the function the
    caller applies to its contents.  [None] means that the struct has no such
    method (the call does not compile). *)
From Verif Require Import Base Types IO ILInt Data Tags.

(** [Vec::with_capacity(n)] for one-byte elements: panics when [n] exceeds
    [isize::MAX] (standard library); running out of memory is not modelled. *)
Definition Vec_with_capacity (c : cfg) (n : N) : res tag_error (list N) :=
  if usize_max c / 2 <? n then Panic else Ok [].
(** [extend_from_slice], [clear], [copy_from_slice] between arrays of the same
    length, [String::replace_range(..)]. *)
Definition extend_from_slice {A} (v s : list A) : list A := v ++ s.
Definition clear {A} (v : list A) : list A := [].
Definition copy_from_slice {A} (dst src : list A) : list A := src.
Definition replace_range_full (s new : list N) : list N := new.

(** ** simple_value_tag_struct_impl!, implicit/mod.rs:71-127 *)
Section Simple.
  Context {A : Type} (mk : A -> value) (default_id : N) (default : A).
  (** with_id (93-98), with_id_value (106-108), new (76-78), with_value (84-86). *)
  Definition simple_with_id (id : N) : tag := Tag id (mk default).
  Definition simple_with_id_value (id : N) (x : A) : tag := Tag id (mk x).
  Definition simple_new : tag := simple_with_id default_id.
  Definition simple_with_value (x : A) : tag := simple_with_id_value default_id x.
  (** set_value (122-124). *)
  Definition simple_set_value (t : tag) (x : A) : tag := Tag (tag_id t) (mk x).
End Simple.

(** The eight integer structs, implicit/mod.rs:297-425. *)
Definition uint_id (w : width) : N :=
  match w with W8 => IL_UINT8_TAG_ID | W16 => IL_UINT16_TAG_ID | W32 => IL_UINT32_TAG_ID | W64 => IL_UINT64_TAG_ID end.
Definition sint_id (w : width) : N :=
  match w with W8 => IL_INT8_TAG_ID | W16 => IL_INT16_TAG_ID | W32 => IL_INT32_TAG_ID | W64 => IL_INT64_TAG_ID end.

(** ** ILNullTag, implicit/mod.rs:210-216 *)
Definition ILNullTag_with_id (id : N) : tag := Tag id VNull.
Definition ILNullTag_new : tag := ILNullTag_with_id IL_NULL_TAG_ID.

(** ** ILBin128Tag, implicit/mod.rs:474-525 (the assertion on the length of a
    [&[u8; 16]] always holds) *)
Definition ILBin128Tag_with_id (id : N) : tag := Tag id (VBin128 (repeatN 0 16)).
Definition ILBin128Tag_new : tag := ILBin128Tag_with_id IL_BIN128_TAG_ID.
Definition ILBin128Tag_with_id_value (id : N) (x : list N) : tag :=
  Tag id (VBin128 (copy_from_slice (repeatN 0 16) x)).
Definition ILBin128Tag_with_value (x : list N) : tag := ILBin128Tag_with_id_value IL_BIN128_TAG_ID x.

(** ** ILRawTag, src/tags/mod.rs:678-736 ([new] is ILRawTag_new in Tags.v) *)
Definition ILRawTag_with_capacity (c : cfg) (id cap : N) : res tag_error tag :=
  if is_implicit_tag id then Panic
  else match Vec_with_capacity c cap with Ok v => Ok (Tag id (VRaw v)) | _ => Panic end.
Definition ILRawTag_with_value (id : N) (x : list N) : res tag_error tag :=
  if is_implicit_tag id then Panic else Ok (Tag id (VRaw (extend_from_slice [] x))).

(** ** Structs around an inner ILRawTag *)
(** The same id and bytes, in the outer struct. *)
Definition outer (f : list N -> value) (t : tag) : tag :=
  match t with Tag id (VRaw bs) => Tag id (f bs) | Tag id v => Tag id v end.
(** std_byte_array_tag_func_impl!, explicit/mod.rs:68-98; ILByteArrayTag 106-121,
    ILBigIntTag 318-331, ILBigDecTag 342-387. *)
Definition ILByteArrayTag_new : res tag_error tag := map_ok (outer VBytes) (ILRawTag_new IL_BYTES_TAG_ID).
Definition ILByteArrayTag_with_value (x : list N) : res tag_error tag :=
  map_ok (outer VBytes) (ILRawTag_with_value IL_BYTES_TAG_ID x).
Definition ILByteArrayTag_with_capacity (c : cfg) (cap : N) : res tag_error tag :=
  map_ok (outer VBytes) (ILRawTag_with_capacity c IL_BYTES_TAG_ID cap).
Definition ILBigIntTag_new : res tag_error tag := map_ok (outer VBigInt) (ILRawTag_new IL_BINT_TAG_ID).
Definition ILBigIntTag_with_value (x : list N) : res tag_error tag :=
  map_ok (outer VBigInt) (ILRawTag_with_value IL_BINT_TAG_ID x).
Definition ILBigDecTag_new : res tag_error tag := map_ok (outer (VBigDec 0)) (ILRawTag_new IL_BDEC_TAG_ID).
Definition ILBigDecTag_with_id (id : N) : res tag_error tag := map_ok (outer (VBigDec 0)) (ILRawTag_new id).
Definition ILBigDecTag_with_id_value (id : N) (scale : Z) (x : list N) : res tag_error tag :=
  map_ok (outer (VBigDec scale)) (ILRawTag_with_value id x).
Definition ILBigDecTag_with_value (scale : Z) (x : list N) : res tag_error tag :=
  ILBigDecTag_with_id_value IL_BDEC_TAG_ID scale x.

(** ** ILStringTag, explicit/mod.rs:143-200 *)
Definition ILStringTag_with_id (id : N) : tag := Tag id (VString []).
Definition ILStringTag_new : tag := ILStringTag_with_id IL_STRING_TAG_ID.
Definition ILStringTag_with_id_value (id : N) (s : list N) : tag := Tag id (VString s).
Definition ILStringTag_with_value (s : list N) : tag := ILStringTag_with_id_value IL_STRING_TAG_ID s.

(** ** ILILIntArrayTag 451-503, ILOIDTag 935-973 (around an ILILIntArrayTag) *)
Definition ILILIntArrayTag_with_id (id : N) : tag := Tag id (VILIntArray []).
Definition ILILIntArrayTag_new : tag := ILILIntArrayTag_with_id IL_ILINTARRAY_TAG_ID.
Definition ILILIntArrayTag_with_id_value (id : N) (l : list N) : tag :=
  Tag id (VILIntArray (extend_from_slice [] l)).
Definition ILILIntArrayTag_with_value (l : list N) : tag := ILILIntArrayTag_with_id_value IL_ILINTARRAY_TAG_ID l.
Definition oid_of (t : tag) : tag :=
  match t with Tag id (VILIntArray l) => Tag id (VOID l) | Tag id v => Tag id v end.
Definition ILOIDTag_with_id (id : N) : tag := oid_of (ILILIntArrayTag_with_id id).
Definition ILOIDTag_new : tag := ILOIDTag_with_id IL_OID_TAG_ID.
Definition ILOIDTag_with_id_value (id : N) (l : list N) : tag := oid_of (ILILIntArrayTag_with_id_value id l).
Definition ILOIDTag_with_value (l : list N) : tag := ILOIDTag_with_id_value IL_OID_TAG_ID l.

(** ** ILTagSeqTag 558-584, ILTagArrayTag 635-660 (around an ILTagSeqTag) *)
Definition ILTagSeqTag_with_id (id : N) : tag := Tag id (VSeq []).
Definition ILTagSeqTag_new : tag := ILTagSeqTag_with_id IL_ILTAGSEQ_TAG_ID.
Definition ILTagArrayTag_with_id (id : N) : tag :=
  match ILTagSeqTag_with_id id with Tag id (VSeq l) => Tag id (VArr l) | t => t end.
Definition ILTagArrayTag_new : tag := ILTagArrayTag_with_id IL_ILTAGARRAY_TAG_ID.

(** ** ILRangeTag 712-758 *)
Definition ILRangeTag_with_id (id : N) : tag := Tag id (VRange 0 0).
Definition ILRangeTag_new : tag := ILRangeTag_with_id IL_RANGE_TAG_ID.
Definition ILRangeTag_with_id_value (id start count : N) : tag := Tag id (VRange start count).
Definition ILRangeTag_with_value (start count : N) : tag := ILRangeTag_with_id_value IL_RANGE_TAG_ID start count.

(** ** ILVersionTag 801-888: the field is an array of four i32 *)
Definition MAJOR : nat := 0.
Definition MINOR : nat := 1.
Definition REVISION : nat := 2.
Definition BUILD : nat := 3.
Definition version_array (v : value) : list Z :=
  match v with VVersion a b c d => [a; b; c; d] | _ => [] end.
Definition version_of (l : list Z) : value :=
  match l with [a; b; c; d] => VVersion a b c d | _ => VNull end.
Fixpoint list_set {A} (i : nat) (x : A) (l : list A) : list A :=
  match l, i with
  | [], _ => []
  | _ :: l', O => x :: l'
  | y :: l', Datatypes.S i' => y :: list_set i' x l'
  end.
Definition ILVersionTag_with_id (id : N) : tag := Tag id (version_of [0; 0; 0; 0]%Z).
Definition ILVersionTag_new : tag := ILVersionTag_with_id IL_VERSION_TAG_ID.
Definition ILVersionTag_with_id_value (id : N) (major minor release build : Z) : tag :=
  Tag id (version_of [major; minor; release; build]).
Definition ILVersionTag_with_value (major minor release build : Z) : tag :=
  ILVersionTag_with_id_value IL_VERSION_TAG_ID major minor release build.
(** set_value_from_slice (886-888), set_value (882-884), set_major .. set_build
    (850-876). *)
Definition ILVersionTag_set_value_from_slice (t : tag) (x : list Z) : tag :=
  Tag (tag_id t) (version_of (copy_from_slice (version_array (tag_val t)) x)).
Definition ILVersionTag_set_value (t : tag) (major minor release build : Z) : tag :=
  ILVersionTag_set_value_from_slice t [major; minor; release; build].
Definition ILVersionTag_set_part (i : nat) (t : tag) (x : Z) : tag :=
  Tag (tag_id t) (version_of (list_set i x (version_array (tag_val t)))).
Definition ILVersionTag_with_id_value_from_slice (id : N) (x : list Z) : tag :=
  ILVersionTag_set_value_from_slice (Tag id (version_of [0; 0; 0; 0]%Z)) x.
Definition ILVersionTag_with_value_from_slice (x : list Z) : tag :=
  ILVersionTag_with_id_value_from_slice IL_VERSION_TAG_ID x.

(** ** ILDictTag 996-1073, ILStrDictTag 1144-1221 *)
Definition ILDictTag_with_id (id : N) : tag := Tag id (VDict []).
Definition ILDictTag_new : tag := ILDictTag_with_id IL_DICTIONARY_TAG_ID.
Definition ILStrDictTag_with_id (id : N) : tag := Tag id (VStrDict []).
Definition ILStrDictTag_new : tag := ILStrDictTag_with_id IL_STRING_DICTIONARY_TAG_ID.
(** insert (1048-1050, 1196-1198): [HashMap::insert] returns the old value. *)
Definition ILDictTag_insert (k : list N) (v : tag) (t : tag) : option (option tag * tag) :=
  match t with
  | Tag id (VDict m) => Some (hm_get k m, Tag id (VDict (hm_insert k v m)))
  | _ => None
  end.
Definition ILStrDictTag_insert (k v : list N) (t : tag) : option (option (list N) * tag) :=
  match t with
  | Tag id (VStrDict m) => Some (hm_get k m, Tag id (VStrDict (hm_insert k v m)))
  | _ => None
  end.
(** get (1068-1073, 1216-1221), len (1026-1028, 1174-1176), is_empty (1031-1033,
    1179-1181). *)
Definition ILDictTag_get (k : list N) (t : tag) : option (option tag) :=
  match tag_val t with VDict m => Some (match hm_get k m with Some x => Some x | None => None end) | _ => None end.
Definition ILStrDictTag_get (k : list N) (t : tag) : option (option (list N)) :=
  match tag_val t with VStrDict m => Some (match hm_get k m with Some x => Some x | None => None end) | _ => None end.
Definition dict_len (t : tag) : option N :=
  match tag_val t with VDict m => Some (lenN m) | VStrDict m => Some (lenN m) | _ => None end.
Definition dict_is_empty (t : tag) : option bool :=
  match tag_val t with
  | VDict m => Some (match m with [] => true | _ => false end)
  | VStrDict m => Some (match m with [] => true | _ => false end)
  | _ => None
  end.

(** ** All constructor calls *)
(** A call, with its arguments.  The arguments of [with_value] and
    [with_id_value] are given as the payload of the struct; [ILRawTag::new(id)]
    and [ILRawTag::with_value(id, x)] are [Cwith_id] and [Cwith_id_value]. *)
Inductive ctor :=
| Cnew (k : kind)
| Cwith_id (k : kind) (id : N)
| Cwith_value (a : value)
| Cwith_id_value (id : N) (a : value)
| Cbytes_with_capacity (cap : N)
| Craw_with_capacity (id cap : N)
| Cversion_with_slice (a b c d : Z)
| Cversion_with_id_slice (id : N) (a b c d : Z).

(** The function each call runs; [default()] and [default_with_id(id)] are
    [new()] and [with_id(id)] (macros.rs:120-135, tags/mod.rs:760-764,
    explicit/mod.rs:126-130, 328-332).  [f32::default()] and [f64::default()]
    are positive zeros. *)
Definition construct (c : cfg) (x : ctor) : option (res tag_error tag) :=
  match x with
  | Cnew k =>
      match k with
      | KNull => Some (Ok ILNullTag_new)
      | KBool => Some (Ok (simple_new VBool IL_BOOL_TAG_ID false))
      | KUInt w => Some (Ok (simple_new (VUInt w) (uint_id w) 0))
      | KSInt w => Some (Ok (simple_new (VSInt w) (sint_id w) 0%Z))
      | KBin32 => Some (Ok (simple_new VBin32 IL_BIN32_TAG_ID 0))
      | KBin64 => Some (Ok (simple_new VBin64 IL_BIN64_TAG_ID 0))
      | KBin128 => Some (Ok ILBin128Tag_new)
      | KILInt => Some (Ok (simple_new VILInt IL_ILINT_TAG_ID 0))
      | KSILInt => Some (Ok (simple_new VSILInt IL_SIGNED_ILINT_TAG_ID 0%Z))
      | KRaw => None
      | KBytes => Some ILByteArrayTag_new
      | KString => Some (Ok ILStringTag_new)
      | KBigInt => Some ILBigIntTag_new
      | KBigDec => Some ILBigDecTag_new
      | KILIntArray => Some (Ok ILILIntArrayTag_new)
      | KSeq => Some (Ok ILTagSeqTag_new)
      | KArr => Some (Ok ILTagArrayTag_new)
      | KRange => Some (Ok ILRangeTag_new)
      | KVersion => Some (Ok ILVersionTag_new)
      | KOID => Some (Ok ILOIDTag_new)
      | KDict => Some (Ok ILDictTag_new)
      | KStrDict => Some (Ok ILStrDictTag_new)
      end
  | Cwith_id k id =>
      match k with
      | KNull => Some (Ok (ILNullTag_with_id id))
      | KBool => Some (Ok (simple_with_id VBool false id))
      | KUInt w => Some (Ok (simple_with_id (VUInt w) 0 id))
      | KSInt w => Some (Ok (simple_with_id (VSInt w) 0%Z id))
      | KBin32 => Some (Ok (simple_with_id VBin32 0 id))
      | KBin64 => Some (Ok (simple_with_id VBin64 0 id))
      | KBin128 => Some (Ok (ILBin128Tag_with_id id))
      | KILInt => Some (Ok (simple_with_id VILInt 0 id))
      | KSILInt => Some (Ok (simple_with_id VSILInt 0%Z id))
      | KRaw => Some (ILRawTag_new id)
      | KBytes | KBigInt => None
      | KString => Some (Ok (ILStringTag_with_id id))
      | KBigDec => Some (ILBigDecTag_with_id id)
      | KILIntArray => Some (Ok (ILILIntArrayTag_with_id id))
      | KSeq => Some (Ok (ILTagSeqTag_with_id id))
      | KArr => Some (Ok (ILTagArrayTag_with_id id))
      | KRange => Some (Ok (ILRangeTag_with_id id))
      | KVersion => Some (Ok (ILVersionTag_with_id id))
      | KOID => Some (Ok (ILOIDTag_with_id id))
      | KDict => Some (Ok (ILDictTag_with_id id))
      | KStrDict => Some (Ok (ILStrDictTag_with_id id))
      end
  | Cwith_value a =>
      match a with
      | VNull | VRaw _ | VSeq _ | VArr _ | VDict _ | VStrDict _ => None
      | VBool b => Some (Ok (simple_with_value VBool IL_BOOL_TAG_ID b))
      | VUInt w n => Some (Ok (simple_with_value (VUInt w) (uint_id w) n))
      | VSInt w z => Some (Ok (simple_with_value (VSInt w) (sint_id w) z))
      | VBin32 n => Some (Ok (simple_with_value VBin32 IL_BIN32_TAG_ID n))
      | VBin64 n => Some (Ok (simple_with_value VBin64 IL_BIN64_TAG_ID n))
      | VBin128 bs => Some (Ok (ILBin128Tag_with_value bs))
      | VILInt n => Some (Ok (simple_with_value VILInt IL_ILINT_TAG_ID n))
      | VSILInt z => Some (Ok (simple_with_value VSILInt IL_SIGNED_ILINT_TAG_ID z))
      | VBytes bs => Some (ILByteArrayTag_with_value bs)
      | VString s => Some (Ok (ILStringTag_with_value s))
      | VBigInt bs => Some (ILBigIntTag_with_value bs)
      | VBigDec scale bs => Some (ILBigDecTag_with_value scale bs)
      | VILIntArray l => Some (Ok (ILILIntArrayTag_with_value l))
      | VRange start count => Some (Ok (ILRangeTag_with_value start count))
      | VVersion a b c d => Some (Ok (ILVersionTag_with_value a b c d))
      | VOID l => Some (Ok (ILOIDTag_with_value l))
      end
  | Cwith_id_value id a =>
      match a with
      | VNull | VBytes _ | VBigInt _ | VSeq _ | VArr _ | VDict _ | VStrDict _ => None
      | VBool b => Some (Ok (simple_with_id_value VBool id b))
      | VUInt w n => Some (Ok (simple_with_id_value (VUInt w) id n))
      | VSInt w z => Some (Ok (simple_with_id_value (VSInt w) id z))
      | VBin32 n => Some (Ok (simple_with_id_value VBin32 id n))
      | VBin64 n => Some (Ok (simple_with_id_value VBin64 id n))
      | VBin128 bs => Some (Ok (ILBin128Tag_with_id_value id bs))
      | VILInt n => Some (Ok (simple_with_id_value VILInt id n))
      | VSILInt z => Some (Ok (simple_with_id_value VSILInt id z))
      | VRaw bs => Some (ILRawTag_with_value id bs)
      | VString s => Some (Ok (ILStringTag_with_id_value id s))
      | VBigDec scale bs => Some (ILBigDecTag_with_id_value id scale bs)
      | VILIntArray l => Some (Ok (ILILIntArrayTag_with_id_value id l))
      | VRange start count => Some (Ok (ILRangeTag_with_id_value id start count))
      | VVersion a b c d => Some (Ok (ILVersionTag_with_id_value id a b c d))
      | VOID l => Some (Ok (ILOIDTag_with_id_value id l))
      end
  | Cbytes_with_capacity cap => Some (ILByteArrayTag_with_capacity c cap)
  | Craw_with_capacity id cap => Some (ILRawTag_with_capacity c id cap)
  | Cversion_with_slice a b c d => Some (Ok (ILVersionTag_with_value_from_slice [a; b; c; d]))
  | Cversion_with_id_slice id a b c d => Some (Ok (ILVersionTag_with_id_value_from_slice id [a; b; c; d]))
  end.

(** ** All setter calls *)
Inductive setter :=
| Sset_value (a : value)                      (** [set_value], the arguments as a payload *)
| Sset_scale (z : Z)                          (** ILBigDecTag::set_scale, explicit/mod.rs:395-397 *)
| Sset_start (n : N) | Sset_count (n : N)     (** ILRangeTag, 743-745, 751-753 *)
| Sset_major (z : Z) | Sset_minor (z : Z) | Sset_revision (z : Z) | Sset_build (z : Z)
| Sset_value_from_slice (a b c d : Z)         (** ILVersionTag, 850-888 *)
| Smut_bytes (f : list N -> list N)           (** [mut_value], Vec<u8> or String *)
| Smut_numbers (f : list N -> list N)         (** [mut_value], Vec<u64> *)
| Smut_tags (f : list tag -> list tag)        (** [mut_value], Vec<Box<dyn ILTag>> *)
| Smut_map (f : list (list N * tag) -> list (list N * tag))
                                              (** [mut_value], HashMap<String, Box<dyn ILTag>> *)
| Smut_strmap (f : list (list N * list N) -> list (list N * list N))
                                              (** [mut_value], HashMap<String, String> *)
| Sinsert (k : list N) (v : tag)              (** ILDictTag::insert *)
| Sinsert_str (k v : list N).                 (** ILStrDictTag::insert *)

(** set_value: implicit/mod.rs:122-124 and 523-525; tags/mod.rs:733-736;
    explicit/mod.rs:198-200, 500-503, 755-758, 882-884, 971-973.  mut_value:
    tags/mod.rs:723-725; explicit/mod.rs:95-97, 190-192, 405-407, 495-497,
    582-584, 658-660, 966-968, 1021-1023, 1169-1171. *)
Definition set_call (s : setter) (t : tag) : option tag :=
  let id := tag_id t in
  match s, tag_val t with
  | Sset_value (VBool b), VBool _ => Some (simple_set_value VBool t b)
  | Sset_value (VUInt w n), VUInt w' _ => if width_eqb w w' then Some (simple_set_value (VUInt w') t n) else None
  | Sset_value (VSInt w z), VSInt w' _ => if width_eqb w w' then Some (simple_set_value (VSInt w') t z) else None
  | Sset_value (VBin32 n), VBin32 _ => Some (simple_set_value VBin32 t n)
  | Sset_value (VBin64 n), VBin64 _ => Some (simple_set_value VBin64 t n)
  | Sset_value (VILInt n), VILInt _ => Some (simple_set_value VILInt t n)
  | Sset_value (VSILInt z), VSILInt _ => Some (simple_set_value VSILInt t z)
  | Sset_value (VBin128 bs), VBin128 old => Some (Tag id (VBin128 (copy_from_slice old bs)))
  | Sset_value (VRaw bs), VRaw old => Some (Tag id (VRaw (extend_from_slice (clear old) bs)))
  | Sset_value (VString s), VString old => Some (Tag id (VString (replace_range_full old s)))
  | Sset_value (VILIntArray l), VILIntArray old => Some (Tag id (VILIntArray (extend_from_slice (clear old) l)))
  | Sset_value (VOID l), VOID old => Some (Tag id (VOID (extend_from_slice (clear old) l)))
  | Sset_value (VRange start count), VRange _ _ => Some (Tag id (VRange start count))
  | Sset_value (VVersion a b c d), VVersion _ _ _ _ => Some (ILVersionTag_set_value t a b c d)
  | Sset_scale z, VBigDec _ bs => Some (Tag id (VBigDec z bs))
  | Sset_start n, VRange _ count => Some (Tag id (VRange n count))
  | Sset_count n, VRange start _ => Some (Tag id (VRange start n))
  | Sset_major z, VVersion _ _ _ _ => Some (ILVersionTag_set_part MAJOR t z)
  | Sset_minor z, VVersion _ _ _ _ => Some (ILVersionTag_set_part MINOR t z)
  | Sset_revision z, VVersion _ _ _ _ => Some (ILVersionTag_set_part REVISION t z)
  | Sset_build z, VVersion _ _ _ _ => Some (ILVersionTag_set_part BUILD t z)
  | Sset_value_from_slice a b c d, VVersion _ _ _ _ => Some (ILVersionTag_set_value_from_slice t [a; b; c; d])
  | Smut_bytes f, VRaw bs => Some (Tag id (VRaw (f bs)))
  | Smut_bytes f, VBytes bs => Some (Tag id (VBytes (f bs)))
  | Smut_bytes f, VBigInt bs => Some (Tag id (VBigInt (f bs)))
  | Smut_bytes f, VString bs => Some (Tag id (VString (f bs)))
  | Smut_bytes f, VBigDec scale bs => Some (Tag id (VBigDec scale (f bs)))
  | Smut_numbers f, VILIntArray l => Some (Tag id (VILIntArray (f l)))
  | Smut_numbers f, VOID l => Some (Tag id (VOID (f l)))
  | Smut_tags f, VSeq l => Some (Tag id (VSeq (f l)))
  | Smut_tags f, VArr l => Some (Tag id (VArr (f l)))
  | Smut_map f, VDict m => Some (Tag id (VDict (f m)))
  | Smut_strmap f, VStrDict m => Some (Tag id (VStrDict (f m)))
  | Sinsert k v, VDict _ => option_map snd (ILDictTag_insert k v t)
  | Sinsert_str k v, VStrDict _ => option_map snd (ILStrDictTag_insert k v t)
  | _, _ => None
  end.

(** ** All accessors *)
(** What an accessor returns: a number, a signed number, a boolean, bytes or
    numbers, an array of i32, tags, the entries of a map. *)
Inductive obs :=
| ON (n : N) | OZ (z : Z) | OB (b : bool) | OL (l : list N) | OA (l : list Z)
| OT (l : list tag) | OM (l : list (list N * tag)) | OS (l : list (list N * list N)).
Inductive field := Fvalue | Fscale | Fstart | Fcount | Fmajor | Fminor | Frevision | Fbuild.

(** value: implicit/mod.rs:114-116, 515-517; tags/mod.rs:718-720; explicit/mod.rs
    90-92, 184-186, 400-402, 490-492, 577-579, 653-655, 878-880, 962-964,
    1015-1017, 1163-1165; scale 390-392; start 739-741; count 747-749; major ..
    build 846-872. *)
Definition get_call (f : field) (t : tag) : option obs :=
  match f, tag_val t with
  | Fvalue, VBool b => Some (OB b)
  | Fvalue, VUInt _ n => Some (ON n)
  | Fvalue, VSInt _ z => Some (OZ z)
  | Fvalue, VBin32 n => Some (ON n)
  | Fvalue, VBin64 n => Some (ON n)
  | Fvalue, VBin128 bs => Some (OL bs)
  | Fvalue, VILInt n => Some (ON n)
  | Fvalue, VSILInt z => Some (OZ z)
  | Fvalue, VRaw bs => Some (OL bs)
  | Fvalue, VBytes bs => Some (OL bs)
  | Fvalue, VBigInt bs => Some (OL bs)
  | Fvalue, VBigDec _ bs => Some (OL bs)
  | Fvalue, VString s => Some (OL s)
  | Fvalue, VILIntArray l => Some (OL l)
  | Fvalue, VOID l => Some (OL l)
  | Fvalue, VSeq l => Some (OT l)
  | Fvalue, VArr l => Some (OT l)
  | Fvalue, VDict m => Some (OM m)
  | Fvalue, VStrDict m => Some (OS m)
  | Fvalue, VVersion _ _ _ _ => Some (OA (version_array (tag_val t)))
  | Fscale, VBigDec scale _ => Some (OZ scale)
  | Fstart, VRange start _ => Some (ON start)
  | Fcount, VRange _ count => Some (ON count)
  | Fmajor, VVersion _ _ _ _ => option_map OZ (nth_error (version_array (tag_val t)) MAJOR)
  | Fminor, VVersion _ _ _ _ => option_map OZ (nth_error (version_array (tag_val t)) MINOR)
  | Frevision, VVersion _ _ _ _ => option_map OZ (nth_error (version_array (tag_val t)) REVISION)
  | Fbuild, VVersion _ _ _ _ => option_map OZ (nth_error (version_array (tag_val t)) BUILD)
  | _, _ => None
  end.

(** Model of src/tags/mod.rs, src/tags/standard/implicit/mod.rs and
    src/tags/standard/explicit/mod.rs: constructors, sizes, serialization.
    Sizes are exact (no wrapping): see DESIGN.md, Not modelled. *)
From Verif Require Import Base Types IO ILInt Data.

(** is_implicit_tag, src/tags/mod.rs:132-134; is_reserved_tag, 146-148;
    tag_size_to_usize, 163-169 (the cast of a value up to 2^29 is exact). *)
Definition is_implicit_tag (id : N) : bool := id <=? IMPLICIT_ID_MAX.
Definition is_reserved_tag (id : N) : bool := id <=? RESERVED_ID_MAX.
Definition tag_size_to_usize (size : N) : res tag_error N :=
  if MAX_TAG_SIZE <? size then Err TagTooLarge else Ok size.

(** implicit_tag_size, src/tags/standard/implicit/mod.rs:178-197. *)
Definition implicit_tag_size (id : N) : N :=
  if id =? IL_NULL_TAG_ID then 0
  else if id =? IL_BOOL_TAG_ID then 1
  else if id =? IL_INT8_TAG_ID then 1
  else if id =? IL_UINT8_TAG_ID then 1
  else if id =? IL_INT16_TAG_ID then 2
  else if id =? IL_UINT16_TAG_ID then 2
  else if id =? IL_INT32_TAG_ID then 4
  else if id =? IL_UINT32_TAG_ID then 4
  else if id =? IL_INT64_TAG_ID then 8
  else if id =? IL_UINT64_TAG_ID then 8
  else if id =? IL_ILINT_TAG_ID then 9
  else if id =? IL_BIN32_TAG_ID then 4
  else if id =? IL_BIN64_TAG_ID then 8
  else if id =? IL_BIN128_TAG_ID then 16
  else if id =? IL_SIGNED_ILINT_TAG_ID then 9
  else 0.

(** ** Strings and maps of the Rust standard library *)
(** [str] equality and order compare bytes. *)
Fixpoint str_cmp (a b : list N) : comparison :=
  match a, b with
  | [], [] => Eq
  | [], _ :: _ => Lt
  | _ :: _, [] => Gt
  | x :: a', y :: b' => match x ?= y with Eq => str_cmp a' b' | c => c end
  end.
Definition str_eqb (a b : list N) : bool := match str_cmp a b with Eq => true | _ => false end.
(** [sort_unstable] on a vector of [&str]; an insertion sort, since only the
    order of the result matters and equal strings are interchangeable. *)
Fixpoint sort_insert (s : list N) (l : list (list N)) : list (list N) :=
  match l with
  | [] => [s]
  | s' :: l' => match str_cmp s s' with Gt => s' :: sort_insert s l' | _ => s :: l end
  end.
Definition sort_unstable (l : list (list N)) : list (list N) := fold_right sort_insert [] l.

(** [HashMap::get] and [HashMap::insert] (an existing key is kept and its value
    replaced; a new entry may land anywhere, here at the end). *)
Fixpoint hm_get {A} (k : list N) (m : list (list N * A)) : option A :=
  match m with
  | [] => None
  | (k', x) :: m' => if str_eqb k k' then Some x else hm_get k m'
  end.
Fixpoint hm_insert {A} (k : list N) (x : A) (m : list (list N * A)) : list (list N * A) :=
  match m with
  | [] => [(k, x)]
  | (k', x') :: m' => if str_eqb k k' then (k', x) :: m' else (k', x') :: hm_insert k x m'
  end.

(** [for x in l { f(x)? }]. *)
Definition for_each {S E X} (l : list X) (f : X -> S -> res E unit * S) : S -> res E unit * S :=
  fold_right (fun x k => f x ;;; k) (ret tt) l.

(** ** String tags without a tag object *)
(** string_tag_size_from_value, explicit/mod.rs:241-244. *)
Definition string_tag_size_from_value (s : list N) : N := 1 + encoded_size (lenN s) + lenN s.
(** serialize_string_tag_from_value, explicit/mod.rs:256-262. *)
Definition serialize_string_tag_from_value (s : list N) : writer -> res tag_error unit * writer :=
  serialize_ilint IL_STRING_TAG_ID ;;;
  serialize_ilint (lenN s) ;;;
  serialize_bytes s.

(** ** Sizes *)
(** ILTag::value_size and ILTag::size.  The former per type:
    int_iltag_impl!, implicit/mod.rs:141-143; ILNullTag 222-224; ILBoolTag
    261-263; ILBin128Tag 531-533; ILILInt64Tag 579-581; ILSignedILInt64Tag
    622-624; ILRawTag, tags/mod.rs:742-744 (also for ILByteArrayTag and
    ILBigIntTag through macros.rs:186-188); ILStringTag, explicit/mod.rs:206-208;
    ILBigDecTag 413-415; ILILIntArrayTag 509-515 (ILOIDTag delegates);
    ILTagSeqTag 590-596; ILTagArrayTag 666-669; ILRangeTag 764-766; ILVersionTag
    894-896; ILDictTag 1079-1086; ILStrDictTag 1227-1234.
    The latter is src/tags/mod.rs:198-204. *)
Fixpoint value_size (v : value) : N :=
  match v with
  | VNull => 0
  | VBool _ => 1
  | VUInt w _ | VSInt w _ => N.of_nat (wbytes w)
  | VBin32 _ => 4
  | VBin64 _ => 8
  | VBin128 _ => 16
  | VILInt n => encoded_size n
  | VSILInt z => signed_encoded_size z
  | VRaw bs | VBytes bs | VBigInt bs => lenN bs
  | VString s => lenN s
  | VBigDec _ bs => 4 + lenN bs
  | VILIntArray l | VOID l =>
      fold_left (fun size x => size + encoded_size x) l (encoded_size (lenN l))
  | VSeq l => fold_left (fun acc t => acc + size t) l 0
  | VArr l => encoded_size (lenN l) + fold_left (fun acc t => acc + size t) l 0
  | VRange start _ => encoded_size start + 2
  | VVersion _ _ _ _ => 16
  | VDict l =>
      encoded_size (lenN l)
      + fold_left (fun acc e => acc + (string_tag_size_from_value (fst e) + size (snd e))) l 0
  | VStrDict l =>
      encoded_size (lenN l)
      + fold_left (fun acc e => acc + (string_tag_size_from_value (fst e)
                                       + string_tag_size_from_value (snd e))) l 0
  end
with size (t : tag) : N :=
  match t with
  | Tag id v =>
      (if is_implicit_tag id then encoded_size id
       else encoded_size id + encoded_size (value_size v)) + value_size v
  end.

(** ** Serialization *)
(** ILTag::serialize_value: int_iltag_impl!, implicit/mod.rs:145-147; ILNullTag
    226-228; ILBoolTag 265-267; ILBin128Tag 535-540; ILILInt64Tag 583-585;
    ILSignedILInt64Tag 626-628; ILRawTag, tags/mod.rs:746-748; ILStringTag,
    explicit/mod.rs:210-212; ILBigDecTag 417-420; ILILIntArrayTag 517-523;
    ILTagSeqTag 598-603; ILTagArrayTag 671-674; ILRangeTag 768-771; ILVersionTag
    898-903; ILDictTag 1088-1104; ILStrDictTag 1236-1252.
    ILTag::serialize: src/tags/mod.rs:230-236.
    The dictionary cases first list, for each entry, the function that will
    serialize it; as in the code it runs when its key is reached. *)
Fixpoint serialize_value (v : value) : writer -> res tag_error unit * writer :=
  match v with
  | VNull => ret tt
  | VBool b => serialize_uint W8 (if b then 1 else 0)
  | VUInt w n => serialize_uint w n
  | VSInt w z => serialize_sint w z
  | VBin32 bits => serialize_f32 bits
  | VBin64 bits => serialize_f64 bits
  | VBin128 bs => lift_err TagIO (write_all bs)
  | VILInt n => serialize_ilint n
  | VSILInt z => serialize_signed_ilint z
  | VRaw bs | VBytes bs | VBigInt bs => serialize_bytes bs
  | VString s => serialize_bytes s
  | VBigDec scale bs => serialize_sint W32 scale ;;; serialize_bytes bs
  | VILIntArray l | VOID l =>
      serialize_ilint (lenN l) ;;; for_each l serialize_ilint
  | VSeq l => for_each l serialize
  | VArr l => serialize_ilint (lenN l) ;;; for_each l serialize
  | VRange start count => serialize_ilint start ;;; serialize_uint W16 count
  | VVersion a b c d => for_each [a; b; c; d] (serialize_sint W32)
  | VDict l =>
      let values := map (fun e => (fst e, serialize (snd e))) l in
      let keys := sort_unstable (map fst l) in
      serialize_ilint (lenN l) ;;;
      for_each keys (fun key =>
        match hm_get key values with
        | Some value => serialize_string_tag_from_value key ;;; value
        | None => fail UnableToSerialize
        end)
  | VStrDict l =>
      let keys := sort_unstable (map fst l) in
      serialize_ilint (lenN l) ;;;
      for_each keys (fun key =>
        match hm_get key l with
        | Some value => serialize_string_tag_from_value key ;;; serialize_string_tag_from_value value
        | None => fail UnableToSerialize
        end)
  end
with serialize (t : tag) : writer -> res tag_error unit * writer :=
  match t with
  | Tag id v =>
      serialize_ilint id ;;;
      (if is_implicit_tag id then ret tt else serialize_ilint (value_size v)) ;;;
      serialize_value v
  end.

(** ILTag::to_bytes, src/tags/mod.rs:266-270. *)
Definition to_bytes (t : tag) : res tag_error (list N) :=
  match serialize t VecWriter_new with
  | (Ok _, WVec v _ _) => Ok v
  | (Ok _, _) => Panic
  | (Err e, _) => Err e
  | (Panic, _) => Panic
  | (OutOfFuel, _) => OutOfFuel
  end.

(** ** Creating empty tags *)
(** [T::default()]: iltag_default_impl!, src/tags/macros.rs:120-134, and the
    [new] functions it calls; explicit/mod.rs:126-130 and 328-332.  [None]: the
    type (ILRawTag) has no [Default]. *)
Definition default_value (k : kind) : value :=
  match k with
  | KNull => VNull
  | KBool => VBool false
  | KUInt w => VUInt w 0
  | KSInt w => VSInt w 0
  | KBin32 => VBin32 0
  | KBin64 => VBin64 0
  | KBin128 => VBin128 (repeatN 0 16)
  | KILInt => VILInt 0
  | KSILInt => VSILInt 0
  | KRaw => VRaw []
  | KBytes => VBytes []
  | KString => VString []
  | KBigInt => VBigInt []
  | KBigDec => VBigDec 0 []
  | KILIntArray => VILIntArray []
  | KSeq => VSeq []
  | KArr => VArr []
  | KRange => VRange 0 0
  | KVersion => VVersion 0 0 0 0
  | KOID => VOID []
  | KDict => VDict []
  | KStrDict => VStrDict []
  end.
Definition default_id (k : kind) : option N :=
  match k with
  | KNull => Some IL_NULL_TAG_ID
  | KBool => Some IL_BOOL_TAG_ID
  | KUInt W8 => Some IL_UINT8_TAG_ID
  | KUInt W16 => Some IL_UINT16_TAG_ID
  | KUInt W32 => Some IL_UINT32_TAG_ID
  | KUInt W64 => Some IL_UINT64_TAG_ID
  | KSInt W8 => Some IL_INT8_TAG_ID
  | KSInt W16 => Some IL_INT16_TAG_ID
  | KSInt W32 => Some IL_INT32_TAG_ID
  | KSInt W64 => Some IL_INT64_TAG_ID
  | KBin32 => Some IL_BIN32_TAG_ID
  | KBin64 => Some IL_BIN64_TAG_ID
  | KBin128 => Some IL_BIN128_TAG_ID
  | KILInt => Some IL_ILINT_TAG_ID
  | KSILInt => Some IL_SIGNED_ILINT_TAG_ID
  | KRaw => None
  | KBytes => Some IL_BYTES_TAG_ID
  | KString => Some IL_STRING_TAG_ID
  | KBigInt => Some IL_BINT_TAG_ID
  | KBigDec => Some IL_BDEC_TAG_ID
  | KILIntArray => Some IL_ILINTARRAY_TAG_ID
  | KSeq => Some IL_ILTAGSEQ_TAG_ID
  | KArr => Some IL_ILTAGARRAY_TAG_ID
  | KRange => Some IL_RANGE_TAG_ID
  | KVersion => Some IL_VERSION_TAG_ID
  | KOID => Some IL_OID_TAG_ID
  | KDict => Some IL_DICTIONARY_TAG_ID
  | KStrDict => Some IL_STRING_DICTIONARY_TAG_ID
  end.
Definition tag_default (k : kind) : option tag :=
  match default_id k with Some id => Some (Tag id (default_value k)) | None => None end.
(** ILRawTag::new, src/tags/mod.rs:678-684 (asserts that the id is explicit). *)
Definition ILRawTag_new (id : N) : res tag_error tag :=
  if is_implicit_tag id then Panic else Ok (Tag id (VRaw [])).
(** [T::default_with_id(id)]: macros.rs:128-132, tags/mod.rs:760-764.
    ILRawTag and ILBigDecTag (through the inner ILRawTag) assert; ILByteArrayTag
    and ILBigIntTag do not implement the trait ([None]). *)
Definition tag_default_with_id (k : kind) (id : N) : option (res tag_error tag) :=
  match k with
  | KBytes | KBigInt => None
  | KRaw => Some (ILRawTag_new id)
  | KBigDec => Some (if is_implicit_tag id then Panic else Ok (Tag id (VBigDec 0 [])))
  | _ => Some (Ok (Tag id (default_value k)))
  end.

(** ** Downcasts, src/tags/mod.rs:282-419
    A reference to the tag is the tag itself; [T] is given by its kind. *)
(** tag_downcast_ref (282-284), tag_downcast_mut (295-297). *)
Definition tag_downcast (k : kind) (t : tag) : option tag :=
  if kind_eqb (kind_of (tag_val t)) k then Some t else None.
(** tag_downcast_ref_with_id (310-316), tag_downcast_mut_with_id (329-335). *)
Definition tag_downcast_with_id (k : kind) (id : N) (t : tag) : option tag :=
  if tag_id t =? id then tag_downcast k t else None.
(** tag_id_downcast_ref (348-357), tag_id_downcast_mut (370-379). *)
Definition tag_id_downcast (k : kind) (id : N) (t : tag) : res tag_error tag :=
  if negb (tag_id t =? id) then Err UnexpectedTagType
  else match tag_downcast k t with Some v => Ok v | None => Err UnexpectedTagType end.
(** assert_tag_id_and_type_or_error (393-403), assert_tag_id_and_type (417-419). *)
Definition assert_tag_id_and_type_or_error (k : kind) (id : N) (t : tag) (e : tag_error) : res tag_error unit :=
  if (tag_id t =? id) && kind_eqb (kind_of (tag_val t)) k then Ok tt else Err e.
Definition assert_tag_id_and_type (k : kind) (id : N) (t : tag) : res tag_error unit :=
  assert_tag_id_and_type_or_error k id t UnexpectedTagType.

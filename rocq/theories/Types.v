(** Data types of the library: error kinds and tag structs. *)
From Verif Require Import Base.

(** Kinds of [std::io::Error] that the library distinguishes, plus others. *)
Inductive stdio_kind := UnexpectedEof | WriteZero | Interrupted | OtherKind (n : N).

(** [crate::io::ErrorKind], src/io/mod.rs:46-60.  The payload of the wrapped
    errors is reduced to the kind of the [std::io::Error]. *)
Inductive io_error :=
| UnableToReadData
| UnableToWriteData
| IoCorruptedData
| EndOfData
| IOErrorStd (k : stdio_kind)
| BoxedStd (k : stdio_kind).

(** [crate::ilint::ErrorKind], src/ilint/mod.rs:46-53. *)
Inductive ilint_error :=
| ValueOverflow
| InvalidFormat
| ILIntIO (e : io_error).

(** [crate::tags::ErrorKind], src/tags/mod.rs:88-105 ([Boxed] is never built
    by the library and only carries user errors; it keeps a number here). *)
Inductive tag_error :=
| UnknownTag
| UnsupportedTag
| CorruptedData
| TagTooLarge
| UnexpectedTagType
| UnableToSerialize
| TagIO (e : io_error)
| TagBoxed (n : N).

(** Width of the fixed-size integer tags. *)
Inductive width := W8 | W16 | W32 | W64.
Definition wbytes (w : width) : nat :=
  match w with W8 => 1 | W16 => 2 | W32 => 4 | W64 => 8 end%nat.
(** [2 ^ bits]. *)
Definition wmod (w : width) : N :=
  match w with W8 => 256 | W16 => 65536 | W32 => 4294967296 | W64 => two64 end.

(** Payload of each tag struct.  One constructor per struct, except that the
    eight integer structs built by the same macro (src/tags/standard/
    implicit/mod.rs:292-425) are indexed by width and signedness.
    A [String] is its bytes; a [HashMap] is its entries in iteration order.

    - [VNull] ILNullTag (implicit/mod.rs:205), [VBool] ILBoolTag (251),
    - [VUInt]/[VSInt] ILUInt8Tag..ILInt64Tag (297-425),
    - [VBin32] (433), [VBin64] (450) as bit patterns, [VBin128] (469),
    - [VILInt] ILILInt64Tag (569), [VSILInt] ILSignedILInt64Tag (612),
    - [VRaw] ILRawTag (tags/mod.rs:665),
    - [VBytes] ILByteArrayTag (explicit/mod.rs:106), [VString] ILStringTag
      (138), [VBigInt] (318), [VBigDec] (342), [VILIntArray] (446),
      [VSeq] ILTagSeqTag (553), [VArr] ILTagArrayTag (631), [VRange] (706),
      [VVersion] (796), [VOID] (931), [VDict] (990), [VStrDict] (1138). *)
Inductive value : Type :=
| VNull
| VBool (b : bool)
| VUInt (w : width) (n : N)
| VSInt (w : width) (z : Z)
| VBin32 (bits : N)
| VBin64 (bits : N)
| VBin128 (bs : list N)
| VILInt (n : N)
| VSILInt (z : Z)
| VRaw (bs : list N)
| VBytes (bs : list N)
| VString (bs : list N)
| VBigInt (bs : list N)
| VBigDec (scale : Z) (bs : list N)
| VILIntArray (l : list N)
| VSeq (l : list tag)
| VArr (l : list tag)
| VRange (start count : N)
| VVersion (major minor revision build : Z)
| VOID (l : list N)
| VDict (l : list (list N * tag))
| VStrDict (l : list (list N * list N))
(** A boxed [dyn ILTag]: the struct's [id] field and the rest of the struct. *)
with tag : Type := Tag (id : N) (v : value).

Definition tag_id (t : tag) : N := let (i, _) := t in i.
Definition tag_val (t : tag) : value := let (_, v) := t in v.

(** The Rust type of a tag ([Any::type_id]). *)
Inductive kind :=
| KNull | KBool | KUInt (w : width) | KSInt (w : width) | KBin32 | KBin64 | KBin128
| KILInt | KSILInt | KRaw | KBytes | KString | KBigInt | KBigDec | KILIntArray
| KSeq | KArr | KRange | KVersion | KOID | KDict | KStrDict.

Definition kind_of (v : value) : kind :=
  match v with
  | VNull => KNull | VBool _ => KBool | VUInt w _ => KUInt w | VSInt w _ => KSInt w
  | VBin32 _ => KBin32 | VBin64 _ => KBin64 | VBin128 _ => KBin128
  | VILInt _ => KILInt | VSILInt _ => KSILInt | VRaw _ => KRaw | VBytes _ => KBytes
  | VString _ => KString | VBigInt _ => KBigInt | VBigDec _ _ => KBigDec
  | VILIntArray _ => KILIntArray | VSeq _ => KSeq | VArr _ => KArr
  | VRange _ _ => KRange | VVersion _ _ _ _ => KVersion | VOID _ => KOID
  | VDict _ => KDict | VStrDict _ => KStrDict
  end.

Definition width_eqb (a b : width) : bool :=
  match a, b with
  | W8, W8 | W16, W16 | W32, W32 | W64, W64 => true
  | _, _ => false
  end.
Definition kind_eqb (a b : kind) : bool :=
  match a, b with
  | KNull, KNull | KBool, KBool | KBin32, KBin32 | KBin64, KBin64 | KBin128, KBin128
  | KILInt, KILInt | KSILInt, KSILInt | KRaw, KRaw | KBytes, KBytes | KString, KString
  | KBigInt, KBigInt | KBigDec, KBigDec | KILIntArray, KILIntArray | KSeq, KSeq
  | KArr, KArr | KRange, KRange | KVersion, KVersion | KOID, KOID | KDict, KDict
  | KStrDict, KStrDict => true
  | KUInt w, KUInt w' => width_eqb w w'
  | KSInt w, KSInt w' => width_eqb w w'
  | _, _ => false
  end.

(** Constants of src/tags/standard/constants.rs and src/tags/mod.rs:84,117,120. *)
Definition MAX_TAG_SIZE : N := 536870912.
Definition IMPLICIT_ID_MAX : N := 15.
Definition RESERVED_ID_MAX : N := 31.
Definition IL_NULL_TAG_ID : N := 0.
Definition IL_BOOL_TAG_ID : N := 1.
Definition IL_INT8_TAG_ID : N := 2.
Definition IL_UINT8_TAG_ID : N := 3.
Definition IL_INT16_TAG_ID : N := 4.
Definition IL_UINT16_TAG_ID : N := 5.
Definition IL_INT32_TAG_ID : N := 6.
Definition IL_UINT32_TAG_ID : N := 7.
Definition IL_INT64_TAG_ID : N := 8.
Definition IL_UINT64_TAG_ID : N := 9.
Definition IL_ILINT_TAG_ID : N := 10.
Definition IL_BIN32_TAG_ID : N := 11.
Definition IL_BIN64_TAG_ID : N := 12.
Definition IL_BIN128_TAG_ID : N := 13.
Definition IL_SIGNED_ILINT_TAG_ID : N := 14.
Definition IL_BYTES_TAG_ID : N := 16.
Definition IL_STRING_TAG_ID : N := 17.
Definition IL_BINT_TAG_ID : N := 18.
Definition IL_BDEC_TAG_ID : N := 19.
Definition IL_ILINTARRAY_TAG_ID : N := 20.
Definition IL_ILTAGARRAY_TAG_ID : N := 21.
Definition IL_ILTAGSEQ_TAG_ID : N := 22.
Definition IL_RANGE_TAG_ID : N := 23.
Definition IL_VERSION_TAG_ID : N := 24.
Definition IL_OID_TAG_ID : N := 25.
Definition IL_DICTIONARY_TAG_ID : N := 30.
Definition IL_STRING_DICTIONARY_TAG_ID : N := 31.

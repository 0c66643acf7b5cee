(** The writing code over any implementation of the trait [Writer]
    (src/io/mod.rs:162-192): user types that provide [write] and may override
    [write_all] with arbitrary code.  The functions are those of ILInt.v, Data.v
    and Tags.v, function by function, on another type of writers. *)
From Verif Require Import Base Types IO ILInt Data Tags.

(** An implementation of [Writer] on the states [W]: [write] (171) and
    [write_all] (184-189).  Simplification: no function of the library calls
    [as_writer] (191). *)
Record writer_impl (W : Type) := WriterImpl {
  u_write : N -> W -> res io_error unit * W;
  u_write_all : list N -> W -> res io_error unit * W }.
Arguments u_write {W} w b u.
Arguments u_write_all {W} w bs u.

(** The default [write_all], src/io/mod.rs:184-189, for a type providing [write]. *)
Fixpoint default_write_all {W} (wr : N -> W -> res io_error unit * W) (bs : list N) (u : W) : res io_error unit * W :=
  match bs with
  | [] => (Ok tt, u)
  | b :: bs' =>
      match wr b u with
      | (Ok _, u') => default_write_all wr bs' u'
      | (Err e, u') => (Err e, u')
      | (Panic, u') => (Panic, u')
      | (OutOfFuel, u') => (OutOfFuel, u')
      end
  end.

Section AnyWriter.
Context {W : Type} (M : writer_impl W).

(** encode, src/ilint/mod.rs:95-116; signed_encode, 284-286. *)
Definition a_encode (value : N) : W -> res ilint_error unit * W :=
  let size := encoded_size value in
  if size =? 1 then lift_err ILIntIO (u_write M (N.land value 255))
  else lift_err ILIntIO
         (u_write_all M ((ILINT_BASE + (size - 2))
                         :: encode_tail (N.to_nat (size - 1)) (value - ILINT_BASE) [])).
Definition a_signed_encode (value : Z) : W -> res ilint_error unit * W :=
  a_encode (encode_sign value).
(** src/io/data/mod.rs: write_u8 (248-250) uses [write]; write_u16 (274-276),
    write_u32 (300-302), write_u64 (326-328) use [write_all]. *)
Definition a_write_uint (w : width) (v : N) : W -> res io_error unit * W :=
  match w with
  | W8 => u_write M v
  | _ => u_write_all M (to_be_bytes w v)
  end.
(** write_i8 (261-263), write_i16 (287-289), write_i32 (313-315),
    write_i64 (339-341). *)
Definition a_write_sint (w : width) (v : Z) : W -> res io_error unit * W :=
  match w with
  | W8 => u_write M (cast_unsigned W8 v)
  | _ => u_write_all M (to_be_bytes w (cast_unsigned w v))
  end.
(** write_ilint (352-358), write_signed_ilint (371-377). *)
Definition a_write_ilint (v : N) : W -> res io_error unit * W := lift_err ilint_write_error (a_encode v).
Definition a_write_signed_ilint (v : Z) : W -> res io_error unit * W := lift_err ilint_write_error (a_signed_encode v).
(** write_f32 (389-391), write_f64 (403-405). *)
Definition a_write_f32 (bits : N) : W -> res io_error unit * W := u_write_all M (to_be_bytes W32 bits).
Definition a_write_f64 (bits : N) : W -> res io_error unit * W := u_write_all M (to_be_bytes W64 bits).
(** The serializers of src/tags/serialization/mod.rs (266-350, 388-402, 533-555). *)
Definition a_serialize_uint (w : width) (v : N) : W -> res tag_error unit * W := lift_err TagIO (a_write_uint w v).
Definition a_serialize_sint (w : width) (v : Z) : W -> res tag_error unit * W := lift_err TagIO (a_write_sint w v).
Definition a_serialize_ilint (v : N) : W -> res tag_error unit * W := lift_err TagIO (a_write_ilint v).
Definition a_serialize_signed_ilint (v : Z) : W -> res tag_error unit * W := lift_err TagIO (a_write_signed_ilint v).
Definition a_serialize_f32 (bits : N) : W -> res tag_error unit * W := lift_err TagIO (a_write_f32 bits).
Definition a_serialize_f64 (bits : N) : W -> res tag_error unit * W := lift_err TagIO (a_write_f64 bits).
Definition a_serialize_bytes (bs : list N) : W -> res tag_error unit * W := lift_err TagIO (u_write_all M bs).
(** serialize_string_tag_from_value, explicit/mod.rs:256-262. *)
Definition a_serialize_string_tag (s : list N) : W -> res tag_error unit * W :=
  a_serialize_ilint IL_STRING_TAG_ID ;;;
  a_serialize_ilint (lenN s) ;;;
  a_serialize_bytes s.
(** ILTag::serialize_value, as cited at [serialize_value] in Tags.v, and
    ILTag::serialize, src/tags/mod.rs:230-236. *)
Fixpoint a_serialize_value (v : value) : W -> res tag_error unit * W :=
  match v with
  | VNull => ret tt
  | VBool b => a_serialize_uint W8 (if b then 1 else 0)
  | VUInt w n => a_serialize_uint w n
  | VSInt w z => a_serialize_sint w z
  | VBin32 bits => a_serialize_f32 bits
  | VBin64 bits => a_serialize_f64 bits
  | VBin128 bs => lift_err TagIO (u_write_all M bs)
  | VILInt n => a_serialize_ilint n
  | VSILInt z => a_serialize_signed_ilint z
  | VRaw bs | VBytes bs | VBigInt bs => a_serialize_bytes bs
  | VString s => a_serialize_bytes s
  | VBigDec scale bs => a_serialize_sint W32 scale ;;; a_serialize_bytes bs
  | VILIntArray l | VOID l =>
      a_serialize_ilint (lenN l) ;;; for_each l a_serialize_ilint
  | VSeq l => for_each l a_serialize
  | VArr l => a_serialize_ilint (lenN l) ;;; for_each l a_serialize
  | VRange start count => a_serialize_ilint start ;;; a_serialize_uint W16 count
  | VVersion a b c d => for_each [a; b; c; d] (a_serialize_sint W32)
  | VDict l =>
      let values := map (fun e => (fst e, a_serialize (snd e))) l in
      let keys := sort_unstable (map fst l) in
      a_serialize_ilint (lenN l) ;;;
      for_each keys (fun key =>
        match hm_get key values with
        | Some value => a_serialize_string_tag key ;;; value
        | None => fail UnableToSerialize
        end)
  | VStrDict l =>
      let keys := sort_unstable (map fst l) in
      a_serialize_ilint (lenN l) ;;;
      for_each keys (fun key =>
        match hm_get key l with
        | Some value => a_serialize_string_tag key ;;; a_serialize_string_tag value
        | None => fail UnableToSerialize
        end)
  end
with a_serialize (t : tag) : W -> res tag_error unit * W :=
  match t with
  | Tag id v =>
      a_serialize_ilint id ;;;
      (if is_implicit_tag id then ret tt else a_serialize_ilint (value_size v)) ;;;
      a_serialize_value v
  end.
End AnyWriter.

(** The writers of the library (src/io/mod.rs:162-192 and its implementations, as
    in IO.v) as such an implementation. *)
Definition library_writer : writer_impl writer := WriterImpl _ write write_all.

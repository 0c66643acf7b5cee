(** Deserialization on a target: the functions of Factory.v again, with the
    capacity checks of the vectors they allocate.  [Vec::reserve], [Vec::resize]
    and [vec![0; n]] panic ("capacity overflow", standard library) when the new
    capacity would take more than [isize::MAX] bytes, whatever memory is free.
    PAlloc.v proves when that happens.
    Simplified: the requests are those of the code, for an empty vector; what
    [Vec] adds for later growth, and the growth of vectors by [push] and of hash
    maps by [insert], are not counted.  Running out of memory is not modelled. *)
From Verif Require Import Base Types IO ILInt Data Tags Factory Trace.

Section Target.
Variable c : cfg.
(** Bytes of a pointer, of a u64 and of a [Box<dyn ILTag>] (two pointers). *)
Definition pointer_bytes : N := if usize_max c <=? 4294967295 then 4 else 8.
Definition element_bytes (k : element) : N :=
  match k with U64 => 8 | BoxedTag => 2 * pointer_bytes end.
(** A vector of [n] elements of [size] bytes. *)
Definition allocate {St} (size n : N) : St -> res tag_error unit * St :=
  fun s => ((if usize_max c <? 2 * (size * n) then Panic else Ok tt), s).

(** read_string, src/io/data/mod.rs:230-237; deserialize_bytes,
    src/tags/serialization/mod.rs:223-227 and 238-242; deserialize_bytes_into_vec,
    205-208, on the fields [vec]. *)
Definition read_string_k (size : N) (r : reader) : res io_error (list N) * reader :=
  if usize_max c <? 2 * size then (Panic, r) else read_string size r.
Definition deserialize_bytes_k (size : N) : reader -> res tag_error (list N) * reader :=
  allocate 1 size ;;; deserialize_bytes size.
Definition raw_deserialize_k (n : N) : method (list N) unit :=
  allocate 1 n ;;; raw_deserialize n.
(** deserialize_string_tag_from_value_into, explicit/mod.rs:277-295, and
    deserialize_string_tag_from_value, 306-310. *)
Definition string_tag_into_k : method (list N) unit :=
  id <- on_reader deserialize_ilint ;;
  (if negb (id =? IL_STRING_TAG_ID) then fail CorruptedData else ret tt) ;;;
  len <- on_reader deserialize_ilint ;;
  usize_len <- (fun st => (tag_size_to_usize len, st)) ;;
  tmp <- on_reader (deserialize_bytes_k usize_len) ;;
  if from_utf8 tmp then modify (fun _ => tmp) else fail CorruptedData.
Definition string_tag_k (r : reader) : res tag_error (list N) * reader :=
  let '(x, (s, r')) := string_tag_into_k ([], r) in
  (match x with Ok _ => Ok s | Err e => Err e | Panic => Panic | OutOfFuel => OutOfFuel end, r').
(** ILStringTag, explicit/mod.rs:214-228. *)
Definition string_deserialize_k (n : N) : method (list N) unit :=
  tmp <- on_reader (deserialize_bytes_k n) ;;
  if from_utf8 tmp then modify (fun _ => tmp) else fail CorruptedData.
(** ILBigDecTag, explicit/mod.rs:422-434. *)
Definition bigdec_deserialize_k (n : N) : method (Z * list N) unit :=
  (if n <? 4 then fail CorruptedData else ret tt) ;;;
  scale <- on_reader (deserialize_sint W32) ;;
  modify (fun s => (scale, snd s)) ;;;
  on_snd (raw_deserialize_k (n - 4)).
(** ILILIntArrayTag, explicit/mod.rs:525-542: [reserve] at 537. *)
Definition ilintarray_deserialize_k (n : N) : method (list N) unit :=
  limited n (
    count <- on_reader deserialize_ilint ;;
    (if n <? count then fail CorruptedData else ret tt) ;;;
    modify (fun _ => []) ;;;
    allocate (element_bytes U64) count ;;;
    fuelled (fun f => repeat_read f deserialize_ilint push count) ;;;
    limited_reader_ensure_empty CorruptedData).

Section DeserializeValue.
Variable deser : reader -> res tag_error tag * reader.
(** ILTagArrayTag, explicit/mod.rs:676-694: [reserve] at 689. *)
Definition arr_deserialize_k (n : N) : method (list tag) unit :=
  limited n (
    count <- on_reader deserialize_ilint ;;
    (if n <? count then fail CorruptedData else ret tt) ;;;
    modify (fun _ => []) ;;;
    allocate (element_bytes BoxedTag) count ;;;
    fuelled (fun f => repeat_read f deser push count) ;;;
    limited_reader_ensure_empty CorruptedData).
(** ILDictTag, explicit/mod.rs:1106-1122. *)
Definition dict_deserialize_k (n : N) : method (list (list N * tag)) unit :=
  limited n (
    count <- on_reader deserialize_ilint ;;
    modify (fun _ => []) ;;;
    fuelled (fun f => repeat_read f
      (k <- string_tag_k ;; t <- deser ;; ret (k, t))
      (fun e => hm_insert (fst e) (snd e)) count) ;;;
    limited_reader_ensure_empty CorruptedData).
(** ILStrDictTag, explicit/mod.rs:1254-1270. *)
Definition strdict_deserialize_k (n : N) : method (list (list N * list N)) unit :=
  limited n (
    count <- on_reader deserialize_ilint ;;
    modify (fun _ => []) ;;;
    fuelled (fun f => repeat_read f
      (k <- string_tag_k ;; v <- string_tag_k ;; ret (k, v))
      (fun e => hm_insert (fst e) (snd e)) count) ;;;
    limited_reader_ensure_empty CorruptedData).
(** ILTag::deserialize_value per type (the lines are listed in Factory.v).
    ILTagSeqTag allocates nothing itself; the remaining types are the functions
    of Factory.v, which use no factory. *)
Definition deserialize_value_k (v : value) (n : N) (r : reader) : res tag_error unit * value * reader :=
  match v with
  | VRaw bs => run (raw_deserialize_k n) bs VRaw r
  | VBytes bs => run (raw_deserialize_k n) bs VBytes r
  | VBigInt bs => run (raw_deserialize_k n) bs VBigInt r
  | VString s => run (string_deserialize_k n) s VString r
  | VBigDec scale bs => run (bigdec_deserialize_k n) (scale, bs) (fun s => VBigDec (fst s) (snd s)) r
  | VILIntArray l => run (ilintarray_deserialize_k n) l VILIntArray r
  | VOID l => run (ilintarray_deserialize_k n) l VOID r
  | VSeq l => run (seq_deserialize deser n) l VSeq r
  | VArr l => run (arr_deserialize_k n) l VArr r
  | VDict l => run (dict_deserialize_k n) l VDict r
  | VStrDict l => run (strdict_deserialize_k n) l VStrDict r
  | _ => deserialize_value (fun r => (Panic, r)) v n r
  end.
(** deserialize_tag_value_into, src/tags/standard/factory/mod.rs:164-176. *)
Definition tag_value_into_k (tag_size : N) (t : tag) (r : reader) : res tag_error unit * tag * reader :=
  let '(x, v', lr) := deserialize_value_k (tag_val t) tag_size (LimitedReader_new r tag_size) in
  let t' := Tag (tag_id t) v' in
  (match x with
   | Ok _ =>
       if negb (tag_id t' =? IL_ILINT_TAG_ID) && negb (tag_id t' =? IL_SIGNED_ILINT_TAG_ID)
          && negb (limit_empty lr)
       then Err CorruptedData else Ok tt
   | _ => x
   end, t', unlimit lr).
End DeserializeValue.

(** deserialize, src/tags/standard/factory/mod.rs:184-193. *)
Fixpoint deserialize_fuel_k (fuel : nat) (e : engine) (r : reader) : res tag_error tag * reader :=
  match fuel with
  | O => (OutOfFuel, r)
  | Datatypes.S f =>
      (tag_id <- deserialize_ilint ;;
       tag_size <- deserialize_tag_size tag_id ;;
       created <- (fun r => (create_tag e tag_id, r)) ;;
       match created with
       | None => fail UnknownTag
       | Some t => fun r =>
           let '(x, t', r') := tag_value_into_k (deserialize_fuel_k f e) tag_size t r in
           (map_ok (fun _ => t') x, r')
       end) r
  end.
Definition deserialize_k (e : engine) (r : reader) : res tag_error tag * reader :=
  deserialize_fuel_k (S (left r)) e r.
(** deserialize_into, src/tags/standard/factory/mod.rs:195-203. *)
Definition deserialize_into_k (e : engine) (r : reader) (t : tag) : res tag_error unit * tag * reader :=
  match deserialize_ilint r with
  | (Ok id, r1) =>
      if negb (id =? tag_id t) then (Err UnexpectedTagType, t, r1)
      else match deserialize_tag_size id r1 with
           | (Ok n, r2) => tag_value_into_k (deserialize_fuel_k (S (left r2)) e) n t r2
           | (Err err, r2) => (Err err, t, r2)
           | (Panic, r2) => (Panic, t, r2)
           | (OutOfFuel, r2) => (OutOfFuel, t, r2)
           end
  | (Err err, r1) => (Err err, t, r1)
  | (Panic, r1) => (Panic, t, r1)
  | (OutOfFuel, r1) => (OutOfFuel, t, r1)
  end.
(** ILTagFactory::from_bytes, src/tags/mod.rs:489-497. *)
Definition from_bytes_k (e : engine) (raw_tag : list N) : res tag_error tag :=
  match deserialize_k e (ByteArrayReader_new raw_tag) with
  | (Ok t, RByteArray a o) =>
      match mem_available (lenN a) o with
      | Ok n => if n =? 0 then Ok t else Err CorruptedData
      | Err err => Err (TagIO err)
      | Panic => Panic
      | OutOfFuel => OutOfFuel
      end
  | (Ok _, _) => Panic
  | (Err err, _) => Err err
  | (Panic, _) => Panic
  | (OutOfFuel, _) => OutOfFuel
  end.
End Target.

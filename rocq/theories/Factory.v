(** Model of deserialization: ILTag::deserialize_value of every type, the
    creator engine (src/tags/mod.rs:500-660) and the standard factory
    (src/tags/standard/factory/mod.rs). *)
From Verif Require Import Base Types IO ILInt Data Tags.

(** ** Methods with [&mut self] that use a reader
    State: the fields of [self] and the reader, also after a failure. *)
Definition method (S A : Type) : Type := S * reader -> res tag_error A * (S * reader).
Definition on_reader {S A} (m : reader -> res tag_error A * reader) : method S A :=
  fun '(s, r) => let '(x, r') := m r in (x, (s, r')).
Definition modify {S} (f : S -> S) : method S unit :=
  fun '(s, r) => (Ok tt, (f s, r)).
(** [let mut lreader = LimitedReader::new(reader, n); ...] *)
Definition limited {S A} (n : N) (m : method S A) : method S A :=
  fun '(s, r) => let '(x, (s', r')) := m (s, LimitedReader_new r n) in (x, (s', unlimit r')).
(** limited_reader_ensure_empty, src/tags/util/mod.rs:126-132. *)
Definition limited_reader_ensure_empty {S} (e : tag_error) : method S unit :=
  fun st => ((if limit_empty (snd st) then Ok tt else Err e), st).
(** [for _ in 0..count { item()? ... }]: each item is read with [m] and stored
    with [store].  The fuel is a bound on the iterations. *)
Fixpoint repeat_read {S A} (fuel : nat) (m : reader -> res tag_error A * reader) (store : A -> S -> S)
  (count : N) : method S unit :=
  if count =? 0 then ret tt
  else match fuel with
       | O => fun st => (OutOfFuel, st)
       | Datatypes.S f =>
           x <- on_reader m ;; modify (store x) ;;; repeat_read f m store (count - 1)
       end.
(** [while !lreader.empty() { ... }]. *)
Fixpoint while_read {S A} (fuel : nat) (m : reader -> res tag_error A * reader) (store : A -> S -> S)
  : method S unit :=
  fun st =>
  if limit_empty (snd st) then (Ok tt, st)
  else match fuel with
       | O => (OutOfFuel, st)
       | Datatypes.S f =>
           (x <- on_reader m ;; modify (store x) ;;; while_read f m store) st
       end.
Definition fuelled {S A} (m : nat -> method S A) : method S A :=
  fun st => m (Datatypes.S (left (snd st))) st.
Definition push {A} (x : A) (l : list A) : list A := l ++ [x].
(** Runs a method of an inner struct whose fields are [s]; [mk] rebuilds the
    outer one. *)
Definition run {S} (m : method S unit) (s : S) (mk : S -> value) (r : reader)
  : res tag_error unit * value * reader :=
  let '(x, (s', r')) := m (s, r) in (x, mk s', r').

(** deserialize_string_tag_from_value_into, explicit/mod.rs:277-295, on the
    fields [output]; deserialize_string_tag_from_value, 306-310. *)
Definition deserialize_string_tag_from_value_into : method (list N) unit :=
  id <- on_reader deserialize_ilint ;;
  (if negb (id =? IL_STRING_TAG_ID) then fail CorruptedData else ret tt) ;;;
  len <- on_reader deserialize_ilint ;;
  usize_len <- (fun st => (tag_size_to_usize len, st)) ;;
  tmp <- on_reader (deserialize_bytes usize_len) ;;
  if from_utf8 tmp then modify (fun _ => tmp) else fail CorruptedData.
Definition deserialize_string_tag_from_value (r : reader) : res tag_error (list N) * reader :=
  let '(x, (s, r')) := deserialize_string_tag_from_value_into ([], r) in
  (match x with Ok _ => Ok s | Err e => Err e | Panic => Panic | OutOfFuel => OutOfFuel end, r').

(** ** ILTag::deserialize_value
    The struct afterwards is returned also on failure.  [deser] is
    [factory.deserialize], the only use of the factory; [I] is the type of the
    items, [Box<dyn ILTag>]. *)
Section DeserializeValue.
Context {I : Type}.
Variable deser : reader -> res tag_error I * reader.

(** [match value_size { n => (), _ => return Err(CorruptedData) }]. *)
Definition check_size {S} (value_size n : N) : method S unit :=
  if value_size =? n then ret tt else fail CorruptedData.
(** [self.value = reader.deserialize_value()?]. *)
Definition set_from {A} (m : reader -> res tag_error A * reader) : method A unit :=
  x <- on_reader m ;; modify (fun _ => x).
(** ILNullTag, implicit/mod.rs:230-240. *)
Definition null_deserialize (n : N) : method unit unit := check_size n 0.
(** ILBoolTag, implicit/mod.rs:269-286. *)
Definition bool_deserialize (n : N) : method bool unit :=
  check_size n 1 ;;;
  v <- on_reader (deserialize_uint W8) ;;
  if v =? 0 then modify (fun _ => false)
  else if v =? 1 then modify (fun _ => true)
  else fail CorruptedData.
(** int_iltag_impl!, implicit/mod.rs:149-161. *)
Definition uint_deserialize (w : width) (n : N) : method N unit :=
  check_size n (N.of_nat (wbytes w)) ;;; set_from (deserialize_uint w).
Definition sint_deserialize (w : width) (n : N) : method Z unit :=
  check_size n (N.of_nat (wbytes w)) ;;; set_from (deserialize_sint w).
Definition bin32_deserialize (n : N) : method N unit := check_size n 4 ;;; set_from deserialize_f32.
Definition bin64_deserialize (n : N) : method N unit := check_size n 8 ;;; set_from deserialize_f64.
(** ILBin128Tag, implicit/mod.rs:542-557: reads in place. *)
Definition in_place : method (list N) unit :=
  fun '(vec, r) => let '(x, vec', r') := into_slice vec r in (x, (vec', r')).
Definition bin128_deserialize (n : N) : method (list N) unit := check_size n 16 ;;; in_place.
(** ILRawTag, tags/mod.rs:750-757: resizes the vector, then reads in place. *)
Definition raw_deserialize (n : N) : method (list N) unit :=
  fun '(vec, r) => let '(x, vec', r') := into_vec n vec r in (x, (vec', r')).
(** ILStringTag, explicit/mod.rs:214-228. *)
Definition string_deserialize (n : N) : method (list N) unit :=
  tmp <- on_reader (deserialize_bytes n) ;;
  if from_utf8 tmp then modify (fun _ => tmp) else fail CorruptedData.
(** Runs a method on the second field. *)
Definition on_snd {S T A} (m : method T A) : method (S * T) A :=
  fun '((s, t), r) => let '(x, (t', r')) := m (t, r) in (x, ((s, t'), r')).
(** ILBigDecTag, explicit/mod.rs:422-434. *)
Definition bigdec_deserialize (n : N) : method (Z * list N) unit :=
  (if n <? 4 then fail CorruptedData else ret tt) ;;;
  scale <- on_reader (deserialize_sint W32) ;;
  modify (fun s => (scale, snd s)) ;;;
  on_snd (raw_deserialize (n - 4)).
(** ILILIntArrayTag, explicit/mod.rs:525-542. *)
Definition ilintarray_deserialize (n : N) : method (list N) unit :=
  limited n (
    count <- on_reader deserialize_ilint ;;
    (if n <? count then fail CorruptedData else ret tt) ;;;
    modify (fun _ => []) ;;;
    fuelled (fun f => repeat_read f deserialize_ilint push count) ;;;
    limited_reader_ensure_empty CorruptedData).
(** ILTagSeqTag, explicit/mod.rs:605-618. *)
Definition seq_deserialize (n : N) : method (list I) unit :=
  limited n (
    modify (fun _ => []) ;;;
    fuelled (fun f => while_read f deser push)).
(** ILTagArrayTag, explicit/mod.rs:676-694. *)
Definition arr_deserialize (n : N) : method (list I) unit :=
  limited n (
    count <- on_reader deserialize_ilint ;;
    (if n <? count then fail CorruptedData else ret tt) ;;;
    modify (fun _ => []) ;;;
    fuelled (fun f => repeat_read f deser push count) ;;;
    limited_reader_ensure_empty CorruptedData).
(** ILRangeTag, explicit/mod.rs:773-783. *)
Definition range_deserialize (n : N) : method (N * N) unit :=
  limited n (
    start <- on_reader deserialize_ilint ;;
    modify (fun s => (start, snd s)) ;;;
    count <- on_reader (deserialize_uint W16) ;;
    modify (fun s => (fst s, count)) ;;;
    limited_reader_ensure_empty CorruptedData).
(** ILVersionTag, explicit/mod.rs:905-918: the loop over the four elements. *)
Definition version_deserialize (n : N) : method (Z * Z * Z * Z) unit :=
  check_size n 16 ;;;
  a <- on_reader (deserialize_sint W32) ;; modify (fun '(_, b, c, d) => (a, b, c, d)) ;;;
  b <- on_reader (deserialize_sint W32) ;; modify (fun '(a, _, c, d) => (a, b, c, d)) ;;;
  c <- on_reader (deserialize_sint W32) ;; modify (fun '(a, b, _, d) => (a, b, c, d)) ;;;
  d <- on_reader (deserialize_sint W32) ;; modify (fun '(a, b, c, _) => (a, b, c, d)).
(** ILDictTag, explicit/mod.rs:1106-1122. *)
Definition dict_deserialize (n : N) : method (list (list N * I)) unit :=
  limited n (
    count <- on_reader deserialize_ilint ;;
    modify (fun _ => []) ;;;
    fuelled (fun f => repeat_read f
      (k <- deserialize_string_tag_from_value ;; t <- deser ;; ret (k, t))
      (fun e => hm_insert (fst e) (snd e)) count) ;;;
    limited_reader_ensure_empty CorruptedData).
(** ILStrDictTag, explicit/mod.rs:1254-1270. *)
Definition strdict_deserialize (n : N) : method (list (list N * list N)) unit :=
  limited n (
    count <- on_reader deserialize_ilint ;;
    modify (fun _ => []) ;;;
    fuelled (fun f => repeat_read f
      (k <- deserialize_string_tag_from_value ;; v <- deserialize_string_tag_from_value ;; ret (k, v))
      (fun e => hm_insert (fst e) (snd e)) count) ;;;
    limited_reader_ensure_empty CorruptedData).

End DeserializeValue.

(** ILILInt64Tag, implicit/mod.rs:590-598, and ILSignedILInt64Tag, 633-641,
    ignore the size; ILOIDTag (explicit/mod.rs:976), ILByteArrayTag and
    ILBigIntTag delegate (macros.rs:194-201). *)
Definition deserialize_value (deser : reader -> res tag_error tag * reader) (v : value) (n : N) (r : reader) : res tag_error unit * value * reader :=
  match v with
  | VNull => run (null_deserialize n) tt (fun _ => VNull) r
  | VBool b => run (bool_deserialize n) b VBool r
  | VUInt w x => run (uint_deserialize w n) x (VUInt w) r
  | VSInt w x => run (sint_deserialize w n) x (VSInt w) r
  | VBin32 x => run (bin32_deserialize n) x VBin32 r
  | VBin64 x => run (bin64_deserialize n) x VBin64 r
  | VBin128 bs => run (bin128_deserialize n) bs VBin128 r
  | VILInt x => run (set_from deserialize_ilint) x VILInt r
  | VSILInt x => run (set_from deserialize_signed_ilint) x VSILInt r
  | VRaw bs => run (raw_deserialize n) bs VRaw r
  | VBytes bs => run (raw_deserialize n) bs VBytes r
  | VBigInt bs => run (raw_deserialize n) bs VBigInt r
  | VString s => run (string_deserialize n) s VString r
  | VBigDec scale bs => run (bigdec_deserialize n) (scale, bs) (fun s => VBigDec (fst s) (snd s)) r
  | VILIntArray l => run (ilintarray_deserialize n) l VILIntArray r
  | VOID l => run (ilintarray_deserialize n) l VOID r
  | VSeq l => run (seq_deserialize deser n) l VSeq r
  | VArr l => run (arr_deserialize deser n) l VArr r
  | VRange s c => run (range_deserialize n) (s, c) (fun s => VRange (fst s) (snd s)) r
  | VVersion a b c d =>
      run (version_deserialize n) (a, b, c, d) (fun '(a, b, c, d) => VVersion a b c d) r
  | VDict l => run (dict_deserialize deser n) l VDict r
  | VStrDict l => run (strdict_deserialize n) l VStrDict r
  end.

(** ** Creators and engine *)
(** An [ILTagCreator] (src/tags/mod.rs:505-515): the tag it creates for an id,
    [None] if it panics.  User creators are arbitrary functions. *)
Definition creator : Type := N -> option tag.
(** ILDefaultTagCreator::create_empty_tag, src/tags/mod.rs:542-546. *)
Definition ILDefaultTagCreator (k : kind) : creator :=
  fun id => match tag_default k with
            | Some t => if tag_id t =? id then Some t else None
            | None => None
            end.
(** ILDefaultWithIdTagCreator::create_empty_tag, src/tags/mod.rs:574-576. *)
Definition ILDefaultWithIdTagCreator (k : kind) : creator :=
  fun id => match tag_default_with_id k id with
            | Some (Ok t) => Some t
            | _ => None
            end.

(** ILTagCreatorEngine, src/tags/mod.rs:585-658; the map as a list of entries. *)
Record engine := Engine { creators : list (N * creator); strict : bool }.
Definition engine_new (strict : bool) : engine := Engine [] strict.
Fixpoint cr_get (id : N) (m : list (N * creator)) : option creator :=
  match m with
  | [] => None
  | (i, c) :: m' => if id =? i then Some c else cr_get id m'
  end.
Fixpoint cr_insert (id : N) (c : creator) (m : list (N * creator)) : list (N * creator) :=
  match m with
  | [] => [(id, c)]
  | (i, c') :: m' => if id =? i then (i, c) :: m' else (i, c') :: cr_insert id c m'
  end.
Fixpoint cr_remove (id : N) (m : list (N * creator)) : list (N * creator) :=
  match m with
  | [] => []
  | (i, c') :: m' => if id =? i then m' else (i, c') :: cr_remove id m'
  end.
(** register, 617-623; deregister, 633-635: the result and the new engine. *)
Definition register (e : engine) (id : N) (c : creator) : option creator * engine :=
  (cr_get id (creators e), Engine (cr_insert id c (creators e)) (strict e)).
Definition deregister (e : engine) (id : N) : option creator * engine :=
  (cr_get id (creators e), Engine (cr_remove id (creators e)) (strict e)).
(** create_tag, 646-657. *)
Definition create_tag (e : engine) (id : N) : res tag_error (option tag) :=
  match cr_get id (creators e) with
  | Some c => match c id with Some t => Ok (Some t) | None => Panic end
  | None => if negb (strict e) && negb (is_implicit_tag id)
            then map_ok Some (ILRawTag_new id)
            else Ok None
  end.

(** create_std_engine, src/tags/standard/factory/mod.rs:87-119. *)
Definition std_table : list (N * kind) :=
  [ (IL_NULL_TAG_ID, KNull); (IL_BOOL_TAG_ID, KBool);
    (IL_INT8_TAG_ID, KSInt W8); (IL_UINT8_TAG_ID, KUInt W8);
    (IL_INT16_TAG_ID, KSInt W16); (IL_UINT16_TAG_ID, KUInt W16);
    (IL_INT32_TAG_ID, KSInt W32); (IL_UINT32_TAG_ID, KUInt W32);
    (IL_INT64_TAG_ID, KSInt W64); (IL_UINT64_TAG_ID, KUInt W64);
    (IL_ILINT_TAG_ID, KILInt); (IL_BIN32_TAG_ID, KBin32);
    (IL_BIN64_TAG_ID, KBin64); (IL_BIN128_TAG_ID, KBin128);
    (IL_SIGNED_ILINT_TAG_ID, KSILInt);
    (IL_BYTES_TAG_ID, KBytes); (IL_STRING_TAG_ID, KString);
    (IL_BINT_TAG_ID, KBigInt); (IL_BDEC_TAG_ID, KBigDec);
    (IL_ILINTARRAY_TAG_ID, KILIntArray); (IL_ILTAGARRAY_TAG_ID, KArr);
    (IL_ILTAGSEQ_TAG_ID, KSeq); (IL_RANGE_TAG_ID, KRange);
    (IL_VERSION_TAG_ID, KVersion); (IL_OID_TAG_ID, KOID);
    (IL_DICTIONARY_TAG_ID, KDict); (IL_STRING_DICTIONARY_TAG_ID, KStrDict) ].
Definition create_std_engine (strict : bool) : engine :=
  fold_left (fun e '(id, k) => snd (register e id (ILDefaultTagCreator k))) std_table (engine_new strict).

(** ** ILStandardTagFactory, src/tags/standard/factory/mod.rs:126-204
    The factory is its engine. *)
(** deserialize_tag_size, 153-161. *)
Definition deserialize_tag_size (id : N) : reader -> res tag_error N * reader :=
  tag_size <- (if is_implicit_tag id then ret (implicit_tag_size id) else deserialize_ilint) ;;
  (fun r => (tag_size_to_usize tag_size, r)).
(** deserialize_tag_value_into, 164-176; the tag afterwards is returned also on
    failure. *)
Definition deserialize_tag_value_into (deser : reader -> res tag_error tag * reader)
  (tag_size : N) (t : tag) (r : reader) : res tag_error unit * tag * reader :=
  let '(x, v', lr) := deserialize_value deser (tag_val t) tag_size (LimitedReader_new r tag_size) in
  let t' := Tag (tag_id t) v' in
  (match x with
   | Ok _ =>
       if negb (tag_id t' =? IL_ILINT_TAG_ID) && negb (tag_id t' =? IL_SIGNED_ILINT_TAG_ID)
          && negb (limit_empty lr)
       then Err CorruptedData else Ok tt
   | _ => x
   end, t', unlimit lr).
(** deserialize, 184-193.  The fuel bounds the depth of nested calls. *)
Fixpoint deserialize_fuel (fuel : nat) (e : engine) (r : reader) : res tag_error tag * reader :=
  match fuel with
  | O => (OutOfFuel, r)
  | Datatypes.S f =>
      (tag_id <- deserialize_ilint ;;
       tag_size <- deserialize_tag_size tag_id ;;
       created <- (fun r => (create_tag e tag_id, r)) ;;
       match created with
       | None => fail UnknownTag
       | Some t => fun r =>
           let '(x, t', r') := deserialize_tag_value_into (deserialize_fuel f e) tag_size t r in
           (map_ok (fun _ => t') x, r')
       end) r
  end.
Definition deserialize (e : engine) (r : reader) : res tag_error tag * reader :=
  deserialize_fuel (S (left r)) e r.
(** deserialize_into, 195-203; the target afterwards is returned also on
    failure. *)
Definition deserialize_into (e : engine) (r : reader) (t : tag) : res tag_error unit * tag * reader :=
  match deserialize_ilint r with
  | (Ok id, r1) =>
      if negb (id =? tag_id t) then (Err UnexpectedTagType, t, r1)
      else match deserialize_tag_size id r1 with
           | (Ok n, r2) => deserialize_tag_value_into (deserialize_fuel (S (left r2)) e) n t r2
           | (Err err, r2) => (Err err, t, r2)
           | (Panic, r2) => (Panic, t, r2)
           | (OutOfFuel, r2) => (OutOfFuel, t, r2)
           end
  | (Err err, r1) => (Err err, t, r1)
  | (Panic, r1) => (Panic, t, r1)
  | (OutOfFuel, r1) => (OutOfFuel, t, r1)
  end.
(** ILTagFactory::from_bytes, src/tags/mod.rs:489-497. *)
Definition from_bytes (e : engine) (raw_tag : list N) : res tag_error tag :=
  match deserialize e (ByteArrayReader_new raw_tag) with
  | (Ok t, RByteArray a o) =>
      match mem_available (lenN a) o with
      | Ok n => if n =? 0 then Ok t else Err CorruptedData
      | Err err => Err (TagIO err)
      | Panic => Panic
      | OutOfFuel => OutOfFuel
      end
  | (Ok _, _) => Panic
  | (Err err, _) => Err err
  | (Panic, _) => Panic
  | (OutOfFuel, _) => OutOfFuel
  end.
(** UntouchbleTagFactory, src/tags/util/mod.rs:146-173: every method panics. *)
Definition untouchable_deserialize (r : reader) : res tag_error tag * reader := (Panic, r).

(** ** src/tags/util/mod.rs *)
(** iltag_are_equal, 57-67. *)
Definition iltag_are_equal (a b : tag) : res tag_error bool :=
  match to_bytes a with
  | Ok sa => match to_bytes b with
             | Ok sb => Ok (if list_eq_dec N.eq_dec sa sb then true else false)
             | Err _ => Ok false
             | Panic => Panic
             | OutOfFuel => OutOfFuel
             end
  | Err _ => Ok false
  | Panic => Panic
  | OutOfFuel => OutOfFuel
  end.
(** iltag_clone_with_factory, 86-92; iltag_clone, 109-112. *)
Definition iltag_clone_with_factory (e : engine) (t : tag) : res tag_error tag :=
  match to_bytes t with
  | Ok s => from_bytes e s
  | Err err => Err err
  | Panic => Panic
  | OutOfFuel => OutOfFuel
  end.
Definition iltag_clone (t : tag) : res tag_error tag := iltag_clone_with_factory (create_std_engine false) t.

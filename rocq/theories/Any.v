(** The reading code over any implementation of the trait [Reader]
    (src/io/mod.rs:74-151): user types that provide [read] and may override
    [read_all] with arbitrary code.  The functions are those of ILInt.v, Data.v
    and Factory.v, function by function, on another type of readers; PAny.v shows
    that the two versions agree. *)
From Verif Require Import Base Types IO ILInt Data Tags Factory.

(** An implementation of [Reader] on the states [U]: [read] (src/io/mod.rs:80)
    and [read_all] (94-99).  [read_all] gets the contents of the buffer and
    leaves it with others; it can lie: answer [Ok] without having filled it, or
    change it and fail.  Simplification: [skip] and [skip_u64] (113-122, 142-150)
    are not called by the code below. *)
Record reader_impl (U : Type) := ReaderImpl {
  u_read : U -> res io_error N * U;
  u_read_all : list N -> U -> res io_error unit * list N * U }.
Arguments u_read {U} r u.
Arguments u_read_all {U} r buff u.

(** The default [read_all], src/io/mod.rs:94-99, for a type providing [read]. *)
Fixpoint default_read_all {U} (rd : U -> res io_error N * U) (buff : list N) (u : U)
  : res io_error unit * list N * U :=
  match buff with
  | [] => (Ok tt, [], u)
  | b :: buff' =>
      match rd u with
      | (Ok x, u') => let '(y, more, u'') := default_read_all rd buff' u' in (y, x :: more, u'')
      | (Err e, u') => (Err e, buff, u')
      | (Panic, u') => (Panic, buff, u')
      | (OutOfFuel, u') => (OutOfFuel, buff, u')
      end
  end.

(** A [&mut dyn Reader]: the user object, or a [LimitedReader]
    (src/io/mod.rs:207-223) over another one. *)
Inductive areader (U : Type) :=
| ABase (u : U)
| ALimited (source : areader U) (available : N).
Arguments ABase {U} u.
Arguments ALimited {U} source available.

Section Any.
Context {U : Type} (M : reader_impl U).

(** [read] and [read_all] of a LimitedReader, src/io/mod.rs:279-295. *)
Fixpoint a_read (r : areader U) : res io_error N * areader U :=
  match r with
  | ABase u => let '(x, u') := u_read M u in (x, ABase u')
  | ALimited src avail =>
      if avail <? 1 then (Err UnableToReadData, r)
      else let '(x, src') := a_read src in
           (x, ALimited src' (if is_ok x then avail - 1 else avail))
  end.
Fixpoint a_read_all (buff : list N) (r : areader U) : res io_error unit * list N * areader U :=
  match r with
  | ABase u => let '(x, buff', u') := u_read_all M buff u in (x, buff', ABase u')
  | ALimited src avail =>
      if avail <? lenN buff then (Err UnableToReadData, buff, r)
      else let '(x, buff', src') := a_read_all buff src in
           (x, buff', ALimited src' (if is_ok x then avail - lenN buff else avail))
  end.
(** LimitedReader::empty, src/io/mod.rs:273-275. *)
Definition a_empty (r : areader U) : bool :=
  match r with ALimited _ avail => avail =? 0 | ABase _ => false end.
Definition a_unlimit (r : areader U) : areader U :=
  match r with ALimited src _ => src | ABase _ => r end.

(** [read_all] on a new buffer of [n] zeros. *)
Definition a_fetch (n : N) (r : areader U) : res io_error (list N) * areader U :=
  let '(x, buff, r') := a_read_all (repeatN 0 n) r in (map_ok (fun _ => buff) x, r').
(** decode, src/ilint/mod.rs:197-213; signed_decode, 299-302. *)
Definition a_decode : areader U -> res ilint_error N * areader U :=
  header <- lift_err ILIntIO a_read ;;
  let size := decoded_size header in
  if size =? 1 then ret header
  else body <- lift_err ILIntIO (a_fetch (size - 1)) ;;
       (fun r => (decode_body body, r)).
Definition a_signed_decode : areader U -> res ilint_error Z * areader U :=
  tmp <- a_decode ;; ret (decode_sign tmp).
(** src/io/data/mod.rs:54-189, with the conversion of the error of
    src/tags/serialization/mod.rs:55-135, 488-513. *)
Definition a_uint (w : width) : areader U -> res tag_error N * areader U :=
  lift_err TagIO (match w with
                  | W8 => a_read
                  | _ => tmp <- a_fetch (N.of_nat (wbytes w)) ;; ret (from_be_bytes tmp)
                  end).
Definition a_sint (w : width) : areader U -> res tag_error Z * areader U :=
  lift_err TagIO (match w with
                  | W8 => v <- a_read ;; ret (cast_signed W8 v)
                  | _ => tmp <- a_fetch (N.of_nat (wbytes w)) ;; ret (cast_signed w (from_be_bytes tmp))
                  end).
Definition a_ilint : areader U -> res tag_error N * areader U :=
  lift_err TagIO (lift_err ilint_read_error a_decode).
Definition a_silint : areader U -> res tag_error Z * areader U :=
  lift_err TagIO (lift_err ilint_read_error a_signed_decode).
(** read_f32, read_f64: src/io/data/mod.rs:201-219. *)
Definition a_f32 : areader U -> res tag_error N * areader U := a_uint W32.
Definition a_f64 : areader U -> res tag_error N * areader U := a_uint W64.
(** src/tags/serialization/mod.rs:205-248. *)
Definition a_bytes (size : N) : areader U -> res tag_error (list N) * areader U := lift_err TagIO (a_fetch size).
Definition a_into_slice (buff : list N) (r : areader U) : res tag_error unit * list N * areader U :=
  let '(x, buff', r') := a_read_all buff r in (map_err TagIO x, buff', r').
Definition a_into_vec (size : N) (vec : list N) (r : areader U) : res tag_error unit * list N * areader U :=
  a_into_slice (resizeN size 0 vec) r.

(** ** Methods, as in Factory.v *)
Definition amethod (S A : Type) : Type := S * areader U -> res tag_error A * (S * areader U).
Definition a_on_reader {S A} (m : areader U -> res tag_error A * areader U) : amethod S A :=
  fun '(s, r) => let '(x, r') := m r in (x, (s, r')).
Definition a_modify {S} (f : S -> S) : amethod S unit :=
  fun '(s, r) => (Ok tt, (f s, r)).
Definition a_limited {S A} (n : N) (m : amethod S A) : amethod S A :=
  fun '(s, r) => let '(x, (s', r')) := m (s, ALimited r n) in (x, (s', a_unlimit r')).
(** limited_reader_ensure_empty, src/tags/util/mod.rs:126-132. *)
Definition a_ensure_empty {S} (e : tag_error) : amethod S unit :=
  fun st => ((if a_empty (snd st) then Ok tt else Err e), st).
(** The loops [for _ in 0..count] and [while !lreader.empty()].  The fuel is a
    bound on the iterations: the bytes the innermost LimitedReader lets through,
    plus one. *)
Fixpoint a_repeat {S A} (fuel : nat) (m : areader U -> res tag_error A * areader U) (store : A -> S -> S)
  (count : N) : amethod S unit :=
  if count =? 0 then ret tt
  else match fuel with
       | O => fun st => (OutOfFuel, st)
       | Datatypes.S f =>
           x <- a_on_reader m ;; a_modify (store x) ;;; a_repeat f m store (count - 1)
       end.
Fixpoint a_while {S A} (fuel : nat) (m : areader U -> res tag_error A * areader U) (store : A -> S -> S)
  : amethod S unit :=
  fun st =>
  if a_empty (snd st) then (Ok tt, st)
  else match fuel with
       | O => (OutOfFuel, st)
       | Datatypes.S f =>
           (x <- a_on_reader m ;; a_modify (store x) ;;; a_while f m store) st
       end.
Definition room (r : areader U) : nat :=
  match r with ALimited _ avail => N.to_nat avail | ABase _ => O end.
Definition a_fuelled {S A} (m : nat -> amethod S A) : amethod S A :=
  fun st => m (Datatypes.S (room (snd st))) st.
Definition a_run {S} (m : amethod S unit) (s : S) (mk : S -> value) (r : areader U)
  : res tag_error unit * value * areader U :=
  let '(x, (s', r')) := m (s, r) in (x, mk s', r').

(** deserialize_string_tag_from_value_into, explicit/mod.rs:277-295;
    deserialize_string_tag_from_value, 306-310. *)
Definition a_string_tag_into : amethod (list N) unit :=
  id <- a_on_reader a_ilint ;;
  (if negb (id =? IL_STRING_TAG_ID) then fail CorruptedData else ret tt) ;;;
  len <- a_on_reader a_ilint ;;
  usize_len <- (fun st => (tag_size_to_usize len, st)) ;;
  tmp <- a_on_reader (a_bytes usize_len) ;;
  if from_utf8 tmp then a_modify (fun _ => tmp) else fail CorruptedData.
Definition a_string_tag (r : areader U) : res tag_error (list N) * areader U :=
  let '(x, (s, r')) := a_string_tag_into ([], r) in
  (match x with Ok _ => Ok s | Err e => Err e | Panic => Panic | OutOfFuel => OutOfFuel end, r').

(** ** ILTag::deserialize_value *)
Section Value.
Context {I : Type}.
Variable deser : areader U -> res tag_error I * areader U.

Definition a_check_size {S} (value_size n : N) : amethod S unit :=
  if value_size =? n then ret tt else fail CorruptedData.
Definition a_set_from {A} (m : areader U -> res tag_error A * areader U) : amethod A unit :=
  x <- a_on_reader m ;; a_modify (fun _ => x).
(** ILNullTag, implicit/mod.rs:230-240; ILBoolTag, 269-286. *)
Definition a_null (n : N) : amethod unit unit := a_check_size n 0.
Definition a_bool (n : N) : amethod bool unit :=
  a_check_size n 1 ;;;
  v <- a_on_reader (a_uint W8) ;;
  if v =? 0 then a_modify (fun _ => false)
  else if v =? 1 then a_modify (fun _ => true)
  else fail CorruptedData.
(** int_iltag_impl!, implicit/mod.rs:149-161. *)
Definition a_uint_value (w : width) (n : N) : amethod N unit :=
  a_check_size n (N.of_nat (wbytes w)) ;;; a_set_from (a_uint w).
Definition a_sint_value (w : width) (n : N) : amethod Z unit :=
  a_check_size n (N.of_nat (wbytes w)) ;;; a_set_from (a_sint w).
Definition a_bin32 (n : N) : amethod N unit := a_check_size n 4 ;;; a_set_from a_f32.
Definition a_bin64 (n : N) : amethod N unit := a_check_size n 8 ;;; a_set_from a_f64.
(** ILBin128Tag, implicit/mod.rs:542-557; ILRawTag, tags/mod.rs:750-757. *)
Definition a_bin128 (n : N) : amethod (list N) unit :=
  a_check_size n 16 ;;;
  (fun '(vec, r) => let '(x, vec', r') := a_into_slice vec r in (x, (vec', r'))).
Definition a_raw (n : N) : amethod (list N) unit :=
  fun '(vec, r) => let '(x, vec', r') := a_into_vec n vec r in (x, (vec', r')).
(** ILStringTag, explicit/mod.rs:214-228. *)
Definition a_string (n : N) : amethod (list N) unit :=
  tmp <- a_on_reader (a_bytes n) ;;
  if from_utf8 tmp then a_modify (fun _ => tmp) else fail CorruptedData.
Definition a_on_snd {S T A} (m : amethod T A) : amethod (S * T) A :=
  fun '((s, t), r) => let '(x, (t', r')) := m (t, r) in (x, ((s, t'), r')).
(** ILBigDecTag, explicit/mod.rs:422-434. *)
Definition a_bigdec (n : N) : amethod (Z * list N) unit :=
  (if n <? 4 then fail CorruptedData else ret tt) ;;;
  scale <- a_on_reader (a_sint W32) ;;
  a_modify (fun s => (scale, snd s)) ;;;
  a_on_snd (a_raw (n - 4)).
(** ILILIntArrayTag, explicit/mod.rs:525-542. *)
Definition a_ilintarray (n : N) : amethod (list N) unit :=
  a_limited n (
    count <- a_on_reader a_ilint ;;
    (if n <? count then fail CorruptedData else ret tt) ;;;
    a_modify (fun _ => []) ;;;
    a_fuelled (fun f => a_repeat f a_ilint push count) ;;;
    a_ensure_empty CorruptedData).
(** ILTagSeqTag, explicit/mod.rs:605-618. *)
Definition a_seq (n : N) : amethod (list I) unit :=
  a_limited n (
    a_modify (fun _ => []) ;;;
    a_fuelled (fun f => a_while f deser push)).
(** ILTagArrayTag, explicit/mod.rs:676-694. *)
Definition a_arr (n : N) : amethod (list I) unit :=
  a_limited n (
    count <- a_on_reader a_ilint ;;
    (if n <? count then fail CorruptedData else ret tt) ;;;
    a_modify (fun _ => []) ;;;
    a_fuelled (fun f => a_repeat f deser push count) ;;;
    a_ensure_empty CorruptedData).
(** ILRangeTag, explicit/mod.rs:773-783. *)
Definition a_range (n : N) : amethod (N * N) unit :=
  a_limited n (
    start <- a_on_reader a_ilint ;;
    a_modify (fun s => (start, snd s)) ;;;
    count <- a_on_reader (a_uint W16) ;;
    a_modify (fun s => (fst s, count)) ;;;
    a_ensure_empty CorruptedData).
(** ILVersionTag, explicit/mod.rs:905-918. *)
Definition a_version (n : N) : amethod (Z * Z * Z * Z) unit :=
  a_check_size n 16 ;;;
  a <- a_on_reader (a_sint W32) ;; a_modify (fun '(_, b, c, d) => (a, b, c, d)) ;;;
  b <- a_on_reader (a_sint W32) ;; a_modify (fun '(a, _, c, d) => (a, b, c, d)) ;;;
  c <- a_on_reader (a_sint W32) ;; a_modify (fun '(a, b, _, d) => (a, b, c, d)) ;;;
  d <- a_on_reader (a_sint W32) ;; a_modify (fun '(a, b, c, _) => (a, b, c, d)).
(** ILDictTag, explicit/mod.rs:1106-1122; ILStrDictTag, 1254-1270. *)
Definition a_dict (n : N) : amethod (list (list N * I)) unit :=
  a_limited n (
    count <- a_on_reader a_ilint ;;
    a_modify (fun _ => []) ;;;
    a_fuelled (fun f => a_repeat f
      (k <- a_string_tag ;; t <- deser ;; ret (k, t))
      (fun e => hm_insert (fst e) (snd e)) count) ;;;
    a_ensure_empty CorruptedData).
Definition a_strdict (n : N) : amethod (list (list N * list N)) unit :=
  a_limited n (
    count <- a_on_reader a_ilint ;;
    a_modify (fun _ => []) ;;;
    a_fuelled (fun f => a_repeat f
      (k <- a_string_tag ;; v <- a_string_tag ;; ret (k, v))
      (fun e => hm_insert (fst e) (snd e)) count) ;;;
    a_ensure_empty CorruptedData).
End Value.

(** ILTag::deserialize_value of every type of the library. *)
Definition a_value (deser : areader U -> res tag_error tag * areader U) (v : value) (n : N) (r : areader U)
  : res tag_error unit * value * areader U :=
  match v with
  | VNull => a_run (a_null n) tt (fun _ => VNull) r
  | VBool b => a_run (a_bool n) b VBool r
  | VUInt w x => a_run (a_uint_value w n) x (VUInt w) r
  | VSInt w x => a_run (a_sint_value w n) x (VSInt w) r
  | VBin32 x => a_run (a_bin32 n) x VBin32 r
  | VBin64 x => a_run (a_bin64 n) x VBin64 r
  | VBin128 bs => a_run (a_bin128 n) bs VBin128 r
  | VILInt x => a_run (a_set_from a_ilint) x VILInt r
  | VSILInt x => a_run (a_set_from a_silint) x VSILInt r
  | VRaw bs => a_run (a_raw n) bs VRaw r
  | VBytes bs => a_run (a_raw n) bs VBytes r
  | VBigInt bs => a_run (a_raw n) bs VBigInt r
  | VString s => a_run (a_string n) s VString r
  | VBigDec scale bs => a_run (a_bigdec n) (scale, bs) (fun s => VBigDec (fst s) (snd s)) r
  | VILIntArray l => a_run (a_ilintarray n) l VILIntArray r
  | VOID l => a_run (a_ilintarray n) l VOID r
  | VSeq l => a_run (a_seq deser n) l VSeq r
  | VArr l => a_run (a_arr deser n) l VArr r
  | VRange s c => a_run (a_range n) (s, c) (fun s => VRange (fst s) (snd s)) r
  | VVersion a b c d =>
      a_run (a_version n) (a, b, c, d) (fun '(a, b, c, d) => VVersion a b c d) r
  | VDict l => a_run (a_dict deser n) l VDict r
  | VStrDict l => a_run (a_strdict n) l VStrDict r
  end.

(** ** ILStandardTagFactory, src/tags/standard/factory/mod.rs:128-204 *)
(** deserialize_tag_size, 153-161; deserialize_tag_value_into, 164-176. *)
Definition a_tag_size (id : N) : areader U -> res tag_error N * areader U :=
  tag_size <- (if is_implicit_tag id then ret (implicit_tag_size id) else a_ilint) ;;
  (fun r => (tag_size_to_usize tag_size, r)).
Definition a_value_into (deser : areader U -> res tag_error tag * areader U)
  (tag_size : N) (t : tag) (r : areader U) : res tag_error unit * tag * areader U :=
  let '(x, v', lr) := a_value deser (tag_val t) tag_size (ALimited r tag_size) in
  let t' := Tag (tag_id t) v' in
  (match x with
   | Ok _ =>
       if negb (tag_id t' =? IL_ILINT_TAG_ID) && negb (tag_id t' =? IL_SIGNED_ILINT_TAG_ID)
          && negb (a_empty lr)
       then Err CorruptedData else Ok tt
   | _ => x
   end, t', a_unlimit lr).
(** deserialize, 184-193; [deser n] is the function for the tags inside a value
    of [n] bytes. *)
Definition a_deserialize_step (deser : N -> areader U -> res tag_error tag * areader U) (e : engine)
  : areader U -> res tag_error tag * areader U :=
  tag_id <- a_ilint ;;
  tag_size <- a_tag_size tag_id ;;
  created <- (fun r => (create_tag e tag_id, r)) ;;
  match created with
  | None => fail UnknownTag
  | Some t => fun r =>
      let '(x, t', r') := a_value_into (deser tag_size) tag_size t r in
      (map_ok (fun _ => t') x, r')
  end.
(** The fuel bounds the depth of nested calls: a tag within [n] bytes has fewer
    than [n] others around it. *)
Fixpoint a_deserialize_fuel (fuel : nat) (e : engine) (r : areader U) : res tag_error tag * areader U :=
  match fuel with
  | O => (OutOfFuel, r)
  | Datatypes.S f => a_deserialize_step (fun _ => a_deserialize_fuel f e) e r
  end.
Definition a_deserialize (e : engine) : areader U -> res tag_error tag * areader U :=
  a_deserialize_step (fun n => a_deserialize_fuel (Datatypes.S (N.to_nat n)) e) e.
(** deserialize_into, 195-203; the target afterwards is returned also on
    failure. *)
Definition a_deserialize_into (e : engine) (r : areader U) (t : tag) : res tag_error unit * tag * areader U :=
  match a_ilint r with
  | (Ok id, r1) =>
      if negb (id =? tag_id t) then (Err UnexpectedTagType, t, r1)
      else match a_tag_size id r1 with
           | (Ok n, r2) => a_value_into (a_deserialize_fuel (Datatypes.S (N.to_nat n)) e) n t r2
           | (Err err, r2) => (Err err, t, r2)
           | (Panic, r2) => (Panic, t, r2)
           | (OutOfFuel, r2) => (OutOfFuel, t, r2)
           end
  | (Err err, r1) => (Err err, t, r1)
  | (Panic, r1) => (Panic, t, r1)
  | (OutOfFuel, r1) => (OutOfFuel, t, r1)
  end.
End Any.

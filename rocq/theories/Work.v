(** The work of deserialization: the functions of Any.v again, with a counter of
    the calls of [Reader::read] and [Reader::read_all] that the code makes.  A
    call on a LimitedReader calls the reader inside, so reading one byte of a
    deeply nested tag takes many calls.  WorkFacts.v proves that without the
    counters they are the functions of Any.v. *)
From Verif Require Import Base Types IO ILInt Data Tags Factory Any.

(** A [&mut dyn Reader] with counters in the user object: the bytes that its
    successful calls delivered, and the calls of [read] and [read_all] made, on
    it and on every [LimitedReader] (src/io/mod.rs:207-223) over it. *)
Inductive wreader (U : Type) :=
| WBase (u : U) (bytes work : N)
| WLimited (source : wreader U) (available : N).
Arguments WBase {U} u bytes work.
Arguments WLimited {U} source available.

Section Any.
Context {U : Type} (M : reader_impl U).

(** One more call. *)
Fixpoint w_tick (r : wreader U) : wreader U :=
  match r with
  | WBase u b w => WBase u b (w + 1)
  | WLimited src avail => WLimited (w_tick src) avail
  end.
(** [read] and [read_all] of a LimitedReader, src/io/mod.rs:279-295.  A call that
    goes beyond the limit is counted, and goes no further. *)
Fixpoint w_read (r : wreader U) : res io_error N * wreader U :=
  match r with
  | WBase u b w => let '(x, u') := u_read M u in (x, WBase u' (if is_ok x then b + 1 else b) (w + 1))
  | WLimited src avail =>
      if avail <? 1 then (Err UnableToReadData, w_tick r)
      else let '(x, src') := w_read src in
           (x, w_tick (WLimited src' (if is_ok x then avail - 1 else avail)))
  end.
Fixpoint w_read_all (buff : list N) (r : wreader U) : res io_error unit * list N * wreader U :=
  match r with
  | WBase u b w => let '(x, buff', u') := u_read_all M buff u in
      (x, buff', WBase u' (if is_ok x then b + lenN buff else b) (w + 1))
  | WLimited src avail =>
      if avail <? lenN buff then (Err UnableToReadData, buff, w_tick r)
      else let '(x, buff', src') := w_read_all buff src in
           (x, buff', w_tick (WLimited src' (if is_ok x then avail - lenN buff else avail)))
  end.
(** LimitedReader::empty, src/io/mod.rs:273-275. *)
Definition w_empty (r : wreader U) : bool :=
  match r with WLimited _ avail => avail =? 0 | WBase _ _ _ => false end.
Definition w_unlimit (r : wreader U) : wreader U :=
  match r with WLimited src _ => src | WBase _ _ _ => r end.

(** [read_all] on a new buffer of [n] zeros. *)
Definition w_fetch (n : N) (r : wreader U) : res io_error (list N) * wreader U :=
  let '(x, buff, r') := w_read_all (repeatN 0 n) r in (map_ok (fun _ => buff) x, r').
(** decode, src/ilint/mod.rs:197-213; signed_decode, 299-302. *)
Definition w_decode : wreader U -> res ilint_error N * wreader U :=
  header <- lift_err ILIntIO w_read ;;
  let size := decoded_size header in
  if size =? 1 then ret header
  else body <- lift_err ILIntIO (w_fetch (size - 1)) ;;
       (fun r => (decode_body body, r)).
Definition w_signed_decode : wreader U -> res ilint_error Z * wreader U :=
  tmp <- w_decode ;; ret (decode_sign tmp).
(** src/io/data/mod.rs:54-189, with the conversion of the error of
    src/tags/serialization/mod.rs:55-135, 488-513. *)
Definition w_uint (w : width) : wreader U -> res tag_error N * wreader U :=
  lift_err TagIO (match w with
                  | W8 => w_read
                  | _ => tmp <- w_fetch (N.of_nat (wbytes w)) ;; ret (from_be_bytes tmp)
                  end).
Definition w_sint (w : width) : wreader U -> res tag_error Z * wreader U :=
  lift_err TagIO (match w with
                  | W8 => v <- w_read ;; ret (cast_signed W8 v)
                  | _ => tmp <- w_fetch (N.of_nat (wbytes w)) ;; ret (cast_signed w (from_be_bytes tmp))
                  end).
Definition w_ilint : wreader U -> res tag_error N * wreader U :=
  lift_err TagIO (lift_err ilint_read_error w_decode).
Definition w_silint : wreader U -> res tag_error Z * wreader U :=
  lift_err TagIO (lift_err ilint_read_error w_signed_decode).
(** read_f32, read_f64: src/io/data/mod.rs:201-219. *)
Definition w_f32 : wreader U -> res tag_error N * wreader U := w_uint W32.
Definition w_f64 : wreader U -> res tag_error N * wreader U := w_uint W64.
(** src/tags/serialization/mod.rs:205-248. *)
Definition w_bytes (size : N) : wreader U -> res tag_error (list N) * wreader U := lift_err TagIO (w_fetch size).
Definition w_into_slice (buff : list N) (r : wreader U) : res tag_error unit * list N * wreader U :=
  let '(x, buff', r') := w_read_all buff r in (map_err TagIO x, buff', r').
Definition w_into_vec (size : N) (vec : list N) (r : wreader U) : res tag_error unit * list N * wreader U :=
  w_into_slice (resizeN size 0 vec) r.

(** ** Methods, as in Factory.v *)
Definition wmethod (S A : Type) : Type := S * wreader U -> res tag_error A * (S * wreader U).
Definition w_on_reader {S A} (m : wreader U -> res tag_error A * wreader U) : wmethod S A :=
  fun '(s, r) => let '(x, r') := m r in (x, (s, r')).
Definition w_modify {S} (f : S -> S) : wmethod S unit :=
  fun '(s, r) => (Ok tt, (f s, r)).
Definition w_limited {S A} (n : N) (m : wmethod S A) : wmethod S A :=
  fun '(s, r) => let '(x, (s', r')) := m (s, WLimited r n) in (x, (s', w_unlimit r')).
(** limited_reader_ensure_empty, src/tags/util/mod.rs:126-132. *)
Definition w_ensure_empty {S} (e : tag_error) : wmethod S unit :=
  fun st => ((if w_empty (snd st) then Ok tt else Err e), st).
(** The loops [for _ in 0..count] and [while !lreader.empty()].  The fuel is a
    bound on the iterations: the bytes the innermost LimitedReader lets through,
    plus one. *)
Fixpoint w_repeat {S A} (fuel : nat) (m : wreader U -> res tag_error A * wreader U) (store : A -> S -> S)
  (count : N) : wmethod S unit :=
  if count =? 0 then ret tt
  else match fuel with
       | O => fun st => (OutOfFuel, st)
       | Datatypes.S f =>
           x <- w_on_reader m ;; w_modify (store x) ;;; w_repeat f m store (count - 1)
       end.
Fixpoint w_while {S A} (fuel : nat) (m : wreader U -> res tag_error A * wreader U) (store : A -> S -> S)
  : wmethod S unit :=
  fun st =>
  if w_empty (snd st) then (Ok tt, st)
  else match fuel with
       | O => (OutOfFuel, st)
       | Datatypes.S f =>
           (x <- w_on_reader m ;; w_modify (store x) ;;; w_while f m store) st
       end.
Definition w_room (r : wreader U) : nat :=
  match r with WLimited _ avail => N.to_nat avail | WBase _ _ _ => O end.
Definition w_fuelled {S A} (m : nat -> wmethod S A) : wmethod S A :=
  fun st => m (Datatypes.S (w_room (snd st))) st.
Definition w_run {S} (m : wmethod S unit) (s : S) (mk : S -> value) (r : wreader U)
  : res tag_error unit * value * wreader U :=
  let '(x, (s', r')) := m (s, r) in (x, mk s', r').

(** deserialize_string_tag_from_value_into, explicit/mod.rs:277-295;
    deserialize_string_tag_from_value, 306-310. *)
Definition w_string_tag_into : wmethod (list N) unit :=
  id <- w_on_reader w_ilint ;;
  (if negb (id =? IL_STRING_TAG_ID) then fail CorruptedData else ret tt) ;;;
  len <- w_on_reader w_ilint ;;
  usize_len <- (fun st => (tag_size_to_usize len, st)) ;;
  tmp <- w_on_reader (w_bytes usize_len) ;;
  if from_utf8 tmp then w_modify (fun _ => tmp) else fail CorruptedData.
Definition w_string_tag (r : wreader U) : res tag_error (list N) * wreader U :=
  let '(x, (s, r')) := w_string_tag_into ([], r) in
  (match x with Ok _ => Ok s | Err e => Err e | Panic => Panic | OutOfFuel => OutOfFuel end, r').

(** ** ILTag::deserialize_value *)
Section Value.
Context {I : Type}.
Variable deser : wreader U -> res tag_error I * wreader U.

Definition w_check_size {S} (value_size n : N) : wmethod S unit :=
  if value_size =? n then ret tt else fail CorruptedData.
Definition w_set_from {A} (m : wreader U -> res tag_error A * wreader U) : wmethod A unit :=
  x <- w_on_reader m ;; w_modify (fun _ => x).
(** ILNullTag, implicit/mod.rs:230-240; ILBoolTag, 269-286. *)
Definition w_null (n : N) : wmethod unit unit := w_check_size n 0.
Definition w_bool (n : N) : wmethod bool unit :=
  w_check_size n 1 ;;;
  v <- w_on_reader (w_uint W8) ;;
  if v =? 0 then w_modify (fun _ => false)
  else if v =? 1 then w_modify (fun _ => true)
  else fail CorruptedData.
(** int_iltag_impl!, implicit/mod.rs:149-161. *)
Definition w_uint_value (w : width) (n : N) : wmethod N unit :=
  w_check_size n (N.of_nat (wbytes w)) ;;; w_set_from (w_uint w).
Definition w_sint_value (w : width) (n : N) : wmethod Z unit :=
  w_check_size n (N.of_nat (wbytes w)) ;;; w_set_from (w_sint w).
Definition w_bin32 (n : N) : wmethod N unit := w_check_size n 4 ;;; w_set_from w_f32.
Definition w_bin64 (n : N) : wmethod N unit := w_check_size n 8 ;;; w_set_from w_f64.
(** ILBin128Tag, implicit/mod.rs:542-557; ILRawTag, tags/mod.rs:750-757. *)
Definition w_bin128 (n : N) : wmethod (list N) unit :=
  w_check_size n 16 ;;;
  (fun '(vec, r) => let '(x, vec', r') := w_into_slice vec r in (x, (vec', r'))).
Definition w_raw (n : N) : wmethod (list N) unit :=
  fun '(vec, r) => let '(x, vec', r') := w_into_vec n vec r in (x, (vec', r')).
(** ILStringTag, explicit/mod.rs:214-228. *)
Definition w_string (n : N) : wmethod (list N) unit :=
  tmp <- w_on_reader (w_bytes n) ;;
  if from_utf8 tmp then w_modify (fun _ => tmp) else fail CorruptedData.
Definition w_on_snd {S T A} (m : wmethod T A) : wmethod (S * T) A :=
  fun '((s, t), r) => let '(x, (t', r')) := m (t, r) in (x, ((s, t'), r')).
(** ILBigDecTag, explicit/mod.rs:422-434. *)
Definition w_bigdec (n : N) : wmethod (Z * list N) unit :=
  (if n <? 4 then fail CorruptedData else ret tt) ;;;
  scale <- w_on_reader (w_sint W32) ;;
  w_modify (fun s => (scale, snd s)) ;;;
  w_on_snd (w_raw (n - 4)).
(** ILILIntArrayTag, explicit/mod.rs:525-542. *)
Definition w_ilintarray (n : N) : wmethod (list N) unit :=
  w_limited n (
    count <- w_on_reader w_ilint ;;
    (if n <? count then fail CorruptedData else ret tt) ;;;
    w_modify (fun _ => []) ;;;
    w_fuelled (fun f => w_repeat f w_ilint push count) ;;;
    w_ensure_empty CorruptedData).
(** ILTagSeqTag, explicit/mod.rs:605-618. *)
Definition w_seq (n : N) : wmethod (list I) unit :=
  w_limited n (
    w_modify (fun _ => []) ;;;
    w_fuelled (fun f => w_while f deser push)).
(** ILTagArrayTag, explicit/mod.rs:676-694. *)
Definition w_arr (n : N) : wmethod (list I) unit :=
  w_limited n (
    count <- w_on_reader w_ilint ;;
    (if n <? count then fail CorruptedData else ret tt) ;;;
    w_modify (fun _ => []) ;;;
    w_fuelled (fun f => w_repeat f deser push count) ;;;
    w_ensure_empty CorruptedData).
(** ILRangeTag, explicit/mod.rs:773-783. *)
Definition w_range (n : N) : wmethod (N * N) unit :=
  w_limited n (
    start <- w_on_reader w_ilint ;;
    w_modify (fun s => (start, snd s)) ;;;
    count <- w_on_reader (w_uint W16) ;;
    w_modify (fun s => (fst s, count)) ;;;
    w_ensure_empty CorruptedData).
(** ILVersionTag, explicit/mod.rs:905-918. *)
Definition w_version (n : N) : wmethod (Z * Z * Z * Z) unit :=
  w_check_size n 16 ;;;
  a <- w_on_reader (w_sint W32) ;; w_modify (fun '(_, b, c, d) => (a, b, c, d)) ;;;
  b <- w_on_reader (w_sint W32) ;; w_modify (fun '(a, _, c, d) => (a, b, c, d)) ;;;
  c <- w_on_reader (w_sint W32) ;; w_modify (fun '(a, b, _, d) => (a, b, c, d)) ;;;
  d <- w_on_reader (w_sint W32) ;; w_modify (fun '(a, b, c, _) => (a, b, c, d)).
(** ILDictTag, explicit/mod.rs:1106-1122; ILStrDictTag, 1254-1270. *)
Definition w_dict (n : N) : wmethod (list (list N * I)) unit :=
  w_limited n (
    count <- w_on_reader w_ilint ;;
    w_modify (fun _ => []) ;;;
    w_fuelled (fun f => w_repeat f
      (k <- w_string_tag ;; t <- deser ;; ret (k, t))
      (fun e => hm_insert (fst e) (snd e)) count) ;;;
    w_ensure_empty CorruptedData).
Definition w_strdict (n : N) : wmethod (list (list N * list N)) unit :=
  w_limited n (
    count <- w_on_reader w_ilint ;;
    w_modify (fun _ => []) ;;;
    w_fuelled (fun f => w_repeat f
      (k <- w_string_tag ;; v <- w_string_tag ;; ret (k, v))
      (fun e => hm_insert (fst e) (snd e)) count) ;;;
    w_ensure_empty CorruptedData).
End Value.

(** ILTag::deserialize_value of every type of the library. *)
Definition w_value (deser : wreader U -> res tag_error tag * wreader U) (v : value) (n : N) (r : wreader U)
  : res tag_error unit * value * wreader U :=
  match v with
  | VNull => w_run (w_null n) tt (fun _ => VNull) r
  | VBool b => w_run (w_bool n) b VBool r
  | VUInt w x => w_run (w_uint_value w n) x (VUInt w) r
  | VSInt w x => w_run (w_sint_value w n) x (VSInt w) r
  | VBin32 x => w_run (w_bin32 n) x VBin32 r
  | VBin64 x => w_run (w_bin64 n) x VBin64 r
  | VBin128 bs => w_run (w_bin128 n) bs VBin128 r
  | VILInt x => w_run (w_set_from w_ilint) x VILInt r
  | VSILInt x => w_run (w_set_from w_silint) x VSILInt r
  | VRaw bs => w_run (w_raw n) bs VRaw r
  | VBytes bs => w_run (w_raw n) bs VBytes r
  | VBigInt bs => w_run (w_raw n) bs VBigInt r
  | VString s => w_run (w_string n) s VString r
  | VBigDec scale bs => w_run (w_bigdec n) (scale, bs) (fun s => VBigDec (fst s) (snd s)) r
  | VILIntArray l => w_run (w_ilintarray n) l VILIntArray r
  | VOID l => w_run (w_ilintarray n) l VOID r
  | VSeq l => w_run (w_seq deser n) l VSeq r
  | VArr l => w_run (w_arr deser n) l VArr r
  | VRange s c => w_run (w_range n) (s, c) (fun s => VRange (fst s) (snd s)) r
  | VVersion a b c d =>
      w_run (w_version n) (a, b, c, d) (fun '(a, b, c, d) => VVersion a b c d) r
  | VDict l => w_run (w_dict deser n) l VDict r
  | VStrDict l => w_run (w_strdict n) l VStrDict r
  end.

(** ** ILStandardTagFactory, src/tags/standard/factory/mod.rs:128-204 *)
(** deserialize_tag_size, 153-161; deserialize_tag_value_into, 164-176. *)
Definition w_tag_size (id : N) : wreader U -> res tag_error N * wreader U :=
  tag_size <- (if is_implicit_tag id then ret (implicit_tag_size id) else w_ilint) ;;
  (fun r => (tag_size_to_usize tag_size, r)).
Definition w_value_into (deser : wreader U -> res tag_error tag * wreader U)
  (tag_size : N) (t : tag) (r : wreader U) : res tag_error unit * tag * wreader U :=
  let '(x, v', lr) := w_value deser (tag_val t) tag_size (WLimited r tag_size) in
  let t' := Tag (tag_id t) v' in
  (match x with
   | Ok _ =>
       if negb (tag_id t' =? IL_ILINT_TAG_ID) && negb (tag_id t' =? IL_SIGNED_ILINT_TAG_ID)
          && negb (w_empty lr)
       then Err CorruptedData else Ok tt
   | _ => x
   end, t', w_unlimit lr).
(** deserialize, 184-193; [deser n] is the function for the tags inside a value
    of [n] bytes. *)
Definition w_deserialize_step (deser : N -> wreader U -> res tag_error tag * wreader U) (e : engine)
  : wreader U -> res tag_error tag * wreader U :=
  tag_id <- w_ilint ;;
  tag_size <- w_tag_size tag_id ;;
  created <- (fun r => (create_tag e tag_id, r)) ;;
  match created with
  | None => fail UnknownTag
  | Some t => fun r =>
      let '(x, t', r') := w_value_into (deser tag_size) tag_size t r in
      (map_ok (fun _ => t') x, r')
  end.
(** The fuel bounds the depth of nested calls: a tag within [n] bytes has fewer
    than [n] others around it. *)
Fixpoint w_deserialize_fuel (fuel : nat) (e : engine) (r : wreader U) : res tag_error tag * wreader U :=
  match fuel with
  | O => (OutOfFuel, r)
  | Datatypes.S f => w_deserialize_step (fun _ => w_deserialize_fuel f e) e r
  end.
Definition w_deserialize (e : engine) : wreader U -> res tag_error tag * wreader U :=
  w_deserialize_step (fun n => w_deserialize_fuel (Datatypes.S (N.to_nat n)) e) e.
(** deserialize_into, 195-203; the target afterwards is returned also on
    failure. *)
Definition w_deserialize_into (e : engine) (r : wreader U) (t : tag) : res tag_error unit * tag * wreader U :=
  match w_ilint r with
  | (Ok id, r1) =>
      if negb (id =? tag_id t) then (Err UnexpectedTagType, t, r1)
      else match w_tag_size id r1 with
           | (Ok n, r2) => w_value_into (w_deserialize_fuel (Datatypes.S (N.to_nat n)) e) n t r2
           | (Err err, r2) => (Err err, t, r2)
           | (Panic, r2) => (Panic, t, r2)
           | (OutOfFuel, r2) => (OutOfFuel, t, r2)
           end
  | (Err err, r1) => (Err err, t, r1)
  | (Panic, r1) => (Panic, t, r1)
  | (OutOfFuel, r1) => (OutOfFuel, t, r1)
  end.
End Any.

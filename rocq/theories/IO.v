(** Model of src/io/mod.rs, src/io/array/mod.rs and src/io/std_io/mod.rs:
    readers and writers as state machines. *)
From Verif Require Import Base Types.

(** ** Environment of a [std::io::Read] or [std::io::Write]
    What the n-th call to [read]/[write] on the underlying object does; after
    the list is exhausted every call transfers as much as it can.
    - [Chunk c]: transfers at most [c] bytes ([Ok(min(c, ..))]; 0 is allowed),
    - [Interrupt]: [Err] of kind [Interrupted], nothing transferred,
    - [Fail k]: [Err] of kind [k], nothing transferred,
    - [Whole]: as much as asked for; when reading, [read_exact] is overridden and
      takes nothing if there is not enough (slices and [Cursor] in the versions
      of std for which src/io/std_io/tests.rs:327-334 passes). *)
Inductive event := Chunk (c : N) | Interrupt | Fail (k : stdio_kind) | Whole.

(** A seekable source: its contents, its position (may be past the end), the
    behaviour of its [read] calls and of its [seek] calls ([Some k]: the call
    fails with kind [k] and does not move). *)
Record seekable := Seekable {
  sk_data : list N; sk_pos : N; sk_sched : list event; sk_seeks : list (option stdio_kind) }.

(** ** Readers.  Every [Reader] the library provides, and user readers.
    - [RByteArray a o]: [ByteArrayReader], src/io/array/mod.rs:94-160
    - [RVec v o]: [VecReader], src/io/array/mod.rs:170-250
    - [RLimited src n]: [LimitedReader], src/io/mod.rs:207-296
    - [RRead data sched]: [ReadReader], src/io/std_io/mod.rs:93-122, over a
      [std::io::Read] that still has [data] to deliver
    - [RSeek s]: the blanket implementation for [Read + Seek],
      src/io/std_io/mod.rs:170-210
    - [RCustom script]: a user type implementing only [Reader::read], whose
      successive calls return the results in [script], then [EndOfData]. *)
Inductive reader : Type :=
| RByteArray (array : list N) (offset : N)
| RVec (vector : list N) (offset : N)
| RLimited (source : reader) (available : N)
| RRead (data : list N) (sched : list event)
| RSeek (s : seekable)
| RCustom (script : list (io_error + N)).

(** ByteArrayReader::new, src/io/array/mod.rs:100-105; VecReader::new, 178-185;
    LimitedReader::new, src/io/mod.rs:218-223.  The accessors of the memory readers
    (src/io/array/mod.rs:48-60, 126-133, 211-218) give the arguments of the
    constructor, [is_empty] whether the whole data has length 0. *)
Definition ByteArrayReader_new (buff : list N) : reader := RByteArray buff 0.
Definition VecReader_new (value : list N) : reader := RVec value 0.
Definition LimitedReader_new (src : reader) (n : N) : reader := RLimited src n.

(** MemoryReader::available, src/io/array/mod.rs:63-65.  [len() - offset()] panics when it underflows; with
    overflow checks off it would wrap, but no history reaches such a state
    (theorem [memory_reader_history]), so the model panics in both modes. *)
Definition mem_available (len offset : N) : res io_error N :=
  if offset <=? len then Ok (len - offset) else Panic.

(** MemoryReader::assert_can_read, src/io/array/mod.rs:76-86;
    ByteArrayReader::can_read, 121-123. *)
Definition mem_can_read (len offset count : N) : res io_error unit :=
  if count =? 0 then Ok tt
  else match mem_available len offset with
       | Ok x => if x =? 0 then Err EndOfData
                 else if x <? count then Err UnableToReadData
                 else Ok tt
       | Err e => Err e
       | Panic => Panic
       | OutOfFuel => OutOfFuel
       end.

(** ByteArrayReader::set_offset, src/io/array/mod.rs:135-137. *)
Definition mem_set_offset (len offset : N) : N := N.min offset len.

(** ByteArrayReader::read, src/io/array/mod.rs:141-146. *)
Definition mem_read (data : list N) (offset : N) : res io_error N * N :=
  match mem_can_read (lenN data) offset 1 with
  | Ok _ => match nthN data offset with
            | Some b => (Ok b, offset + 1)
            | None => (Panic, offset)
            end
  | Err e => (Err e, offset)
  | Panic => (Panic, offset)
  | OutOfFuel => (OutOfFuel, offset)
  end.

(** ByteArrayReader::read_all, src/io/array/mod.rs:148-153.  Returns the bytes
    stored at the front of the caller's buffer. *)
Definition mem_read_all (n : N) (data : list N) (offset : N)
  : res io_error unit * list N * N :=
  match mem_can_read (lenN data) offset n with
  | Ok _ => match slice data offset (offset + n) with
            | Ok bs => (Ok tt, bs, offset + n)
            | Err e => (Err e, [], offset)
            | Panic => (Panic, [], offset)
            | OutOfFuel => (OutOfFuel, [], offset)
            end
  | Err e => (Err e, [], offset)
  | Panic => (Panic, [], offset)
  | OutOfFuel => (OutOfFuel, [], offset)
  end.

(** ByteArrayReader::skip, src/io/array/mod.rs:155-159. *)
Definition mem_skip (count len offset : N) : res io_error unit * N :=
  match mem_can_read len offset count with
  | Ok _ => (Ok tt, offset + count)
  | Err e => (Err e, offset)
  | Panic => (Panic, offset)
  | OutOfFuel => (OutOfFuel, offset)
  end.

(** VecReader::available, src/io/array/mod.rs:224-226 (overrides the default;
    same remark about overflow). *)
Definition vecr_available (vector : list N) (offset : N) : res io_error N :=
  if offset <=? lenN vector then Ok (lenN vector - offset) else Panic.
(** VecReader::can_read, src/io/array/mod.rs:195-197: assert_can_read (76-86)
    with that [available]. *)
Definition vecr_can_read (vector : list N) (offset count : N) : res io_error unit :=
  if count =? 0 then Ok tt
  else match vecr_available vector offset with
       | Ok x => if x =? 0 then Err EndOfData
                 else if x <? count then Err UnableToReadData
                 else Ok tt
       | Err e => Err e
       | Panic => Panic
       | OutOfFuel => OutOfFuel
       end.
(** VecReader::read, src/io/array/mod.rs:230-235. *)
Definition vecr_read (vector : list N) (offset : N) : res io_error N * N :=
  match vecr_can_read vector offset 1 with
  | Ok _ => match nthN vector offset with
            | Some r => (Ok r, offset + 1)
            | None => (Panic, offset)
            end
  | Err e => (Err e, offset)
  | Panic => (Panic, offset)
  | OutOfFuel => (OutOfFuel, offset)
  end.
(** VecReader::read_all, src/io/array/mod.rs:237-243. *)
Definition vecr_read_all (n : N) (vector : list N) (offset : N)
  : res io_error unit * list N * N :=
  match vecr_can_read vector offset n with
  | Ok _ => let new_offs := offset + n in
            match slice vector offset new_offs with
            | Ok bs => (Ok tt, bs, new_offs)
            | Err e => (Err e, [], offset)
            | Panic => (Panic, [], offset)
            | OutOfFuel => (OutOfFuel, [], offset)
            end
  | Err e => (Err e, [], offset)
  | Panic => (Panic, [], offset)
  | OutOfFuel => (OutOfFuel, [], offset)
  end.
(** VecReader::skip, src/io/array/mod.rs:245-249. *)
Definition vecr_skip (count : N) (vector : list N) (offset : N) : res io_error unit * N :=
  match vecr_can_read vector offset count with
  | Ok _ => (Ok tt, offset + count)
  | Err e => (Err e, offset)
  | Panic => (Panic, offset)
  | OutOfFuel => (OutOfFuel, offset)
  end.
(** VecReader::set_offset, src/io/array/mod.rs:220-222. *)
Definition vecr_set_offset (vector : list N) (offset : N) : N := N.min offset (lenN vector).

(** [std::io::Read::read_exact] (std's default): repeat [read] until the
    buffer is full; [Ok(0)] ends with [UnexpectedEof], [Interrupted] is
    retried, other errors are returned.  std leaves unspecified how much a
    failed call has taken, so an implementation may also take nothing
    ([Whole]).  Returns the bytes stored so far, the
    bytes left in the source and the rest of the schedule. *)
Fixpoint read_exact (n : N) (data : list N) (sched : list event)
  : res stdio_kind unit * list N * list N * list event :=
  if n =? 0 then (Ok tt, [], data, sched)
  else match sched with
       | [] =>
           if n <=? lenN data then (Ok tt, takeN n data, dropN n data, [])
           else (Err UnexpectedEof, data, [], [])
       | Interrupt :: sched' => read_exact n data sched'
       | Fail k :: sched' => (Err k, [], data, sched')
       | Whole :: sched' =>
           if n <=? lenN data then (Ok tt, takeN n data, dropN n data, sched')
           else (Err UnexpectedEof, [], data, sched')
       | Chunk c :: sched' =>
           let got := takeN (N.min n c) data in
           if lenN got =? 0 then (Err UnexpectedEof, [], data, sched')
           else let '(x, more, data', sched'') :=
                  read_exact (n - lenN got) (dropN (lenN got) data) sched' in
                (x, got ++ more, data', sched'')
       end.

(** [std::io::Seek::seek] on a seekable source. *)
Inductive seek_from := SeekStart (n : N) | SeekEnd0 | SeekCurrent0.
Definition seek (p : seek_from) (s : seekable) : res stdio_kind N * seekable :=
  let '(Seekable data pos sched seeks) := s in
  let rest := tl seeks in
  match hd None seeks with
  | Some k => (Err k, Seekable data pos sched rest)
  | None =>
      let pos' := match p with
                  | SeekStart n => n
                  | SeekEnd0 => lenN data
                  | SeekCurrent0 => pos
                  end in
      (Ok pos', Seekable data pos' sched rest)
  end.

(** [From<std::io::Error> for ErrorKind], src/io/std_io/mod.rs:43-50. *)
Definition from_std (k : stdio_kind) : io_error :=
  match k with UnexpectedEof => EndOfData | _ => BoxedStd k end.

Definition seek_q (p : seek_from) : seekable -> res io_error N * seekable :=
  lift_err from_std (seek p).

(** Reading at the position of a seekable source. *)
Definition seek_read_all (n : N) (s : seekable)
  : res io_error unit * list N * seekable :=
  let '(Seekable data pos sched seeks) := s in
  let '(x, got, _, sched') := read_exact n (dropN pos data) sched in
  (match x with
   | Ok _ => Ok tt
   | Err _ => Err UnableToReadData
   | Panic => Panic
   | OutOfFuel => OutOfFuel
   end, got, Seekable data (pos + lenN got) sched' seeks).

(** Reader::read_all of every reader: src/io/mod.rs:288-295 (LimitedReader),
    src/io/array/mod.rs:148-153, 237-243 (memory), src/io/std_io/mod.rs:116-121
    (ReadReader), 180-185 (Read + Seek), and the default src/io/mod.rs:94-99.
    The list is what was stored at the front of the caller's buffer, also when
    the call fails. *)
Fixpoint read_custom_all (n : nat) (script : list (io_error + N))
  : res io_error unit * list N * list (io_error + N) :=
  match n with
  | O => (Ok tt, [], script)
  | S n' =>
      match script with
      | [] => (Err EndOfData, [], [])
      | inl e :: script' => (Err e, [], script')
      | inr b :: script' =>
          let '(x, got, script'') := read_custom_all n' script' in
          (x, b :: got, script'')
      end
  end.

Fixpoint read_all (n : N) (r : reader) : res io_error unit * list N * reader :=
  match r with
  | RByteArray a o =>
      let '(x, got, o') := mem_read_all n a o in (x, got, RByteArray a o')
  | RVec v o =>
      let '(x, got, o') := vecr_read_all n v o in (x, got, RVec v o')
  | RLimited src avail =>
      (* can_read, src/io/mod.rs:234-240 *)
      if avail <? n then (Err UnableToReadData, [], r)
      else let '(x, got, src') := read_all n src in
           (x, got, RLimited src' (if is_ok x then avail - n else avail))
  | RRead data sched =>
      let '(x, got, data', sched') := read_exact n data sched in
      (map_err IOErrorStd x, got, RRead data' sched')
  | RSeek s =>
      let '(x, got, s') := seek_read_all n s in (x, got, RSeek s')
  | RCustom script =>
      (* a buffer longer than the script fails at its end; the minimum keeps
         the recursion on the script *)
      let '(x, got, script') :=
        read_custom_all (N.to_nat (N.min n (lenN script + 1))) script in
      (x, got, RCustom script')
  end.

(** Reader::read: src/io/mod.rs:279-286, src/io/array/mod.rs:141-146, 230-235,
    src/io/std_io/mod.rs:108-114, 174-178. *)
Fixpoint read (r : reader) : res io_error N * reader :=
  match r with
  | RByteArray a o => let '(x, o') := mem_read a o in (x, RByteArray a o')
  | RVec v o => let '(x, o') := vecr_read v o in (x, RVec v o')
  | RLimited src avail =>
      if avail <? 1 then (Err UnableToReadData, r)
      else let '(x, src') := read src in
           (x, RLimited src' (if is_ok x then avail - 1 else avail))
  | RRead data sched =>
      let '(x, got, data', sched') := read_exact 1 data sched in
      (match x with
       | Ok _ => Ok (hd 0 got)
       | Err k => Err (IOErrorStd k)
       | Panic => Panic
       | OutOfFuel => OutOfFuel
       end, RRead data' sched')
  | RSeek s =>
      let '(x, got, s') := seek_read_all 1 s in
      (map_ok (fun _ => hd 0 got) x, RSeek s')
  | RCustom script =>
      match script with
      | [] => (Err EndOfData, RCustom [])
      | inl e :: script' => (Err e, RCustom script')
      | inr b :: script' => (Ok b, RCustom script')
      end
  end.

(** Number of bytes a reader can still deliver at most; bounds loop iterations. *)
Fixpoint left (r : reader) : nat :=
  match r with
  | RByteArray a o => length a - N.to_nat o
  | RVec v o => length v - N.to_nat o
  | RLimited src _ => left src
  | RRead data _ => length data
  | RSeek s => length (sk_data s) - N.to_nat (sk_pos s)
  | RCustom script => length script
  end%nat.

(** Default Reader::skip, src/io/mod.rs:113-122. *)
Fixpoint skip_loop (fuel : nat) (count : N) (r : reader) : res io_error unit * reader :=
  if count =? 0 then (Ok tt, r)
  else match fuel with
       | O => (OutOfFuel, r)
       | S f =>
           let chunk := N.min count 512 in
           let '(x, _, r') := read_all chunk r in
           match x with
           | Ok _ => skip_loop f (count - chunk) r'
           | Err e => (Err e, r')
           | Panic => (Panic, r')
           | OutOfFuel => (OutOfFuel, r')
           end
       end.
Definition skip_default (count : N) (r : reader) : res io_error unit * reader :=
  skip_loop (S (left r)) count r.

(** Reader::skip_u64 for [Read + Seek], src/io/std_io/mod.rs:191-209. *)
Definition seek_skip_u64 (c : cfg) (count : N) : seekable -> res io_error unit * seekable :=
  if count =? 0 then ret tt
  else curr_pos <- seek_q SeekCurrent0 ;;
       end_pos <- seek_q SeekEnd0 ;;
       if curr_pos =? end_pos then fail EndOfData
       else new_pos <- (fun s => (add_u64 c curr_pos count, s)) ;;
            if new_pos <=? end_pos
            then (_ <- seek_q (SeekStart new_pos) ;; ret tt)
            else fail UnableToReadData.

(** Reader::skip: memory readers override it (src/io/array/mod.rs:155-159,
    245-249), [Read + Seek] overrides it (src/io/std_io/mod.rs:187-189), the
    others use the default. *)
Definition skip (c : cfg) (count : N) (r : reader) : res io_error unit * reader :=
  match r with
  | RByteArray a o => let '(x, o') := mem_skip count (lenN a) o in (x, RByteArray a o')
  | RVec v o => let '(x, o') := vecr_skip count v o in (x, RVec v o')
  | RSeek s => let '(x, s') := seek_skip_u64 c count s in (x, RSeek s')
  | _ => skip_default count r
  end.

(** Default Reader::skip_u64, src/io/mod.rs:142-150. *)
Fixpoint skip_u64_loop (c : cfg) (fuel : nat) (count : N) (r : reader)
  : res io_error unit * reader :=
  if count =? 0 then (Ok tt, r)
  else match fuel with
       | O => (OutOfFuel, r)
       | S f =>
           let step := N.min count (usize_max c) in
           match skip c step r with
           | (Ok _, r') => skip_u64_loop c f (count - step) r'
           | (Err e, r') => (Err e, r')
           | (Panic, r') => (Panic, r')
           | (OutOfFuel, r') => (OutOfFuel, r')
           end
       end.

(** Reader::skip_u64: overridden only for [Read + Seek]. *)
Definition skip_u64 (c : cfg) (count : N) (r : reader) : res io_error unit * reader :=
  match r with
  | RSeek s => let '(x, s') := seek_skip_u64 c count s in (x, RSeek s')
  | _ => skip_u64_loop c (S (left r)) count r
  end.

(** LimitedReader::goto_end, src/io/mod.rs:256-266. *)
Definition goto_end (c : cfg) (src : reader) (avail : N) : res io_error unit * reader * N :=
  if 0 <? avail
  then let '(x, src') := skip c avail src in
       (x, src', if is_ok x then 0 else avail)
  else (Ok tt, src, avail).

(** The reader a LimitedReader borrowed, given back when the LimitedReader goes
    out of scope (src/tags/standard/factory/mod.rs:170); nothing can change which reader it wraps. *)
Definition unlimit (r : reader) : reader :=
  match r with RLimited src _ => src | _ => r end.
(** LimitedReader::empty, src/io/mod.rs:273-275. *)
Definition limit_empty (r : reader) : bool :=
  match r with RLimited _ avail => avail =? 0 | _ => false end.

(** ** SizedSeek, src/io/std_io/mod.rs:56-86 *)
Definition sized_len : seekable -> res io_error N * seekable :=
  curr <- seek_q SeekCurrent0 ;;
  end_ <- seek_q SeekEnd0 ;;
  _ <- seek_q (SeekStart curr) ;;
  ret end_.
Definition sized_is_empty : seekable -> res io_error bool * seekable :=
  l <- sized_len ;; ret (l =? 0).
Definition sized_offset : seekable -> res io_error N * seekable :=
  p <- seek_q SeekCurrent0 ;; ret p.
Definition sized_available (c : cfg) : seekable -> res io_error N * seekable :=
  l <- sized_len ;;
  o <- sized_offset ;;
  (fun s => (sub_u64 c l o, s)).

(** ** Writers
    - [WVec v o ro]: [VecWriter], src/io/array/mod.rs:350-399
    - [WBorrowed v init o ro]: [BorrowedVecWriter], src/io/array/mod.rs:411-455
    - [WArray a o]: [ByteArrayWriter], src/io/array/mod.rs:464-530
    - [WWrite out sched]: [WriteWriter], src/io/std_io/mod.rs:129-164, over a
      [std::io::Write] that has received [out]
    - [WSeek data pos sched]: the blanket implementation for [Write + Seek],
      src/io/std_io/mod.rs:216-235, over a seekable sink
    - [WCustom out script]: a user type implementing only [Writer::write];
      each call pops [script]: [Some e] fails with [e], [None] or the end of
      the script accepts the byte. *)
Inductive writer : Type :=
| WVec (vector : list N) (offset : N) (read_only : bool)
| WBorrowed (vector : list N) (initial_offset offset : N) (read_only : bool)
| WArray (array : list N) (offset : N)
| WWrite (out : list N) (sched : list event)
| WSeek (data : list N) (pos : N) (sched : list event)
| WCustom (out : list N) (script : list (option io_error)).

(** VecWriter::new / with_capacity, src/io/array/mod.rs:359-378;
    BorrowedVecWriter::new / with_offset, 424-443; ByteArrayWriter::new, 474.  The
    accessors of the vector writers (src/io/array/mod.rs:262-264, 277-279, 305-312)
    give the arguments of the constructor; [as_writer], 340-342, is the writer. *)
Definition VecWriter_new : writer := WVec [] 0 false.
Definition BorrowedVecWriter_with_offset (v : list N) (offset : N) : writer :=
  let curr_offs := N.min offset (lenN v) in WBorrowed v curr_offs curr_offs false.
Definition BorrowedVecWriter_new (v : list N) : writer := BorrowedVecWriter_with_offset v 0.
Definition ByteArrayWriter_new (a : list N) : writer := WArray a 0.

(** can_write, src/io/array/mod.rs:296-302. *)
Definition vec_can_write (read_only : bool) : res io_error unit :=
  if read_only then Err UnableToWriteData else Ok tt.

(** Writer::write of the vector writers, src/io/array/mod.rs:318-327. *)
Definition vec_write (b : N) (v : list N) (o : N) (ro : bool) : res io_error unit * list N * N :=
  match vec_can_write ro with
  | Ok _ =>
      if o =? lenN v then (Ok tt, v ++ [b], o + 1)
      else match copy_into v o (o + 1) [b] with
           | Ok v' => (Ok tt, v', o + 1)
           | Err e => (Err e, v, o)
           | Panic => (Panic, v, o)
           | OutOfFuel => (OutOfFuel, v, o)
           end
  | Err e => (Err e, v, o)
  | Panic => (Panic, v, o)
  | OutOfFuel => (OutOfFuel, v, o)
  end.

(** Writer::write_all of the vector writers, src/io/array/mod.rs:329-338. *)
Definition vec_write_all (bs : list N) (v : list N) (o : N) (ro : bool)
  : res io_error unit * list N * N :=
  match vec_can_write ro with
  | Ok _ =>
      let new_offset := o + lenN bs in
      let v1 := if lenN v <? new_offset then resizeN new_offset 0 v else v in
      match copy_into v1 o new_offset bs with
      | Ok v' => (Ok tt, v', new_offset)
      | Err e => (Err e, v1, o)
      | Panic => (Panic, v1, o)
      | OutOfFuel => (OutOfFuel, v1, o)
      end
  | Err e => (Err e, v, o)
  | Panic => (Panic, v, o)
  | OutOfFuel => (OutOfFuel, v, o)
  end.

(** ByteArrayWriter::available and can_write, src/io/array/mod.rs:499-509. *)
Definition arr_can_write (len offset n : N) : res io_error unit :=
  match mem_available len offset with
  | Ok x => if n <=? x then Ok tt else Err UnableToWriteData
  | Err e => Err e
  | Panic => Panic
  | OutOfFuel => OutOfFuel
  end.

(** ByteArrayWriter::write, src/io/array/mod.rs:513-518. *)
Definition arr_write (b : N) (a : list N) (o : N) : res io_error unit * list N * N :=
  match arr_can_write (lenN a) o 1 with
  | Ok _ =>
      match copy_into a o (o + 1) [b] with
      | Ok a' => (Ok tt, a', o + 1)
      | Err e => (Err e, a, o)
      | Panic => (Panic, a, o)
      | OutOfFuel => (OutOfFuel, a, o)
      end
  | Err e => (Err e, a, o)
  | Panic => (Panic, a, o)
  | OutOfFuel => (OutOfFuel, a, o)
  end.

(** ByteArrayWriter::write_all, src/io/array/mod.rs:520-525. *)
Definition arr_write_all (bs a : list N) (o : N) : res io_error unit * list N * N :=
  match arr_can_write (lenN a) o (lenN bs) with
  | Ok _ =>
      match copy_into a o (o + lenN bs) bs with
      | Ok a' => (Ok tt, a', o + lenN bs)
      | Err e => (Err e, a, o)
      | Panic => (Panic, a, o)
      | OutOfFuel => (OutOfFuel, a, o)
      end
  | Err e => (Err e, a, o)
  | Panic => (Panic, a, o)
  | OutOfFuel => (OutOfFuel, a, o)
  end.

(** One call of [std::io::Write::write]: how many bytes it takes. *)
Definition std_write (bs : list N) (sched : list event) : res stdio_kind N * list event :=
  match sched with
  | [] => (Ok (lenN bs), [])
  | Chunk c :: s => (Ok (N.min c (lenN bs)), s)
  | Interrupt :: s => (Err Interrupted, s)
  | Fail k :: s => (Err k, s)
  | Whole :: s => (Ok (lenN bs), s)
  end.

(** WriteWriter::write, src/io/std_io/mod.rs:144-151: one call to [write]. *)
Definition ww_write (b : N) (out : list N) (sched : list event)
  : res io_error unit * list N * list event :=
  let '(x, sched') := std_write [b] sched in
  match x with
  | Ok n => (if n =? 1 then Ok tt else Err UnableToWriteData, out ++ takeN n [b], sched')
  | Err k => (Err (IOErrorStd k), out, sched')
  | Panic => (Panic, out, sched')
  | OutOfFuel => (OutOfFuel, out, sched')
  end.

(** WriteWriter::write_all, src/io/std_io/mod.rs:153-159: one call to [write]. *)
Definition ww_write_all (bs out : list N) (sched : list event)
  : res io_error unit * list N * list event :=
  let '(x, sched') := std_write bs sched in
  match x with
  | Ok n => (if n =? lenN bs then Ok tt else Err UnableToWriteData, out ++ takeN n bs, sched')
  | Err k => (Err (IOErrorStd k), out, sched')
  | Panic => (Panic, out, sched')
  | OutOfFuel => (OutOfFuel, out, sched')
  end.

(** [std::io::Write::write_all] (std's default): repeat [write] until nothing
    is left; [Ok(0)] is [WriteZero], [Interrupted] is retried.  Returns how
    many bytes were taken. *)
Fixpoint std_write_all (bs : list N) (sched : list event)
  : res stdio_kind unit * list N * list event :=
  match bs with
  | [] => (Ok tt, [], sched)
  | _ :: _ =>
      match sched with
      | [] => (Ok tt, bs, [])
      | Interrupt :: s => std_write_all bs s
      | Fail k :: s => (Err k, [], s)
      | Whole :: s => (Ok tt, bs, s)
      | Chunk c :: s =>
          let now := takeN c bs in
          if lenN now =? 0 then (Err WriteZero, [], s)
          else let '(x, more, s') := std_write_all (dropN (lenN now) bs) s in
               (x, now ++ more, s')
      end
  end.

(** Storing bytes at a position of a seekable sink, padding with zeros when the
    position is past the end (as files and [Cursor<Vec<u8>>] do). *)
Definition store (data : list N) (pos : N) (bs : list N) : list N :=
  match bs with
  | [] => data
  | _ => takeN pos data ++ repeatN 0 (pos - lenN data) ++ bs ++ dropN (pos + lenN bs) data
  end.

(** Default Writer::write_all, src/io/mod.rs:184-189, over a user [write]. *)
Fixpoint custom_write_all (bs out : list N) (script : list (option io_error))
  : res io_error unit * list N * list (option io_error) :=
  match bs with
  | [] => (Ok tt, out, script)
  | b :: bs' =>
      match script with
      | Some e :: s => (Err e, out, s)
      | None :: s => custom_write_all bs' (out ++ [b]) s
      | [] => custom_write_all bs' (out ++ [b]) []
      end
  end.

(** Writer::write_all. *)
Definition write_all (bs : list N) (w : writer) : res io_error unit * writer :=
  match w with
  | WVec v o ro =>
      let '(x, v', o') := vec_write_all bs v o ro in (x, WVec v' o' ro)
  | WBorrowed v i o ro =>
      let '(x, v', o') := vec_write_all bs v o ro in (x, WBorrowed v' i o' ro)
  | WArray a o =>
      let '(x, a', o') := arr_write_all bs a o in (x, WArray a' o')
  | WWrite out sched =>
      let '(x, out', sched') := ww_write_all bs out sched in (x, WWrite out' sched')
  | WSeek data pos sched =>
      let '(x, put, sched') := std_write_all bs sched in
      (match x with
       | Ok _ => Ok tt
       | Err _ => Err UnableToWriteData
       | Panic => Panic
       | OutOfFuel => OutOfFuel
       end, WSeek (store data pos put) (pos + lenN put) sched')
  | WCustom out script =>
      let '(x, out', script') := custom_write_all bs out script in (x, WCustom out' script')
  end.

(** Writer::write. *)
Definition write (b : N) (w : writer) : res io_error unit * writer :=
  match w with
  | WVec v o ro =>
      let '(x, v', o') := vec_write b v o ro in (x, WVec v' o' ro)
  | WBorrowed v i o ro =>
      let '(x, v', o') := vec_write b v o ro in (x, WBorrowed v' i o' ro)
  | WArray a o =>
      let '(x, a', o') := arr_write b a o in (x, WArray a' o')
  | WWrite out sched =>
      let '(x, out', sched') := ww_write b out sched in (x, WWrite out' sched')
  | WSeek _ _ _ =>
      (* src/io/std_io/mod.rs:220-223 calls write_all *)
      write_all [b] w
  | WCustom out script =>
      match script with
      | Some e :: s => (Err e, WCustom out s)
      | None :: s => (Ok tt, WCustom (out ++ [b]) s)
      | [] => (Ok tt, WCustom (out ++ [b]) [])
      end
  end.

(** set_offset / set_read_only, src/io/array/mod.rs:272-274, 285-287 and
    493-495. *)
Definition set_offset (offset : N) (w : writer) : writer :=
  match w with
  | WVec v _ ro => WVec v (N.min offset (lenN v)) ro
  | WBorrowed v i _ ro => WBorrowed v i (N.min offset (lenN v)) ro
  | WArray a _ => WArray a (N.min offset (lenN a))
  | _ => w
  end.
Definition set_read_only (ro : bool) (w : writer) : writer :=
  match w with
  | WVec v o _ => WVec v o ro
  | WBorrowed v i o _ => WBorrowed v i o ro
  | _ => w
  end.
(** BorrowedVecWriter::bytes_written, src/io/array/mod.rs:448-450. *)
Definition bytes_written (c : cfg) (initial_offset offset : N) : res io_error N :=
  sub_usize c offset initial_offset.

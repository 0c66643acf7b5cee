(** The test vectors of the project's own unit tests, run on the model: the
    modules [ilint], [io], [io::array], [io::std_io] and [io::data].  Each
    example cites the test it transcribes.  These are tests of the model, not
    proofs of properties: they compare the model with results which the
    project's authors observed on the real code. *)
From Verif Require Import Base Types IO Hist ILInt Data.

(** A 64-bit machine with overflow checks, as [cargo test] builds it. *)
Definition c64 : cfg := Cfg true u64_max.
Definition iota (n : nat) : list N := map N.of_nat (seq 0 n).
Definition drop_last (l : list N) : list N := removelast l.
Definition fst_is {E A B} (p : res E A -> bool) (x : res E A * B) : bool := p (fst x).
Definition is_err {E A} (x : res E A) : bool := match x with Err _ => true | _ => false end.
Definition is_ilint_io {A} (x : res ilint_error A) : bool :=
  match x with Err (ILIntIO _) => true | _ => false end.
Definition leqb (a b : list N) : bool := if list_eq_dec N.eq_dec a b then true else false.
Definition vec_of (w : writer) : list N :=
  match w with WVec v _ _ | WBorrowed v _ _ _ | WArray v _ => v | WWrite out _ => out | WSeek d _ _ => d | WCustom o _ => o end.
Definition read_only_writer : writer := set_read_only true VecWriter_new.
Definition enc (v : N) : list N := vec_of (snd (encode v VecWriter_new)).

(** ** src/ilint/tests.rs *)
(** SAMPLE_VALUES, src/ilint/tests.rs:56-123. *)
Definition ilint_samples : list (N * list N) :=
  [ (0xF7, [0xF7]);
    (0xF8, [0xF8; 0x00]);
    (0x021B, [0xF9; 0x01; 0x23]);
    (0x01243D, [0xFA; 0x01; 0x23; 0x45]);
    (0x0123465F, [0xFB; 0x01; 0x23; 0x45; 0x67]);
    (0x0123456881, [0xFC; 0x01; 0x23; 0x45; 0x67; 0x89]);
    (0x012345678AA3, [0xFD; 0x01; 0x23; 0x45; 0x67; 0x89; 0xAB]);
    (0x123456789ACC5, [0xFE; 0x01; 0x23; 0x45; 0x67; 0x89; 0xAB; 0xCD]);
    (0x123456789ABCEE7, [0xFF; 0x01; 0x23; 0x45; 0x67; 0x89; 0xAB; 0xCD; 0xEF]);
    (0xFFFFFFFFFFFFFFFF, [0xFF; 0xFF; 0xFF; 0xFF; 0xFF; 0xFF; 0xFF; 0xFF; 0x07]) ].
Definition filler : N := 0xA5.
Definition padded (l : list N) : list N := l ++ repeat filler (10 - length l).

(** test_encoded_size, src/ilint/tests.rs:130-150. *)
Example test_encoded_size :
  map encoded_size
    [0; ILINT_BASE - 1; ILINT_BASE; ILINT_BASE + 0xFF; ILINT_BASE + 0x100; ILINT_BASE + 0xFFFF;
     ILINT_BASE + 0x10000; ILINT_BASE + 0xFFFFFF; ILINT_BASE + 0x1000000; ILINT_BASE + 0xFFFFFFFF;
     ILINT_BASE + 0x100000000; ILINT_BASE + 0xFFFFFFFFFF; ILINT_BASE + 0x10000000000;
     ILINT_BASE + 0xFFFFFFFFFFFF; ILINT_BASE + 0x1000000000000; ILINT_BASE + 0xFFFFFFFFFFFFFF;
     ILINT_BASE + 0x100000000000000; 0xFFFFFFFFFFFFFFFF]
  = [1; 1; 2; 2; 3; 3; 4; 4; 5; 5; 6; 6; 7; 7; 8; 8; 9; 9].
Proof. vm_compute. reflexivity. Qed.

(** test_encode, src/ilint/tests.rs:152-182. *)
Example test_encode_one_byte :
  forallb (fun i => leqb (enc i) [i] && fst_is is_err (encode i read_only_writer)) (iota 0xF8) = true.
Proof. vm_compute. reflexivity. Qed.
Example test_encode_samples :
  forallb (fun '(v, e) => leqb (enc v) e && (encoded_size v =? lenN e)
                          && fst_is is_err (encode v read_only_writer)) ilint_samples = true.
Proof. vm_compute. reflexivity. Qed.

(** test_decoded_size, src/ilint/tests.rs:184-197. *)
Example test_decoded_size :
  map decoded_size (iota 256) = repeat 1 0xF8 ++ [2; 3; 4; 5; 6; 7; 8; 9].
Proof. vm_compute. reflexivity. Qed.

(** test_decode_body, src/ilint/tests.rs:199-222. *)
Example test_decode_body :
  forallb (fun '(v, e) => match tl e with
                          | [] => true
                          | body => match decode_body body with Ok x => x =? v | _ => false end
                          end) ilint_samples = true
  /\ decode_body [] = Err InvalidFormat /\ decode_body (repeat 0 9) = Err InvalidFormat.
Proof. vm_compute. auto. Qed.

(** test_decode_from_bytes, src/ilint/tests.rs:224-254. *)
Example test_decode_from_bytes :
  forallb (fun '(v, e) =>
    let good x := match x with Ok (x, n) => (x =? v) && (n =? lenN e) | _ => false end in
    good (decode_from_bytes (padded e)) && good (decode_from_bytes e)
    && ((lenN e =? 1)
        || match decode_from_bytes (drop_last e) with Err InvalidFormat => true | _ => false end))
    ilint_samples = true
  /\ decode_from_bytes [] = Err InvalidFormat.
Proof. vm_compute. auto. Qed.

(** test_decode, src/ilint/tests.rs:256-309. *)
Example test_decode_one_byte :
  forallb (fun i => match decode (ByteArrayReader_new [i]) with
                    | (Ok v, RByteArray _ 1) => v =? i | _ => false end) (iota 0xF8) = true.
Proof. vm_compute. reflexivity. Qed.
Example test_decode_samples :
  forallb (fun '(v, e) => match decode (ByteArrayReader_new e) with
                          | (Ok x, RByteArray _ o) => (x =? v) && (o =? lenN e) | _ => false end)
    ilint_samples = true.
Proof. vm_compute. reflexivity. Qed.
Example test_decode_truncated :
  forallb (fun size =>
    forallb (fun bad_size =>
      fst_is is_ilint_io (decode (ByteArrayReader_new (firstn bad_size ((ILINT_BASE + N.of_nat size - 2) :: repeat 0 8)))))
      (seq 0 size)) (seq 2 8) = true.
Proof. vm_compute. reflexivity. Qed.
Example test_decode_overflow :
  forallb (fun last => match fst (decode (ByteArrayReader_new (repeat 0xFF 8 ++ [last]))) with
                       | Err ValueOverflow => true | _ => false end)
    (map N.of_nat (seq 8 248)) = true.
Proof. vm_compute. reflexivity. Qed.

(** test_encode_sign and test_decode_sign, src/ilint/tests.rs:311-340. *)
Example test_encode_sign :
  map encode_sign [0; 1; 0x7FFFFFFFFFFFFFFF; -1; -2; -9223372036854775808]%Z
  = [0; 2; 0xFFFFFFFFFFFFFFFE; 1; 3; 0xFFFFFFFFFFFFFFFF].
Proof. vm_compute. reflexivity. Qed.
Example test_decode_sign :
  map decode_sign [0; 2; 0xFFFFFFFFFFFFFFFE; 1; 3; 0xFFFFFFFFFFFFFFFF]
  = [0; 1; 0x7FFFFFFFFFFFFFFF; -1; -2; -9223372036854775808]%Z.
Proof. vm_compute. reflexivity. Qed.

(** SIGNED_SAMPLES, src/ilint/tests.rs:341-351; the tests of 353-410, and of
    src/io/data/tests.rs:739-829 (the traits only forward to the functions). *)
Definition signed_samples : list Z :=
  [9223372036854775807; 4294967295; 2; 1; 0; -1; -2; -4294967295; -9223372036854775808]%Z.
Example test_signed :
  forallb (fun s =>
    let out := vec_of (snd (signed_encode s VecWriter_new)) in
    (decode_sign (encode_sign s) =? s)%Z
    && (signed_encoded_size s =? encoded_size (encode_sign s))
    && leqb out (enc (encode_sign s))
    && leqb out (vec_of (snd (write_signed_ilint s VecWriter_new)))
    && fst_is is_err (write_signed_ilint s read_only_writer)
    && match fst (signed_decode (ByteArrayReader_new out)) with Ok x => (x =? s)%Z | _ => false end
    && match fst (read_signed_ilint (ByteArrayReader_new out)) with Ok x => (x =? s)%Z | _ => false end
    && fst_is is_ilint_io (signed_decode (ByteArrayReader_new (drop_last out)))
    && fst_is is_err (read_signed_ilint (ByteArrayReader_new (drop_last out))))
    signed_samples = true.
Proof. vm_compute. reflexivity. Qed.

(** ** src/io/tests.rs *)
(** DummyReader, src/io/tests.rs:49-74: [n] bytes counting from 0, then errors. *)
Definition dummy_reader (n : nat) : reader := RCustom (map inr (iota n) ++ [inl UnableToReadData]).

(** test_limitedreader_can_read, 147-159, as reads of that many bytes. *)
Example test_limitedreader_can_read :
  map (fun n => is_ok (fst (fst (read_all n (LimitedReader_new (dummy_reader 10) 10))))) (iota 12)
  = repeat true 11 ++ [false]
  /\ fst (fst (read_all 11 (LimitedReader_new (dummy_reader 10) 10))) = Err UnableToReadData.
Proof. vm_compute. auto. Qed.

(** test_limitedreader_empty, 171-183, and test_limitedreader_read, 207-226. *)
Example test_limitedreader_read :
  run_rops c64 (repeat OpRead 6) (LimitedReader_new (dummy_reader 10) 5)
  = (map (fun i => Bytes [i]) (iota 5) ++ [Failed UnableToReadData],
     RLimited (RCustom (map inr [5; 6; 7; 8; 9] ++ [inl UnableToReadData])) 0)
  /\ map (fun n => limit_empty (snd (run_rops c64 (repeat OpRead n) (LimitedReader_new (dummy_reader 10) 5)))) (seq 0 6)
     = repeat false 5 ++ [true].
Proof. vm_compute. auto. Qed.

(** test_limitedreader_goto_end, 186-205. *)
Example test_limitedreader_goto_end :
  forallb (fun i => match goto_end c64 (dummy_reader 10) i with
                    | (Ok _, RCustom script, 0) => lenN script =? 11 - i
                    | _ => false
                    end) (iota 10) = true
  /\ goto_end c64 (dummy_reader 10) 11 = (Err UnableToReadData, RCustom [], 11).
Proof. vm_compute. auto. Qed.

(** test_limitedreader_read_all, 238-278. *)
Example test_limitedreader_read_all :
  fst (run_rops c64 (map OpReadAll [0; 1; 3; 2; 1; 0; 1]) (LimitedReader_new (dummy_reader 10) 5))
  = [Bytes []; Bytes [0]; Bytes [1; 2; 3]; Failed UnableToReadData; Bytes [4]; Bytes []; Failed UnableToReadData].
Proof. vm_compute. reflexivity. Qed.

(** ** src/io/std_io/tests.rs *)
(** A [std::io::Cursor]: [read_exact] on it takes everything or nothing. *)
Definition cursor (data : list N) : reader := RRead data (repeat Whole 64).
Definition seek_cursor (data : list N) : reader := RSeek (Seekable data 0 (repeat Whole 64) []).
Definition blind (o : outcome) : outcome := match o with Failed _ => Failed EndOfData | _ => o end.

(** test_readreader_read, 290-306; test_readreader_read_all, 308-343. *)
Example test_readreader_read :
  fst (run_rops c64 (repeat OpRead 11) (cursor (iota 10)))
  = map (fun i => Bytes [i]) (iota 10) ++ [Failed (IOErrorStd UnexpectedEof)].
Proof. vm_compute. reflexivity. Qed.
Example test_readreader_read_all :
  fst (run_rops c64 (map OpReadAll [0; 5; 4; 2; 1; 0; 1]) (cursor (iota 10)))
  = [Bytes []; Bytes [0; 1; 2; 3; 4]; Bytes [5; 6; 7; 8]; Failed (IOErrorStd UnexpectedEof); Bytes [9];
     Bytes []; Failed (IOErrorStd UnexpectedEof)].
Proof. vm_compute. reflexivity. Qed.

(** test_writewriter_*, 348-399. *)
Example test_writewriter :
  snd (run_wops (map OpWrite (iota 10)) (WWrite [] [])) = WWrite (iota 10) []
  /\ run_wops [OpWriteAll [0]; OpWriteAll [1; 2; 3; 4; 5; 6; 7; 8]; OpWriteAll [9]] (WWrite [] [])
     = ([Done; Done; Done], WWrite (iota 10) []).
Proof. vm_compute. auto. Qed.

(** test_reader_for_read_seek_*, 404-485. *)
Example test_reader_for_read_seek_read :
  fst (run_rops c64 (repeat OpRead 5) (seek_cursor [1; 2; 3; 4]))
  = [Bytes [1]; Bytes [2]; Bytes [3]; Bytes [4]; Failed UnableToReadData].
Proof. vm_compute. reflexivity. Qed.
Example test_reader_for_read_seek_read_all :
  fst (run_rops c64 (map OpReadAll [4; 0; 1]) (seek_cursor [1; 2; 3; 4]))
  = [Bytes [1; 2; 3; 4]; Bytes []; Failed UnableToReadData]
  /\ fst (run_rops c64 (map OpReadAll [2; 2; 1]) (seek_cursor [1; 2; 3; 4]))
     = [Bytes [1; 2]; Bytes [3; 4]; Failed UnableToReadData]
  /\ fst (run_rops c64 [OpReadAll 5] (seek_cursor [1; 2; 3; 4])) = [Failed UnableToReadData].
Proof. vm_compute. auto. Qed.
Example test_reader_for_read_seek_skip :
  forallb (fun skip_op =>
    match fst (run_rops c64 [skip_op 2; OpRead; skip_op 1; skip_op 1] (seek_cursor [1; 2; 3; 4])),
          fst (run_rops c64 [skip_op 2] (seek_cursor [1])) with
    | [Done; Bytes [3]; Done; Failed EndOfData], [Failed UnableToReadData] => true
    | _, _ => false
    end) [OpSkip; OpSkipU64] = true.
Proof. vm_compute. reflexivity. Qed.

(** test_writer_write_seek_*, 489-526. *)
Example test_writer_write_seek :
  run_wops (map OpWrite [1; 2; 3; 4]) (WSeek [] 0 []) = ([Done; Done; Done; Done], WSeek [1; 2; 3; 4] 4 [])
  /\ run_wops [OpWriteAll [1; 2; 3; 4]] (WSeek [] 0 []) = ([Done], WSeek [1; 2; 3; 4] 4 []).
Proof. vm_compute. auto. Qed.

(** ** src/io/array/tests.rs *)
(** test_memoryreader, 75-99. *)
Example test_memoryreader :
  map (mem_can_read 0 0) [0; 3] = [Ok tt; Err EndOfData]
  /\ map (mem_can_read 2 0) [0; 1; 2; 3] = [Ok tt; Ok tt; Ok tt; Err UnableToReadData]
  /\ map (mem_can_read 2 2) [0; 3] = [Ok tt; Err EndOfData]
  /\ map (fun '(o, l) => mem_available l o) [(0, 0); (0, 2); (2, 2)] = [Ok 0; Ok 2; Ok 0].
Proof. vm_compute. auto. Qed.

(** test_bytearrayreader_* and test_vecreader_*, 105-368: the two readers are
    tested with the same calls. *)
Definition array_readers : list (list N -> reader) := [ByteArrayReader_new; VecReader_new].
Definition offset_of (r : reader) : N :=
  match r with RByteArray _ o | RVec _ o => o | _ => 0 end.
Definition all_readers (data : list N) (p : reader -> bool) : bool :=
  forallb (fun f => p (f data)) array_readers.
Example test_memory_set_offset :
  all_readers (iota 8) (fun r =>
    forallb (fun i => offset_of (snd (run_rop c64 (OpSetOffset i) r)) =? i) (iota 9)
    && forallb (fun i => offset_of (snd (run_rop c64 (OpSetOffset i) r)) =? 8) [9; usize_max c64]) = true.
Proof. vm_compute. reflexivity. Qed.
Example test_memory_can_read :
  map (mem_can_read 8 0) (iota 9) = repeat (Ok tt) 9 /\ mem_can_read 8 0 10 = Err UnableToReadData
  /\ map (vecr_can_read (iota 8) 0) (iota 9) = repeat (Ok tt) 9
  /\ vecr_can_read (iota 8) 0 10 = Err UnableToReadData.
Proof. vm_compute. auto. Qed.
Example test_memory_read :
  map (fun f => fst (run_rops c64 (repeat OpRead 9) (f (iota 8)))) array_readers
  = repeat (map (fun i => Bytes [i]) (iota 8) ++ [Failed EndOfData]) 2.
Proof. vm_compute. reflexivity. Qed.
Example test_memory_readall :
  map (fun f => fst (run_rops c64 (map OpReadAll [0; 1; 2; 3; 4; 5; 5]) (f (iota 20)))) array_readers
  = repeat [Bytes []; Bytes [0]; Bytes [1; 2]; Bytes [3; 4; 5]; Bytes [6; 7; 8; 9];
            Bytes [10; 11; 12; 13; 14]; Bytes [15; 16; 17; 18; 19]] 2.
Proof. vm_compute. reflexivity. Qed.
Example test_memory_skip :
  map (fun f => let '(os, r) := run_rops c64 (map OpSkip [0; 1; 2; 3; 4; 5; 6; 5; 0; 1]) (f (iota 20)) in
                (os, offset_of r)) array_readers
  = repeat (repeat Done 6 ++ [Failed UnableToReadData; Done; Done; Failed EndOfData], 20) 2.
Proof. vm_compute. reflexivity. Qed.

(** test_vecwriter_*, 374-497. *)
Example test_vecwriter :
  VecWriter_new = WVec [] 0 false
  /\ map vec_can_write [false; true] = [Ok tt; Err UnableToWriteData]
  /\ snd (run_wops (map OpWrite (iota 10)) VecWriter_new) = WVec (iota 10) 10 false
  /\ run_wops [OpWriteAll (iota 8); OpWriteAll (iota 8)] VecWriter_new
     = ([Done; Done], WVec (iota 8 ++ iota 8) 16 false)
  /\ fst (run_wops [OpReadOnly true; OpWrite 1; OpReadOnly false; OpWrite 1] VecWriter_new)
     = [Done; Failed UnableToWriteData; Done; Done].
Proof. vm_compute. auto 10. Qed.

(** test_borrowedvecwriter_*, 502-668. *)
Definition written_by (w : writer) : res io_error N :=
  match w with WBorrowed _ i o _ => bytes_written c64 i o | _ => Panic end.
Definition woffset (w : writer) : N :=
  match w with WVec _ o _ | WBorrowed _ _ o _ | WArray _ o => o | _ => 0 end.
Example test_borrowedvecwriter_new :
  map (fun w => (woffset w, written_by w))
    [BorrowedVecWriter_new []; BorrowedVecWriter_with_offset [0; 1] 1; BorrowedVecWriter_with_offset [0; 1] 1000]
  = [(0, Ok 0); (1, Ok 0); (2, Ok 0)].
Proof. vm_compute. reflexivity. Qed.
Example test_borrowedvecwriter_write :
  map (fun n => written_by (snd (run_wops (map OpWrite (iota n)) (BorrowedVecWriter_new [])))) (seq 0 9)
  = map (fun n => Ok (N.of_nat n)) (seq 0 9)
  /\ vec_of (snd (run_wops (map OpWrite (iota 8)) (BorrowedVecWriter_new []))) = iota 8
  /\ map (fun n => written_by (snd (run_wops (map OpWrite (iota n)) (BorrowedVecWriter_with_offset [0xFF] 1)))) (seq 0 9)
     = map (fun n => Ok (N.of_nat n)) (seq 0 9)
  /\ vec_of (snd (run_wops (map OpWrite (iota 8)) (BorrowedVecWriter_with_offset [0xFF] 1))) = 0xFF :: iota 8.
Proof. vm_compute. auto. Qed.
Example test_borrowedvecwriter_write_all :
  forallb (fun v =>
    let w1 := snd (run_wops [OpWriteAll (iota 8)] (BorrowedVecWriter_new v)) in
    let w2 := snd (run_wops [OpWriteAll (iota 8)] w1) in
    match written_by w1, written_by w2 with Ok 8, Ok 16 => true | _, _ => false end
    && leqb (vec_of w2) (iota 8 ++ iota 8)) [[]; repeat 0 10] = true.
Proof. vm_compute. reflexivity. Qed.

(** test_bytearraywriter_*, 675-781. *)
Example test_bytearraywriter_offset :
  map (fun n => woffset (set_offset n (ByteArrayWriter_new (repeat 0 16)))) [0; 1; 16; 17] = [0; 1; 16; 16]
  /\ map (mem_available 16) [0; 1; 16] = [Ok 16; Ok 15; Ok 0].
Proof. vm_compute. auto. Qed.
Example test_bytearraywriter_can_write :
  map (fun '(o, n) => arr_can_write 16 o n)
    [(0, 0); (0, 1); (0, 16); (0, 17); (10, 0); (10, 1); (10, 6); (10, 7); (16, 0); (16, 7)]
  = [Ok tt; Ok tt; Ok tt; Err UnableToWriteData; Ok tt; Ok tt; Ok tt; Err UnableToWriteData; Ok tt;
     Err UnableToWriteData].
Proof. vm_compute. reflexivity. Qed.
Example test_bytearraywriter_write :
  run_wops (map OpWrite (iota 17)) (ByteArrayWriter_new (repeat 0 16))
  = (repeat Done 16 ++ [Failed UnableToWriteData], WArray (iota 16) 16)
  /\ run_wops (map OpWriteAll [[0]; [1; 2; 3; 4]; [5; 6; 7; 8; 9; 10; 11; 12; 13; 14; 15]; [0]])
       (ByteArrayWriter_new (repeat 0 16))
     = ([Done; Done; Done; Failed UnableToWriteData], WArray (iota 16) 16).
Proof. vm_compute. auto. Qed.

(** ** src/io/data/tests.rs *)
Definition times {E A} (n : nat) (f : reader -> res E A * reader) (r : reader) : list (res E A) :=
  (fix go n r := match n with O => [] | S n' => let '(x, r') := f r in x :: go n' r' end) n r.
Definition sample8 : list N := [0x01; 0x23; 0x45; 0x67; 0x89; 0xAB; 0xCD; 0xEF].
Definition sample16 : list N := sample8 ++ [0xFE; 0xDC; 0xBA; 0x98; 0x76; 0x54; 0x32; 0x10].
Definition ends {A} (l : list (res io_error A)) (exp : list A) : Prop :=
  firstn (length exp) l = map (@Ok io_error A) exp /\ map is_err (skipn (length exp) l) = [true].

(** test_int_data_reader_*, 51-111. *)
Example test_int_data_reader_unsigned :
  ends (times 9 (read_uint W8) (ByteArrayReader_new sample8)) sample8
  /\ ends (times 5 (read_uint W16) (ByteArrayReader_new sample8)) [0x0123; 0x4567; 0x89AB; 0xCDEF]
  /\ ends (times 3 (read_uint W32) (ByteArrayReader_new sample8)) [0x01234567; 0x89ABCDEF]
  /\ ends (times 3 (read_uint W64) (ByteArrayReader_new sample16)) [0x0123456789ABCDEF; 0xFEDCBA9876543210].
Proof. vm_compute. auto 10. Qed.
Example test_int_data_reader_signed :
  ends (times 9 (read_sint W8) (ByteArrayReader_new sample8)) [0x01; 0x23; 0x45; 0x67; -0x77; -0x55; -0x33; -0x11]%Z
  /\ ends (times 5 (read_sint W16) (ByteArrayReader_new sample8)) [0x0123; 0x4567; -0x7655; -0x3211]%Z
  /\ ends (times 3 (read_sint W32) (ByteArrayReader_new sample8)) [0x01234567; -0x76543211]%Z
  /\ ends (times 3 (read_sint W64) (ByteArrayReader_new sample16)) [0x0123456789ABCDEF; -0x123456789ABCDF0]%Z.
Proof. vm_compute. auto 10. Qed.

(** test_ilint_data_reader, 113-142, and test_ilint_data_writer, 391-419. *)
Definition ilint_stream : list N :=
  [0xF7; 0xF8; 0x00; 0xF9; 0x01; 0x23; 0xFA; 0x01; 0x23; 0x45; 0xFB; 0x01; 0x23; 0x45; 0x67;
   0xFC; 0x01; 0x23; 0x45; 0x67; 0x89; 0xFD; 0x01; 0x23; 0x45; 0x67; 0x89; 0xAB; 0xFE; 0x01;
   0x23; 0x45; 0x67; 0x89; 0xAB; 0xCD; 0xFF; 0xFF; 0xFF; 0xFF; 0xFF; 0xFF; 0xFF; 0xFF; 0x07].
Definition ilint_values : list N :=
  [0xF7; 0xF8; 0x021B; 0x01243D; 0x0123465F; 0x0123456881; 0x012345678AA3; 0x123456789ACC5; 0xFFFFFFFFFFFFFFFF].
Example test_ilint_data_reader :
  ends (times 10 read_ilint (ByteArrayReader_new (ilint_stream ++ [0xFF]))) ilint_values.
Proof. vm_compute. auto. Qed.
Definition puts {E A} (f : A -> writer -> res E unit * writer) (l : list A) (w : writer) : writer :=
  fold_left (fun w x => snd (f x w)) l w.
Example test_ilint_data_writer : vec_of (puts write_ilint ilint_values VecWriter_new) = ilint_stream.
Proof. vm_compute. reflexivity. Qed.

(** test_int_data_writer_*, 268-328. *)
Example test_int_data_writer :
  vec_of (puts (write_uint W8) sample8 VecWriter_new) = sample8
  /\ vec_of (puts (write_sint W8) [0x01; 0x23; 0x45; 0x67; -0x77; -0x55; -0x33; -0x11]%Z VecWriter_new) = sample8
  /\ vec_of (puts (write_uint W16) [0x0123; 0x4567; 0x89AB; 0xCDEF] VecWriter_new) = sample8
  /\ vec_of (puts (write_sint W16) [0x0123; 0x4567; -0x7655; -0x3211]%Z VecWriter_new) = sample8
  /\ vec_of (puts (write_uint W32) [0x01234567; 0x89ABCDEF] VecWriter_new) = sample8
  /\ vec_of (puts (write_sint W32) [0x01234567; -0x76543211]%Z VecWriter_new) = sample8
  /\ vec_of (puts (write_uint W64) [0x0123456789ABCDEF] VecWriter_new) = sample8
  /\ vec_of (puts (write_sint W64) [-0x7EDCBA9876543211]%Z VecWriter_new)
     = [0x81; 0x23; 0x45; 0x67; 0x89; 0xAB; 0xCD; 0xEF].
Proof. vm_compute. auto 12. Qed.

(** SAMPLE_VALUES_BIN and its values, src/io/data/test_samples.rs:36-65; test_datareader_trait_impl,
    542-590; test_datawriter_trait_impl, 644-690.  Floats by their bits. *)
Definition lagrimas : list N :=
  [0x4c; 0xc3; 0xa1; 0x67; 0x72; 0x69; 0x6d; 0x61; 0x73; 0x20; 0x6e; 0xc3; 0xa3; 0x6f; 0x20;
   0x73; 0xc3; 0xa3; 0x6f; 0x20; 0x61; 0x72; 0x67; 0x75; 0x6d; 0x65; 0x6e; 0x74; 0x6f; 0x73].
Definition sample_values_bin : list N :=
  iota 42 ++ lagrimas ++ [0xFF; 0x49; 0x4C; 0x49; 0x6E; 0x74; 0x56; 0x61; 0x6C].
Example test_datareader :
  (a <- read_uint W8 ;; b <- read_uint W16 ;; c <- read_uint W32 ;; d <- read_uint W64 ;;
   e <- read_sint W8 ;; f <- read_sint W16 ;; g <- read_sint W32 ;; h <- read_sint W64 ;;
   i <- read_f32 ;; j <- read_f64 ;; k <- read_string 30 ;; l <- read_ilint ;;
   ret ([a; b; c; d; i; j; l], [e; f; g; h], k)) (ByteArrayReader_new sample_values_bin)
  = (Ok ([0; 0x0102; 0x03040506; 0x0708090A0B0C0D0E; 0x1E1F2021; 0x2223242526272829; 0x494c496e74566264],
         [0x0f; 0x1011; 0x12131415; 0x161718191A1B1C1D]%Z, lagrimas),
     RByteArray sample_values_bin 81).
Proof. vm_compute. reflexivity. Qed.
Definition at_end : reader := RByteArray sample_values_bin 81.
Example test_datareader_errors :
  forallb (fun w => fst_is is_err (read_uint w at_end) && fst_is is_err (read_sint w at_end)) [W8; W16; W32; W64]
  && fst_is is_err (read_f32 at_end) && fst_is is_err (read_f64 at_end)
  && fst_is is_err (read_string 30 at_end) && fst_is is_err (read_ilint at_end) = true.
Proof. vm_compute. reflexivity. Qed.
Example test_datawriter :
  (_ <- write_uint W8 0 ;; _ <- write_uint W16 0x0102 ;; _ <- write_uint W32 0x03040506 ;;
   _ <- write_uint W64 0x0708090A0B0C0D0E ;; _ <- write_sint W8 0x0f ;; _ <- write_sint W16 0x1011 ;;
   _ <- write_sint W32 0x12131415 ;; _ <- write_sint W64 0x161718191A1B1C1D ;; _ <- write_f32 0x1E1F2021 ;;
   _ <- write_f64 0x2223242526272829 ;; _ <- write_string lagrimas ;; write_ilint 0x494c496e74566264)
    (BorrowedVecWriter_new [])
  = (Ok tt, WBorrowed sample_values_bin 0 81 false).
Proof. vm_compute. reflexivity. Qed.
Definition ro_writer : writer := set_read_only true (BorrowedVecWriter_new []).
Example test_datawriter_errors :
  forallb (fun w => fst_is is_err (write_uint w 1 ro_writer) && fst_is is_err (write_sint w 1%Z ro_writer)) [W8; W16; W32; W64]
  && fst_is is_err (write_f32 1 ro_writer) && fst_is is_err (write_f64 1 ro_writer)
  && fst_is is_err (write_string lagrimas ro_writer) && fst_is is_err (write_ilint 1 ro_writer) = true.
Proof. vm_compute. reflexivity. Qed.

(** test_string_data_reader, 171-190, and test_string_data_writer, 368-388. *)
Example test_string_data :
  vec_of (puts write_string [lagrimas; lagrimas] VecWriter_new) = lagrimas ++ lagrimas
  /\ (let '(x, r) := read_string 30 (ByteArrayReader_new lagrimas) in
      (x, fst (read_string 0 r), is_err (fst (read_string 1 r)))) = (Ok lagrimas, Ok [], true).
Proof. vm_compute. auto. Qed.

(** test_float_data_reader_f32 and _f64, 145-168: pi, by its bits. *)
Example test_float_data_reader :
  ends (times 2 read_f32 (ByteArrayReader_new [0x40; 0x49; 0x0f; 0xdb; 0x01])) [0x40490fdb]
  /\ ends (times 2 read_f64 (ByteArrayReader_new [0x40; 0x09; 0x21; 0xfb; 0x54; 0x44; 0x2d; 0x18; 0x01]))
       [0x400921fb54442d18].
Proof. vm_compute. auto. Qed.

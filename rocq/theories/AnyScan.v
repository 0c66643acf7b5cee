(** Skipping and scanning over any implementation of the trait [Reader]
    (src/io/mod.rs:74-151): user types that provide [read] and may override
    [read_all], [skip] and [skip_u64] with arbitrary code.  The scanner is that of
    Scanner.v, function by function; PAnyScan.v shows that the two versions agree. *)
From Verif Require Import Base Types IO ILInt Data Tags Scanner Any.

(** The four methods of a reader: the two of Any.v, [skip] (src/io/mod.rs:113-122)
    and [skip_u64] (142-150). *)
Record full_reader (U : Type) := FullReader {
  f_reader : reader_impl U;
  f_skip : N -> U -> res io_error unit * U;
  f_skip_u64 : N -> U -> res io_error unit * U }.
Arguments f_reader {U} f.
Arguments f_skip {U} f n u.
Arguments f_skip_u64 {U} f n u.

Section Defaults.
Context {U : Type}.

(** The default [skip], src/io/mod.rs:113-122, over a [read_all].  The buffer is
    not cleared between the calls.  The fuel is a bound on the iterations. *)
Fixpoint skip_chunks (rd : list N -> U -> res io_error unit * list N * U) (fuel : nat) (buff : list N) (r : N) (u : U)
  : res io_error unit * U :=
  if r =? 0 then (Ok tt, u)
  else match fuel with
       | O => (OutOfFuel, u)
       | S f =>
           let chunk := N.min r (lenN buff) in
           match rd (takeN chunk buff) u with
           | (Ok _, filled, u') => skip_chunks rd f (filled ++ dropN chunk buff) (r - chunk) u'
           | (Err e, _, u') => (Err e, u')
           | (Panic, _, u') => (Panic, u')
           | (OutOfFuel, _, u') => (OutOfFuel, u')
           end
       end.
Definition default_skip (rd : list N -> U -> res io_error unit * list N * U) (count : N) : U -> res io_error unit * U :=
  skip_chunks rd (S (N.to_nat (count / 512))) (repeatN 0 512) count.

(** The default [skip_u64], src/io/mod.rs:142-150, over a [skip]. *)
Fixpoint skip_pieces (c : cfg) (sk : N -> U -> res io_error unit * U) (fuel : nat) (remaining : N) (u : U)
  : res io_error unit * U :=
  if remaining =? 0 then (Ok tt, u)
  else match fuel with
       | O => (OutOfFuel, u)
       | S f =>
           let skip := N.min remaining (usize_max c) in
           match sk skip u with
           | (Ok _, u') => skip_pieces c sk f (remaining - skip) u'
           | (Err e, u') => (Err e, u')
           | (Panic, u') => (Panic, u')
           | (OutOfFuel, u') => (OutOfFuel, u')
           end
       end.
Definition default_skip_u64 (c : cfg) (sk : N -> U -> res io_error unit * U) (count : N) : U -> res io_error unit * U :=
  skip_pieces c sk (S (N.to_nat (count / usize_max c))) count.

(** A type that overrides neither. *)
Definition with_defaults (c : cfg) (M : reader_impl U) : full_reader U :=
  let sk := default_skip (u_read_all M) in
  FullReader _ M sk (default_skip_u64 c sk).
End Defaults.

(** LimitedReaders as an implementation of [Reader], src/io/mod.rs:278-296: they
    override [read_all] only. *)
Definition limited_impl {U} (M : reader_impl U) : reader_impl (areader U) :=
  ReaderImpl _ (a_read M) (fun buff r => a_read_all M buff r).
(** LimitedReader::goto_end, src/io/mod.rs:256-266, with the [skip] of the source. *)
Definition f_goto_end {U} (F : full_reader U) (src : U) (available : N) : res io_error unit * U * N :=
  if 0 <? available then
    let '(x, src') := f_skip F available src in
    (x, src', if is_ok x then 0 else available)
  else (Ok tt, src, available).

Section Scan.
Context {U : Type} (F : full_reader U) (c : cfg).

(** A method of Any.v on the object itself. *)
Fixpoint base (r : areader U) : U := match r with ABase u => u | ALimited s _ => base s end.
Definition on_base {A} (m : areader U -> res tag_error A * areader U) (u : U) : res tag_error A * U :=
  let '(x, r') := m (ABase u) in (x, base r').

(** extract_implicit_ilint_tag_size, src/tags/raw/mod.rs:290-294. *)
Definition f_implicit_ilint_tag_size : U -> res tag_error (N * N * N) * U :=
  header <- lift_err TagIO (u_read (f_reader F)) ;;
  let total_size := decoded_size header in
  skip <- (fun u => (sub_usize c total_size 1, u)) ;;
  ret (0, total_size, skip).
(** extract_tag_size, src/tags/raw/mod.rs:262-282. *)
Definition f_tag_size (id : N) : U -> res tag_error (N * N * N) * U :=
  if is_implicit_tag id then
    if (id =? IL_ILINT_TAG_ID) || (id =? IL_SIGNED_ILINT_TAG_ID) then f_implicit_ilint_tag_size
    else if id =? 15 then fail CorruptedData
    else ret (0, implicit_tag_size id, implicit_tag_size id)
  else value_size <- on_base (a_ilint (f_reader F)) ;; ret (encoded_size value_size, value_size, value_size).
(** The scanner, src/tags/raw/mod.rs:210-220: the offset and the reader. *)
Definition f_on_source {A} (m : U -> res tag_error A * U) : N * U -> res tag_error A * (N * U) :=
  fun '(off, u) => let '(x, u') := m u in (x, (off, u')).
(** next_tag, src/tags/raw/mod.rs:223-238. *)
Definition f_next_tag : N * U -> res tag_error (option raw_tag_offset) * (N * U) :=
  id <- f_on_source (on_base (a_ilint (f_reader F))) ;;
  info <- f_on_source (f_tag_size id) ;;
  let '(size_size, value_size, to_skip) := info in
  header_size <- (fun s => (add_u64 c (encoded_size id) size_size, s)) ;;
  offset <- (fun s => (Ok (fst s), s)) ;;
  total <- (fun s => (add_u64 c header_size value_size, s)) ;;
  next <- (fun s => (add_u64 c offset total, s)) ;;
  (fun '(_, u) => (Ok tt, (next, u))) ;;;
  f_on_source (lift_err TagIO (f_skip_u64 F to_skip)) ;;;
  ret (Some (RawTagOffset_new id offset header_size value_size)).
(** next_tag_if_id, src/tags/raw/mod.rs:243-254. *)
Definition f_next_tag_if_id (expected_id : N) : N * U -> res tag_error (option raw_tag_offset) * (N * U) :=
  t <- f_next_tag ;;
  match t with
  | Some t => if ro_id t =? expected_id then ret (Some t) else fail UnexpectedTagType
  | None => ret None
  end.
(** A caller asking for [n] tags. *)
Fixpoint f_next_tags (n : nat) : N * U -> res tag_error (list raw_tag_offset) * (N * U) :=
  match n with
  | O => ret []
  | S n' => t <- f_next_tag ;;
            match t with
            | Some o => l <- f_next_tags n' ;; ret (o :: l)
            | None => ret []
            end
  end.
End Scan.

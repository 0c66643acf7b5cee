(** Model of src/tags/raw/mod.rs: RawTagOffset and RawTagScanner. *)
From Verif Require Import Base Types IO ILInt Data Tags.

(** RawTagOffset, src/tags/raw/mod.rs:58-63, 67-74; [id], [offset] and
    [value_size] (77-84, 97-99) are the projections. *)
Record raw_tag_offset := RawTagOffset_new {
  ro_id : N; ro_offset : N; ro_header_size : N; ro_value_size : N }.
(** Default, 191-200. *)
Definition RawTagOffset_default : raw_tag_offset := RawTagOffset_new 0 0 0 0.

(** [n as usize]: the low bits. *)
Definition as_usize (c : cfg) (n : N) : N := n mod (usize_max c + 1).
(** Sequencing of plain results. *)
Definition and_then {A B} (x : res tag_error A) (f : A -> res tag_error B) : res tag_error B :=
  match x with Ok a => f a | Err e => Err e | Panic => Panic | OutOfFuel => OutOfFuel end.

(** size, 87-89. *)
Definition ro_size (c : cfg) (o : raw_tag_offset) : res tag_error N :=
  add_u64 c (ro_header_size o) (ro_value_size o).
(** value_offset, 92-94. *)
Definition ro_value_offset (c : cfg) (o : raw_tag_offset) : res tag_error N :=
  add_u64 c (ro_offset o) (ro_header_size o).
(** next_tag_offset, 102-104. *)
Definition ro_next_tag_offset (c : cfg) (o : raw_tag_offset) : res tag_error N :=
  and_then (ro_size c o) (fun size => add_u64 c (ro_offset o) size).
(** value_start, 109-111; value_end, 116-118; tag_start, 123-125; tag_end,
    129-131. *)
Definition ro_value_start (c : cfg) (o : raw_tag_offset) : res tag_error N :=
  map_ok (as_usize c) (ro_value_offset c o).
Definition ro_value_end (c : cfg) (o : raw_tag_offset) : res tag_error N :=
  map_ok (as_usize c) (ro_next_tag_offset c o).
Definition ro_tag_start (c : cfg) (o : raw_tag_offset) : N := as_usize c (ro_offset o).
Definition ro_tag_end (c : cfg) (o : raw_tag_offset) : res tag_error N := ro_value_end c o.
(** tag_slice, 140-142; value_slice, 151-153. *)
Definition ro_tag_slice (c : cfg) (o : raw_tag_offset) (raw : list N) : res tag_error (list N) :=
  and_then (ro_tag_end c o) (fun hi => slice raw (ro_tag_start c o) hi).
Definition ro_value_slice (c : cfg) (o : raw_tag_offset) (raw : list N) : res tag_error (list N) :=
  and_then (ro_value_start c o) (fun lo => and_then (ro_value_end c o) (fun hi => slice raw lo hi)).
(** map_to_parent_space, 177-188. *)
Definition map_to_parent_space (c : cfg) (o parent : raw_tag_offset) : res tag_error raw_tag_offset :=
  and_then (ro_next_tag_offset c o) (fun next =>
    if ro_value_size parent <? next then Err CorruptedData
    else and_then (ro_value_offset c parent) (fun vo =>
         and_then (add_u64 c vo (ro_offset o)) (fun off =>
         Ok (RawTagOffset_new (ro_id o) off (ro_header_size o) (ro_value_size o))))).

(** RawTagScanner, 210-213: the offset and the reader; new, 218-220. *)
Definition scanner : Type := N * reader.
Definition RawTagScanner_new (r : reader) : scanner := (0, r).
(** An action on the reader of the scanner. *)
Definition on_source {A} (m : reader -> res tag_error A * reader) : scanner -> res tag_error A * scanner :=
  fun '(off, r) => let '(x, r') := m r in (x, (off, r')).
(** extract_implicit_ilint_tag_size, 290-294. *)
Definition extract_implicit_ilint_tag_size (c : cfg) : reader -> res tag_error (N * N * N) * reader :=
  header <- lift_err TagIO read ;;
  let total_size := decoded_size header in
  skip <- (fun r => (sub_usize c total_size 1, r)) ;;
  ret (0, total_size, skip).
(** extract_tag_size, 262-282. *)
Definition extract_tag_size (c : cfg) (id : N) : reader -> res tag_error (N * N * N) * reader :=
  if is_implicit_tag id then
    if (id =? IL_ILINT_TAG_ID) || (id =? IL_SIGNED_ILINT_TAG_ID) then extract_implicit_ilint_tag_size c
    else if id =? 15 then fail CorruptedData
    else ret (0, implicit_tag_size id, implicit_tag_size id)
  else value_size <- deserialize_ilint ;; ret (encoded_size value_size, value_size, value_size).
(** next_tag, 223-238: the offset is advanced before skipping. *)
Definition next_tag (c : cfg) : scanner -> res tag_error (option raw_tag_offset) * scanner :=
  id <- on_source deserialize_ilint ;;
  info <- on_source (extract_tag_size c id) ;;
  let '(size_size, value_size, to_skip) := info in
  header_size <- (fun s => (add_u64 c (encoded_size id) size_size, s)) ;;
  offset <- (fun s => (Ok (fst s), s)) ;;
  total <- (fun s => (add_u64 c header_size value_size, s)) ;;
  next <- (fun s => (add_u64 c offset total, s)) ;;
  (fun '(_, r) => (Ok tt, (next, r))) ;;;
  on_source (lift_err TagIO (skip_u64 c to_skip)) ;;;
  ret (Some (RawTagOffset_new id offset header_size value_size)).
(** next_tag_if_id, 243-254. *)
Definition next_tag_if_id (c : cfg) (expected_id : N) : scanner -> res tag_error (option raw_tag_offset) * scanner :=
  t <- next_tag c ;;
  match t with
  | Some t => if ro_id t =? expected_id then ret (Some t) else fail UnexpectedTagType
  | None => ret None
  end.
(** A caller asking for [n] tags. *)
Fixpoint next_tags (c : cfg) (n : nat) : scanner -> res tag_error (list raw_tag_offset) * scanner :=
  match n with
  | O => ret []
  | S n' => t <- next_tag c ;;
            match t with
            | Some o => l <- next_tags c n' ;; ret (o :: l)
            | None => ret []
            end
  end.

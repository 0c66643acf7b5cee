(** [size], [value_size], [serialize] and [to_bytes] once more, with the u64 and
    usize arithmetic of the machine: Tags.v computes with exact numbers.  PMachine.v
    proves that no tag that fits in memory makes a difference.
    [len()] of a vector, string or map is a usize, so its cast to u64 is exact;
    sums of [encoded_size]s and constants stay below 32. *)
From Verif Require Import Base Types IO ILInt Data Tags Scanner Ctors.

Section Machine.
Variable c : cfg.
(** [for x in l { size += f(x); }] and [.map(f).sum::<u64>()]. *)
Definition sum_u {A} (f : A -> res tag_error N) (l : list A) (start : N) : res tag_error N :=
  fold_left (fun acc x => and_then acc (fun a => and_then (f x) (fun s => add_u64 c a s))) l (Ok start).
(** string_tag_size_from_value, explicit/mod.rs:241-244. *)
Definition string_tag_size_u (s : list N) : res tag_error N :=
  add_u64 c (1 + encoded_size (lenN s)) (lenN s).
(** ILTag::value_size per type (the lines are listed in Tags.v) and ILTag::size,
    src/tags/mod.rs:198-204. *)
Fixpoint value_size_u (v : value) : res tag_error N :=
  match v with
  | VBigDec _ bs => add_u64 c 4 (lenN bs)
  | VILIntArray l | VOID l => sum_u (fun x => Ok (encoded_size x)) l (encoded_size (lenN l))
  | VSeq l => sum_u size_u l 0
  | VArr l => and_then (sum_u size_u l 0) (fun s => add_u64 c (encoded_size (lenN l)) s)
  | VDict l =>
      and_then (sum_u (fun e => and_then (string_tag_size_u (fst e)) (fun k =>
                                and_then (size_u (snd e)) (fun x => add_u64 c k x))) l 0)
               (fun s => add_u64 c (encoded_size (lenN l)) s)
  | VStrDict l =>
      and_then (sum_u (fun e => and_then (string_tag_size_u (fst e)) (fun k =>
                                and_then (string_tag_size_u (snd e)) (fun x => add_u64 c k x))) l 0)
               (fun s => add_u64 c (encoded_size (lenN l)) s)
  | _ => Ok (value_size v)
  end
with size_u (t : tag) : res tag_error N :=
  match t with
  | Tag id v =>
      and_then (if is_implicit_tag id then Ok (encoded_size id)
                else and_then (value_size_u v) (fun n => add_u64 c (encoded_size id) (encoded_size n)))
               (fun size => and_then (value_size_u v) (fun n => add_u64 c size n))
  end.

(** ILTag::serialize_value (the lines are listed in Tags.v) and ILTag::serialize,
    src/tags/mod.rs:230-236. *)
Fixpoint serialize_value_u (v : value) : writer -> res tag_error unit * writer :=
  match v with
  | VSeq l => for_each l serialize_u
  | VArr l => serialize_ilint (lenN l) ;;; for_each l serialize_u
  | VDict l =>
      let values := map (fun e => (fst e, serialize_u (snd e))) l in
      let keys := sort_unstable (map fst l) in
      serialize_ilint (lenN l) ;;;
      for_each keys (fun key =>
        match hm_get key values with
        | Some value => serialize_string_tag_from_value key ;;; value
        | None => fail UnableToSerialize
        end)
  | _ => serialize_value v
  end
with serialize_u (t : tag) : writer -> res tag_error unit * writer :=
  match t with
  | Tag id v =>
      serialize_ilint id ;;;
      (if is_implicit_tag id then ret tt
       else n <- (fun w => (value_size_u v, w)) ;; serialize_ilint n) ;;;
      serialize_value_u v
  end.

(** ILTag::to_bytes, src/tags/mod.rs:266-270: [size() as usize] drops the high
    bits; VecWriter::with_capacity (src/io/array/mod.rs:372-378). *)
Definition to_bytes_u (t : tag) : res tag_error (list N) :=
  and_then (size_u t) (fun n =>
  and_then (Vec_with_capacity c (n mod (usize_max c + 1))) (fun _ =>
  match serialize_u t VecWriter_new with
  | (Ok _, WVec v _ _) => Ok v
  | (Ok _, _) => Panic
  | (Err e, _) => Err e
  | (Panic, _) => Panic
  | (OutOfFuel, _) => OutOfFuel
  end)).
End Machine.

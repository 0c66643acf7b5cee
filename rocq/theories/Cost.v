(** The work done by [size], [serialize] and [to_bytes]: the functions of Tags.v
    again, with a counter of the calls to [ILTag::value_size] that the code
    makes.  CostFacts.v proves that without the counter they are the functions
    of Tags.v. *)
From Verif Require Import Base Types IO ILInt Data Tags.

(** ILTag::value_size per type (the lines are listed in Tags.v) and ILTag::size
    (src/tags/mod.rs:198-204): the result and the number of calls of
    [value_size].  ILByteArrayTag, ILBigIntTag and ILOIDTag call [value_size] of
    the struct inside (macros.rs:186-188), ILBigDecTag (explicit/mod.rs:413-415)
    and ILTagArrayTag (666-669) too; [size] calls it twice for explicit tags. *)
Fixpoint value_size_c (v : value) : N * N :=
  match v with
  | VBytes _ | VBigInt _ | VOID _ | VBigDec _ _ => (value_size v, 2)
  | VSeq l =>
      let '(s, c) := fold_left (fun '(s, c) t => let '(s1, c1) := size_c t in (s + s1, c + c1)) l (0, 0) in
      (s, 1 + c)
  | VArr l =>
      let '(s, c) := fold_left (fun '(s, c) t => let '(s1, c1) := size_c t in (s + s1, c + c1)) l (0, 0) in
      (encoded_size (lenN l) + s, 2 + c)
  | VDict l =>
      let '(s, c) := fold_left (fun '(s, c) e => let '(s1, c1) := size_c (snd e) in
                                (s + (string_tag_size_from_value (fst e) + s1), c + c1)) l (0, 0) in
      (encoded_size (lenN l) + s, 1 + c)
  | _ => (value_size v, 1)
  end
with size_c (t : tag) : N * N :=
  match t with
  | Tag id v =>
      let '(size, c) :=
        if is_implicit_tag id then (encoded_size id, 0)
        else let '(s, c) := value_size_c v in (encoded_size id + encoded_size s, c) in
      let '(s, c') := value_size_c v in
      (size + s, c + c')
  end.

(** ILTag::serialize_value and ILTag::serialize (src/tags/mod.rs:230-236) with the
    counter as part of the state. *)
Definition counted : Type := writer * N.
Definition on_writer {A} (m : writer -> res tag_error A * writer) : counted -> res tag_error A * counted :=
  fun '(w, c) => let '(x, w') := m w in (x, (w', c)).
(** A call of [value_size] in an expression. *)
Definition call_value_size (v : value) : counted -> res tag_error N * counted :=
  fun '(w, c) => let '(s, k) := value_size_c v in (Ok s, (w, c + k)).
Fixpoint serialize_value_c (v : value) : counted -> res tag_error unit * counted :=
  match v with
  | VSeq l => for_each l serialize_c
  | VArr l => on_writer (serialize_ilint (lenN l)) ;;; for_each l serialize_c
  | VDict l =>
      let values := map (fun e => (fst e, serialize_c (snd e))) l in
      let keys := sort_unstable (map fst l) in
      on_writer (serialize_ilint (lenN l)) ;;;
      for_each keys (fun key =>
        match hm_get key values with
        | Some value => on_writer (serialize_string_tag_from_value key) ;;; value
        | None => fail UnableToSerialize
        end)
  | _ => on_writer (serialize_value v)
  end
with serialize_c (t : tag) : counted -> res tag_error unit * counted :=
  match t with
  | Tag id v =>
      on_writer (serialize_ilint id) ;;;
      (if is_implicit_tag id then ret tt
       else n <- call_value_size v ;; on_writer (serialize_ilint n)) ;;;
      serialize_value_c v
  end.

(** ILTag::to_bytes, src/tags/mod.rs:266-270: [size] for the capacity, then
    [serialize]; the result and the number of calls. *)
Definition to_bytes_c (t : tag) : res tag_error (list N) * N :=
  let '(_, k) := size_c t in
  let '(x, (w, c)) := serialize_c t (VecWriter_new, k) in
  (match x with
   | Ok _ => match w with WVec v _ _ => Ok v | _ => Panic end
   | Err e => Err e
   | Panic => Panic
   | OutOfFuel => OutOfFuel
   end, c).

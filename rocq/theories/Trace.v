(** What deserialization asks of the allocator: the functions of Factory.v again,
    with a trace of the tags created and of the vectors requested.  TraceFacts.v
    proves that without the trace they are the functions of Factory.v. *)
From Verif Require Import Base Types IO ILInt Data Tags Factory.

(** - [EvTag id]: a tag is created (a Box);
    - [EvBytes n]: [vec![0; n]] or [Vec::resize(n, 0)] on a byte vector;
    - [EvElements k n]: [Vec::reserve(n)] on a vector of u64 or of boxed tags.
    Not traced: the growth of vectors by [push] and of hash maps by [insert],
    which follows the elements read. *)
Inductive element := U64 | BoxedTag.
Inductive event := EvTag (id : N) | EvBytes (n : N) | EvElements (k : element) (n : N).

Definition traced (St A : Type) : Type := St -> res tag_error A * St * list event.
Definition tret {St A} (a : A) : traced St A := fun s => (Ok a, s, []).
Definition tfail {St A} (e : tag_error) : traced St A := fun s => (Err e, s, []).
Definition tbind {St A B} (m : traced St A) (f : A -> traced St B) : traced St B :=
  fun s => match m s with
           | (Ok a, s', l) => let '(x, s'', l') := f a s' in (x, s'', l ++ l')
           | (Err e, s', l) => (Err e, s', l)
           | (Panic, s', l) => (Panic, s', l)
           | (OutOfFuel, s', l) => (OutOfFuel, s', l)
           end.
Notation "x <~ m ;; k" := (tbind m (fun x => k)) (at level 61, m at next level, right associativity) : monad_scope.
Notation "m ;~ k" := (tbind m (fun _ => k)) (at level 61, right associativity) : monad_scope.
(** A step that requests nothing, and a request. *)
Definition quiet {St A} (m : St -> res tag_error A * St) : traced St A := fun s => let '(x, s') := m s in (x, s', []).
Definition tell {St} (e : event) : traced St unit := fun s => (Ok tt, s, [e]).

Definition tmethod (S A : Type) : Type := traced (S * reader) A.
Definition treader_fn (A : Type) : Type := traced reader A.
Definition t_on_reader {S A} (m : treader_fn A) : tmethod S A :=
  fun '(s, r) => let '(x, r', l) := m r in (x, (s, r'), l).
Definition t_limited {S A} (n : N) (m : tmethod S A) : tmethod S A :=
  fun '(s, r) => let '(x, (s', r'), l) := m (s, LimitedReader_new r n) in (x, (s', unlimit r'), l).
Fixpoint t_repeat_read {S A} (fuel : nat) (m : treader_fn A) (store : A -> S -> S) (count : N) : tmethod S unit :=
  if count =? 0 then tret tt
  else match fuel with
       | O => fun st => (OutOfFuel, st, [])
       | Datatypes.S f => x <~ t_on_reader m ;; quiet (modify (store x)) ;~ t_repeat_read f m store (count - 1)
       end.
Fixpoint t_while_read {S A} (fuel : nat) (m : treader_fn A) (store : A -> S -> S) : tmethod S unit :=
  fun st =>
  if limit_empty (snd st) then (Ok tt, st, [])
  else match fuel with
       | O => (OutOfFuel, st, [])
       | Datatypes.S f => (x <~ t_on_reader m ;; quiet (modify (store x)) ;~ t_while_read f m store) st
       end.
Definition t_fuelled {S A} (m : nat -> tmethod S A) : tmethod S A :=
  fun st => m (Datatypes.S (left (snd st))) st.
Definition t_run {S} (m : tmethod S unit) (s : S) (mk : S -> value) (r : reader)
  : res tag_error unit * value * reader * list event :=
  let '(x, (s', r'), l) := m (s, r) in (x, mk s', r', l).

(** deserialize_bytes, src/tags/serialization/mod.rs:223-227. *)
Definition t_bytes {S} (n : N) : tmethod S (list N) := tell (EvBytes n) ;~ quiet (on_reader (deserialize_bytes n)).
(** deserialize_string_tag_from_value_into, explicit/mod.rs:277-295, and
    deserialize_string_tag_from_value, 306-310. *)
Definition t_string_tag_into : tmethod (list N) unit :=
  id <~ quiet (on_reader deserialize_ilint) ;;
  (if negb (id =? IL_STRING_TAG_ID) then tfail CorruptedData else tret tt) ;~
  len <~ quiet (on_reader deserialize_ilint) ;;
  usize_len <~ quiet (fun st => (tag_size_to_usize len, st)) ;;
  tmp <~ t_bytes usize_len ;;
  if from_utf8 tmp then quiet (modify (fun _ => tmp)) else tfail CorruptedData.
Definition t_string_tag : treader_fn (list N) := fun r =>
  let '(x, (s, r'), l) := t_string_tag_into ([], r) in
  (match x with Ok _ => Ok s | Err e => Err e | Panic => Panic | OutOfFuel => OutOfFuel end, r', l).

Section DeserializeValue.
Variable deser : treader_fn tag.
(** ILRawTag, tags/mod.rs:750-757, through deserialize_bytes_into_vec,
    serialization/mod.rs:205-208. *)
Definition t_raw (n : N) : tmethod (list N) unit := tell (EvBytes n) ;~ quiet (raw_deserialize n).
(** ILStringTag, explicit/mod.rs:214-228. *)
Definition t_string (n : N) : tmethod (list N) unit :=
  tmp <~ t_bytes n ;; if from_utf8 tmp then quiet (modify (fun _ => tmp)) else tfail CorruptedData.
Definition t_on_snd {S T A} (m : tmethod T A) : tmethod (S * T) A :=
  fun '((s, t), r) => let '(x, (t', r'), l) := m (t, r) in (x, ((s, t'), r'), l).
(** ILBigDecTag, explicit/mod.rs:422-434. *)
Definition t_bigdec (n : N) : tmethod (Z * list N) unit :=
  (if n <? 4 then tfail CorruptedData else tret tt) ;~
  scale <~ quiet (on_reader (deserialize_sint W32)) ;;
  quiet (modify (fun s => (scale, snd s))) ;~
  t_on_snd (t_raw (n - 4)).
(** ILILIntArrayTag, explicit/mod.rs:525-542: [reserve] at 537. *)
Definition t_ilintarray (n : N) : tmethod (list N) unit :=
  t_limited n (
    count <~ quiet (on_reader deserialize_ilint) ;;
    (if n <? count then tfail CorruptedData else tret tt) ;~
    quiet (modify (fun _ => [])) ;~
    tell (EvElements U64 count) ;~
    t_fuelled (fun f => t_repeat_read f (quiet deserialize_ilint) push count) ;~
    quiet (limited_reader_ensure_empty CorruptedData)).
(** ILTagSeqTag, explicit/mod.rs:605-618. *)
Definition t_seq (n : N) : tmethod (list tag) unit :=
  t_limited n (
    quiet (modify (fun _ => [])) ;~
    t_fuelled (fun f => t_while_read f deser push)).
(** ILTagArrayTag, explicit/mod.rs:676-694: [reserve] at 689. *)
Definition t_arr (n : N) : tmethod (list tag) unit :=
  t_limited n (
    count <~ quiet (on_reader deserialize_ilint) ;;
    (if n <? count then tfail CorruptedData else tret tt) ;~
    quiet (modify (fun _ => [])) ;~
    tell (EvElements BoxedTag count) ;~
    t_fuelled (fun f => t_repeat_read f deser push count) ;~
    quiet (limited_reader_ensure_empty CorruptedData)).
(** ILDictTag, explicit/mod.rs:1106-1122. *)
Definition t_dict (n : N) : tmethod (list (list N * tag)) unit :=
  t_limited n (
    count <~ quiet (on_reader deserialize_ilint) ;;
    quiet (modify (fun _ => [])) ;~
    t_fuelled (fun f => t_repeat_read f
      (k <~ t_string_tag ;; t <~ deser ;; tret (k, t))
      (fun e => hm_insert (fst e) (snd e)) count) ;~
    quiet (limited_reader_ensure_empty CorruptedData)).
(** ILStrDictTag, explicit/mod.rs:1254-1270. *)
Definition t_strdict (n : N) : tmethod (list (list N * list N)) unit :=
  t_limited n (
    count <~ quiet (on_reader deserialize_ilint) ;;
    quiet (modify (fun _ => [])) ;~
    t_fuelled (fun f => t_repeat_read f
      (k <~ t_string_tag ;; v <~ t_string_tag ;; tret (k, v))
      (fun e => hm_insert (fst e) (snd e)) count) ;~
    quiet (limited_reader_ensure_empty CorruptedData)).

(** The remaining types request nothing. *)
Definition t_deserialize_value (v : value) (n : N) (r : reader) : res tag_error unit * value * reader * list event :=
  match v with
  | VRaw bs => t_run (t_raw n) bs VRaw r
  | VBytes bs => t_run (t_raw n) bs VBytes r
  | VBigInt bs => t_run (t_raw n) bs VBigInt r
  | VString s => t_run (t_string n) s VString r
  | VBigDec scale bs => t_run (t_bigdec n) (scale, bs) (fun s => VBigDec (fst s) (snd s)) r
  | VILIntArray l => t_run (t_ilintarray n) l VILIntArray r
  | VOID l => t_run (t_ilintarray n) l VOID r
  | VSeq l => t_run (t_seq n) l VSeq r
  | VArr l => t_run (t_arr n) l VArr r
  | VDict l => t_run (t_dict n) l VDict r
  | VStrDict l => t_run (t_strdict n) l VStrDict r
  | _ => let '(x, v', r') := deserialize_value (fun r => (Panic, r)) v n r in (x, v', r', [])
  end.
End DeserializeValue.

(** deserialize_tag_value_into, src/tags/standard/factory/mod.rs:164-176. *)
Definition t_deserialize_tag_value_into (deser : treader_fn tag) (tag_size : N) (t : tag) (r : reader)
  : res tag_error unit * tag * reader * list event :=
  let '(x, v', lr, l) := t_deserialize_value deser (tag_val t) tag_size (LimitedReader_new r tag_size) in
  let t' := Tag (tag_id t) v' in
  (match x with
   | Ok _ =>
       if negb (tag_id t' =? IL_ILINT_TAG_ID) && negb (tag_id t' =? IL_SIGNED_ILINT_TAG_ID)
          && negb (limit_empty lr)
       then Err CorruptedData else Ok tt
   | _ => x
   end, t', unlimit lr, l).
(** deserialize, 184-193. *)
Fixpoint t_deserialize_fuel (fuel : nat) (e : engine) : treader_fn tag :=
  match fuel with
  | O => fun r => (OutOfFuel, r, [])
  | Datatypes.S f =>
      tag_id <~ quiet deserialize_ilint ;;
      tag_size <~ quiet (deserialize_tag_size tag_id) ;;
      created <~ quiet (fun r => (create_tag e tag_id, r)) ;;
      match created with
      | None => tfail UnknownTag
      | Some t =>
          tell (EvTag tag_id) ;~
          (fun r =>
           let '(x, t', r', l) := t_deserialize_tag_value_into (t_deserialize_fuel f e) tag_size t r in
           (map_ok (fun _ => t') x, r', l))
      end
  end.
Definition t_deserialize (e : engine) : treader_fn tag := fun r => t_deserialize_fuel (Datatypes.S (left r)) e r.
(** deserialize_into, src/tags/standard/factory/mod.rs:195-203. *)
Definition t_deserialize_into (e : engine) (r : reader) (t : tag) : res tag_error unit * tag * reader * list event :=
  match deserialize_ilint r with
  | (Ok id, r1) =>
      if negb (id =? tag_id t) then (Err UnexpectedTagType, t, r1, [])
      else match deserialize_tag_size id r1 with
           | (Ok n, r2) => t_deserialize_tag_value_into (t_deserialize_fuel (Datatypes.S (left r2)) e) n t r2
           | (Err err, r2) => (Err err, t, r2, [])
           | (Panic, r2) => (Panic, t, r2, [])
           | (OutOfFuel, r2) => (OutOfFuel, t, r2, [])
           end
  | (Err err, r1) => (Err err, t, r1, [])
  | (Panic, r1) => (Panic, t, r1, [])
  | (OutOfFuel, r1) => (OutOfFuel, t, r1, [])
  end.

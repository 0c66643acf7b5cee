(** ILTag as an open trait: tags of types written by the user of the library
    (src/tags/mod.rs:180-271), registered in a standard factory (585-658) and
    placed anywhere inside the containers of the library, which hold
    [Box<dyn ILTag>]. *)
From Verif Require Import Base Types IO ILInt Data Tags Factory Payload.

(** A [Box<dyn ILTag>]: a tag of the library that holds no tags, a user tag of
    type [T] (the sum of all user types), or a container of the library. *)
Inductive otag (T : Type) :=
| OStd (id : N) (v : value)
| OUser (x : T)
| OSeq (id : N) (l : list (otag T))
| OArr (id : N) (l : list (otag T))
| ODict (id : N) (l : list (list N * otag T)).
Arguments OStd {T} id v.
Arguments OUser {T} x.
Arguments OSeq {T} id l.
Arguments OArr {T} id l.
Arguments ODict {T} id l.

(** The implementations of the methods of ILTag (src/tags/mod.rs:180-271) for the
    user types, arbitrary code, and the user creators registered in the engine:
    the object each one builds, [Some None] if it panics.  [u_deserialize_value]
    receives [factory.deserialize].  The methods the library never calls on a
    [Box<dyn ILTag>] (value_size, serialize_value, is_implicity, is_reserved) have
    no field: they matter only to a type that keeps the provided bodies of the
    others ([provided] below). *)
Record user_impl (T : Type) := UserImpl {
  u_id : T -> N;
  u_size : T -> N;
  u_serialize : T -> writer -> res tag_error unit * writer;
  u_to_bytes : T -> res tag_error (list N);
  u_deserialize_value : (reader -> res tag_error (otag T) * reader) -> N -> method T unit;
  u_create : N -> option (option T) }.
Arguments u_id {T} u x.
Arguments u_size {T} u x.
Arguments u_serialize {T} u x w.
Arguments u_to_bytes {T} u x.
Arguments u_deserialize_value {T} u deser n.
Arguments u_create {T} u id.

(** The provided ILTag::size, src/tags/mod.rs:198-204, of a tag with this id and
    value size; ILTag::serialize, 230-236, with this serialize_value;
    ILTag::to_bytes, 266-270, with this serialize.  [implicit] is the answer of
    ILTag::is_implicity, 185-187. *)
Definition size_over (implicit : bool) (id vs : N) : N :=
  (if implicit then encoded_size id else encoded_size id + encoded_size vs) + vs.
Definition serialize_over (implicit : bool) (id vs : N) (sv : writer -> res tag_error unit * writer)
  : writer -> res tag_error unit * writer :=
  serialize_ilint id ;;; (if implicit then ret tt else serialize_ilint vs) ;;; sv.
Definition to_bytes_over (ser : writer -> res tag_error unit * writer) : res tag_error (list N) :=
  match ser VecWriter_new with
  | (Ok _, WVec v _ _) => Ok v
  | (Ok _, _) => Panic
  | (Err e, _) => Err e
  | (Panic, _) => Panic
  | (OutOfFuel, _) => OutOfFuel
  end.
(** The same with the provided is_implicity. *)
Definition size_with (id vs : N) : N := size_over (is_implicit_tag id) id vs.
Definition serialize_with (id vs : N) (sv : writer -> res tag_error unit * writer)
  : writer -> res tag_error unit * writer := serialize_over (is_implicit_tag id) id vs sv.
(** A type that implements the required methods (182, 195, 217, 250) and
    is_implicity, and keeps the other provided ones; a type that keeps them
    all. *)
Definition provided_but {T} (is_implicity : T -> bool) (id value_size : T -> N)
  (serialize_value : T -> writer -> res tag_error unit * writer)
  (deserialize_value : (reader -> res tag_error (otag T) * reader) -> N -> method T unit)
  (create : N -> option (option T)) : user_impl T := {|
  u_id := id;
  u_size := fun x => size_over (is_implicity x) (id x) (value_size x);
  u_serialize := fun x => serialize_over (is_implicity x) (id x) (value_size x) (serialize_value x);
  u_to_bytes := fun x => to_bytes_over (serialize_over (is_implicity x) (id x) (value_size x) (serialize_value x));
  u_deserialize_value := deserialize_value;
  u_create := create |}.
Definition provided {T} (id value_size : T -> N) (serialize_value : T -> writer -> res tag_error unit * writer)
  (deserialize_value : (reader -> res tag_error (otag T) * reader) -> N -> method T unit)
  (create : N -> option (option T)) : user_impl T :=
  provided_but (fun x => is_implicit_tag (id x)) id value_size serialize_value deserialize_value create.

Section Open.
Context {T : Type} (U : user_impl T).
(** ILTag::id. *)
Definition o_id (t : otag T) : N :=
  match t with
  | OStd id _ | OSeq id _ | OArr id _ | ODict id _ => id
  | OUser x => u_id U x
  end.
(** ILTag::size of an object: its own for a user type, else the provided one on
    ILTag::value_size: ILTagSeqTag, explicit/mod.rs:590-596; ILTagArrayTag 666-669;
    ILDictTag 1079-1086. *)
Fixpoint o_size (t : otag T) : N :=
  match t with
  | OStd id v => size_with id (value_size v)
  | OUser x => u_size U x
  | OSeq id l => size_with id (fold_left (fun acc t => acc + o_size t) l 0)
  | OArr id l => size_with id (encoded_size (lenN l) + fold_left (fun acc t => acc + o_size t) l 0)
  | ODict id l =>
      size_with id (encoded_size (lenN l)
                    + fold_left (fun acc e => acc + (string_tag_size_from_value (fst e) + o_size (snd e))) l 0)
  end.
(** The value sizes of the containers, as above. *)
Definition items_size (l : list (otag T)) : N := fold_left (fun acc t => acc + o_size t) l 0.
Definition entries_size (l : list (list N * otag T)) : N :=
  fold_left (fun acc e => acc + (string_tag_size_from_value (fst e) + o_size (snd e))) l 0.
(** ILTag::serialize of an object: its own for a user type, else the provided one
    on ILTag::serialize_value: ILTagSeqTag, explicit/mod.rs:598-603; ILTagArrayTag
    671-674; ILDictTag 1088-1104. *)
Fixpoint o_serialize (t : otag T) : writer -> res tag_error unit * writer :=
  match t with
  | OStd id v => serialize_with id (value_size v) (serialize_value v)
  | OUser x => u_serialize U x
  | OSeq id l => serialize_with id (items_size l) (for_each l o_serialize)
  | OArr id l =>
      serialize_with id (encoded_size (lenN l) + items_size l) (serialize_ilint (lenN l) ;;; for_each l o_serialize)
  | ODict id l =>
      let values := map (fun e => (fst e, o_serialize (snd e))) l in
      let keys := sort_unstable (map fst l) in
      serialize_with id (encoded_size (lenN l) + entries_size l)
        (serialize_ilint (lenN l) ;;;
         for_each keys (fun key =>
           match hm_get key values with
           | Some value => serialize_string_tag_from_value key ;;; value
           | None => fail UnableToSerialize
           end))
  end.
(** ILTag::to_bytes of an object. *)
Definition o_to_bytes (t : otag T) : res tag_error (list N) :=
  match t with OUser x => u_to_bytes U x | _ => to_bytes_over (o_serialize t) end.

(** A tag of the library as an object. *)
Fixpoint emb (t : tag) : otag T :=
  match t with
  | Tag id v =>
      match v with
      | VSeq l => OSeq id (map emb l)
      | VArr l => OArr id (map emb l)
      | VDict l => ODict id (map (fun e => (fst e, emb (snd e))) l)
      | _ => OStd id v
      end
  end.
(** create_tag, src/tags/mod.rs:646-657, on an engine with the creators of [e]
    and the user creators, which replace others of the same id. *)
Definition o_create (e : engine) (id : N) : res tag_error (option (otag T)) :=
  match u_create U id with
  | Some (Some x) => Ok (Some (OUser x))
  | Some None => Panic
  | None => map_ok (option_map emb) (create_tag e id)
  end.
(** ILTag::deserialize_value on an object; ILTagSeqTag, explicit/mod.rs:605-618;
    ILTagArrayTag 676-694; ILDictTag 1106-1122.  The types that hold no tags make
    no use of the factory: here they get one that panics. *)
Definition o_run {S} (m : method S unit) (s : S) (mk : S -> otag T) (r : reader) : res tag_error unit * otag T * reader :=
  let '(x, (s', r')) := m (s, r) in (x, mk s', r').
Definition o_deserialize_value (deser : reader -> res tag_error (otag T) * reader) (t : otag T) (n : N) (r : reader)
  : res tag_error unit * otag T * reader :=
  match t with
  | OStd id v => let '(x, v', r') := deserialize_value untouchable_deserialize v n r in (x, OStd id v', r')
  | OUser x => o_run (u_deserialize_value U deser n) x OUser r
  | OSeq id l => o_run (seq_deserialize deser n) l (OSeq id) r
  | OArr id l => o_run (arr_deserialize deser n) l (OArr id) r
  | ODict id l => o_run (dict_deserialize deser n) l (ODict id) r
  end.
(** deserialize_tag_value_into, src/tags/standard/factory/mod.rs:164-176. *)
Definition o_value_into (deser : reader -> res tag_error (otag T) * reader) (n : N) (t : otag T) (r : reader)
  : res tag_error unit * otag T * reader :=
  let '(x, t', lr) := o_deserialize_value deser t n (LimitedReader_new r n) in
  (match x with
   | Ok _ =>
       if negb (o_id t' =? IL_ILINT_TAG_ID) && negb (o_id t' =? IL_SIGNED_ILINT_TAG_ID) && negb (limit_empty lr)
       then Err CorruptedData else Ok tt
   | _ => x
   end, t', unlimit lr).
(** deserialize, 184-193.  The fuel bounds the depth of nested calls. *)
Fixpoint o_deserialize_fuel (fuel : nat) (e : engine) (r : reader) : res tag_error (otag T) * reader :=
  match fuel with
  | O => (OutOfFuel, r)
  | S f =>
      (id <- deserialize_ilint ;;
       n <- deserialize_tag_size id ;;
       created <- (fun r => (o_create e id, r)) ;;
       match created with
       | None => fail UnknownTag
       | Some t => fun r =>
           let '(x, t', r') := o_value_into (o_deserialize_fuel f e) n t r in
           (map_ok (fun _ => t') x, r')
       end) r
  end.
Definition o_deserialize (e : engine) (r : reader) : res tag_error (otag T) * reader :=
  o_deserialize_fuel (S (left r)) e r.
(** deserialize_into, 195-203; the target afterwards is returned also on
    failure. *)
Definition o_deserialize_into (e : engine) (r : reader) (t : otag T) : res tag_error unit * otag T * reader :=
  match deserialize_ilint r with
  | (Ok id, r1) =>
      if negb (id =? o_id t) then (Err UnexpectedTagType, t, r1)
      else match deserialize_tag_size id r1 with
           | (Ok n, r2) => o_value_into (o_deserialize_fuel (S (left r2)) e) n t r2
           | (Err err, r2) => (Err err, t, r2)
           | (Panic, r2) => (Panic, t, r2)
           | (OutOfFuel, r2) => (OutOfFuel, t, r2)
           end
  | (Err err, r1) => (Err err, t, r1)
  | (Panic, r1) => (Panic, t, r1)
  | (OutOfFuel, r1) => (OutOfFuel, t, r1)
  end.
(** ILTagFactory::from_bytes, src/tags/mod.rs:489-497. *)
Definition o_from_bytes (e : engine) (raw_tag : list N) : res tag_error (otag T) :=
  match o_deserialize e (ByteArrayReader_new raw_tag) with
  | (Ok t, RByteArray a o) =>
      match mem_available (lenN a) o with
      | Ok n => if n =? 0 then Ok t else Err CorruptedData
      | Err err => Err (TagIO err)
      | Panic => Panic
      | OutOfFuel => OutOfFuel
      end
  | (Ok _, _) => Panic
  | (Err err, _) => Err err
  | (Panic, _) => Panic
  | (OutOfFuel, _) => OutOfFuel
  end.
End Open.

(** ILGenericPayloadTag (src/tags/payload/mod.rs:147-205) as a user type: an id
    and a payload; [reg] are the ids it is registered for.  The [deserialize] of
    the payload gets the factory. *)
Definition payload_user {T} (dflt : T) (size : T -> N) (ser : T -> writer -> res tag_error unit * writer)
  (des : (reader -> res tag_error (otag (N * T)) * reader) -> N -> method T unit) (reg : N -> bool) : user_impl (N * T) :=
  provided fst (fun x => size (snd x)) (fun x => ser (snd x)) (fun deser n => on_snd (des deser n))
    (fun id => if reg id then Some (Some (id, dflt)) else None).

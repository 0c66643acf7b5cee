(** Model of src/tags/payload/mod.rs: tags whose payload is a type written by the
    user of the library. *)
From Verif Require Import Base Types IO ILInt Data Tags Factory.

(** A tag seen through [&dyn ILTag]: one of the types of the library or a
    payload tag of the type [T]. *)
Inductive any_tag (T : Type) :=
| AStandard (t : tag)
| APayload (id : N) (x : T).
Arguments AStandard {T} t.
Arguments APayload {T} id x.

(** An implementation of ILTagPayload and Default for [T],
    src/tags/payload/mod.rs:50-88: arbitrary code.  [p_deserialize] receives the
    [deserialize] of the factory, the size of the value, the fields of [self]
    and the reader. *)
Record payload_impl (T : Type) := PayloadImpl {
  p_default : T;
  p_serialized_size : T -> N;
  p_serialize : T -> writer -> res tag_error unit * writer;
  p_deserialize : (reader -> res tag_error (any_tag T) * reader) -> N -> method T unit }.
Arguments p_default {T} p.
Arguments p_serialized_size {T} p x.
Arguments p_serialize {T} p x w.
Arguments p_deserialize {T} p deser n.

(** ILGenericPayloadTag, 147-150, is a pair of an id and a payload.
    new, 153-158 (also default_with_id, 201-205); [payload], [deref] and their
    mutable forms, 160-167 and 207-219, give the payload. *)
Definition payload_tag_new {T} (P : payload_impl T) (id : N) : any_tag T := APayload id (p_default P).

(** id, 170-172. *)
Definition any_id {T} (t : any_tag T) : N := match t with AStandard t => tag_id t | APayload id _ => id end.
(** value_size, 174-176. *)
Definition any_value_size {T} (P : payload_impl T) (t : any_tag T) : N :=
  match t with AStandard t => value_size (tag_val t) | APayload _ x => p_serialized_size P x end.
(** serialize_value, 178-180. *)
Definition any_serialize_value {T} (P : payload_impl T) (t : any_tag T) : writer -> res tag_error unit * writer :=
  match t with AStandard t => serialize_value (tag_val t) | APayload _ x => p_serialize P x end.
(** The provided methods of ILTag, on any tag: size, src/tags/mod.rs:198-204;
    serialize, 230-236; to_bytes, 266-270. *)
Definition any_size {T} (P : payload_impl T) (t : any_tag T) : N :=
  encoded_size (any_id t)
  + (if is_implicit_tag (any_id t) then 0 else encoded_size (any_value_size P t))
  + any_value_size P t.
Definition any_serialize {T} (P : payload_impl T) (t : any_tag T) : writer -> res tag_error unit * writer :=
  serialize_ilint (any_id t) ;;;
  (if is_implicit_tag (any_id t) then ret tt else serialize_ilint (any_value_size P t)) ;;;
  any_serialize_value P t.
Definition any_to_bytes {T} (P : payload_impl T) (t : any_tag T) : res tag_error (list N) :=
  match any_serialize P t VecWriter_new with
  | (Ok _, WVec v _ _) => Ok v
  | (Ok _, _) => Panic
  | (Err e, _) => Err e
  | (Panic, _) => Panic
  | (OutOfFuel, _) => OutOfFuel
  end.

(** ILStandardTagFactory (src/tags/standard/factory/mod.rs:126-204) with the
    creators of [e] and, for the ids in [reg], an
    ILDefaultWithIdTagCreator<ILGenericPayloadTag<T>> (src/tags/mod.rs:608-640).
    Simplification: tags nested inside the containers of the library are created
    with [e] only (Open.v and C47_anywhere have no such limit); a payload may contain payload tags.
    The fuel bounds the depth
    of nested calls. *)
(** create_tag. *)
Definition any_create {T} (P : payload_impl T) (reg : N -> bool) (e : engine) (id : N) : res tag_error (option (any_tag T)) :=
  if reg id then Ok (Some (payload_tag_new P id))
  else map_ok (option_map AStandard) (create_tag e id).
(** deserialize_tag_value_into, 164-176, on a payload tag; deserialize_value,
    src/tags/payload/mod.rs:182-189. *)
Definition payload_value_into {T} (P : payload_impl T) (deser : reader -> res tag_error (any_tag T) * reader)
  (n id : N) (x : T) (r : reader) : res tag_error unit * any_tag T * reader :=
  let '(y, (x', lr)) := p_deserialize P deser n (x, LimitedReader_new r n) in
  (match y with
   | Ok _ =>
       if negb (id =? IL_ILINT_TAG_ID) && negb (id =? IL_SIGNED_ILINT_TAG_ID) && negb (limit_empty lr)
       then Err CorruptedData else Ok tt
   | _ => y
   end, APayload id x', unlimit lr).
(** deserialize, 184-193. *)
Fixpoint any_deserialize_fuel {T} (P : payload_impl T) (reg : N -> bool) (e : engine) (fuel : nat) (r : reader)
  : res tag_error (any_tag T) * reader :=
  match fuel with
  | O => (OutOfFuel, r)
  | Datatypes.S f =>
      (id <- deserialize_ilint ;;
       n <- deserialize_tag_size id ;;
       created <- (fun r => (any_create P reg e id, r)) ;;
       match created with
       | None => fail UnknownTag
       | Some (AStandard t) => fun r =>
           let '(x, t', r') := deserialize_tag_value_into (deserialize_fuel f e) n t r in
           (map_ok (fun _ => AStandard t') x, r')
       | Some (APayload i x) => fun r =>
           let '(y, t', r') := payload_value_into P (any_deserialize_fuel P reg e f) n i x r in
           (map_ok (fun _ => t') y, r')
       end) r
  end.
Definition any_deserialize {T} (P : payload_impl T) (reg : N -> bool) (e : engine) (r : reader)
  : res tag_error (any_tag T) * reader :=
  any_deserialize_fuel P reg e (S (left r)) r.

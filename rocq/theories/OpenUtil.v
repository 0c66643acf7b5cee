(** src/tags/util/mod.rs on any object ([&dyn ILTag]) and with any implementation
    of ILTagFactory ([&dyn ILTagFactory], src/tags/mod.rs:444-498). *)
From Verif Require Import Base Types IO ILInt Data Tags Factory Payload Open.

(** The methods of ILTagFactory: create_tag, src/tags/mod.rs:453, deserialize, 462,
    deserialize_into, 477, from_bytes, 489-497.  [from_bytes] is a provided method,
    which an implementation may replace. *)
Record factory_impl (T : Type) := FactoryImpl {
  f_create_tag : N -> res tag_error (option (otag T));
  f_deserialize : reader -> res tag_error (otag T) * reader;
  f_deserialize_into : reader -> otag T -> res tag_error unit * otag T * reader;
  f_from_bytes : list N -> res tag_error (otag T) }.
Arguments f_create_tag {T} f id.
Arguments f_deserialize {T} f r.
Arguments f_deserialize_into {T} f r t.
Arguments f_from_bytes {T} f raw_tag.

Section OpenUtil.
Context {T : Type}.
(** The provided ILTagFactory::from_bytes, src/tags/mod.rs:489-497, over the
    [deserialize] of the implementation.  The last case is no program: [deserialize]
    cannot put another reader in the place of the one it borrowed. *)
Definition from_bytes_over (deserialize : reader -> res tag_error (otag T) * reader) (raw_tag : list N)
  : res tag_error (otag T) :=
  match deserialize (ByteArrayReader_new raw_tag) with
  | (Ok ret, RByteArray a o) =>
      match mem_available (lenN a) o with
      | Ok n => if n =? 0 then Ok ret else Err CorruptedData
      | Err err => Err (TagIO err)
      | Panic => Panic
      | OutOfFuel => OutOfFuel
      end
  | (Err err, _) => Err err
  | (Panic, _) => Panic
  | (OutOfFuel, _) => OutOfFuel
  | (Ok _, _) => Panic
  end.
(** An implementation that keeps it. *)
Definition provided_factory create deserialize into : factory_impl T := {|
  f_create_tag := create;
  f_deserialize := deserialize;
  f_deserialize_into := into;
  f_from_bytes := from_bytes_over deserialize |}.
(** ILStandardTagFactory, src/tags/standard/factory/mod.rs:179-204, with user
    creators in its engine. *)
Definition standard_factory (U : user_impl T) (e : engine) : factory_impl T :=
  provided_factory (o_create U e) (o_deserialize U e) (o_deserialize_into U e).
(** UntouchbleTagFactory, src/tags/util/mod.rs:146-173. *)
Definition untouchable_factory : factory_impl T :=
  provided_factory (fun _ => Panic) (fun r => (Panic, r)) (fun r t => (Panic, t, r)).

(** iltag_are_equal, src/tags/util/mod.rs:57-67. *)
Definition u_are_equal (U : user_impl T) (a b : otag T) : res tag_error bool :=
  match o_to_bytes U a with
  | Ok sa => match o_to_bytes U b with
             | Ok sb => Ok (if list_eq_dec N.eq_dec sa sb then true else false)
             | Err _ => Ok false
             | Panic => Panic
             | OutOfFuel => OutOfFuel
             end
  | Err _ => Ok false
  | Panic => Panic
  | OutOfFuel => OutOfFuel
  end.
(** iltag_clone_with_factory, src/tags/util/mod.rs:86-92. *)
Definition u_clone_with_factory (U : user_impl T) (f : factory_impl T) (tag : otag T) : res tag_error (otag T) :=
  match o_to_bytes U tag with
  | Ok s => f_from_bytes f s
  | Err err => Err err
  | Panic => Panic
  | OutOfFuel => OutOfFuel
  end.
(** iltag_clone, src/tags/util/mod.rs:109-112: a new standard factory, in which no
    user creator is registered. *)
Definition no_creators (U : user_impl T) : user_impl T := {|
  u_id := u_id U;
  u_size := u_size U;
  u_serialize := u_serialize U;
  u_to_bytes := u_to_bytes U;
  u_deserialize_value := u_deserialize_value U;
  u_create := fun _ => None |}.
Definition u_clone (U : user_impl T) (tag : otag T) : res tag_error (otag T) :=
  u_clone_with_factory U (standard_factory (no_creators U) (create_std_engine false)) tag.
End OpenUtil.

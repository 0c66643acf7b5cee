(** User readers, creators and tags that share state: on the reading side too, the
    code of the user may change anything behind a shared reference (the position of
    a stream, a counter, a cache, a registry of objects), so what one call answers
    may depend on every call made before it.  The functions of AnyProg.v and
    AnyFull.v over such code. *)
From Verif Require Import Base Types IO ILInt Data Tags Factory Open Prog Any AnyScan AnyProg.

(** A deserialize_value written by the user of the library
    (ILTag::deserialize_value, src/tags/mod.rs:238-255), as the calls it makes, over
    the states [W] of everything the code of the user can reach.  [WAct]: code that
    looks at the state and changes it.  [WRead], [WReadAll], [WSkip], [WSkip64]: the
    methods of the reader it is given (src/io/mod.rs:74-151).  [WTag], [WInto]:
    ILTagFactory::deserialize and deserialize_into on this reader
    (src/tags/mod.rs:462-477).  [WLimited]: a part that works on a LimitedReader of
    its own around its reader (src/io/mod.rs:207-223).  [WOther], [WOtherInto]: the
    methods of the factory on any other reader, whose state is in [W].  [WAbort]: it
    panics.  Simplification: the program ends. *)
Inductive wprog (I W : Type) : Type -> Type :=
| WDone {A} (a : A) : wprog I W A
| WAbort {A} : wprog I W A
| WAct {A B} (f : W -> B * W) (k : B -> wprog I W A) : wprog I W A
| WRead {A} (k : res io_error N -> wprog I W A) : wprog I W A
| WReadAll {A} (old : list N) (k : res io_error unit -> list N -> wprog I W A) : wprog I W A
| WSkip {A} (n : N) (k : res io_error unit -> wprog I W A) : wprog I W A
| WSkip64 {A} (n : N) (k : res io_error unit -> wprog I W A) : wprog I W A
| WTag {A} (k : res tag_error I -> wprog I W A) : wprog I W A
| WInto {A} (t : I) (k : res tag_error unit -> I -> wprog I W A) : wprog I W A
| WLimited {A B} (n : N) (body : wprog I W B) (k : B -> N -> wprog I W A) : wprog I W A
| WOther {A} (M : reader_impl W) (k : res tag_error I -> wprog I W A) : wprog I W A
| WOtherInto {A} (M : reader_impl W) (t : I) (k : res tag_error unit -> I -> wprog I W A) : wprog I W A.
Arguments WDone {I W A} a.
Arguments WAbort {I W A}.
Arguments WAct {I W A B} f k.
Arguments WRead {I W A} k.
Arguments WReadAll {I W A} old k.
Arguments WSkip {I W A} n k.
Arguments WSkip64 {I W A} n k.
Arguments WTag {I W A} k.
Arguments WInto {I W A} t k.
Arguments WLimited {I W A B} n body k.
Arguments WOther {I W A} M k.
Arguments WOtherInto {I W A} M t k.

(** The code of the user: ILTag::id (src/tags/mod.rs:182, [None]: it panics) and
    ILTag::deserialize_value (250-255) of the objects of type [T], and the creators
    registered in the engine (585-658), which may build any object. *)
Record reading_impl (T W : Type) := ReadingImpl {
  z_id : T -> W -> option N * W;
  z_value : N -> T -> wprog (otag T) W (option tag_error * T);
  z_create : N -> option (W -> option (otag T) * W) }.
Arguments z_id {T W} r x u.
Arguments z_value {T W} r n x.
Arguments z_create {T W} r id.

(** The state below the LimitedReaders (src/io/mod.rs:207-223) of a reader. *)
Fixpoint a_state {W} (r : areader W) : W :=
  match r with ABase u => u | ALimited s _ => a_state s end.
Fixpoint a_put {W} (u : W) (r : areader W) : areader W :=
  match r with ABase _ => ABase u | ALimited s n => ALimited (a_put u s) n end.
(** A call of user code that is not a call of the reader (ILTag::id,
    src/tags/mod.rs:182; ILTagCreator, 505-515). *)
Definition on_state {W A} (f : W -> res tag_error A * W) (r : areader W) : res tag_error A * areader W :=
  let '(x, u) := f (a_state r) in (x, a_put u r).
Definition or_panic {W A} (f : W -> option A * W) (u : W) : res tag_error A * W :=
  match f u with (Some a, u') => (Ok a, u') | (None, u') => (Panic, u') end.

Section WorldRead.
Context {T W : Type}.

(** Running a program, as [ay_exec] of AnyFull.v; src/io/mod.rs:80-150 and
    src/tags/mod.rs:462-477. *)
Fixpoint w_exec {I A} (c : cfg) (M : reader_impl W) (deser : areader W -> res tag_error I * areader W)
    (into : areader W -> I -> res tag_error unit * I * areader W)
    (odeser : reader_impl W -> W -> res tag_error I * W) (ointo : reader_impl W -> I -> W -> res tag_error unit * I * W)
    (p : wprog I W A) (r : areader W) : res tag_error A * areader W :=
  match p in wprog _ _ A return res tag_error A * areader W with
  | WDone a => (Ok a, r)
  | WAbort => (Panic, r)
  | WAct f k => let '(b, u) := f (a_state r) in w_exec c M deser into odeser ointo (k b) (a_put u r)
  | WRead k => let '(x, r') := a_read M r in a_after x (fun x => w_exec c M deser into odeser ointo (k x)) r'
  | WReadAll old k =>
      let '(x, buff, r') := a_read_all M (u8s old) r in a_after x (fun x => w_exec c M deser into odeser ointo (k x buff)) r'
  | WSkip n k => let '(x, r') := a_skip M n r in a_after x (fun x => w_exec c M deser into odeser ointo (k x)) r'
  | WSkip64 n k => let '(x, r') := a_skip_u64 M c n r in a_after x (fun x => w_exec c M deser into odeser ointo (k x)) r'
  | WTag k => let '(x, r') := deser r in a_after x (fun x => w_exec c M deser into odeser ointo (k x)) r'
  | WInto t k => let '(x, t', r') := into r t in a_after x (fun x => w_exec c M deser into odeser ointo (k x t')) r'
  | WLimited n body k =>
      let '(x, lr) := w_exec c M deser into odeser ointo body (ALimited r n) in
      match x, lr with
      | Ok b, ALimited r' n' => w_exec c M deser into odeser ointo (k b n') r'
      | Ok _, _ => (Panic, lr)
      | Err e, _ => (Err e, a_unlimit lr)
      | Panic, _ => (Panic, a_unlimit lr)
      | OutOfFuel, _ => (OutOfFuel, a_unlimit lr)
      end
  | WOther M' k =>
      let '(x, u) := odeser M' (a_state r) in a_after x (fun x => w_exec c M deser into odeser ointo (k x)) (a_put u r)
  | WOtherInto M' t k =>
      let '(x, t', u) := ointo M' t (a_state r) in a_after x (fun x => w_exec c M deser into odeser ointo (k x t')) (a_put u r)
  end.

Context (c : cfg) (Z : reading_impl T W) (e : engine).

(** ILTag::deserialize_value (src/tags/mod.rs:250-255) of a user type. *)
Definition w_user (M : reader_impl W) (deser : areader W -> res tag_error (otag T) * areader W)
    (into : areader W -> otag T -> res tag_error unit * otag T * areader W)
    (odeser : reader_impl W -> W -> res tag_error (otag T) * W)
    (ointo : reader_impl W -> otag T -> W -> res tag_error unit * otag T * W) (n : N) : @amethod W T unit :=
  fun '(x, r) =>
    match w_exec c M deser into odeser ointo (z_value Z n x) r with
    | (Ok (None, x'), r') => (Ok tt, (x', r'))
    | (Ok (Some err, x'), r') => (Err err, (x', r'))
    | (Err err, r') => (Err err, (x, r'))
    | (Panic, r') => (Panic, (x, r'))
    | (OutOfFuel, r') => (OutOfFuel, (x, r'))
    end.
(** ILTag::id (src/tags/mod.rs:182) of an object: a call for a user type, a field
    for the types of the library. *)
Definition w_id (t : otag T) : areader W -> res tag_error N * areader W :=
  match t with
  | OStd id _ | OSeq id _ | OArr id _ | ODict id _ => ret id
  | OUser x => on_state (or_panic (z_id Z x))
  end.
(** [tag.id() != IL_ILINT_TAG_ID && tag.id() != IL_SIGNED_ILINT_TAG_ID && !lreader.empty()],
    src/tags/standard/factory/mod.rs:171-174: one call of id or two. *)
Definition w_check (t : otag T) : areader W -> res tag_error unit * areader W :=
  id <- w_id t ;;
  if id =? IL_ILINT_TAG_ID then ret tt
  else id <- w_id t ;;
       if id =? IL_SIGNED_ILINT_TAG_ID then ret tt
       else fun lr => (if a_empty lr then Ok tt else Err CorruptedData, lr).
(** deserialize_tag_value_into, src/tags/standard/factory/mod.rs:164-176. *)
Definition w_value_into (value : otag T -> N -> areader W -> res tag_error unit * otag T * areader W) (n : N) (t : otag T) (r : areader W)
  : res tag_error unit * otag T * areader W :=
  let '(x, t', lr) := value t n (ALimited r n) in
  match x with
  | Ok _ => let '(y, lr') := w_check t' lr in (y, t', a_unlimit lr')
  | _ => (x, t', a_unlimit lr)
  end.
(** create_tag, src/tags/mod.rs:646-657: the creator of the user, if there is one
    for this id, is called. *)
Definition w_create (id : N) : areader W -> res tag_error (option (otag T)) * areader W :=
  match z_create Z id with
  | Some f => t <- on_state (or_panic f) ;; ret (Some t)
  | None => fun r => (map_ok (option_map emb) (create_tag e id), r)
  end.
(** deserialize, src/tags/standard/factory/mod.rs:184-193. *)
Definition w_step (M : reader_impl W) (into : N -> otag T -> areader W -> res tag_error unit * otag T * areader W)
  : areader W -> res tag_error (otag T) * areader W :=
  id <- a_ilint M ;;
  n <- a_tag_size M id ;;
  created <- w_create id ;;
  match created with
  | None => fail UnknownTag
  | Some t => fun r =>
      let '(x, t', r') := into n t r in
      (map_ok (fun _ => t') x, r')
  end.
(** deserialize_into, src/tags/standard/factory/mod.rs:195-203: the id is read before
    the object is asked for its own. *)
Definition w_into (M : reader_impl W) (into : N -> otag T -> areader W -> res tag_error unit * otag T * areader W)
  (r : areader W) (t : otag T) : res tag_error unit * otag T * areader W :=
  let '(x, r') :=
    (id <- a_ilint M ;;
     mine <- w_id t ;;
     if negb (id =? mine) then fail UnexpectedTagType else a_tag_size M id) r in
  match x with
  | Ok n => into n t r'
  | Err err => (Err err, t, r')
  | Panic => (Panic, t, r')
  | OutOfFuel => (OutOfFuel, t, r')
  end.
(** deserialize and deserialize_into of a standard factory
    (src/tags/standard/factory/mod.rs:184-203) on every reader: the fuel bounds the
    depth of the calls. *)
Fixpoint w_fuel (fuel : nat) (M : reader_impl W)
  : (areader W -> res tag_error (otag T) * areader W) * (areader W -> otag T -> res tag_error unit * otag T * areader W) :=
  match fuel with
  | O => (fun r => (OutOfFuel, r), fun r t => (OutOfFuel, t, r))
  | Datatypes.S f =>
      let odeser M' u := let '(x, r) := fst (w_fuel f M') (ABase u) in (x, a_state r) in
      let ointo M' t u := let '(x, t', r) := snd (w_fuel f M') (ABase u) t in (x, t', a_state r) in
      let both := w_fuel f M in
      let user := w_user M (fst both) (snd both) odeser ointo in
      let into := w_value_into (av_value M user (fst both)) in
      (w_step M into, w_into M into)
  end.
Definition w_deserialize (fuel : nat) (M : reader_impl W) : areader W -> res tag_error (otag T) * areader W := fst (w_fuel fuel M).
Definition w_deserialize_into (fuel : nat) (M : reader_impl W) : areader W -> otag T -> res tag_error unit * otag T * areader W :=
  snd (w_fuel fuel M).
End WorldRead.

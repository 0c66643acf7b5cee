(** User types of tags whose deserialize_value makes every call (FullProg.v), on any
    implementation of the trait [Reader] (Any.v).  The functions are those of
    FullProg.v on the readers of Any.v; PAnyFull.v shows that the two versions
    agree.  Simplification: the readers that a program makes itself are those of
    the library (IO.v). *)
From Verif Require Import Base Types IO ILInt Data Tags Factory Open Prog IntoProg OtherProg FullProg Any AnyScan AnyProg.

Section AnyFull.
Context {U : Type} (M : reader_impl U).

(** Running a program, as [yexec] of FullProg.v: [deser] and [into] are the methods
    of the factory (src/tags/mod.rs:462-477) on the reader of the program, [odeser]
    and [ointo] on the readers it makes.  The calls of the reader are those of
    src/io/mod.rs:80-150. *)
Fixpoint ay_exec {I A} (c : cfg) (deser : areader U -> res tag_error I * areader U)
    (into : areader U -> I -> res tag_error unit * I * areader U)
    (odeser : reader -> res tag_error I * reader) (ointo : reader -> I -> res tag_error unit * I * reader)
    (p : yprog I A) (r : areader U) : res tag_error A * areader U :=
  match p in yprog _ A return res tag_error A * areader U with
  | YDone a => (Ok a, r)
  | YAbort => (Panic, r)
  | YRead k => let '(x, r') := a_read M r in a_after x (fun x => ay_exec c deser into odeser ointo (k x)) r'
  | YReadAll old k =>
      let '(x, buff, r') := a_read_all M (u8s old) r in a_after x (fun x => ay_exec c deser into odeser ointo (k x buff)) r'
  | YSkip n k => let '(x, r') := a_skip M n r in a_after x (fun x => ay_exec c deser into odeser ointo (k x)) r'
  | YSkip64 n k => let '(x, r') := a_skip_u64 M c n r in a_after x (fun x => ay_exec c deser into odeser ointo (k x)) r'
  | YTag k => let '(x, r') := deser r in a_after x (fun x => ay_exec c deser into odeser ointo (k x)) r'
  | YLimited n body k =>
      let '(x, lr) := ay_exec c deser into odeser ointo body (ALimited r n) in
      match x, lr with
      | Ok b, ALimited r' n' => ay_exec c deser into odeser ointo (k b n') r'
      | Ok _, _ => (Panic, lr)
      | Err e, _ => (Err e, a_unlimit lr)
      | Panic, _ => (Panic, a_unlimit lr)
      | OutOfFuel, _ => (OutOfFuel, a_unlimit lr)
      end
  | YInto t k => let '(x, t', r') := into r t in a_after x (fun x => ay_exec c deser into odeser ointo (k x t')) r'
  | YOther q k => let '(x, q') := odeser q in a_after x (fun x => ay_exec c deser into odeser ointo (k x q')) r
  | YOtherInto q t k => let '(x, t', q') := ointo q t in a_after x (fun x => ay_exec c deser into odeser ointo (k x t' q')) r
  end.

(** ILTag::deserialize_value (src/tags/mod.rs:250-255) of a user type, as [yrun] of
    FullProg.v. *)
Definition ay_user {T} (c : cfg) (deser : areader U -> res tag_error (otag T) * areader U)
    (into : areader U -> otag T -> res tag_error unit * otag T * areader U)
    (odeser : reader -> res tag_error (otag T) * reader) (ointo : reader -> otag T -> res tag_error unit * otag T * reader)
    (Y : yscript T) (n : N) : @amethod U T unit :=
  fun '(x, r) =>
    match ay_exec c deser into odeser ointo (Y n x) r with
    | (Ok (None, x'), r') => (Ok tt, (x', r'))
    | (Ok (Some e, x'), r') => (Err e, (x', r'))
    | (Err e, r') => (Err e, (x, r'))
    | (Panic, r') => (Panic, (x, r'))
    | (OutOfFuel, r') => (OutOfFuel, (x, r'))
    end.

(** deserialize and deserialize_into of a standard factory with such user types,
    src/tags/standard/factory/mod.rs:184-203, as [y_fuel] of FullProg.v: the fuel
    bounds the depth of the calls. *)
Context {T : Type} (c : cfg) (D : user_impl T) (Y : yscript T) (e : engine).
Fixpoint ay_fuel (fuel : nat)
  : (areader U -> res tag_error (otag T) * areader U) * (areader U -> otag T -> res tag_error unit * otag T * areader U) :=
  match fuel with
  | O => (fun r => (OutOfFuel, r), fun r t => (OutOfFuel, t, r))
  | Datatypes.S f =>
      let both := ay_fuel f in
      let user := ay_user c (fst both) (snd both) (y_deserialize c D Y e f) (y_deserialize_into c D Y e f) Y in
      let value_into := av_value_into D (av_value M user (fst both)) in
      (av_step M D value_into e, av_into M D value_into)
  end.
Definition ay_deserialize (fuel : nat) : areader U -> res tag_error (otag T) * areader U := fst (ay_fuel fuel).
Definition ay_deserialize_into (fuel : nat) : areader U -> otag T -> res tag_error unit * otag T * areader U := snd (ay_fuel fuel).
End AnyFull.

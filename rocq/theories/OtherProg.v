(** User types whose deserialize_value also calls the factory on readers that the
    program makes itself, as for tags that hold compressed or encrypted tags. *)
From Verif Require Import Base Types Spec IO IOSpec Tags Factory Open Prog.

(** The programs of Prog.v and one more call: [XOther q k] is
    ILTagFactory::deserialize (src/tags/mod.rs:462) on a reader [q] of the
    program; it goes on with the result and with the reader afterwards, so it may
    use it again.  ILTagFactory::from_bytes (src/tags/mod.rs:489-497) is such a
    call on a ByteArrayReader. *)
Inductive xprog (I : Type) : Type -> Type :=
| XDone {A} (a : A) : xprog I A
| XAbort {A} : xprog I A
| XRead {A} (k : res io_error N -> xprog I A) : xprog I A
| XReadAll {A} (old : list N) (k : res io_error unit -> list N -> xprog I A) : xprog I A
| XSkip {A} (n : N) (k : res io_error unit -> xprog I A) : xprog I A
| XSkip64 {A} (n : N) (k : res io_error unit -> xprog I A) : xprog I A
| XTag {A} (k : res tag_error I -> xprog I A) : xprog I A
| XLimited {A B} (n : N) (body : xprog I B) (k : B -> N -> xprog I A) : xprog I A
| XOther {A} (q : reader) (k : res tag_error I -> reader -> xprog I A) : xprog I A.
Arguments XDone {I A} a.
Arguments XAbort {I A}.
Arguments XRead {I A} k.
Arguments XReadAll {I A} old k.
Arguments XSkip {I A} n k.
Arguments XSkip64 {I A} n k.
Arguments XTag {I A} k.
Arguments XLimited {I A B} n body k.
Arguments XOther {I A} q k.

(** Running a program. *)
Fixpoint xexec {I A} (c : cfg) (deser : reader -> res tag_error I * reader) (p : xprog I A) (r : reader)
  : res tag_error A * reader :=
  match p in xprog _ A return res tag_error A * reader with
  | XDone a => (Ok a, r)
  | XAbort => (Panic, r)
  | XRead k => let '(x, r') := read r in after x (fun x => xexec c deser (k x)) r'
  | XReadAll old k =>
      let '(x, got, r') := read_all (lenN old) r in after x (fun x => xexec c deser (k x (filled old got))) r'
  | XSkip n k => let '(x, r') := skip c n r in after x (fun x => xexec c deser (k x)) r'
  | XSkip64 n k => let '(x, r') := skip_u64 c n r in after x (fun x => xexec c deser (k x)) r'
  | XTag k => let '(x, r') := deser r in after x (fun x => xexec c deser (k x)) r'
  | XLimited n body k =>
      let '(x, lr) := xexec c deser body (LimitedReader_new r n) in
      match x, lr with
      | Ok b, RLimited r' n' => xexec c deser (k b n') r'
      | Ok _, _ => (Panic, lr)
      | Err e, _ => (Err e, unlimit lr)
      | Panic, _ => (Panic, unlimit lr)
      | OutOfFuel, _ => (OutOfFuel, unlimit lr)
      end
  | XOther q k => let '(x, q') := deser q in after x (fun x => xexec c deser (k x q')) r
  end.

(** A user type with the program [P n x] as the body of deserialize_value, as in
    Prog.v. *)
Definition xscript (T : Type) := N -> T -> xprog (otag T) (option tag_error * T).
Definition xscripted {T} (c : cfg) (U : user_impl T) (P : xscript T) : user_impl T := {|
  u_id := u_id U; u_size := u_size U; u_serialize := u_serialize U; u_to_bytes := u_to_bytes U;
  u_deserialize_value := fun deser n st =>
    let '(x, r) := st in
    match xexec c deser (P n x) r with
    | (Ok (None, x'), r') => (Ok tt, (x', r'))
    | (Ok (Some e, x'), r') => (Err e, (x', r'))
    | (Err e, r') => (Err e, (x, r'))
    | (Panic, r') => (Panic, (x, r'))
    | (OutOfFuel, r') => (OutOfFuel, (x, r'))
    end;
  u_create := u_create U |}.
(** ILTagFactory::deserialize (src/tags/standard/factory/mod.rs:184-193) with such
    types.  The calls of a program on its own readers are not bounded by the data
    of the outer one, so this is relative to a bound [f] on the depth of the
    calls; [OutOfFuel]: they are deeper. *)
Definition x_deserialize {T} (c : cfg) (U : user_impl T) (P : xscript T) (e : engine) (f : nat)
  : reader -> res tag_error (otag T) * reader := o_deserialize_fuel (xscripted c U P) f e.

(** A program with the answers on the other readers filled in from [D]. *)
Fixpoint settle {I A} (D : reader -> res tag_error I * reader) (p : xprog I A) : prog I A :=
  match p with
  | XDone a => Done a
  | XAbort => Abort
  | XRead k => DoRead (fun x => settle D (k x))
  | XReadAll old k => DoReadAll old (fun x got => settle D (k x got))
  | XSkip n k => DoSkip n (fun x => settle D (k x))
  | XSkip64 n k => DoSkip64 n (fun x => settle D (k x))
  | XTag k => DoTag (fun x => settle D (k x))
  | XLimited n body k => DoLimited n (settle D body) (fun b m => settle D (k b m))
  | XOther q k => let '(x, q') := D q in match x with Ok _ | Err _ => settle D (k x q') | _ => Abort end
  end.
Definition settled {T} (D : reader -> res tag_error (otag T) * reader) (P : xscript T) : script T :=
  fun n x => settle D (P n x).

(** ** What is asked of a program *)
(** It does not panic, and its readers are well formed. *)
Fixpoint xcalm {I A} (p : xprog I A) : Prop :=
  match p with
  | XDone _ => True
  | XAbort => False
  | XRead k => forall x, returns x -> xcalm (k x)
  | XReadAll _ k => forall x got, returns x -> xcalm (k x got)
  | XSkip _ k => forall x, returns x -> xcalm (k x)
  | XSkip64 _ k => forall x, returns x -> xcalm (k x)
  | XTag k => forall x, returns x -> xcalm (k x)
  | XLimited _ body k => xcalm body /\ forall b m, xcalm (k b m)
  | XOther q k => rwf q /\ forall x q', returns x -> rwf q' -> xcalm (k x q')
  end.
(** It has got [m] bytes from its own reader, and no reader it makes holds more
    than [s] bytes more than it has got by then. *)
Fixpoint frugal {I A} (s : nat) (p : xprog I A) (m : nat) : Prop :=
  match p with
  | XDone _ => True
  | XAbort => True
  | XRead k => (forall b, frugal s (k (Ok b)) (S m)) /\ (forall e, frugal s (k (Err e)) m)
  | XReadAll old k =>
      (forall got, length got = length old -> frugal s (k (Ok tt) got) (length old + m)) /\
      (forall e got, frugal s (k (Err e) got) m)
  | XSkip n k => frugal s (k (Ok tt)) (N.to_nat n + m) /\ (forall e, frugal s (k (Err e)) m)
  | XSkip64 n k => frugal s (k (Ok tt)) (N.to_nat n + m) /\ (forall e, frugal s (k (Err e)) m)
  | XTag k => (forall t, frugal s (k (Ok t)) (S m)) /\ (forall e, frugal s (k (Err e)) m)
  | XLimited _ body k => frugal s body m /\ forall b j, frugal s (k b j) m
  | XOther q k => rwf q /\ (left q <= m + s)%nat /\
      forall x q', returns x -> rwf q' -> (left q' <= left q)%nat -> frugal s (k x q') m
  end.
(** Whatever the answers, it ends in [F] (or panics). *)
Fixpoint xends_in {I A} (p : xprog I A) : (A -> Prop) -> Prop :=
  match p in xprog _ A return (A -> Prop) -> Prop with
  | XDone a => fun F => F a
  | XAbort => fun _ => True
  | XRead k => fun F => forall x, returns x -> xends_in (k x) F
  | XReadAll _ k => fun F => forall x got, returns x -> xends_in (k x got) F
  | XSkip _ k => fun F => forall x, returns x -> xends_in (k x) F
  | XSkip64 _ k => fun F => forall x, returns x -> xends_in (k x) F
  | XTag k => fun F => forall x, returns x -> xends_in (k x) F
  | XLimited _ _ k => fun F => forall b m, xends_in (k b m) F
  | XOther _ k => fun F => forall x q', returns x -> xends_in (k x q') F
  end.
(** It ends in [F] once a call on its own reader has failed; it may do what it
    likes about failures on the others. *)
Fixpoint xstrict {I A} (p : xprog I A) : (A -> Prop) -> Prop :=
  match p in xprog _ A return (A -> Prop) -> Prop with
  | XDone a => fun _ => True
  | XAbort => fun _ => True
  | XRead k => fun F => (forall b, xstrict (k (Ok b)) F) /\ (forall e, xends_in (k (Err e)) F)
  | XReadAll _ k => fun F => (forall got, xstrict (k (Ok tt) got) F) /\ (forall e got, xends_in (k (Err e) got) F)
  | XSkip _ k => fun F => xstrict (k (Ok tt)) F /\ (forall e, xends_in (k (Err e)) F)
  | XSkip64 _ k => fun F => xstrict (k (Ok tt)) F /\ (forall e, xends_in (k (Err e)) F)
  | XTag k => fun F => (forall t, xstrict (k (Ok t)) F) /\ (forall e, xends_in (k (Err e)) F)
  | XLimited _ body k => fun F => exists G, xstrict body G /\ (forall b m, xstrict (k b m) F) /\
      (forall b m, G b -> xends_in (k b m) F)
  | XOther _ k => fun F => forall x q', returns x -> xstrict (k x q') F
  end.

(** User types whose deserialize_value makes every call there is: those on its own
    reader (Prog.v), ILTagFactory::deserialize_into (IntoProg.v), and both methods
    of the factory on readers that the program makes itself (OtherProg.v). *)
From Verif Require Import Base Types Spec IO IOSpec Tags Factory Open OpenFacts Prog IntoProg OtherProg.

(** [YOther q k]: ILTagFactory::deserialize (src/tags/mod.rs:462) on a reader [q] of
    the program.  [YOtherInto q t k]: ILTagFactory::deserialize_into
    (src/tags/mod.rs:464-477) on such a reader and the object [t]. *)
Inductive yprog (I : Type) : Type -> Type :=
| YDone {A} (a : A) : yprog I A
| YAbort {A} : yprog I A
| YRead {A} (k : res io_error N -> yprog I A) : yprog I A
| YReadAll {A} (old : list N) (k : res io_error unit -> list N -> yprog I A) : yprog I A
| YSkip {A} (n : N) (k : res io_error unit -> yprog I A) : yprog I A
| YSkip64 {A} (n : N) (k : res io_error unit -> yprog I A) : yprog I A
| YTag {A} (k : res tag_error I -> yprog I A) : yprog I A
| YLimited {A B} (n : N) (body : yprog I B) (k : B -> N -> yprog I A) : yprog I A
| YInto {A} (t : I) (k : res tag_error unit -> I -> yprog I A) : yprog I A
| YOther {A} (q : reader) (k : res tag_error I -> reader -> yprog I A) : yprog I A
| YOtherInto {A} (q : reader) (t : I) (k : res tag_error unit -> I -> reader -> yprog I A) : yprog I A.
Arguments YDone {I A} a.
Arguments YAbort {I A}.
Arguments YRead {I A} k.
Arguments YReadAll {I A} old k.
Arguments YSkip {I A} n k.
Arguments YSkip64 {I A} n k.
Arguments YTag {I A} k.
Arguments YLimited {I A B} n body k.
Arguments YInto {I A} t k.
Arguments YOther {I A} q k.
Arguments YOtherInto {I A} q t k.

(** Running a program, with the two methods of the factory. *)
Fixpoint yexec {I A} (c : cfg) (deser : reader -> res tag_error I * reader)
    (into : reader -> I -> res tag_error unit * I * reader) (p : yprog I A) (r : reader) : res tag_error A * reader :=
  match p in yprog _ A return res tag_error A * reader with
  | YDone a => (Ok a, r)
  | YAbort => (Panic, r)
  | YRead k => let '(x, r') := read r in after x (fun x => yexec c deser into (k x)) r'
  | YReadAll old k =>
      let '(x, got, r') := read_all (lenN old) r in after x (fun x => yexec c deser into (k x (filled old got))) r'
  | YSkip n k => let '(x, r') := skip c n r in after x (fun x => yexec c deser into (k x)) r'
  | YSkip64 n k => let '(x, r') := skip_u64 c n r in after x (fun x => yexec c deser into (k x)) r'
  | YTag k => let '(x, r') := deser r in after x (fun x => yexec c deser into (k x)) r'
  | YLimited n body k =>
      let '(x, lr) := yexec c deser into body (LimitedReader_new r n) in
      match x, lr with
      | Ok b, RLimited r' n' => yexec c deser into (k b n') r'
      | Ok _, _ => (Panic, lr)
      | Err e, _ => (Err e, unlimit lr)
      | Panic, _ => (Panic, unlimit lr)
      | OutOfFuel, _ => (OutOfFuel, unlimit lr)
      end
  | YInto t k => let '(x, t', r') := into r t in after x (fun x => yexec c deser into (k x t')) r'
  | YOther q k => let '(x, q') := deser q in after x (fun x => yexec c deser into (k x q')) r
  | YOtherInto q t k => let '(x, t', q') := into q t in after x (fun x => yexec c deser into (k x t' q')) r
  end.

(** The body of deserialize_value of a user type, as in [irun]. *)
Definition yscript (T : Type) := N -> T -> yprog (otag T) (option tag_error * T).
Definition yrun {T} (c : cfg) (deser : reader -> res tag_error (otag T) * reader)
    (into : reader -> otag T -> res tag_error unit * otag T * reader) (Y : yscript T) (n : N) : method T unit :=
  fun st =>
    let '(x, r) := st in
    match yexec c deser into (Y n x) r with
    | (Ok (None, x'), r') => (Ok tt, (x', r'))
    | (Ok (Some e, x'), r') => (Err e, (x', r'))
    | (Err e, r') => (Err e, (x, r'))
    | (Panic, r') => (Panic, (x, r'))
    | (OutOfFuel, r') => (OutOfFuel, (x, r'))
    end.
(** A standard factory with such user types: deserialize and deserialize_into,
    src/tags/standard/factory/mod.rs:184-203, which call the programs, which call
    them.  [fuel] bounds the depth of the calls, as in [x_deserialize]. *)
Section Factory.
Context {T : Type} (c : cfg) (U : user_impl T) (Y : yscript T) (e : engine).
Definition ycalled (deser : reader -> res tag_error (otag T) * reader)
    (into : reader -> otag T -> res tag_error unit * otag T * reader) : user_impl T := {|
  u_id := u_id U; u_size := u_size U; u_serialize := u_serialize U; u_to_bytes := u_to_bytes U;
  u_deserialize_value := fun _ n => yrun c deser into Y n;
  u_create := u_create U |}.
Fixpoint y_fuel (fuel : nat)
  : (reader -> res tag_error (otag T) * reader) * (reader -> otag T -> res tag_error unit * otag T * reader) :=
  match fuel with
  | O => (fun r => (OutOfFuel, r), fun r t => (OutOfFuel, t, r))
  | S f =>
      let both := y_fuel f in
      let deser := fst both in
      let V := ycalled deser (snd both) in
      (step_with e V deser, into_with V deser)
  end.
Definition y_deserialize (fuel : nat) : reader -> res tag_error (otag T) * reader := fst (y_fuel fuel).
Definition y_deserialize_into (fuel : nat) : reader -> otag T -> res tag_error unit * otag T * reader := snd (y_fuel fuel).
End Factory.

(** A program with the answers on the other readers filled in from [D] and [DI]. *)
Section Settle.
Context {I : Type} (D : reader -> res tag_error I * reader) (DI : reader -> I -> res tag_error unit * I * reader).
Fixpoint ysettle {A} (p : yprog I A) : iprog I A :=
  match p with
  | YDone a => IDone a
  | YAbort => IAbort
  | YRead k => IRead (fun x => ysettle (k x))
  | YReadAll old k => IReadAll old (fun x got => ysettle (k x got))
  | YSkip n k => ISkip n (fun x => ysettle (k x))
  | YSkip64 n k => ISkip64 n (fun x => ysettle (k x))
  | YTag k => ITag (fun x => ysettle (k x))
  | YLimited n body k => ILimited n (ysettle body) (fun b m => ysettle (k b m))
  | YInto t k => IInto t (fun x t' => ysettle (k x t'))
  | YOther q k => let '(x, q') := D q in match x with Ok _ | Err _ => ysettle (k x q') | _ => IAbort end
  | YOtherInto q t k => let '(x, t', q') := DI q t in match x with Ok _ | Err _ => ysettle (k x t' q') | _ => IAbort end
  end.
End Settle.
Definition ysettled {T} (D : reader -> res tag_error (otag T) * reader) (DI : reader -> otag T -> res tag_error unit * otag T * reader)
  (Y : yscript T) : iscript T := fun n x => ysettle D DI (Y n x).

(** ** What is asked of a program *)
(** It does not panic. *)
Fixpoint ycalm {I A} (p : yprog I A) : Prop :=
  match p with
  | YDone _ => True
  | YAbort => False
  | YRead k => forall x, returns x -> ycalm (k x)
  | YReadAll _ k => forall x got, returns x -> ycalm (k x got)
  | YSkip _ k => forall x, returns x -> ycalm (k x)
  | YSkip64 _ k => forall x, returns x -> ycalm (k x)
  | YTag k => forall x, returns x -> ycalm (k x)
  | YLimited _ body k => ycalm body /\ forall b m, ycalm (k b m)
  | YInto _ k => forall x t, returns x -> ycalm (k x t)
  | YOther _ k => forall x q', returns x -> ycalm (k x q')
  | YOtherInto _ _ k => forall x t' q', returns x -> ycalm (k x t' q')
  end.
(** Its readers are well formed, and every object on which it calls deserialize_into
    is one of those of [target] (IntoProg.v); the tags it gets from the factory are. *)
Fixpoint yaims {T A} (p : yprog (otag T) A) : Prop :=
  match p with
  | YDone _ => True
  | YAbort => True
  | YRead k => forall x, yaims (k x)
  | YReadAll _ k => forall x got, yaims (k x got)
  | YSkip _ k => forall x, yaims (k x)
  | YSkip64 _ k => forall x, yaims (k x)
  | YTag k => forall x, (forall t, x = Ok t -> target t) -> yaims (k x)
  | YLimited _ body k => yaims body /\ forall b m, yaims (k b m)
  | YInto t k => target t /\ forall x t', target t' -> yaims (k x t')
  | YOther q k => rwf q /\ forall x q', (forall t, x = Ok t -> target t) -> rwf q' -> yaims (k x q')
  | YOtherInto q t k => rwf q /\ target t /\ forall x t' q', target t' -> rwf q' -> yaims (k x t' q')
  end.
(** It has got [m] bytes from its own reader, and no reader it makes holds more
    than [s] bytes more than it has got by then. *)
Fixpoint yfrugal {I A} (s : nat) (p : yprog I A) (m : nat) : Prop :=
  match p with
  | YDone _ => True
  | YAbort => True
  | YRead k => (forall b, yfrugal s (k (Ok b)) (S m)) /\ (forall e, yfrugal s (k (Err e)) m)
  | YReadAll old k =>
      (forall got, length got = length old -> yfrugal s (k (Ok tt) got) (length old + m)) /\
      (forall e got, yfrugal s (k (Err e) got) m)
  | YSkip n k => yfrugal s (k (Ok tt)) (N.to_nat n + m) /\ (forall e, yfrugal s (k (Err e)) m)
  | YSkip64 n k => yfrugal s (k (Ok tt)) (N.to_nat n + m) /\ (forall e, yfrugal s (k (Err e)) m)
  | YTag k => (forall t, yfrugal s (k (Ok t)) (S m)) /\ (forall e, yfrugal s (k (Err e)) m)
  | YLimited _ body k => yfrugal s body m /\ forall b j, yfrugal s (k b j) m
  | YInto _ k => (forall t, yfrugal s (k (Ok tt) t) (S m)) /\ (forall e t, yfrugal s (k (Err e) t) m)
  | YOther q k => (left q <= m + s)%nat /\
      forall x q', returns x -> (left q' <= left q)%nat -> yfrugal s (k x q') m
  | YOtherInto q _ k => (left q <= m + s)%nat /\
      forall x t' q', returns x -> (left q' <= left q)%nat -> yfrugal s (k x t' q') m
  end.
(** Whatever the answers, it ends in [F] (or panics). *)
Fixpoint yends_in {I A} (p : yprog I A) : (A -> Prop) -> Prop :=
  match p in yprog _ A return (A -> Prop) -> Prop with
  | YDone a => fun F => F a
  | YAbort => fun _ => True
  | YRead k => fun F => forall x, returns x -> yends_in (k x) F
  | YReadAll _ k => fun F => forall x got, returns x -> yends_in (k x got) F
  | YSkip _ k => fun F => forall x, returns x -> yends_in (k x) F
  | YSkip64 _ k => fun F => forall x, returns x -> yends_in (k x) F
  | YTag k => fun F => forall x, returns x -> yends_in (k x) F
  | YLimited _ _ k => fun F => forall b m, yends_in (k b m) F
  | YInto _ k => fun F => forall x t, returns x -> yends_in (k x t) F
  | YOther _ k => fun F => forall x q', returns x -> yends_in (k x q') F
  | YOtherInto _ _ k => fun F => forall x t' q', returns x -> yends_in (k x t' q') F
  end.
(** It ends in [F] once a call on its own reader has failed; it may do what it
    likes about failures on the others. *)
Fixpoint ystrict {I A} (p : yprog I A) : (A -> Prop) -> Prop :=
  match p in yprog _ A return (A -> Prop) -> Prop with
  | YDone a => fun _ => True
  | YAbort => fun _ => True
  | YRead k => fun F => (forall b, ystrict (k (Ok b)) F) /\ (forall e, yends_in (k (Err e)) F)
  | YReadAll _ k => fun F => (forall got, ystrict (k (Ok tt) got) F) /\ (forall e got, yends_in (k (Err e) got) F)
  | YSkip _ k => fun F => ystrict (k (Ok tt)) F /\ (forall e, yends_in (k (Err e)) F)
  | YSkip64 _ k => fun F => ystrict (k (Ok tt)) F /\ (forall e, yends_in (k (Err e)) F)
  | YTag k => fun F => (forall t, ystrict (k (Ok t)) F) /\ (forall e, yends_in (k (Err e)) F)
  | YLimited _ body k => fun F => exists G, ystrict body G /\ (forall b m, ystrict (k b m) F) /\
      (forall b m, G b -> yends_in (k b m) F)
  | YInto _ k => fun F => (forall t, ystrict (k (Ok tt) t) F) /\ (forall e t, yends_in (k (Err e) t) F)
  | YOther _ k => fun F => forall x q', returns x -> ystrict (k x q') F
  | YOtherInto _ _ k => fun F => forall x t' q', returns x -> ystrict (k x t' q') F
  end.

(** User types whose deserialize_value is a program that uses its reader and its
    factory only through their traits. *)
From Verif Require Import Base Types Spec IO IOSpec Tags Factory Open OpenFacts.

(** A deserialize_value written by the user of the library
    (ILTag::deserialize_value, src/tags/mod.rs:238-255), as the calls it makes.
    After each call the program goes on with whatever it makes of the answer; it
    may ignore failures, retry, keep or forget anything.
    [DoRead], [DoReadAll], [DoSkip], [DoSkip64]: the methods of Reader
    (src/io/mod.rs:74-151).  [DoReadAll old] reads into a buffer, [&mut [u8]],
    that holds [old] (numbers modulo 256); the program also sees what a failed
    call left in it.
    [DoTag]: ILTagFactory::deserialize on its own reader (src/tags/mod.rs:462).
    [DoLimited]: a part of the program that works on LimitedReader::new of its
    reader (src/io/mod.rs:218-223) and what it does next with the result and with
    LimitedReader::available (246-248).
    [Abort]: the program panics.
    The program ends: there is no infinite sequence of calls.  Calls of
    deserialize_into are in IntoProg.v, calls of the factory on a reader other than
    its own ones in OtherProg.v. *)
Inductive prog (I : Type) : Type -> Type :=
| Done {A} (a : A) : prog I A
| Abort {A} : prog I A
| DoRead {A} (k : res io_error N -> prog I A) : prog I A
| DoReadAll {A} (old : list N) (k : res io_error unit -> list N -> prog I A) : prog I A
| DoSkip {A} (n : N) (k : res io_error unit -> prog I A) : prog I A
| DoSkip64 {A} (n : N) (k : res io_error unit -> prog I A) : prog I A
| DoTag {A} (k : res tag_error I -> prog I A) : prog I A
| DoLimited {A B} (n : N) (body : prog I B) (k : B -> N -> prog I A) : prog I A.
Arguments Done {I A} a.
Arguments Abort {I A}.
Arguments DoRead {I A} k.
Arguments DoReadAll {I A} old k.
Arguments DoSkip {I A} n k.
Arguments DoSkip64 {I A} n k.
Arguments DoTag {I A} k.
Arguments DoLimited {I A B} n body k.

(** Going on after a call that returned; a panic unwinds through the program. *)
Definition after {E A B} (x : res E A) (go : res E A -> reader -> res tag_error B * reader) (r : reader)
  : res tag_error B * reader :=
  match x with
  | Panic => (Panic, r)
  | OutOfFuel => (OutOfFuel, r)
  | _ => go x r
  end.
(** The buffer, as bytes, and after a call that has read [got] into it. *)
Definition u8s (old : list N) : list N := map (fun b => b mod 256) old.
Definition filled (old got : list N) : list N := got ++ dropN (lenN got) (u8s old).
(** Running a program. *)
Fixpoint exec {I A} (c : cfg) (deser : reader -> res tag_error I * reader) (p : prog I A) (r : reader)
  : res tag_error A * reader :=
  match p in prog _ A return res tag_error A * reader with
  | Done a => (Ok a, r)
  | Abort => (Panic, r)
  | DoRead k => let '(x, r') := read r in after x (fun x => exec c deser (k x)) r'
  | DoReadAll old k =>
      let '(x, got, r') := read_all (lenN old) r in after x (fun x => exec c deser (k x (filled old got))) r'
  | DoSkip n k => let '(x, r') := skip c n r in after x (fun x => exec c deser (k x)) r'
  | DoSkip64 n k => let '(x, r') := skip_u64 c n r in after x (fun x => exec c deser (k x)) r'
  | DoTag k => let '(x, r') := deser r in after x (fun x => exec c deser (k x)) r'
  | DoLimited n body k =>
      let '(x, lr) := exec c deser body (LimitedReader_new r n) in
      match x, lr with
      | Ok b, RLimited r' n' => exec c deser (k b n') r'
      | Ok _, _ => (Panic, lr)
      | Err e, _ => (Err e, unlimit lr)
      | Panic, _ => (Panic, unlimit lr)
      | OutOfFuel, _ => (OutOfFuel, unlimit lr)
      end
  end.

(** A user type with the program [P n x] as the body of deserialize_value(factory,
    n, reader) on the object [x]; the program gives the answer, [None] for
    [Ok(())], [Some e] for [Err(e)], and the new object. *)
Definition script (T : Type) := N -> T -> prog (otag T) (option tag_error * T).
Definition scripted {T} (c : cfg) (U : user_impl T) (P : script T) : user_impl T := {|
  u_id := u_id U; u_size := u_size U; u_serialize := u_serialize U; u_to_bytes := u_to_bytes U;
  u_deserialize_value := fun deser n st =>
    let '(x, r) := st in
    match exec c deser (P n x) r with
    | (Ok (None, x'), r') => (Ok tt, (x', r'))
    | (Ok (Some e, x'), r') => (Err e, (x', r'))
    | (Err e, r') => (Err e, (x, r'))
    | (Panic, r') => (Panic, (x, r'))
    | (OutOfFuel, r') => (OutOfFuel, (x, r'))
    end;
  u_create := u_create U |}.

(** ** What is asked of a program *)
(** It does not panic. *)
Fixpoint calm {I A} (p : prog I A) : Prop :=
  match p with
  | Done _ => True
  | Abort => False
  | DoRead k => forall x, returns x -> calm (k x)
  | DoReadAll _ k => forall x got, returns x -> calm (k x got)
  | DoSkip _ k => forall x, returns x -> calm (k x)
  | DoSkip64 _ k => forall x, returns x -> calm (k x)
  | DoTag k => forall x, returns x -> calm (k x)
  | DoLimited _ body k => calm body /\ forall b m, calm (k b m)
  end.
(** Whatever the answers, it ends in [F] (or panics). *)
Fixpoint ends_in {I A} (p : prog I A) : (A -> Prop) -> Prop :=
  match p in prog _ A return (A -> Prop) -> Prop with
  | Done a => fun F => F a
  | Abort => fun _ => True
  | DoRead k => fun F => forall x, returns x -> ends_in (k x) F
  | DoReadAll _ k => fun F => forall x got, returns x -> ends_in (k x got) F
  | DoSkip _ k => fun F => forall x, returns x -> ends_in (k x) F
  | DoSkip64 _ k => fun F => forall x, returns x -> ends_in (k x) F
  | DoTag k => fun F => forall x, returns x -> ends_in (k x) F
  | DoLimited _ _ k => fun F => forall b m, ends_in (k b m) F
  end.
(** It ends in [F] once a call has failed, as code that propagates every error
    with the operator ? does. *)
Fixpoint strict {I A} (p : prog I A) : (A -> Prop) -> Prop :=
  match p in prog _ A return (A -> Prop) -> Prop with
  | Done a => fun _ => True
  | Abort => fun _ => True
  | DoRead k => fun F => (forall b, strict (k (Ok b)) F) /\ (forall e, ends_in (k (Err e)) F)
  | DoReadAll _ k => fun F => (forall got, strict (k (Ok tt) got) F) /\ (forall e got, ends_in (k (Err e) got) F)
  | DoSkip _ k => fun F => strict (k (Ok tt)) F /\ (forall e, ends_in (k (Err e)) F)
  | DoSkip64 _ k => fun F => strict (k (Ok tt)) F /\ (forall e, ends_in (k (Err e)) F)
  | DoTag k => fun F => (forall t, strict (k (Ok t)) F) /\ (forall e, ends_in (k (Err e)) F)
  | DoLimited _ body k => fun F => exists G, strict body G /\ (forall b m, strict (k b m) F) /\
      (forall b m, G b -> ends_in (k b m) F)
  end.
Definition is_error {A} (a : option tag_error * A) : Prop := fst a <> None.

(** ** What a program reads, as a grammar *)
(** [reads G p bs a]: with all its calls successful, [p] reads [bs] and gives [a];
    [G t b]: the tag [t] is written as [b]. *)
Inductive reads {I} (G : I -> list N -> Prop) : forall A, prog I A -> list N -> A -> Prop :=
| Reads_done A (a : A) : reads G A (Done a) [] a
| Reads_read A (k : res io_error N -> prog I A) b bs a :
    reads G A (k (Ok b)) bs a -> reads G A (DoRead k) (b :: bs) a
| Reads_read_all A old (k : res io_error unit -> list N -> prog I A) got bs a :
    lenN got = lenN old -> reads G A (k (Ok tt) got) bs a -> reads G A (DoReadAll old k) (got ++ bs) a
| Reads_skip A n (k : res io_error unit -> prog I A) got bs a :
    lenN got = n -> reads G A (k (Ok tt)) bs a -> reads G A (DoSkip n k) (got ++ bs) a
| Reads_skip64 A n (k : res io_error unit -> prog I A) got bs a :
    lenN got = n -> reads G A (k (Ok tt)) bs a -> reads G A (DoSkip64 n k) (got ++ bs) a
| Reads_tag A (k : res tag_error I -> prog I A) t got bs a :
    G t got -> reads G A (k (Ok t)) bs a -> reads G A (DoTag k) (got ++ bs) a
| Reads_limited A B n (body : prog I B) (k : B -> N -> prog I A) b got bs a :
    reads G B body got b -> lenN got <= n -> reads G A (k b (n - lenN got)) bs a ->
    reads G A (DoLimited n body k) (got ++ bs) a.
Arguments reads {I} G {A} p bs a.

(** The contents of the user tags: the object [x] came from the object some
    creator makes, and the program of its type reads [bs] into it, told that
    there are as many bytes.  The tags inside are in the wire grammar with raw
    tags in place of the user tags, whose contents are again of this kind. *)
Inductive content {T} (U : user_impl T) (P : script T) (e : engine) : T -> list N -> Prop :=
| Content id x0 x bs :
    u_create U id = Some (Some x0) ->
    reads (fun t b => exists s, wire (open_mk U e) b s /\ framed (u_id U) (std_made U e) (content U P e) t s)
      (P (lenN bs) x0) bs (None, x) ->
    content U P e x bs.

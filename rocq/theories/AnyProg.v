(** User types of tags (Open.v) whose deserialize_value is a program (Prog.v), on
    any implementation of the trait [Reader] (Any.v): user code on both sides of
    the library.  The functions are those of Open.v and Prog.v on the readers of
    Any.v; PAnyProg.v shows that the two versions agree. *)
From Verif Require Import Base Types IO ILInt Data Tags Factory Open Prog Any AnyScan.

Section AnyProg.
Context {U : Type} (M : reader_impl U).

(** [skip] and [skip_u64] of a LimitedReader, which keeps the provided ones
    (src/io/mod.rs:113-122, 142-150, 278-296).  The programs are only given
    LimitedReaders. *)
Definition a_skip (n : N) : areader U -> res io_error unit * areader U := default_skip (a_read_all M) n.
Definition a_skip_u64 (c : cfg) (n : N) : areader U -> res io_error unit * areader U := default_skip_u64 c a_skip n.

(** Running a program, as [exec] of Prog.v. *)
Definition a_after {E A B} (x : res E A) (go : res E A -> areader U -> res tag_error B * areader U) (r : areader U)
  : res tag_error B * areader U :=
  match x with
  | Panic => (Panic, r)
  | OutOfFuel => (OutOfFuel, r)
  | _ => go x r
  end.
Fixpoint a_exec {I A} (c : cfg) (deser : areader U -> res tag_error I * areader U) (p : prog I A) (r : areader U)
  : res tag_error A * areader U :=
  match p in prog _ A return res tag_error A * areader U with
  | Done a => (Ok a, r)
  | Abort => (Panic, r)
  | DoRead k => let '(x, r') := a_read M r in a_after x (fun x => a_exec c deser (k x)) r'
  | DoReadAll old k =>
      let '(x, buff, r') := a_read_all M (u8s old) r in a_after x (fun x => a_exec c deser (k x buff)) r'
  | DoSkip n k => let '(x, r') := a_skip n r in a_after x (fun x => a_exec c deser (k x)) r'
  | DoSkip64 n k => let '(x, r') := a_skip_u64 c n r in a_after x (fun x => a_exec c deser (k x)) r'
  | DoTag k => let '(x, r') := deser r in a_after x (fun x => a_exec c deser (k x)) r'
  | DoLimited n body k =>
      let '(x, lr) := a_exec c deser body (ALimited r n) in
      match x, lr with
      | Ok b, ALimited r' n' => a_exec c deser (k b n') r'
      | Ok _, _ => (Panic, lr)
      | Err e, _ => (Err e, a_unlimit lr)
      | Panic, _ => (Panic, a_unlimit lr)
      | OutOfFuel, _ => (OutOfFuel, a_unlimit lr)
      end
  end.

Context {T : Type} (c : cfg) (D : user_impl T) (P : script T).

(** deserialize_value of a user type, as in [scripted] of Prog.v. *)
Definition ao_user (deser : areader U -> res tag_error (otag T) * areader U) (n : N) : @amethod U T unit :=
  fun '(x, r) =>
    match a_exec c deser (P n x) r with
    | (Ok (None, x'), r') => (Ok tt, (x', r'))
    | (Ok (Some e, x'), r') => (Err e, (x', r'))
    | (Err e, r') => (Err e, (x, r'))
    | (Panic, r') => (Panic, (x, r'))
    | (OutOfFuel, r') => (OutOfFuel, (x, r'))
    end.
(** ILTag::deserialize_value on an object: ILTagSeqTag, explicit/mod.rs:605-618;
    ILTagArrayTag 676-694; ILDictTag 1106-1122; the types that hold no tags make
    no use of the factory. *)
Definition ao_run {S} (m : @amethod U S unit) (s : S) (mk : S -> otag T) (r : areader U)
  : res tag_error unit * otag T * areader U :=
  let '(x, (s', r')) := m (s, r) in (x, mk s', r').
Definition av_value (user : N -> @amethod U T unit) (deser : areader U -> res tag_error (otag T) * areader U) (t : otag T) (n : N) (r : areader U)
  : res tag_error unit * otag T * areader U :=
  match t with
  | OStd id v => let '(x, v', r') := a_value M (fun r => (Panic, r)) v n r in (x, OStd id v', r')
  | OUser x => ao_run (user n) x OUser r
  | OSeq id l => ao_run (a_seq deser n) l (OSeq id) r
  | OArr id l => ao_run (a_arr M deser n) l (OArr id) r
  | ODict id l => ao_run (a_dict M deser n) l (ODict id) r
  end.
Definition ao_value (deser : areader U -> res tag_error (otag T) * areader U) : otag T -> N -> areader U -> res tag_error unit * otag T * areader U :=
  av_value (ao_user deser) deser.
(** deserialize_tag_value_into, src/tags/standard/factory/mod.rs:164-176; [value] is
    ILTag::deserialize_value. *)
Definition av_value_into (value : otag T -> N -> areader U -> res tag_error unit * otag T * areader U) (n : N) (t : otag T) (r : areader U)
  : res tag_error unit * otag T * areader U :=
  let '(x, t', lr) := value t n (ALimited r n) in
  (match x with
   | Ok _ =>
       if negb (o_id D t' =? IL_ILINT_TAG_ID) && negb (o_id D t' =? IL_SIGNED_ILINT_TAG_ID) && negb (a_empty lr)
       then Err CorruptedData else Ok tt
   | _ => x
   end, t', a_unlimit lr).
Definition ao_value_into (deser : areader U -> res tag_error (otag T) * areader U) : N -> otag T -> areader U -> res tag_error unit * otag T * areader U :=
  av_value_into (ao_value deser).
(** deserialize, src/tags/standard/factory/mod.rs:184-193, as in Any.v; create_tag
    is that of Open.v, [into] is deserialize_tag_value_into. *)
Definition av_step (into : N -> otag T -> areader U -> res tag_error unit * otag T * areader U) (e : engine)
  : areader U -> res tag_error (otag T) * areader U :=
  id <- a_ilint M ;;
  n <- a_tag_size M id ;;
  created <- (fun r => (o_create D e id, r)) ;;
  match created with
  | None => fail UnknownTag
  | Some t => fun r =>
      let '(x, t', r') := into n t r in
      (map_ok (fun _ => t') x, r')
  end.
Definition ao_step (deser : N -> areader U -> res tag_error (otag T) * areader U) (e : engine)
  : areader U -> res tag_error (otag T) * areader U :=
  av_step (fun n => ao_value_into (deser n) n) e.
(** The fuel bounds the depth of nested calls: a tag within [n] bytes has fewer
    than [n] others around it. *)
Fixpoint ao_fuel (fuel : nat) (e : engine) (r : areader U) : res tag_error (otag T) * areader U :=
  match fuel with
  | O => (OutOfFuel, r)
  | Datatypes.S f => ao_step (fun _ => ao_fuel f e) e r
  end.
Definition ao_deserialize (e : engine) : areader U -> res tag_error (otag T) * areader U :=
  ao_step (fun n => ao_fuel (Datatypes.S (N.to_nat n)) e) e.
(** deserialize_into, src/tags/standard/factory/mod.rs:195-203. *)
Definition av_into (into : N -> otag T -> areader U -> res tag_error unit * otag T * areader U) (r : areader U) (t : otag T)
  : res tag_error unit * otag T * areader U :=
  match a_ilint M r with
  | (Ok id, r1) =>
      if negb (id =? o_id D t) then (Err UnexpectedTagType, t, r1)
      else match a_tag_size M id r1 with
           | (Ok n, r2) => into n t r2
           | (Err err, r2) => (Err err, t, r2)
           | (Panic, r2) => (Panic, t, r2)
           | (OutOfFuel, r2) => (OutOfFuel, t, r2)
           end
  | (Err err, r1) => (Err err, t, r1)
  | (Panic, r1) => (Panic, t, r1)
  | (OutOfFuel, r1) => (OutOfFuel, t, r1)
  end.
Definition ao_deserialize_into (e : engine) : areader U -> otag T -> res tag_error unit * otag T * areader U :=
  av_into (fun n => ao_value_into (ao_fuel (Datatypes.S (N.to_nat n)) e) n).
End AnyProg.

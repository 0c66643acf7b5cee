(** ILTagFactory::deserialize_into in user programs (Prog.v).  A user type that
    holds other tags of known types reads them in place, with
    [factory.deserialize_into(reader, &mut self.field)].  Here the code of this
    call is itself written as a program: the calls of Reader and of
    ILTagFactory::deserialize that it makes.  IntoProgFacts.v shows that it does what
    [o_deserialize_into] (Open.v) does, so that what is proved of programs holds of
    programs with such calls. *)
From Verif Require Import Base Types IO ILInt Data Tags Factory Open OpenFacts Prog.

Section Programs.
Context {I : Type}.

(** ** Sequences *)
(** One program after another. *)
Fixpoint seqp {A B} (p : prog I A) : (A -> prog I B) -> prog I B :=
  match p in prog _ A return (A -> prog I B) -> prog I B with
  | Done a => fun f => f a
  | Abort => fun _ => Abort
  | DoRead k => fun f => DoRead (fun x => seqp (k x) f)
  | DoReadAll old k => fun f => DoReadAll old (fun x got => seqp (k x got) f)
  | DoSkip n k => fun f => DoSkip n (fun x => seqp (k x) f)
  | DoSkip64 n k => fun f => DoSkip64 n (fun x => seqp (k x) f)
  | DoTag k => fun f => DoTag (fun x => seqp (k x) f)
  | DoLimited n body k => fun f => DoLimited n body (fun b m => seqp (k b m) f)
  end.
(** A program that gives a [Result], and the operator ?. *)
Definition rprog (A : Type) := prog I (res tag_error A).
Definition answer {A} (x : res tag_error A) : rprog A := match x with Panic | OutOfFuel => Abort | _ => Done x end.
Definition rthen {A B} (p : rprog A) (f : A -> rprog B) : rprog B :=
  seqp p (fun x => match x with Ok a => f a | Err e => Done (Err e) | _ => Abort end).
(** A method with [&mut self] as a program: the result and the fields after it. *)
Definition mprog (S A : Type) := S -> prog I (res tag_error A * S).
Definition mret {S A} (x : res tag_error A) : mprog S A := fun s => match x with Panic | OutOfFuel => Abort | _ => Done (x, s) end.
Definition mthen {S A B} (p : mprog S A) (f : A -> mprog S B) : mprog S B :=
  fun s => seqp (p s) (fun xs => match fst xs with Ok a => f a (snd xs) | Err e => Done (Err e, snd xs) | _ => Abort end).
Definition mread {S A} (p : rprog A) : mprog S A := fun s => seqp p (fun x => Done (x, s)).
Definition mset {S} (f : S -> S) : mprog S unit := fun s => Done (Ok tt, f s).
(** A method on a LimitedReader that ends with limited_reader_ensure_empty
    (src/tags/util/mod.rs:126-132).  Here and below the last case does not occur: a
    panic unwinds. *)
Definition mlimited {S} (n : N) (e : tag_error) (p : mprog S unit) : mprog S unit :=
  fun s => DoLimited n (p s) (fun xs rest =>
    Done (match fst xs with Ok _ => if rest =? 0 then Ok tt else Err e | Err e' => Err e' | _ => Err e end, snd xs)).
(** [for _ in 0..count]. *)
Fixpoint mrepeat {S A} (count : nat) (p : rprog A) (store : A -> S -> S) : mprog S unit :=
  match count with
  | O => mret (Ok tt)
  | Datatypes.S k => mthen (mread p) (fun x => mthen (mset (store x)) (fun _ => mrepeat k p store))
  end.
(** [while !lreader.empty()] for the items of a sequence, [n] bytes from the end;
    the LimitedReader is made anew for each item.  An item has at least one byte,
    so that the loop is over after [n] items. *)
Fixpoint mwhile {S} (fuel : nat) (n : N) (store : I -> S -> S) : mprog S unit :=
  fun s =>
  match fuel with
  | O => Done (Ok tt, s)
  | Datatypes.S f =>
      if n =? 0 then Done (Ok tt, s)
      else DoLimited n (DoTag Done) (fun x rest =>
             match x with
             | Ok t => mwhile f rest store (store t s)
             | Err e => Done (Err e, s)
             | _ => Done (Err CorruptedData, s)
             end)
  end.

(** ** Values, as in Data.v and ILInt.v *)
(** Reader::read; Reader::read_all on a new buffer. *)
Definition byte_p : rprog N := DoRead (fun x => answer (map_err TagIO x)).
Definition fetch_p (n : N) : rprog (list N) :=
  DoReadAll (repeatN 0 n) (fun x got => answer (map_err TagIO (map_ok (fun _ => got) x))).
(** read_ilint, src/io/data/mod.rs:165-171; decode, src/ilint/mod.rs:197-213. *)
Definition ilint_p : rprog N :=
  rthen byte_p (fun header =>
    if decoded_size header =? 1 then Done (Ok header)
    else rthen (fetch_p (decoded_size header - 1)) (fun body =>
           answer (map_err (fun e => TagIO (ilint_read_error e)) (decode_body body)))).
Definition signed_ilint_p : rprog Z := rthen ilint_p (fun v => Done (Ok (decode_sign v))).
(** read_u8 to read_i64, src/io/data/mod.rs:54-155. *)
Definition uint_p (w : width) : rprog N :=
  match w with W8 => byte_p | _ => rthen (fetch_p (N.of_nat (wbytes w))) (fun b => Done (Ok (from_be_bytes b))) end.
Definition sint_p (w : width) : rprog Z :=
  match w with
  | W8 => rthen byte_p (fun v => Done (Ok (cast_signed W8 v)))
  | _ => rthen (fetch_p (N.of_nat (wbytes w))) (fun b => Done (Ok (cast_signed w (from_be_bytes b))))
  end.
(** deserialize_string_tag_from_value, src/tags/standard/explicit/mod.rs:277-310. *)
Definition string_tag_p : rprog (list N) :=
  rthen ilint_p (fun id =>
    if negb (id =? IL_STRING_TAG_ID) then Done (Err CorruptedData)
    else rthen ilint_p (fun len => rthen (answer (tag_size_to_usize len)) (fun n =>
           rthen (fetch_p n) (fun s => if from_utf8 s then Done (Ok s) else Done (Err CorruptedData))))).

(** ** ILTag::deserialize_value, as in Factory.v *)
Definition sized {S} (value_size n : N) (p : mprog S unit) : mprog S unit :=
  mthen (mret (if value_size =? n then Ok tt else Err CorruptedData)) (fun _ => p).
Definition set_p {A} (p : rprog A) : mprog A unit := mthen (mread p) (fun x => mset (fun _ => x)).
(** ILBoolTag, implicit/mod.rs:269-286. *)
Definition bool_p (n : N) : mprog bool unit :=
  sized n 1 (mthen (mread (uint_p W8)) (fun v =>
    if v =? 0 then mset (fun _ => false) else if v =? 1 then mset (fun _ => true) else mret (Err CorruptedData))).
(** ILBin128Tag, implicit/mod.rs:542-557; ILRawTag, tags/mod.rs:750-757: in place. *)
Definition in_place_p : mprog (list N) unit :=
  fun vec => DoReadAll vec (fun x got => match x with Ok _ => Done (Ok tt, got) | Err e => Done (Err (TagIO e), got) | _ => Abort end).
Definition raw_p (n : N) : mprog (list N) unit := fun vec => in_place_p (resizeN n 0 vec).
(** ILStringTag, explicit/mod.rs:214-228. *)
Definition string_p (n : N) : mprog (list N) unit :=
  mthen (mread (fetch_p n)) (fun s => if from_utf8 s then mset (fun _ => s) else mret (Err CorruptedData)).
(** ILBigDecTag, explicit/mod.rs:422-434. *)
Definition bigdec_p (n : N) : mprog (Z * list N) unit :=
  mthen (mret (if n <? 4 then Err CorruptedData else Ok tt)) (fun _ =>
  mthen (mread (sint_p W32)) (fun scale =>
  mthen (mset (fun s => (scale, snd s))) (fun _ =>
  fun s => seqp (raw_p (n - 4) (snd s)) (fun xs => Done (fst xs, (fst s, snd xs)))))).
(** ILILIntArrayTag, explicit/mod.rs:525-542; ILTagArrayTag, 676-694. *)
Definition counted_p {A} (n : N) (item : rprog A) : mprog (list A) unit :=
  mlimited n CorruptedData (
    mthen (mread ilint_p) (fun count =>
    mthen (mret (if n <? count then Err CorruptedData else Ok tt)) (fun _ =>
    mthen (mset (fun _ => [])) (fun _ => mrepeat (N.to_nat count) item push)))).
(** ILTagSeqTag, explicit/mod.rs:605-618. *)
Definition seq_p (n : N) : mprog (list I) unit := fun _ => mwhile (N.to_nat n) n push [].
(** ILRangeTag, explicit/mod.rs:773-783. *)
Definition range_p (n : N) : mprog (N * N) unit :=
  mlimited n CorruptedData (
    mthen (mread ilint_p) (fun start =>
    mthen (mset (fun s => (start, snd s))) (fun _ =>
    mthen (mread (uint_p W16)) (fun count => mset (fun s => (fst s, count)))))).
(** ILVersionTag, explicit/mod.rs:905-918. *)
Definition version_p (n : N) : mprog (Z * Z * Z * Z) unit :=
  sized n 16 (
    mthen (mread (sint_p W32)) (fun a => mthen (mset (fun '(_, b, c, d) => (a, b, c, d))) (fun _ =>
    mthen (mread (sint_p W32)) (fun b => mthen (mset (fun '(a, _, c, d) => (a, b, c, d))) (fun _ =>
    mthen (mread (sint_p W32)) (fun c => mthen (mset (fun '(a, b, _, d) => (a, b, c, d))) (fun _ =>
    mthen (mread (sint_p W32)) (fun d => mset (fun '(a, b, c, _) => (a, b, c, d)))))))))).
(** ILDictTag, explicit/mod.rs:1106-1122; ILStrDictTag, 1254-1270. *)
Definition entries_p {A} (n : N) (item : rprog A) : mprog (list (list N * A)) unit :=
  mlimited n CorruptedData (
    mthen (mread ilint_p) (fun count =>
    mthen (mset (fun _ => [])) (fun _ =>
    mrepeat (N.to_nat count) (rthen string_tag_p (fun k => rthen item (fun t => Done (Ok (k, t)))))
      (fun e => hm_insert (fst e) (snd e))))).
(** The factory reads one tag. *)
Definition tag_p : rprog I := DoTag Done.

(** The types that hold no tags.  A method of a struct with the fields [s]; [mk]
    makes the object. *)
Definition on_fields {S R} (p : mprog S unit) (s : S) (mk : S -> R) : prog I (res tag_error unit * R) :=
  seqp (p s) (fun xs => Done (fst xs, mk (snd xs))).
Definition std_p (v : value) (n : N) : prog I (res tag_error unit * value) :=
  match v with
  | VNull => on_fields (sized n 0 (mret (Ok tt))) tt (fun _ => VNull)
  | VBool b => on_fields (bool_p n) b VBool
  | VUInt w x => on_fields (sized n (N.of_nat (wbytes w)) (set_p (uint_p w))) x (VUInt w)
  | VSInt w x => on_fields (sized n (N.of_nat (wbytes w)) (set_p (sint_p w))) x (VSInt w)
  | VBin32 x => on_fields (sized n 4 (set_p (uint_p W32))) x VBin32
  | VBin64 x => on_fields (sized n 8 (set_p (uint_p W64))) x VBin64
  | VBin128 bs => on_fields (sized n 16 in_place_p) bs VBin128
  | VILInt x => on_fields (set_p ilint_p) x VILInt
  | VSILInt x => on_fields (set_p signed_ilint_p) x VSILInt
  | VRaw bs => on_fields (raw_p n) bs VRaw
  | VBytes bs => on_fields (raw_p n) bs VBytes
  | VBigInt bs => on_fields (raw_p n) bs VBigInt
  | VString s => on_fields (string_p n) s VString
  | VBigDec scale bs => on_fields (bigdec_p n) (scale, bs) (fun s => VBigDec (fst s) (snd s))
  | VILIntArray l => on_fields (counted_p n ilint_p) l VILIntArray
  | VOID l => on_fields (counted_p n ilint_p) l VOID
  | VRange s c => on_fields (range_p n) (s, c) (fun s => VRange (fst s) (snd s))
  | VVersion a b c d => on_fields (version_p n) (a, b, c, d) (fun '(a, b, c, d) => VVersion a b c d)
  | VStrDict l => on_fields (entries_p n string_tag_p) l VStrDict
  | VSeq _ | VArr _ | VDict _ => Done (Err CorruptedData, v) (* not here: see [target] *)
  end.
End Programs.

(** ** deserialize_into, src/tags/standard/factory/mod.rs:195-203 *)
Section Into.
Context {T : Type} (U : user_impl T) (P : script T).
(** deserialize_value of an object; of a user type, its own program. *)
Definition value_p (t : otag T) (n : N) : prog (otag T) (res tag_error unit * otag T) :=
  match t with
  | OStd id v => seqp (std_p v n) (fun xv => Done (fst xv, OStd id (snd xv)))
  | OUser x => seqp (P n x) (fun ox => Done (match fst ox with None => Ok tt | Some e => Err e end, OUser (snd ox)))
  | OSeq id l => on_fields (seq_p n) l (OSeq id)
  | OArr id l => on_fields (counted_p n tag_p) l (OArr id)
  | ODict id l => on_fields (entries_p n tag_p) l (ODict id)
  end.
(** deserialize_tag_value_into, 164-176; deserialize_tag_size, 153-161. *)
Definition value_into_p (n : N) (t : otag T) : prog (otag T) (res tag_error unit * otag T) :=
  DoLimited n (value_p t n) (fun xt rest =>
    let t' := snd xt in
    Done (match fst xt with
          | Ok _ =>
              if negb (o_id U t' =? IL_ILINT_TAG_ID) && negb (o_id U t' =? IL_SIGNED_ILINT_TAG_ID) && negb (rest =? 0)
              then Err CorruptedData else Ok tt
          | Err e => Err e
          | _ => Err CorruptedData
          end, t')).
Definition tag_size_p (id : N) : @rprog (otag T) N :=
  rthen (if is_implicit_tag id then Done (Ok (implicit_tag_size id)) else ilint_p) (fun n => answer (tag_size_to_usize n)).
Definition into_p (t : otag T) : prog (otag T) (res tag_error unit * otag T) :=
  seqp ilint_p (fun x =>
    match x with
    | Ok id =>
        if negb (id =? o_id U t) then Done (Err UnexpectedTagType, t)
        else seqp (tag_size_p id) (fun y =>
               match y with
               | Ok n => value_into_p n t
               | Err e => Done (Err e, t)
               | _ => Abort
               end)
    | Err e => Done (Err e, t)
    | _ => Abort
    end).
End Into.

(** ** Programs that call deserialize_into *)
(** The programs of Prog.v with one more call.  [IInto t]:
    ILTagFactory::deserialize_into of its own reader and the object [t]
    (src/tags/mod.rs:464-477), of which the program sees what the call has made,
    also if it failed. *)
Inductive iprog (I : Type) : Type -> Type :=
| IDone {A} (a : A) : iprog I A
| IAbort {A} : iprog I A
| IRead {A} (k : res io_error N -> iprog I A) : iprog I A
| IReadAll {A} (old : list N) (k : res io_error unit -> list N -> iprog I A) : iprog I A
| ISkip {A} (n : N) (k : res io_error unit -> iprog I A) : iprog I A
| ISkip64 {A} (n : N) (k : res io_error unit -> iprog I A) : iprog I A
| ITag {A} (k : res tag_error I -> iprog I A) : iprog I A
| ILimited {A B} (n : N) (body : iprog I B) (k : B -> N -> iprog I A) : iprog I A
| IInto {A} (t : I) (k : res tag_error unit -> I -> iprog I A) : iprog I A.
Arguments IDone {I A} a.
Arguments IAbort {I A}.
Arguments IRead {I A} k.
Arguments IReadAll {I A} old k.
Arguments ISkip {I A} n k.
Arguments ISkip64 {I A} n k.
Arguments ITag {I A} k.
Arguments ILimited {I A B} n body k.
Arguments IInto {I A} t k.
(** Running one, with the two methods of the factory. *)
Fixpoint iexec {I A} (c : cfg) (deser : reader -> res tag_error I * reader)
    (into : reader -> I -> res tag_error unit * I * reader) (p : iprog I A) (r : reader) : res tag_error A * reader :=
  match p in iprog _ A return res tag_error A * reader with
  | IDone a => (Ok a, r)
  | IAbort => (Panic, r)
  | IRead k => let '(x, r') := read r in after x (fun x => iexec c deser into (k x)) r'
  | IReadAll old k =>
      let '(x, got, r') := read_all (lenN old) r in after x (fun x => iexec c deser into (k x (filled old got))) r'
  | ISkip n k => let '(x, r') := skip c n r in after x (fun x => iexec c deser into (k x)) r'
  | ISkip64 n k => let '(x, r') := skip_u64 c n r in after x (fun x => iexec c deser into (k x)) r'
  | ITag k => let '(x, r') := deser r in after x (fun x => iexec c deser into (k x)) r'
  | ILimited n body k =>
      let '(x, lr) := iexec c deser into body (LimitedReader_new r n) in
      match x, lr with
      | Ok b, RLimited r' n' => iexec c deser into (k b n') r'
      | Ok _, _ => (Panic, lr)
      | Err e, _ => (Err e, unlimit lr)
      | Panic, _ => (Panic, unlimit lr)
      | OutOfFuel, _ => (OutOfFuel, unlimit lr)
      end
  | IInto t k => let '(x, t', r') := into r t in after x (fun x => iexec c deser into (k x t')) r'
  end.
(** The body of deserialize_value of a user type, as in [scripted]. *)
Definition iscript (T : Type) := N -> T -> iprog (otag T) (option tag_error * T).
Definition irun {T} (c : cfg) (deser : reader -> res tag_error (otag T) * reader)
    (into : reader -> otag T -> res tag_error unit * otag T * reader) (X : iscript T) (n : N) : method T unit :=
  fun st =>
    let '(x, r) := st in
    match iexec c deser into (X n x) r with
    | (Ok (None, x'), r') => (Ok tt, (x', r'))
    | (Ok (Some e, x'), r') => (Err e, (x', r'))
    | (Err e, r') => (Err e, (x, r'))
    | (Panic, r') => (Panic, (x, r'))
    | (OutOfFuel, r') => (OutOfFuel, (x, r'))
    end.

(** deserialize_into with a given way to read the tags inside, as in Open.v. *)
Definition into_with {T} (U : user_impl T) (deser : reader -> res tag_error (otag T) * reader) (r : reader) (t : otag T)
  : res tag_error unit * otag T * reader :=
  match deserialize_ilint r with
  | (Ok id, r1) =>
      if negb (id =? o_id U t) then (Err UnexpectedTagType, t, r1)
      else match deserialize_tag_size id r1 with
           | (Ok n, r2) => o_value_into U deser n t r2
           | (Err err, r2) => (Err err, t, r2)
           | (Panic, r2) => (Panic, t, r2)
           | (OutOfFuel, r2) => (OutOfFuel, t, r2)
           end
  | (Err err, r1) => (Err err, t, r1)
  | (Panic, r1) => (Panic, t, r1)
  | (OutOfFuel, r1) => (OutOfFuel, t, r1)
  end.
(** A standard factory with such user types: deserialize and deserialize_into,
    src/tags/standard/factory/mod.rs:184-203, which call the programs, which call
    them.  The fuel bounds the depth of nested calls. *)
Section Factory.
Context {T : Type} (c : cfg) (U : user_impl T) (X : iscript T) (e : engine).
Definition called (deser : reader -> res tag_error (otag T) * reader)
    (into : reader -> otag T -> res tag_error unit * otag T * reader) : user_impl T := {|
  u_id := u_id U; u_size := u_size U; u_serialize := u_serialize U; u_to_bytes := u_to_bytes U;
  u_deserialize_value := fun _ n => irun c deser into X n;
  u_create := u_create U |}.
Definition step_with (V : user_impl T) (deser : reader -> res tag_error (otag T) * reader) : reader -> res tag_error (otag T) * reader :=
  id <- deserialize_ilint ;;
  n <- deserialize_tag_size id ;;
  created <- (fun r => (o_create V e id, r)) ;;
  match created with
  | None => fail UnknownTag
  | Some t => fun r =>
      let '(x, t', r') := o_value_into V deser n t r in
      (map_ok (fun _ => t') x, r')
  end.
Fixpoint i_fuel (fuel : nat)
  : (reader -> res tag_error (otag T) * reader) * (reader -> otag T -> res tag_error unit * otag T * reader) :=
  match fuel with
  | O => (fun r => (OutOfFuel, r), fun r t => (OutOfFuel, t, r))
  | Datatypes.S f =>
      let both := i_fuel f in
      let deser := fst both in
      let V := called deser (snd both) in
      (step_with V deser, into_with V deser)
  end.
Definition i_deserialize (r : reader) : res tag_error (otag T) * reader := fst (i_fuel (Datatypes.S (left r))) r.
Definition i_deserialize_into (r : reader) (t : otag T) : res tag_error unit * otag T * reader :=
  snd (i_fuel (Datatypes.S (left r))) r t.
End Factory.

(** Such a program as one of Prog.v: each call is replaced by the program of
    deserialize_into, where the user types inside have the program [go]. *)
Section Compile.
Context {T : Type} (U : user_impl T).
Fixpoint compile {A} (go : script T) (p : iprog (otag T) A) : prog (otag T) A :=
  match p in iprog _ A return prog (otag T) A with
  | IDone a => Done a
  | IAbort => Abort
  | IRead k => DoRead (fun x => compile go (k x))
  | IReadAll old k => DoReadAll old (fun x got => compile go (k x got))
  | ISkip n k => DoSkip n (fun x => compile go (k x))
  | ISkip64 n k => DoSkip64 n (fun x => compile go (k x))
  | ITag k => DoTag (fun x => compile go (k x))
  | ILimited n body k => DoLimited n (compile go body) (fun b m => compile go (k b m))
  | IInto t k => seqp (into_p U go t) (fun xt => compile go (k (fst xt) (snd xt)))
  end.
(** A user type may call deserialize_into on objects of its own type.  Each such
    call reads a byte before it comes to the next, so that within [n] bytes there
    are no more than [n] of them, one in another. *)
Fixpoint unroll (depth : nat) (X : iscript T) : script T :=
  match depth with
  | O => fun _ x => Done (Some CorruptedData, x)
  | Datatypes.S d => fun n x => compile (unroll d X) (X n x)
  end.
Definition unrolled (X : iscript T) : script T := fun n x => unroll (Datatypes.S (N.to_nat n)) X n x.
End Compile.

(** ** What is asked of such a program, as in Prog.v *)
Fixpoint icalm {I A} (p : iprog I A) : Prop :=
  match p with
  | IDone _ => True
  | IAbort => False
  | IRead k => forall x, returns x -> icalm (k x)
  | IReadAll _ k => forall x got, returns x -> icalm (k x got)
  | ISkip _ k => forall x, returns x -> icalm (k x)
  | ISkip64 _ k => forall x, returns x -> icalm (k x)
  | ITag k => forall x, returns x -> icalm (k x)
  | ILimited _ body k => icalm body /\ forall b m, icalm (k b m)
  | IInto _ k => forall x t, returns x -> icalm (k x t)
  end.
Fixpoint iends_in {I A} (p : iprog I A) : (A -> Prop) -> Prop :=
  match p in iprog _ A return (A -> Prop) -> Prop with
  | IDone a => fun F => F a
  | IAbort => fun _ => True
  | IRead k => fun F => forall x, returns x -> iends_in (k x) F
  | IReadAll _ k => fun F => forall x got, returns x -> iends_in (k x got) F
  | ISkip _ k => fun F => forall x, returns x -> iends_in (k x) F
  | ISkip64 _ k => fun F => forall x, returns x -> iends_in (k x) F
  | ITag k => fun F => forall x, returns x -> iends_in (k x) F
  | ILimited _ _ k => fun F => forall b m, iends_in (k b m) F
  | IInto _ k => fun F => forall x t, returns x -> iends_in (k x t) F
  end.
Fixpoint istrict {I A} (p : iprog I A) : (A -> Prop) -> Prop :=
  match p in iprog _ A return (A -> Prop) -> Prop with
  | IDone a => fun _ => True
  | IAbort => fun _ => True
  | IRead k => fun F => (forall b, istrict (k (Ok b)) F) /\ (forall e, iends_in (k (Err e)) F)
  | IReadAll _ k => fun F => (forall got, istrict (k (Ok tt) got) F) /\ (forall e got, iends_in (k (Err e) got) F)
  | ISkip _ k => fun F => istrict (k (Ok tt)) F /\ (forall e, iends_in (k (Err e)) F)
  | ISkip64 _ k => fun F => istrict (k (Ok tt)) F /\ (forall e, iends_in (k (Err e)) F)
  | ITag k => fun F => (forall t, istrict (k (Ok t)) F) /\ (forall e, iends_in (k (Err e)) F)
  | ILimited _ body k => fun F => exists G, istrict body G /\ (forall b m, istrict (k b m) F) /\
      (forall b m, G b -> iends_in (k b m) F)
  | IInto _ k => fun F => (forall t, istrict (k (Ok tt) t) F) /\ (forall e t, iends_in (k (Err e) t) F)
  end.
(** Buffers of an object that are read in place hold bytes. *)
Definition holds_bytes (v : value) : Prop :=
  match v with
  | VBin128 l | VRaw l | VBytes l | VBigInt l | VBigDec _ l => bytes_ok l
  | _ => True
  end.
(** The objects: those that hold tags are the ones of Open.v. *)
Definition target {T} (t : otag T) : Prop := match t with OStd _ v => leaf v /\ holds_bytes v | _ => True end.
(** What the creators of an engine make is too. *)
Definition engine_bytes (e : engine) : Prop :=
  forall id t, id < 18446744073709551616 -> create_tag e id = Ok (Some t) -> holds_bytes (tag_val t).
(** Every object on which it calls deserialize_into is one of these.  The tags it
    gets from the factory are. *)
Fixpoint aims {T A} (p : iprog (otag T) A) : Prop :=
  match p with
  | IDone _ => True
  | IAbort => True
  | IRead k => forall x, aims (k x)
  | IReadAll _ k => forall x got, aims (k x got)
  | ISkip _ k => forall x, aims (k x)
  | ISkip64 _ k => forall x, aims (k x)
  | ITag k => forall x, (forall t, x = Ok t -> target t) -> aims (k x)
  | ILimited _ body k => aims body /\ forall b m, aims (k b m)
  | IInto t k => target t /\ forall x t', target t' -> aims (k x t')
  end.

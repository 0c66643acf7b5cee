(** A reference parser of the ILTags format over lists of bytes, independent of
    readers, limits and mutable targets.  It says for every input which tag it
    holds and what follows, or what is wrong with it and where that was found. *)
From Verif Require Import Base Types Spec IO Data.

(** What can be wrong: the data ends too early, some contents are not valid, an
    ILInt exceeds 64 bits, a declared size exceeds the limit, the factory has no
    tag for an id, the tag is not the expected one.  [Steps] is not an error of the format: the recursion below is
    bounded by a number of steps, and [parse] gives it enough (ParseFacts.v). *)
Inductive flaw := Short | Invalid | Overflow | TooLarge | Unknown | Unexpected | Steps.
(** The thing parsed, or the flaw; and the bytes after it. *)
Definition outcome (A : Type) : Type := ((A + flaw) * list N)%type.
Definition parser (A : Type) : Type := list N -> outcome A.
Definition pret {A} (a : A) : parser A := fun l => (inl a, l).
Definition pfail {A} (f : flaw) : parser A := fun l => (inr f, l).
Definition pbind {A B} (p : parser A) (q : A -> parser B) : parser B :=
  fun l => match p l with
           | (inl a, l') => q a l'
           | (inr f, l') => (inr f, l')
           end.
Notation "'let*' x ':=' p 'in' q" := (pbind p (fun x => q)) (at level 200, x pattern, right associativity).
Definition require (b : bool) (f : flaw) : parser unit := if b then pret tt else pfail f.

Definition takeP (n : N) : parser (list N) :=
  fun l => if lenN l <? n then (inr Short, l) else (inl (takeN n l), dropN n l).
Definition ilintP : parser N :=
  let* h := takeP 1 in
  if be_value h <? 248 then pret (be_value h)
  else let* body := takeP (be_value h - 247) in
       let* _ := require (be_value body + 248 <? two64) Overflow in
       pret (be_value body + 248).
(** Sign folding: 0, -1, 1, -2, ... *)
Definition unzigzag (n : N) : Z := if n mod 2 =? 0 then Z.of_N (n / 2) else (- Z.of_N (n / 2) - 1)%Z.
(** A string tag. *)
Definition stringP : parser (list N) :=
  let* id := ilintP in
  let* _ := require (id =? 17) Invalid in
  let* n := ilintP in
  let* _ := require (n <=? 536870912) TooLarge in
  let* s := takeP n in
  let* _ := require (from_utf8 s) Invalid in
  pret s.
Definition pairP {A B} (p : parser A) (q : parser B) : parser (A * B) :=
  let* a := p in let* b := q in pret (a, b).
Fixpoint manyP {A} (count : nat) (p : parser A) : parser (list A) :=
  match count with
  | O => pret []
  | S c => let* a := p in let* l := manyP c p in pret (a :: l)
  end.
(** Items until exactly [n] bytes were used. *)
Fixpoint untilP {A} (steps : nat) (p : parser A) (n : N) : parser (list A) :=
  if n =? 0 then pret []
  else match steps with
       | O => pfail Steps
       | S s => fun l => match p l with
                         | (inl a, l') => (let* r := untilP s p (n - (lenN l - lenN l')) in pret (a :: r)) l'
                         | (inr f, l') => (inr f, l')
                         end
       end.
(** [p] must use exactly [n] bytes. *)
Definition exactlyP {A} (n : N) (p : parser A) : parser A :=
  fun l => match p l with
           | (inl a, l') => if lenN l - lenN l' =? n then (inl a, l') else (inr Invalid, l')
           | (inr f, l') => (inr f, l')
           end.
(** [p] sees only the first [n] bytes. *)
Definition withinP {A} (n : N) (p : parser A) : parser A :=
  fun l => let '(x, l') := p (takeN n l) in (x, l' ++ dropN n l).

(** The payload of a struct of type [k] with declared size [n]. *)
Definition payloadP (tagP : parser tag) (k : kind) (n : N) : parser value :=
  match k with
  | KNull => let* _ := require (n =? 0) Invalid in pret VNull
  | KBool => let* _ := require (n =? 1) Invalid in
             let* b := takeP 1 in
             let* _ := require (be_value b <=? 1) Invalid in
             pret (VBool (be_value b =? 1))
  | KUInt w => let* _ := require (n =? N.of_nat (wbytes w)) Invalid in
               let* b := takeP n in pret (VUInt w (be_value b))
  | KSInt w => let* _ := require (n =? N.of_nat (wbytes w)) Invalid in
               let* b := takeP n in pret (VSInt w (to_signed w (be_value b)))
  | KBin32 => let* _ := require (n =? 4) Invalid in let* b := takeP n in pret (VBin32 (be_value b))
  | KBin64 => let* _ := require (n =? 8) Invalid in let* b := takeP n in pret (VBin64 (be_value b))
  | KBin128 => let* _ := require (n =? 16) Invalid in let* b := takeP n in pret (VBin128 b)
  | KILInt => let* v := ilintP in pret (VILInt v)
  | KSILInt => let* v := ilintP in pret (VSILInt (unzigzag v))
  | KRaw => let* b := takeP n in pret (VRaw b)
  | KBytes => let* b := takeP n in pret (VBytes b)
  | KBigInt => let* b := takeP n in pret (VBigInt b)
  | KString => let* s := takeP n in let* _ := require (from_utf8 s) Invalid in pret (VString s)
  | KBigDec => let* _ := require (4 <=? n) Invalid in
               let* s := takeP 4 in
               let* b := takeP (n - 4) in
               pret (VBigDec (to_signed W32 (be_value s)) b)
  | KILIntArray | KOID =>
      exactlyP n (let* c := ilintP in
                  let* _ := require (c <=? n) Invalid in
                  let* l := manyP (N.to_nat c) ilintP in
                  pret (match k with KOID => VOID l | _ => VILIntArray l end))
  | KSeq => fun l => (let* ts := untilP (S (length l)) tagP n in pret (VSeq ts)) l
  | KArr => exactlyP n (let* c := ilintP in
                        let* _ := require (c <=? n) Invalid in
                        let* l := manyP (N.to_nat c) tagP in
                        pret (VArr l))
  | KRange => exactlyP n (let* s := ilintP in let* c := takeP 2 in pret (VRange s (be_value c)))
  | KVersion => let* _ := require (n =? 16) Invalid in
                let* a := takeP 4 in let* b := takeP 4 in let* c := takeP 4 in let* d := takeP 4 in
                pret (VVersion (to_signed W32 (be_value a)) (to_signed W32 (be_value b))
                               (to_signed W32 (be_value c)) (to_signed W32 (be_value d)))
  | KDict => exactlyP n (let* c := ilintP in
                         let* es := manyP (N.to_nat c) (pairP stringP tagP) in
                         pret (VDict (dict_of es)))
  | KStrDict => exactlyP n (let* c := ilintP in
                            let* es := manyP (N.to_nat c) (pairP stringP stringP) in
                            pret (VStrDict (dict_of es)))
  end.
(** A tag in a slot of [n] bytes.  Tags with ids 10 and 14 may be shorter than it. *)
Definition slotP (id n : N) (payload : parser value) : parser tag :=
  withinP n ((if (id =? 10) || (id =? 14) then fun p => p else exactlyP n) (let* v := payload in pret (Tag id v))).
(** The size of the slot. *)
Definition sizeP (wid : N) : parser N :=
  let* n := (if wid <=? 15 then pret (implicit_size wid) else ilintP) in
  let* _ := require (n <=? 536870912) TooLarge in
  pret n.
(** [mk] says which struct, and with which id, the factory builds for an id found
    on the wire. *)
Fixpoint tagP (steps : nat) (mk : N -> option (N * kind)) : parser tag :=
  match steps with
  | O => pfail Steps
  | S s =>
      let* wid := ilintP in
      let* n := sizeP wid in
      match mk wid with
      | None => pfail Unknown
      | Some (id, k) => slotP id n (payloadP (tagP s mk) k n)
      end
  end.
Definition parse (mk : N -> option (N * kind)) : parser tag := fun l => tagP (S (length l)) mk l.
(** Into a given tag of id [id] and type [k]. *)
Definition parse_into (mk : N -> option (N * kind)) (id : N) (k : kind) : parser tag :=
  fun l => (let* wid := ilintP in
            let* _ := require (wid =? id) Unexpected in
            let* n := sizeP wid in
            slotP id n (payloadP (tagP (S (length l)) mk) k n)) l.

(** ** Readers that fail *)
(** The errors the methods [read] and [read_all] of a reader can return. *)
Fixpoint faults (r : reader) (e : io_error) : Prop :=
  match r with
  | RByteArray _ _ | RVec _ _ => e = EndOfData \/ e = UnableToReadData
  | RLimited src _ => e = UnableToReadData \/ faults src e
  | RRead _ sched => e = IOErrorStd UnexpectedEof \/ exists k, In (Fail k) sched /\ e = IOErrorStd k
  | RSeek _ => e = UnableToReadData
  | RCustom script => e = EndOfData \/ In (inl e) script
  end.

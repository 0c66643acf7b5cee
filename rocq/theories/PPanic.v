(** A panic of user code is final: C88. *)
From Verif Require Import Base BaseFacts Types Spec SpecFacts IO IOSpec IOFacts Logic ILInt Data Tags TagsFacts Scanner Factory FactoryFacts
  EngineFacts Open OpenFacts POpen Prog ProgFacts IntoProg OtherProg OtherProgFacts FullProg FullProgFacts Any AnyFacts PAny AnyScan AnyProg
  PProg AnyFull AnyWriter SerProg Panic PanicFacts.

(** ** C88.  No panic of user code (a program of a user tag, a creator, a reader, a
    writer) is caught on its way through the library: if a call of the library
    returns at all, then no panic of user code has had any influence on it.
    Replace the panics by anything else: the same answer, and everything is left in
    the same state.  In contrapositive: where the replacement makes a difference,
    the call has panicked (or not returned). *)
(** User types of tags with arbitrary code. *)
Theorem C88_types : forall T (U1 U2 : user_impl T) e, types_mend U1 U2 ->
  (forall r x r', o_deserialize U1 e r = (x, r') -> returns x -> o_deserialize U2 e r = (x, r')) /\
  (forall r t x t' r', o_deserialize_into U1 e r t = (x, t', r') -> returns x -> o_deserialize_into U2 e r t = (x, t', r')) /\
  (forall raw, returns (o_from_bytes U1 e raw) -> o_from_bytes U2 e raw = o_from_bytes U1 e raw) /\
  (forall t w x w', o_serialize U1 t w = (x, w') -> returns x -> o_serialize U2 t w = (x, w')) /\
  (forall t, returns (o_to_bytes U1 t) -> o_to_bytes U2 t = o_to_bytes U1 t).
Proof.
  intros T U1 U2 e HU. split; [|split; [|split; [|split]]].
  - intros r x r' E R. pose proof (t_fuel_mends U1 U2 e HU (S (left r)) r) as K. unfold o_deserialize in *. rewrite E in K. now apply K.
  - intros r t x t' r' E R. pose proof (t_into_mends U1 U2 e HU r t) as K. rewrite E in K. now apply K.
  - now apply t_from_bytes_mends.
  - intros t w x w' E R. pose proof (t_serialize_mends U1 U2 HU t w) as K. rewrite E in K. now apply K.
  - now apply t_to_bytes_mends.
Qed.
Print Assumptions C88_types.

(** User types whose deserialize_value is a program (C81). *)
Theorem C88_programs : forall T c (U1 U2 : user_impl T) (P1 P2 : script T) e r x r',
  creators_mend U1 U2 -> (forall n x, mends (P1 n x) (P2 n x)) ->
  o_deserialize (scripted c U1 P1) e r = (x, r') -> returns x -> o_deserialize (scripted c U2 P2) e r = (x, r').
Proof.
  intros T c U1 U2 P1 P2 e r x r' Hc HP E R. pose proof (s_mends c U1 U2 e Hc P1 P2 HP (S (left r)) r) as K.
  unfold o_deserialize in *. rewrite E in K. now apply K.
Qed.
Print Assumptions C88_programs.

(** ... that also calls deserialize_into (C83). *)
Theorem C88_into_programs : forall T c (U1 U2 : user_impl T) (X1 X2 : iscript T) e,
  creators_mend U1 U2 -> (forall n x, imends (X1 n x) (X2 n x)) ->
  (forall r x r', i_deserialize c U1 X1 e r = (x, r') -> returns x -> i_deserialize c U2 X2 e r = (x, r')) /\
  (forall r t x t' r', i_deserialize_into c U1 X1 e r t = (x, t', r') -> returns x -> i_deserialize_into c U2 X2 e r t = (x, t', r')).
Proof.
  intros T c U1 U2 X1 X2 e Hc HX. split.
  - intros r x r' E R. destruct (i_mends c U1 U2 e Hc X1 X2 HX (S (left r))) as [K _]. specialize (K r).
    unfold i_deserialize in *. rewrite E in K. now apply K.
  - intros r t x t' r' E R. destruct (i_mends c U1 U2 e Hc X1 X2 HX (S (left r))) as [_ K]. specialize (K r t).
    unfold i_deserialize_into in *. rewrite E in K. now apply K.
Qed.
Print Assumptions C88_into_programs.

(** ... that also calls the factory on other readers (C84). *)
Theorem C88_other_programs : forall T c (U1 U2 : user_impl T) (P1 P2 : xscript T) e f r x r',
  creators_mend U1 U2 -> (forall n x, xmends (P1 n x) (P2 n x)) ->
  x_deserialize c U1 P1 e f r = (x, r') -> returns x -> x_deserialize c U2 P2 e f r = (x, r').
Proof.
  intros T c U1 U2 P1 P2 e f r x r' Hc HP E R. pose proof (x_mends c U1 U2 e Hc P1 P2 HP f r) as K. rewrite E in K. now apply K.
Qed.
Print Assumptions C88_other_programs.

(** ... that makes every call (C85). *)
Theorem C88_full_programs : forall T c (U1 U2 : user_impl T) (Y1 Y2 : yscript T) e f,
  creators_mend U1 U2 -> (forall n x, ymends (Y1 n x) (Y2 n x)) ->
  (forall r x r', y_deserialize c U1 Y1 e f r = (x, r') -> returns x -> y_deserialize c U2 Y2 e f r = (x, r')) /\
  (forall r t x t' r', y_deserialize_into c U1 Y1 e f r t = (x, t', r') -> returns x -> y_deserialize_into c U2 Y2 e f r t = (x, t', r')).
Proof.
  intros T c U1 U2 Y1 Y2 e f Hc HY. destruct (y_mends c U1 U2 e Hc Y1 Y2 HY f) as [K1 K2]. split.
  - intros r x r' E R. specialize (K1 r). unfold y_deserialize in *. rewrite E in K1. now apply K1.
  - intros r t x t' r' E R. specialize (K2 r t). unfold y_deserialize_into in *. rewrite E in K2. now apply K2.
Qed.
Print Assumptions C88_full_programs.

(** User readers under the standard factory (C69) and under the scanner (C74). *)
Theorem C88_readers : forall U (M1 M2 : reader_impl U) e, reader_mends M1 M2 ->
  (forall r x r', a_deserialize M1 e r = (x, r') -> returns x -> a_deserialize M2 e r = (x, r')) /\
  (forall r t x t' r', a_deserialize_into M1 e r t = (x, t', r') -> returns x -> a_deserialize_into M2 e r t = (x, t', r')).
Proof.
  intros U M1 M2 e HM. split.
  - intros r x r' E R. pose proof (a_deserialize_mends M1 M2 HM e r) as K. rewrite E in K. now apply K.
  - intros r t x t' r' E R. pose proof (a_deserialize_into_mends M1 M2 HM e r t) as K. rewrite E in K. now apply K.
Qed.
Print Assumptions C88_readers.
Theorem C88_scanner : forall U (F1 F2 : full_reader U) c, full_mends F1 F2 ->
  (forall n s x s', f_next_tags F1 c n s = (x, s') -> returns x -> f_next_tags F2 c n s = (x, s')) /\
  (forall id s x s', f_next_tag_if_id F1 c id s = (x, s') -> returns x -> f_next_tag_if_id F2 c id s = (x, s')).
Proof.
  intros U F1 F2 c HF. split.
  - intros n s x s' E R. pose proof (f_next_tags_mends F1 F2 c HF n s) as K. rewrite E in K. now apply K.
  - intros id s x s' E R. pose proof (f_next_tag_if_id_mends F1 F2 c HF id s) as K. rewrite E in K. now apply K.
Qed.
Print Assumptions C88_scanner.

(** User code on both sides of the library: the programs (C82, C87), the creators
    and the reader may all panic. *)
Theorem C88_programs_on_readers : forall U (M1 M2 : reader_impl U) T c (D1 D2 : user_impl T) (P1 P2 : script T) e,
  reader_mends M1 M2 -> creators_mend D1 D2 -> (forall n x, mends (P1 n x) (P2 n x)) ->
  (forall r x r', ao_deserialize M1 c D1 P1 e r = (x, r') -> returns x -> ao_deserialize M2 c D2 P2 e r = (x, r')) /\
  (forall r t x t' r', ao_deserialize_into M1 c D1 P1 e r t = (x, t', r') -> returns x -> ao_deserialize_into M2 c D2 P2 e r t = (x, t', r')).
Proof.
  intros U M1 M2 T c D1 D2 P1 P2 e HM Hc HP. split.
  - intros r x r' E R. pose proof (ao_deserialize_mends M1 M2 HM c D1 D2 e Hc P1 P2 HP r) as K. rewrite E in K. now apply K.
  - intros r t x t' r' E R. pose proof (ao_deserialize_into_mends M1 M2 HM c D1 D2 e Hc P1 P2 HP r t) as K. rewrite E in K. now apply K.
Qed.
Print Assumptions C88_programs_on_readers.
Theorem C88_full_programs_on_readers : forall U (M1 M2 : reader_impl U) T c (D1 D2 : user_impl T) (Y1 Y2 : yscript T) e f,
  reader_mends M1 M2 -> creators_mend D1 D2 -> (forall n x, ymends (Y1 n x) (Y2 n x)) ->
  (forall r x r', ay_deserialize M1 c D1 Y1 e f r = (x, r') -> returns x -> ay_deserialize M2 c D2 Y2 e f r = (x, r')) /\
  (forall r t x t' r', ay_deserialize_into M1 c D1 Y1 e f r t = (x, t', r') -> returns x -> ay_deserialize_into M2 c D2 Y2 e f r t = (x, t', r')).
Proof.
  intros U M1 M2 T c D1 D2 Y1 Y2 e f HM Hc HY. destruct (ay_mends M1 M2 HM c D1 D2 e Hc Y1 Y2 HY f) as [K1 K2]. split.
  - intros r x r' E R. specialize (K1 r). rewrite E in K1. now apply K1.
  - intros r t x t' r' E R. specialize (K2 r t). rewrite E in K2. now apply K2.
Qed.
Print Assumptions C88_full_programs_on_readers.

(** Serialization: user writers (C72), and user types whose serialize is a program
    on them (C86). *)
Theorem C88_writers : forall W (M1 M2 : writer_impl W), writer_mends M1 M2 ->
  (forall t u x u', a_serialize M1 t u = (x, u') -> returns x -> a_serialize M2 t u = (x, u')) /\
  (forall T (U : user_impl T) (P1 P2 : sscript T) f t u x u', (forall x, smends (P1 x) (P2 x)) ->
     s_serialize U P1 f W M1 t u = (x, u') -> returns x -> s_serialize U P2 f W M2 t u = (x, u')).
Proof.
  intros W M1 M2 HM. split.
  - intros t u x u' E R. pose proof (proj1 (w_both_mends M1 M2 HM) t u) as K. rewrite E in K. now apply K.
  - intros T U P1 P2 f t u x u' HP E R. pose proof (s_serialize_mends U P1 P2 HP f W M1 M2 HM t u) as K. rewrite E in K. now apply K.
Qed.
Print Assumptions C88_writers.

(** ** Concrete cases *)
Definition std : engine := create_std_engine false.
(** A user tag of one byte that does not expect 255: [p] says what it does then.  A
    longer one reads the tag inside and does not mind if that fails. *)
Definition nervous (p : prog (otag (list N)) (option tag_error * list N)) : script (list N) := fun n _ =>
  if n =? 1 then DoRead (fun x => match x with
    | Ok b => if b =? 255 then p else Done (None, [b]) | Err e => Done (Some (TagIO e), []) | _ => Abort end)
  else DoTag (fun x => match x with Ok (OUser l) => Done (None, l) | _ => Done (None, [0]) end).
Definition nested (b : N) : list N := [22; 9; 249; 6; 216; 5; 249; 6; 216; 1; b].
Lemma nervous_mends p n x : mends (nervous Abort n x) (nervous p n x).
Proof.
  unfold nervous. destruct (n =? 1).
  - apply Mends_read. intros [b|er| |]; try (constructor; fail). destruct (b =? 255); constructor.
  - apply Mends_tag. intros [[| | | |]|er| |]; constructor.
Qed.
Lemma same_creators {T} (U : user_impl T) : creators_mend U U.
Proof. split; [reflexivity|]. intros id. now right. Qed.
Example C88_programs_instance :
  (forall p, o_deserialize (scripted c64 bytes_user (nervous p)) std (ByteArrayReader_new (nested 7)) =
    (Ok (OSeq 22 [OUser [7]]), RByteArray (nested 7) 11)) /\
  fst (o_deserialize (scripted c64 bytes_user (nervous Abort)) std (ByteArrayReader_new (nested 255))) = Panic /\
  o_deserialize (scripted c64 bytes_user (nervous (Done (None, [9])))) std (ByteArrayReader_new (nested 255)) =
    (Ok (OSeq 22 [OUser [9]]), RByteArray (nested 255) 11).
Proof.
  split; [|split; vm_compute; reflexivity]. intros p.
  apply (C88_programs _ c64 bytes_user bytes_user (nervous Abort)); [apply same_creators|apply nervous_mends|vm_compute; reflexivity|exact I].
Qed.
(** The same with the calls of C83, C84 and C85: the bytes of the tag inside are
    read again from a reader of the program, into a new object. *)
Definition nervous_i (p : iprog (otag (list N)) (option tag_error * list N)) : iscript (list N) := fun n _ =>
  if n =? 1 then IRead (fun x => match x with
    | Ok b => if b =? 255 then p else IDone (None, [b]) | Err e => IDone (Some (TagIO e), []) | _ => IAbort end)
  else IInto (OUser []) (fun x t => match x, t with Ok _, OUser l => IDone (None, l) | _, _ => IDone (None, [0]) end).
Lemma nervous_i_mends p n x : imends (nervous_i IAbort n x) (nervous_i p n x).
Proof.
  unfold nervous_i. destruct (n =? 1).
  - apply IMends_read. intros [b|er| |]; try (constructor; fail). destruct (b =? 255); constructor.
  - apply IMends_into. intros [[]|er| |] [| | | |]; constructor.
Qed.
Example C88_into_programs_instance :
  (forall p, i_deserialize c64 bytes_user (nervous_i p) std (ByteArrayReader_new (nested 7)) = (Ok (OSeq 22 [OUser [7]]), RByteArray (nested 7) 11)) /\
  (forall p, i_deserialize_into c64 bytes_user (nervous_i p) std (ByteArrayReader_new (nested 7)) (OSeq 22 []) =
    (Ok tt, OSeq 22 [OUser [7]], RByteArray (nested 7) 11)) /\
  fst (i_deserialize c64 bytes_user (nervous_i IAbort) std (ByteArrayReader_new (nested 255))) = Panic /\
  fst (fst (i_deserialize_into c64 bytes_user (nervous_i IAbort) std (ByteArrayReader_new (nested 255)) (OSeq 22 []))) = Panic /\
  i_deserialize c64 bytes_user (nervous_i (IDone (None, [9]))) std (ByteArrayReader_new (nested 255)) =
    (Ok (OSeq 22 [OUser [9]]), RByteArray (nested 255) 11).
Proof.
  split; [|split; [|repeat split; vm_compute; reflexivity]]; intros p;
    (eapply (C88_into_programs _ c64 bytes_user bytes_user (nervous_i IAbort));
      [apply same_creators|apply nervous_i_mends|vm_compute; reflexivity|exact I]).
Qed.
Definition nervous_x (p : xprog (otag (list N)) (option tag_error * list N)) : xscript (list N) := fun n _ =>
  if n =? 1 then XRead (fun x => match x with
    | Ok b => if b =? 255 then p else XDone (None, [b]) | Err e => XDone (Some (TagIO e), []) | _ => XAbort end)
  else XReadAll [0; 0; 0; 0; 0] (fun x got => XOther (ByteArrayReader_new got)
    (fun y _ => match y with Ok (OUser l) => XDone (None, l) | _ => XDone (None, [0]) end)).
Lemma nervous_x_mends p n x : xmends (nervous_x XAbort n x) (nervous_x p n x).
Proof.
  unfold nervous_x. destruct (n =? 1).
  - apply XMends_read. intros [b|er| |]; try (constructor; fail). destruct (b =? 255); constructor.
  - apply XMends_read_all. intros y got. apply XMends_other. intros [[| | | |]|er| |] q; constructor.
Qed.
Example C88_other_programs_instance :
  (forall p, x_deserialize c64 bytes_user (nervous_x p) std 9 (ByteArrayReader_new (nested 7)) = (Ok (OSeq 22 [OUser [7]]), RByteArray (nested 7) 11)) /\
  fst (x_deserialize c64 bytes_user (nervous_x XAbort) std 9 (ByteArrayReader_new (nested 255))) = Panic /\
  x_deserialize c64 bytes_user (nervous_x (XDone (None, [9]))) std 9 (ByteArrayReader_new (nested 255)) =
    (Ok (OSeq 22 [OUser [9]]), RByteArray (nested 255) 11).
Proof.
  split; [|split; vm_compute; reflexivity]. intros p.
  apply (C88_other_programs _ c64 bytes_user bytes_user (nervous_x XAbort)); [apply same_creators|apply nervous_x_mends|vm_compute; reflexivity|exact I].
Qed.
Definition nervous_y (p : yprog (otag (list N)) (option tag_error * list N)) : yscript (list N) := fun n _ =>
  if n =? 1 then YRead (fun x => match x with
    | Ok b => if b =? 255 then p else YDone (None, [b]) | Err e => YDone (Some (TagIO e), []) | _ => YAbort end)
  else YReadAll [0; 0; 0; 0; 0] (fun x got => YOtherInto (ByteArrayReader_new got) (OUser [])
    (fun y t _ => match y, t with Ok _, OUser l => YDone (None, l) | _, _ => YDone (None, [0]) end)).
Lemma nervous_y_mends p n x : ymends (nervous_y YAbort n x) (nervous_y p n x).
Proof.
  unfold nervous_y. destruct (n =? 1).
  - apply YMends_read. intros [b|er| |]; try (constructor; fail). destruct (b =? 255); constructor.
  - apply YMends_read_all. intros y got. apply YMends_other_into. intros [[]|er| |] [| | | |] q; constructor.
Qed.
Example C88_full_programs_instance :
  (forall p, y_deserialize c64 bytes_user (nervous_y p) std 9 (ByteArrayReader_new (nested 7)) = (Ok (OSeq 22 [OUser [7]]), RByteArray (nested 7) 11)) /\
  (forall p, y_deserialize_into c64 bytes_user (nervous_y p) std 9 (ByteArrayReader_new (nested 7)) (OSeq 22 []) =
    (Ok tt, OSeq 22 [OUser [7]], RByteArray (nested 7) 11)) /\
  fst (y_deserialize c64 bytes_user (nervous_y YAbort) std 9 (ByteArrayReader_new (nested 255))) = Panic /\
  fst (fst (y_deserialize_into c64 bytes_user (nervous_y YAbort) std 9 (ByteArrayReader_new (nested 255)) (OSeq 22 []))) = Panic /\
  y_deserialize c64 bytes_user (nervous_y (YDone (None, [9]))) std 9 (ByteArrayReader_new (nested 255)) =
    (Ok (OSeq 22 [OUser [9]]), RByteArray (nested 255) 11).
Proof.
  split; [|split; [|repeat split; vm_compute; reflexivity]]; intros p;
    (eapply (C88_full_programs _ c64 bytes_user bytes_user (nervous_y YAbort));
      [apply same_creators|apply nervous_y_mends|vm_compute; reflexivity|exact I]).
Qed.

(** A type with arbitrary code that panics when asked to write or to read the byte
    255, and whose creator for the id 2001 panics; [x] is what it does instead. *)
Definition wary (x : res tag_error unit) : user_impl (list N) := {|
  u_id := u_id bytes_user; u_size := u_size bytes_user;
  u_serialize := fun l w => if existsb (N.eqb 255) l then (x, w) else u_serialize bytes_user l w;
  u_to_bytes := fun l => if existsb (N.eqb 255) l then map_ok (fun _ => [1]) x else u_to_bytes bytes_user l;
  u_deserialize_value := fun _ n => bs <- on_reader (deserialize_bytes n) ;;
    (if existsb (N.eqb 255) bs then (fun st => (x, st)) else ret tt) ;;; modify (fun _ => bs);
  u_create := fun id => if id =? 2001 then match x with Panic => Some None | _ => Some (Some [4]) end else u_create bytes_user id |}.
Lemma wary_mends x : types_mend (wary Panic) (wary x).
Proof.
  split.
  { split; [reflexivity|]. intros id. cbn [u_create wary]. destruct (id =? 2001); [now left|now right]. }
  split; [reflexivity|]. split; [|split].
  - intros l w. cbn [u_serialize wary]. destruct (existsb _ l); [intros []|reflexivity].
  - intros l. cbn [u_to_bytes wary]. destruct (existsb _ l); [intros []|reflexivity].
  - intros d1 d2 _ n l r. cbn [u_deserialize_value wary].
    change (returns (fst ((bs <- on_reader (deserialize_bytes n) ;; (if existsb (N.eqb 255) bs then (fun st => (Panic, st)) else ret tt) ;;;
      modify (fun _ : list N => bs)) (l, r))) ->
      (bs <- on_reader (deserialize_bytes n) ;; (if existsb (N.eqb 255) bs then (fun st => (x, st)) else ret tt) ;;; modify (fun _ : list N => bs)) (l, r) =
      (bs <- on_reader (deserialize_bytes n) ;; (if existsb (N.eqb 255) bs then (fun st => (Panic, st)) else ret tt) ;;; modify (fun _ : list N => bs)) (l, r)).
    unfold bind at 1 3 5. destruct (on_reader (deserialize_bytes n) (l, r)) as [[bs|er| |] st]; try reflexivity.
    destruct (existsb _ bs); [intros []|reflexivity].
Qed.
Definition boxed (b : N) : otag (list N) := OArr 21 [OUser [b]; OStd 0 VNull].
Example C88_types_instance :
  (forall x, o_to_bytes (wary x) (boxed 7) = Ok [21; 7; 2; 249; 6; 216; 1; 7; 0]) /\
  (forall x, o_deserialize (wary x) std (ByteArrayReader_new [21; 7; 2; 249; 6; 216; 1; 7; 0]) =
     (Ok (boxed 7), RByteArray [21; 7; 2; 249; 6; 216; 1; 7; 0] 9)) /\
  o_to_bytes (wary Panic) (boxed 255) = Panic /\
  o_to_bytes (wary (Ok tt)) (boxed 255) = Ok [21; 7; 2; 0] /\
  fst (o_deserialize (wary Panic) std (ByteArrayReader_new [21; 7; 2; 249; 6; 216; 1; 255; 0])) = Panic /\
  o_from_bytes (wary Panic) std [21; 7; 2; 249; 6; 216; 1; 255; 0] = Panic /\
  o_from_bytes (wary (Ok tt)) std [21; 7; 2; 249; 6; 216; 1; 255; 0] = Ok (boxed 255) /\
  fst (fst (o_deserialize_into (wary Panic) std (ByteArrayReader_new [21; 7; 2; 249; 6; 216; 1; 255; 0]) (OArr 21 []))) = Panic /\
  fst (o_deserialize (wary Panic) std (ByteArrayReader_new [249; 6; 217; 0])) = Panic /\
  fst (o_deserialize (wary (Ok tt)) std (ByteArrayReader_new [249; 6; 217; 0])) = Ok (OUser []).
Proof.
  split; [|split; [|repeat split; vm_compute; reflexivity]]; intros x; destruct (C88_types _ (wary Panic) (wary x) std (wary_mends x)) as (Hd & _ & _ & _ & Hb).
  - assert (E : o_to_bytes (wary Panic) (boxed 7) = Ok [21; 7; 2; 249; 6; 216; 1; 7; 0]) by (vm_compute; reflexivity).
    rewrite <- E. apply Hb. rewrite E. exact I.
  - apply Hd; [vm_compute; reflexivity|exact I].
Qed.

(** Readers that do not expect 255. *)
Definition touchy (x : res io_error N) : reader_impl (list N) :=
  let rd := fun u => match u with [] => (Err EndOfData, []) | b :: u' => if b =? 255 then (x, u') else (Ok b, u') end in
  ReaderImpl _ rd (default_read_all rd).
Lemma default_read_all_mends {U} (rd1 rd2 : U -> res io_error N * U) buff : (forall u, returns (fst (rd1 u)) -> rd2 u = rd1 u) -> forall u,
  returns (fst (fst (default_read_all rd1 buff u))) -> default_read_all rd2 buff u = default_read_all rd1 buff u.
Proof.
  intros H. induction buff as [|b buff IH]; intros u; cbn [default_read_all]; [reflexivity|].
  pose proof (H u) as K. destruct (rd1 u) as [[x|er| |] u']; cbn [fst returns] in *; intros Q; try contradiction; rewrite K by exact I; [|reflexivity].
  specialize (IH u'). destruct (default_read_all rd1 buff u') as [[y m] u'']. cbn [fst] in *. now rewrite IH.
Qed.
Lemma touchy_mends x : reader_mends (touchy Panic) (touchy x).
Proof.
  assert (H : forall u, returns (fst (u_read (touchy Panic) u)) -> u_read (touchy x) u = u_read (touchy Panic) u).
  { intros [|b u]; cbn [u_read touchy]; [reflexivity|]. destruct (b =? 255); [intros []|reflexivity]. }
  split; [exact H|]. intros buff u. apply default_read_all_mends. exact H.
Qed.
Example C88_readers_instance :
  (forall x, a_deserialize (touchy x) std (ABase [22; 5; 16; 1; 7; 1; 1; 255]) = (Ok (Tag 22 (VSeq [Tag 16 (VBytes [7]); Tag 1 (VBool true)])), ABase [255])) /\
  fst (a_deserialize (touchy Panic) std (ABase [22; 5; 16; 1; 255; 1; 1; 9])) = Panic /\
  fst (fst (a_deserialize_into (touchy Panic) std (ABase [22; 5; 16; 1; 255; 1; 1; 9]) (Tag 22 (VSeq [])))) = Panic /\
  a_deserialize (touchy (Ok 3)) std (ABase [22; 5; 16; 1; 255; 1; 1; 9]) = (Ok (Tag 22 (VSeq [Tag 16 (VBytes [3]); Tag 1 (VBool true)])), ABase [9]).
Proof.
  split; [|repeat split; vm_compute; reflexivity]. intros x.
  apply (C88_readers _ (touchy Panic) (touchy x) std (touchy_mends x)); [vm_compute; reflexivity|exact I].
Qed.
(** A reader with a [skip_u64] of its own, which panics at 3 bytes. *)
Definition jumpy (x : res io_error unit) : full_reader (list N) :=
  FullReader _ (touchy Panic) (fun n u => (Ok tt, dropN n u)) (fun n u => if n =? 3 then (x, u) else (Ok tt, dropN n u)).
Lemma jumpy_mends x : full_mends (jumpy Panic) (jumpy x).
Proof.
  split; [apply touchy_mends|]. split; [reflexivity|]. intros n u. cbn [f_skip_u64 jumpy]. destruct (n =? 3); [intros []|reflexivity].
Qed.
Example C88_scanner_instance :
  (forall x, f_next_tags (jumpy x) c64 2 (0, [16; 2; 255; 255; 1; 1; 8]) =
     (Ok [RawTagOffset_new 16 0 2 2; RawTagOffset_new 1 4 1 1], (6, [8]))) /\
  fst (f_next_tags (jumpy Panic) c64 2 (0, [16; 2; 255; 255; 16; 3; 1; 2; 3])) = Panic /\
  fst (f_next_tag_if_id (jumpy Panic) c64 16 (0, [16; 3; 1; 2; 3])) = Panic /\
  f_next_tags (jumpy (Ok tt)) c64 2 (0, [16; 2; 255; 255; 16; 3; 1; 2; 3]) =
     (Ok [RawTagOffset_new 16 0 2 2; RawTagOffset_new 16 4 2 3], (9, [1; 2; 3])).
Proof.
  split; [|repeat split; vm_compute; reflexivity]. intros x.
  apply (C88_scanner _ (jumpy Panic) (jumpy x) c64 (jumpy_mends x)); [vm_compute; reflexivity|exact I].
Qed.
(** The nervous types from the touchy reader. *)
Example C88_programs_on_readers_instance :
  (forall x p, ao_deserialize (touchy x) c64 bytes_user (nervous p) std (ABase (nested 7 ++ [255])) = (Ok (OSeq 22 [OUser [7]]), ABase [255])) /\
  (forall x p, ao_deserialize_into (touchy x) c64 bytes_user (nervous p) std (ABase (nested 7 ++ [255])) (OSeq 22 []) =
     (Ok tt, OSeq 22 [OUser [7]], ABase [255])) /\
  fst (ao_deserialize (touchy Panic) c64 bytes_user (nervous (Done (None, [9]))) std (ABase (nested 255))) = Panic /\
  fst (ao_deserialize (touchy (Ok 255)) c64 bytes_user (nervous Abort) std (ABase (nested 255))) = Panic /\
  fst (fst (ao_deserialize_into (touchy (Ok 255)) c64 bytes_user (nervous Abort) std (ABase (nested 255)) (OSeq 22 []))) = Panic /\
  ao_deserialize (touchy (Ok 255)) c64 bytes_user (nervous (Done (None, [9]))) std (ABase (nested 255)) = (Ok (OSeq 22 [OUser [9]]), ABase []).
Proof.
  split; [|split; [|repeat split; vm_compute; reflexivity]]; intros x p;
    (eapply (C88_programs_on_readers _ (touchy Panic) (touchy x) _ c64 bytes_user bytes_user (nervous Abort));
      [apply touchy_mends|apply same_creators|apply nervous_mends|vm_compute; reflexivity|exact I]).
Qed.
Example C88_full_programs_on_readers_instance :
  (forall x p, ay_deserialize (touchy x) c64 bytes_user (nervous_y p) std 9 (ABase (nested 7 ++ [255])) = (Ok (OSeq 22 [OUser [7]]), ABase [255])) /\
  (forall x p, ay_deserialize_into (touchy x) c64 bytes_user (nervous_y p) std 9 (ABase (nested 7 ++ [255])) (OSeq 22 []) =
     (Ok tt, OSeq 22 [OUser [7]], ABase [255])) /\
  fst (ay_deserialize (touchy Panic) c64 bytes_user (nervous_y (YDone (None, [9]))) std 9 (ABase (nested 255))) = Panic /\
  fst (ay_deserialize (touchy (Ok 255)) c64 bytes_user (nervous_y YAbort) std 9 (ABase (nested 255))) = Panic /\
  fst (fst (ay_deserialize_into (touchy (Ok 255)) c64 bytes_user (nervous_y YAbort) std 9 (ABase (nested 255)) (OSeq 22 []))) = Panic /\
  ay_deserialize (touchy (Ok 255)) c64 bytes_user (nervous_y (YDone (None, [9]))) std 9 (ABase (nested 255)) = (Ok (OSeq 22 [OUser [9]]), ABase []).
Proof.
  split; [|split; [|repeat split; vm_compute; reflexivity]]; intros x p;
    (eapply (C88_full_programs_on_readers _ (touchy Panic) (touchy x) _ c64 bytes_user bytes_user (nervous_y YAbort));
      [apply touchy_mends|apply same_creators|apply nervous_y_mends|vm_compute; reflexivity|exact I]).
Qed.

(** A writer that panics when it gets 255, and a type whose serialize does when the
    object is 255; longer ones write one inside and do not mind if that fails. *)
Definition picky (x : res io_error unit) : writer_impl (list N) :=
  WriterImpl _ (fun b u => if b =? 255 then (x, u) else (Ok tt, u ++ [b]))
    (fun bs u => if existsb (N.eqb 255) bs then (x, u) else (Ok tt, u ++ bs)).
Lemma picky_mends x : writer_mends (picky Panic) (picky x).
Proof.
  split; intros b u; cbn [u_write u_write_all picky]; [destruct (b =? 255)|destruct (existsb _ b)]; try (intros []; fail); reflexivity.
Qed.
Definition anxious (p : sprog (otag N)) : sscript N := fun x =>
  if x =? 255 then p
  else if x <? 100 then SWrite x (fun _ => SDone None)
  else STag (OUser (x - 100)) (fun _ => SOther VecWriter_new (OUser (x - 101)) (fun _ _ => SDone None)).
Lemma anxious_mends p x : smends (anxious SAbort x) (anxious p x).
Proof.
  unfold anxious. destruct (x =? 255); [constructor|]. destruct (x <? 100); [constructor; intros; constructor|].
  constructor. intros y. constructor. intros z w. constructor.
Qed.
Definition small : user_impl N := provided (fun _ => 40) (fun _ => 1) (fun _ w => (Panic, w)) (fun _ _ st => (Panic, st)) (fun _ => None).
Example C88_writers_instance :
  (forall x, a_serialize (picky x) (Tag 22 (VSeq [Tag 16 (VBytes [7])])) [] = (Ok tt, [22; 3; 16; 1; 7])) /\
  fst (a_serialize (picky Panic) (Tag 22 (VSeq [Tag 16 (VBytes [255])])) []) = Panic /\
  a_serialize (picky (Ok tt)) (Tag 22 (VSeq [Tag 16 (VBytes [255])])) [] = (Ok tt, [22; 3; 16; 1]) /\
  (forall x p, s_serialize small (anxious p) 9 _ (picky x) (OSeq 22 [OUser 150; OUser 250]) [] = (Ok tt, [22; 6; 50; 50])) /\
  fst (s_serialize small (anxious SAbort) 9 _ (picky (Ok tt)) (OSeq 22 [OUser 150; OUser 355]) []) = Panic /\
  fst (s_serialize small (anxious SAbort) 9 _ (picky (Ok tt)) (OSeq 22 [OUser 150; OUser 356]) []) = Panic /\
  s_serialize small (anxious (SDone None)) 9 _ (picky (Ok tt)) (OSeq 22 [OUser 150; OUser 355]) [] = (Ok tt, [22; 6; 50]).
Proof.
  split; [|split; [vm_compute; reflexivity|split; [vm_compute; reflexivity|split; [|repeat split; vm_compute; reflexivity]]]].
  - intros x. apply (C88_writers _ (picky Panic) (picky x) (picky_mends x)); [vm_compute; reflexivity|exact I].
  - intros x p. apply (proj2 (C88_writers _ (picky Panic) (picky x) (picky_mends x)) _ small (anxious SAbort)); [apply anxious_mends|vm_compute; reflexivity|exact I].
Qed.

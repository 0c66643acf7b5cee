(** User types whose serialize is a program, written to any implementation of the
    trait [Writer]: inside the containers of the library, whatever the writer
    answers and whatever the program does about the answers. *)
From Verif Require Import Base Types IO ILInt Data Tags Open AnyWriter.

(** What the body of ILTag::serialize (src/tags/mod.rs:230-236, or an override of
    it) of a user type may do with the writer it gets, besides computing:
    [SWrite b k] is Writer::write (src/io/mod.rs:171) and [SWriteAll bs k]
    Writer::write_all (184-189); [STag t k] is ILTag::serialize of the object [t]
    on the same writer; [SOther w t k] is ILTag::serialize of [t] on a writer [w]
    of the library that the program makes (ILTag::to_bytes, src/tags/mod.rs:266-270,
    is such a call on a VecWriter), going on with the writer afterwards.  Each goes on with the answer.
    [SDone None] returns Ok, [SDone (Some e)] returns the error [e], and [SAbort] panics.
    Simplification: serialize takes [&self], so the object does not change
    (no interior mutability). *)
Inductive sprog (I : Type) : Type :=
| SDone (e : option tag_error)
| SAbort
| SWrite (b : N) (k : res io_error unit -> sprog I)
| SWriteAll (bs : list N) (k : res io_error unit -> sprog I)
| STag (t : I) (k : res tag_error unit -> sprog I)
| SOther (w : writer) (t : I) (k : res tag_error unit -> writer -> sprog I).
Arguments SDone {I} e.
Arguments SAbort {I}.
Arguments SWrite {I} b k.
Arguments SWriteAll {I} bs k.
Arguments STag {I} t k.
Arguments SOther {I} w t k.

(** Going on after a call that returned; a panic unwinds through the program. *)
Definition s_after {W E} (x : res E unit) (go : res E unit -> W -> res tag_error unit * W) (u : W)
  : res tag_error unit * W :=
  match x with
  | Ok _ | Err _ => go x u
  | Panic => (Panic, u)
  | OutOfFuel => (OutOfFuel, u)
  end.
(** Running a program on a writer of the type [M] (src/io/mod.rs:162-192); [own] is ILTag::serialize of
    an object on that writer, [other] on a writer of the library. *)
Fixpoint sexec {I W} (M : writer_impl W) (own : I -> W -> res tag_error unit * W)
  (other : I -> writer -> res tag_error unit * writer) (p : sprog I) (u : W) : res tag_error unit * W :=
  match p with
  | SDone None => (Ok tt, u)
  | SDone (Some e) => (Err e, u)
  | SAbort => (Panic, u)
  | SWrite b k => let '(x, u') := u_write M b u in s_after x (fun x => sexec M own other (k x)) u'
  | SWriteAll bs k => let '(x, u') := u_write_all M bs u in s_after x (fun x => sexec M own other (k x)) u'
  | STag t k => let '(x, u') := own t u in s_after x (fun x => sexec M own other (k x)) u'
  | SOther w t k => let '(x, w') := other t w in s_after x (fun x => sexec M own other (k x w')) u
  end.

(** The provided ILTag::serialize, src/tags/mod.rs:230-236, on any writer, as
    [serialize_with] in Open.v. *)
Definition s_with {W} (M : writer_impl W) (id vs : N) (sv : W -> res tag_error unit * W) : W -> res tag_error unit * W :=
  a_serialize_ilint M id ;;; (if is_implicit_tag id then ret tt else a_serialize_ilint M vs) ;;; sv.

(** ILTag::serialize of an object on any writer, as [o_serialize] in Open.v:
    [user] for a user type, else the provided one on ILTag::serialize_value:
    ILTagSeqTag, explicit/mod.rs:598-603; ILTagArrayTag 671-674; ILDictTag
    1088-1104. *)
Fixpoint s_object {T W} (M : writer_impl W) (U : user_impl T) (user : T -> W -> res tag_error unit * W) (t : otag T)
  : W -> res tag_error unit * W :=
  match t with
  | OStd id v => s_with M id (value_size v) (a_serialize_value M v)
  | OUser x => user x
  | OSeq id l => s_with M id (items_size U l) (for_each l (s_object M U user))
  | OArr id l =>
      s_with M id (encoded_size (lenN l) + items_size U l)
        (a_serialize_ilint M (lenN l) ;;; for_each l (s_object M U user))
  | ODict id l =>
      let values := map (fun e => (fst e, s_object M U user (snd e))) l in
      let keys := sort_unstable (map fst l) in
      s_with M id (encoded_size (lenN l) + entries_size U l)
        (a_serialize_ilint M (lenN l) ;;;
         for_each keys (fun key =>
           match hm_get key values with
           | Some value => a_serialize_string_tag M key ;;; value
           | None => fail UnableToSerialize
           end))
  end.

(** ILTag::serialize (src/tags/mod.rs:230-236) of an object whose user types have
    the programs [P] as their serialize.  A program may serialize any object, so
    this is relative to a bound [f] on the depth of such calls; [OutOfFuel]: they
    are deeper. *)
Definition sscript (T : Type) := T -> sprog (otag T).
Fixpoint s_serialize {T} (U : user_impl T) (P : sscript T) (f : nat)
  : forall W (M : writer_impl W), otag T -> W -> res tag_error unit * W :=
  match f with
  | O => fun W M t u => (OutOfFuel, u)
  | S f' => fun W M =>
      s_object M U (fun x => sexec M (s_serialize U P f' W M) (s_serialize U P f' writer library_writer) (P x))
  end.

(** The user types of Open.v with such a serialize, and the provided to_bytes
    (src/tags/mod.rs:266-270) on it. *)
Definition sscripted {T} (U : user_impl T) (P : sscript T) (f : nat) : user_impl T := {|
  u_id := u_id U; u_size := u_size U;
  u_serialize := fun x => s_serialize U P f writer library_writer (OUser x);
  u_to_bytes := fun x => to_bytes_over (s_serialize U P f writer library_writer (OUser x));
  u_deserialize_value := u_deserialize_value U;
  u_create := u_create U |}.

(** ** What is asked of a program *)
(** It does not panic, and the writers it makes are well formed. *)
Fixpoint scalm {I} (wwf : writer -> Prop) (p : sprog I) : Prop :=
  match p with
  | SDone _ => True
  | SAbort => False
  | SWrite _ k | SWriteAll _ k => forall x, returns x -> scalm wwf (k x)
  | STag _ k => forall x, returns x -> scalm wwf (k x)
  | SOther w _ k => wwf w /\ forall x w', returns x -> wwf w' -> scalm wwf (k x w')
  end.
(** Every object it serializes meets [G]. *)
Fixpoint sserializes {I} (G : I -> Prop) (p : sprog I) : Prop :=
  match p with
  | SDone _ | SAbort => True
  | SWrite _ k | SWriteAll _ k => forall x, sserializes G (k x)
  | STag t k => G t /\ forall x, sserializes G (k x)
  | SOther _ t k => G t /\ forall x w', sserializes G (k x w')
  end.
(** Whatever the answers, it does not return Ok. *)
Fixpoint sfails {I} (p : sprog I) : Prop :=
  match p with
  | SDone e => e <> None
  | SAbort => True
  | SWrite _ k | SWriteAll _ k => forall x, sfails (k x)
  | STag _ k => forall x, sfails (k x)
  | SOther _ _ k => forall x w', sfails (k x w')
  end.
(** Once a call on its own writer has failed, it does not return Ok. *)
Fixpoint sstrict {I} (p : sprog I) : Prop :=
  match p with
  | SDone _ | SAbort => True
  | SWrite _ k | SWriteAll _ k => sstrict (k (Ok tt)) /\ forall e, sfails (k (Err e))
  | STag _ k => sstrict (k (Ok tt)) /\ forall e, sfails (k (Err e))
  | SOther _ _ k => forall x w', sstrict (k x w')
  end.
(** It returns an error as soon as a call on its own writer has failed (the [?]
    operator of Rust). *)
Fixpoint sprompt {I} (p : sprog I) : Prop :=
  match p with
  | SDone _ | SAbort => True
  | SWrite _ k | SWriteAll _ k => sprompt (k (Ok tt)) /\ forall i, exists e, k (Err i) = SDone (Some e)
  | STag _ k => sprompt (k (Ok tt)) /\ forall i, exists e, k (Err i) = SDone (Some e)
  | SOther _ _ k => forall x w', sprompt (k x w')
  end.

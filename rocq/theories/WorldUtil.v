(** ILTagFactory::from_bytes and src/tags/util/mod.rs when the objects and the
    creators of the user share state: the code of WorldRead.v beside a ByteArrayReader
    on the stack of from_bytes. *)
From Verif Require Import Base Types IO ILInt Data Tags Factory Open Prog Any AnyScan AnyProg World WorldRead.

(** The code of the user beside a value it has no access to
    ([let mut reader = ...], src/tags/mod.rs:490, is a local variable). *)
Definition aside {W S A} (f : W -> A * W) (u : W * S) : A * (W * S) :=
  let '(a, w) := f (fst u) in (a, (w, snd u)).
Definition aside_reader {W S} (M : reader_impl W) : reader_impl (W * S) := {|
  u_read := aside (u_read M);
  u_read_all := fun buff => aside (u_read_all M buff) |}.
(** ILTag::deserialize_value, src/tags/mod.rs:250-255. *)
Fixpoint aside_prog {I W S A} (p : wprog I W A) : wprog I (W * S) A :=
  match p with
  | WDone a => WDone a
  | WAbort => WAbort
  | WAct f k => WAct (aside f) (fun b => aside_prog (k b))
  | WRead k => WRead (fun x => aside_prog (k x))
  | WReadAll old k => WReadAll old (fun x b => aside_prog (k x b))
  | WSkip n k => WSkip n (fun x => aside_prog (k x))
  | WSkip64 n k => WSkip64 n (fun x => aside_prog (k x))
  | WTag k => WTag (fun x => aside_prog (k x))
  | WInto t k => WInto t (fun x t' => aside_prog (k x t'))
  | WLimited n body k => WLimited n (aside_prog body) (fun b m => aside_prog (k b m))
  | WOther M k => WOther (aside_reader M) (fun x => aside_prog (k x))
  | WOtherInto M t k => WOtherInto (aside_reader M) t (fun x t' => aside_prog (k x t'))
  end.
(** ILTag::id (src/tags/mod.rs:182), deserialize_value (250-255) and the creators
    (585-658). *)
Definition aside_code {T W S} (Z : reading_impl T W) : reading_impl T (W * S) := {|
  z_id := fun x => aside (z_id Z x);
  z_value := fun n x => aside_prog (z_value Z n x);
  z_create := fun id => option_map aside (z_create Z id) |}.
(** The methods of the local ByteArrayReader, src/io/array/mod.rs:140-159: they leave
    the state of the user alone. *)
Definition carried {W} : reader_impl (W * reader) := {|
  u_read := fun u => let '(x, r) := read (snd u) in (x, (fst u, r));
  u_read_all := fun buff u =>
    let '(x, got, r) := read_all (lenN buff) (snd u) in (x, got ++ dropN (lenN got) buff, (fst u, r)) |}.

Section WorldUtil.
Context {T W : Type} (c : cfg).
(** The provided ILTagFactory::from_bytes, src/tags/mod.rs:489-497, of a standard
    factory with the engine [e].  The last case is no program: [deserialize] cannot put
    another reader in the place of the one it borrowed. *)
Definition w_from_bytes (Z : reading_impl T W) (e : engine) (fuel : nat) (raw_tag : list N) (u : W) : res tag_error (otag T) * W :=
  let '(x, r) := w_deserialize c (aside_code Z) e fuel carried (ABase (u, ByteArrayReader_new raw_tag)) in
  (match x, snd (a_state r) with
   | Ok t, RByteArray a o =>
       match mem_available (lenN a) o with
       | Ok n => if n =? 0 then Ok t else Err CorruptedData
       | Err err => Err (TagIO err)
       | Panic => Panic
       | OutOfFuel => OutOfFuel
       end
   | Ok _, _ => Panic
   | _, _ => x
   end, fst (a_state r)).
(** iltag_clone_with_factory, src/tags/util/mod.rs:86-92, with a standard factory. *)
Definition w_clone_with_factory (G : world_impl T W) (Z : reading_impl T W) (e : engine) (fuel : nat) (t : otag T) : W -> res tag_error (otag T) * W :=
  s <- w_to_bytes G c t ;; w_from_bytes Z e fuel s.
(** ILStandardTagFactory::new, src/tags/standard/factory/mod.rs:137-141: no creator of
    the user is registered. *)
Definition no_creators (Z : reading_impl T W) : reading_impl T W := {|
  z_id := z_id Z;
  z_value := z_value Z;
  z_create := fun _ => None |}.
(** iltag_clone, src/tags/util/mod.rs:109-112. *)
Definition w_clone (G : world_impl T W) (Z : reading_impl T W) (fuel : nat) : otag T -> W -> res tag_error (otag T) * W :=
  w_clone_with_factory G (no_creators Z) (create_std_engine false) fuel.
End WorldUtil.

(** User objects and writers that share state: the methods of a user type may
    change anything behind a shared reference (a counter, a cache, a lock), so
    what one call answers may depend on every call made before it.  The writing
    side of the library over such code, in the arithmetic of the machine. *)
From Verif Require Import Base Types IO ILInt Data Tags Scanner Ctors Machine Open AnyWriter.

(** The code of the user over the states [W] of everything it can reach: ILTag::size
    (src/tags/mod.rs:198-204, [None]: it panics), ILTag::serialize (230-236) to the
    writer named by a number, and ILTag::to_bytes (266-270) of the objects of type
    [T], and the methods of every writer (src/io/mod.rs:162-192).  [g_vec] and
    [g_into] are VecWriter::with_capacity (src/io/array/mod.rs:372-378) and its
    conversion into a vector (395-399), as calls that make a new writer with a name of
    its own and take its bytes. *)
Record world_impl (T W : Type) := WorldImpl {
  g_size : T -> W -> option N * W;
  g_serialize : N -> T -> W -> res tag_error unit * W;
  g_to_bytes : T -> W -> res tag_error (list N) * W;
  g_writer : N -> writer_impl W;
  g_vec : W -> N * W;
  g_into : N -> W -> list N * W }.
Arguments g_size {T W} w x u.
Arguments g_serialize {T W} w n x u.
Arguments g_to_bytes {T W} w x u.
Arguments g_writer {T W} w n.
Arguments g_vec {T W} w u.
Arguments g_into {T W} w n u.

Section World.
Context {T W : Type} (G : world_impl T W) (c : cfg).

(** A computation without calls, e.g. an addition in u64 (src/tags/mod.rs:201). *)
Definition pure {A} (x : res tag_error A) : W -> res tag_error A * W := fun u => (x, u).
(** ILTag::size of a user object, src/tags/mod.rs:198-204. *)
Definition w_ask (x : T) : W -> res tag_error N * W := fun u =>
  match g_size G x u with
  | (Some n, u') => (Ok n, u')
  | (None, u') => (Panic, u')
  end.
(** [for v in l { size += v.size(); }], explicit/mod.rs:590-596, and
    [.map(f).sum::<u64>()], 1082-1085. *)
Definition w_sum {A} (f : A -> W -> res tag_error N * W) : list A -> N -> W -> res tag_error N * W :=
  fix go l acc :=
    match l with
    | [] => ret acc
    | x :: rest => s <- f x ;; a <- pure (add_u64 c acc s) ;; go rest a
    end.
(** The provided ILTag::size, src/tags/mod.rs:198-204: [value_size] is asked for
    twice unless the tag is implicit. *)
Definition w_size_with (id : N) (vs : W -> res tag_error N * W) : W -> res tag_error N * W :=
  size <- (if is_implicit_tag id then ret (encoded_size id)
           else n <- vs ;; pure (add_u64 c (encoded_size id) (encoded_size n))) ;;
  n <- vs ;; pure (add_u64 c size n).
(** The size of the entries of a dictionary, explicit/mod.rs:1084. *)
Definition w_entry (size : otag T -> W -> res tag_error N * W) (e : list N * otag T) : W -> res tag_error N * W :=
  k <- pure (string_tag_size_u c (fst e)) ;; s <- size (snd e) ;; pure (add_u64 c k s).
(** ILTag::size of an object: its own for a user type, else the provided one on
    ILTag::value_size: ILTagSeqTag, explicit/mod.rs:590-596; ILTagArrayTag 666-669;
    ILDictTag 1079-1086. *)
Fixpoint w_size (t : otag T) : W -> res tag_error N * W :=
  match t with
  | OStd id v => pure (size_u c (Tag id v))
  | OUser x => w_ask x
  | OSeq id l => w_size_with id (w_sum w_size l 0)
  | OArr id l => w_size_with id (s <- w_sum w_size l 0 ;; pure (add_u64 c (encoded_size (lenN l)) s))
  | ODict id l => w_size_with id (s <- w_sum (w_entry w_size) l 0 ;; pure (add_u64 c (encoded_size (lenN l)) s))
  end.
(** The value sizes of the containers, as above. *)
Definition w_items (l : list (otag T)) : W -> res tag_error N * W := w_sum w_size l 0.
Definition w_counted (count : N) (s : W -> res tag_error N * W) : W -> res tag_error N * W :=
  n <- s ;; pure (add_u64 c (encoded_size count) n).
Definition w_entries (l : list (list N * otag T)) : W -> res tag_error N * W := w_sum (w_entry w_size) l 0.

(** The provided ILTag::serialize, src/tags/mod.rs:230-236, to the writer [w]: the
    value size is asked for when the id has been written. *)
Definition w_with (w id : N) (vs : W -> res tag_error N * W) (sv : W -> res tag_error unit * W)
  : W -> res tag_error unit * W :=
  a_serialize_ilint (g_writer G w) id ;;;
  (if is_implicit_tag id then ret tt else n <- vs ;; a_serialize_ilint (g_writer G w) n) ;;;
  sv.
(** ILTag::serialize of an object: its own for a user type, else the provided one
    on ILTag::serialize_value: ILTagSeqTag, explicit/mod.rs:598-603; ILTagArrayTag
    671-674; ILDictTag 1088-1104.  Simplification: a tag of the library that holds
    no objects calls no code of the user but the writer, and its value size is
    computed exactly (C64). *)
Fixpoint w_serialize (w : N) (t : otag T) : W -> res tag_error unit * W :=
  match t with
  | OStd id v => a_serialize (g_writer G w) (Tag id v)
  | OUser x => g_serialize G w x
  | OSeq id l => w_with w id (w_items l) (for_each l (w_serialize w))
  | OArr id l =>
      w_with w id (w_counted (lenN l) (w_items l))
        (a_serialize_ilint (g_writer G w) (lenN l) ;;; for_each l (w_serialize w))
  | ODict id l =>
      let values := map (fun e => (fst e, w_serialize w (snd e))) l in
      let keys := sort_unstable (map fst l) in
      w_with w id (w_counted (lenN l) (w_entries l))
        (a_serialize_ilint (g_writer G w) (lenN l) ;;;
         for_each keys (fun key =>
           match hm_get key values with
           | Some value => a_serialize_string_tag (g_writer G w) key ;;; value
           | None => fail UnableToSerialize
           end))
  end.
(** ILTag::to_bytes, src/tags/mod.rs:266-270. *)
Definition w_to_bytes (t : otag T) : W -> res tag_error (list N) * W :=
  match t with
  | OUser x => g_to_bytes G x
  | _ =>
      n <- w_size t ;;
      pure (Vec_with_capacity c (as_usize c n)) ;;;
      w <- (fun u => let '(w, u') := g_vec G u in (Ok w, u')) ;;
      w_serialize w t ;;;
      (fun u => let '(bs, u') := g_into G w u in (Ok bs, u'))
  end.
(** iltag_are_equal, src/tags/util/mod.rs:57-67. *)
Definition w_are_equal (a b : otag T) : W -> res tag_error bool * W := fun u =>
  match w_to_bytes a u with
  | (Ok x, u1) =>
      match w_to_bytes b u1 with
      | (Ok y, u2) => (Ok (if list_eq_dec N.eq_dec x y then true else false), u2)
      | (Err _, u2) => (Ok false, u2)
      | (Panic, u2) => (Panic, u2)
      | (OutOfFuel, u2) => (OutOfFuel, u2)
      end
  | (Err _, u1) => (Ok false, u1)
  | (Panic, u1) => (Panic, u1)
  | (OutOfFuel, u1) => (OutOfFuel, u1)
  end.
End World.

(** Downcasts of any objects, src/tags/mod.rs:273-419: [as_any] and [as_mut_any] of a
    user type are code of the user, which may answer with another object, change
    anything behind a shared reference, or panic. *)
From Verif Require Import Base Types Tags.

(** The types that implement ILTag, as [std::any::TypeId] tells them apart: those of
    the library, ILGenericPayloadTag (src/tags/payload/mod.rs:147-150) with each payload
    type, those of the user; and the other types. *)
Inductive ty := TLib (k : kind) | TPayload (name : N) | TUser (name : N) | TOther (name : N).
(** [TypeId::eq]. *)
Definition ty_eqb (a b : ty) : bool :=
  match a, b with
  | TLib k, TLib k' => kind_eqb k k'
  | TPayload n, TPayload n' | TUser n, TUser n' | TOther n, TOther n' => n =? n'
  | _, _ => false
  end.
(** A reference to a trait object ([&dyn ILTag], [&dyn Any] and the mutable ones): the
    place of the object and its type. *)
Record dyn := Dyn { d_at : N; d_ty : ty }.

(** ILTag::id (src/tags/mod.rs:182), as_any (258) and as_mut_any (261) of the user
    types over the states [W] of everything they can reach, [None]: the call panics;
    and the field [id] of the types of the library at each place. *)
Record object_impl (W : Type) := ObjectImpl {
  q_id : dyn -> W -> option N * W;
  q_any : dyn -> W -> option dyn * W;
  q_mut : dyn -> W -> option dyn * W;
  q_field : N -> W -> N }.
Arguments q_id {W} o d u.
Arguments q_any {W} o d u.
Arguments q_mut {W} o d u.
Arguments q_field {W} o n u.

Section AsAny.
Context {W : Type} (Q : object_impl W).

Definition answer {A} (y : option A * W) : res tag_error A * W :=
  match y with (Some a, u) => (Ok a, u) | (None, u) => (Panic, u) end.
(** ILTag::id: iltag_base_func_impl!, src/tags/macros.rs:91-99; the inner one,
    156-164; ILGenericPayloadTag, src/tags/payload/mod.rs:170-172. *)
Definition obj_id (d : dyn) : W -> res tag_error N * W := fun u =>
  match d_ty d with
  | TLib _ | TPayload _ => (Ok (q_field Q (d_at d) u), u)
  | TUser _ | TOther _ => answer (q_id Q d u)
  end.
(** ILTag::as_any and as_mut_any: iltag_as_any_impl!, src/tags/macros.rs:56-66;
    src/tags/payload/mod.rs:191-197. *)
Definition obj_any (d : dyn) : W -> res tag_error dyn * W := fun u =>
  match d_ty d with
  | TLib _ | TPayload _ => (Ok d, u)
  | TUser _ | TOther _ => answer (q_any Q d u)
  end.
Definition obj_mut (d : dyn) : W -> res tag_error dyn * W := fun u =>
  match d_ty d with
  | TLib _ | TPayload _ => (Ok d, u)
  | TUser _ | TOther _ => answer (q_mut Q d u)
  end.
(** [Any::downcast_ref] and [Any::downcast_mut] of std: the same place if the type is
    the one asked for. *)
Definition downcast (k : ty) (a : dyn) : option N := if ty_eqb (d_ty a) k then Some (d_at a) else None.

(** tag_downcast_ref, src/tags/mod.rs:282-284; tag_downcast_mut, 295-297.  A [&T] is
    a place. *)
Definition q_downcast_ref (k : ty) (d : dyn) : W -> res tag_error (option N) * W :=
  a <- obj_any d ;; ret (downcast k a).
Definition q_downcast_mut (k : ty) (d : dyn) : W -> res tag_error (option N) * W :=
  a <- obj_mut d ;; ret (downcast k a).
(** tag_downcast_ref_with_id, src/tags/mod.rs:310-316; tag_downcast_mut_with_id,
    329-335. *)
Definition q_downcast_ref_with_id (k : ty) (id : N) (d : dyn) : W -> res tag_error (option N) * W :=
  i <- obj_id d ;;
  if i =? id then a <- obj_any d ;; ret (downcast k a) else ret None.
Definition q_downcast_mut_with_id (k : ty) (id : N) (d : dyn) : W -> res tag_error (option N) * W :=
  i <- obj_id d ;;
  if i =? id then a <- obj_mut d ;; ret (downcast k a) else ret None.
(** tag_id_downcast_ref, src/tags/mod.rs:348-357; tag_id_downcast_mut, 370-379. *)
Definition q_id_downcast_ref (k : ty) (id : N) (d : dyn) : W -> res tag_error N * W :=
  i <- obj_id d ;;
  if negb (i =? id) then fail UnexpectedTagType
  else x <- q_downcast_ref k d ;;
       match x with Some v => ret v | None => fail UnexpectedTagType end.
Definition q_id_downcast_mut (k : ty) (id : N) (d : dyn) : W -> res tag_error N * W :=
  i <- obj_id d ;;
  if negb (i =? id) then fail UnexpectedTagType
  else x <- q_downcast_mut k d ;;
       match x with Some v => ret v | None => fail UnexpectedTagType end.
(** assert_tag_id_and_type_or_error, src/tags/mod.rs:393-403; assert_tag_id_and_type,
    417-419. *)
Definition q_assert_or_error (k : ty) (id : N) (d : dyn) (e : tag_error) : W -> res tag_error unit * W :=
  i <- obj_id d ;;
  if i =? id then a <- obj_any d ;; (if ty_eqb (d_ty a) k then ret tt else fail e)
  else fail e.
Definition q_assert (k : ty) (id : N) (d : dyn) : W -> res tag_error unit * W :=
  q_assert_or_error k id d UnexpectedTagType.
End AsAny.

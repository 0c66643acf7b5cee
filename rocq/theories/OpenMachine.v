(** The methods of Open.v once more, with the u64 arithmetic of the machine
    (Machine.v): user tags can say any 64-bit size, so sums of them can
    overflow. *)
From Verif Require Import Base Types IO ILInt Data Tags Factory Scanner Ctors Machine Payload Open.

Section OpenMachine.
Context {T : Type} (U : user_impl T) (c : cfg).
(** The provided ILTag::size, src/tags/mod.rs:198-204, over a value_size that can
    panic: it is called once or twice. *)
Definition size_with_u (id : N) (vs : res tag_error N) : res tag_error N :=
  and_then (if is_implicit_tag id then Ok (encoded_size id)
            else and_then vs (fun n => add_u64 c (encoded_size id) (encoded_size n)))
           (fun size => and_then vs (fun n => add_u64 c size n)).
(** ILTag::size of an object; the lines are listed at [o_size] in Open.v. *)
Fixpoint o_size_u (t : otag T) : res tag_error N :=
  match t with
  | OStd id v => size_u c (Tag id v)
  | OUser x => Ok (u_size U x)
  | OSeq id l => size_with_u id (sum_u c o_size_u l 0)
  | OArr id l =>
      size_with_u id (and_then (sum_u c o_size_u l 0) (fun s => add_u64 c (encoded_size (lenN l)) s))
  | ODict id l =>
      size_with_u id
        (and_then (sum_u c (fun e => and_then (string_tag_size_u c (fst e)) (fun k =>
                                     and_then (o_size_u (snd e)) (fun x => add_u64 c k x))) l 0)
                  (fun s => add_u64 c (encoded_size (lenN l)) s))
  end.
(** ILTag::value_size of the containers: ILTagSeqTag, explicit/mod.rs:590-596;
    ILTagArrayTag 666-669; ILDictTag 1079-1086. *)
Definition items_size_u (l : list (otag T)) : res tag_error N := sum_u c o_size_u l 0.
Definition counted_size_u (count : N) (s : res tag_error N) : res tag_error N :=
  and_then s (fun s => add_u64 c (encoded_size count) s).
Definition entries_size_u (l : list (list N * otag T)) : res tag_error N :=
  sum_u c (fun e => and_then (string_tag_size_u c (fst e)) (fun k =>
                    and_then (o_size_u (snd e)) (fun x => add_u64 c k x))) l 0.
(** The provided ILTag::serialize, src/tags/mod.rs:230-236. *)
Definition serialize_with_u (id : N) (vs : res tag_error N) (sv : writer -> res tag_error unit * writer)
  : writer -> res tag_error unit * writer :=
  serialize_ilint id ;;;
  (if is_implicit_tag id then ret tt else n <- (fun w => (vs, w)) ;; serialize_ilint n) ;;;
  sv.
(** ILTag::serialize of an object; the lines are listed at [o_serialize] in
    Open.v. *)
Fixpoint o_serialize_u (t : otag T) : writer -> res tag_error unit * writer :=
  match t with
  | OStd id v => serialize_u c (Tag id v)
  | OUser x => u_serialize U x
  | OSeq id l => serialize_with_u id (items_size_u l) (for_each l o_serialize_u)
  | OArr id l =>
      serialize_with_u id (counted_size_u (lenN l) (items_size_u l))
        (serialize_ilint (lenN l) ;;; for_each l o_serialize_u)
  | ODict id l =>
      let values := map (fun e => (fst e, o_serialize_u (snd e))) l in
      let keys := sort_unstable (map fst l) in
      serialize_with_u id (counted_size_u (lenN l) (entries_size_u l))
        (serialize_ilint (lenN l) ;;;
         for_each keys (fun key =>
           match hm_get key values with
           | Some value => serialize_string_tag_from_value key ;;; value
           | None => fail UnableToSerialize
           end))
  end.
(** ILTag::to_bytes, src/tags/mod.rs:266-270: a vector with room for [size() as
    usize] bytes (VecWriter::with_capacity, src/io/array/mod.rs:372-378) is made
    first. *)
Definition o_to_bytes_u (t : otag T) : res tag_error (list N) :=
  match t with
  | OUser x => u_to_bytes U x
  | _ =>
      and_then (o_size_u t) (fun n =>
      and_then (Vec_with_capacity c (as_usize c n)) (fun _ => to_bytes_over (o_serialize_u t)))
  end.
End OpenMachine.

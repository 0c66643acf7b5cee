(** Model of src/ilint/mod.rs. *)
From Verif Require Import Base Types IO.

(** ILINT_BASE, src/ilint/mod.rs:60-63. *)
Definition ILINT_BASE : N := 248.

(** encoded_size, src/ilint/mod.rs:72-84. *)
Definition encoded_size (value : N) : N :=
  if value <? ILINT_BASE then 1
  else if value <=? 255 + ILINT_BASE then 2
  else if value <=? 65535 + ILINT_BASE then 3
  else if value <=? 16777215 + ILINT_BASE then 4
  else if value <=? 4294967295 + ILINT_BASE then 5
  else if value <=? 1099511627775 + ILINT_BASE then 6
  else if value <=? 281474976710655 + ILINT_BASE then 7
  else if value <=? 72057594037927935 + ILINT_BASE then 8
  else 9.

(** The loop of encode, src/ilint/mod.rs:106-109, storing [n] bytes from the
    end of the array towards its start.  The array is represented by the part
    already filled. *)
Fixpoint encode_tail (n : nat) (v : N) (filled : list N) : list N :=
  match n with
  | O => filled
  | S n' => encode_tail n' (N.shiftr v 8) (N.land v 255 :: filled)
  end.

(** encode, src/ilint/mod.rs:95-116. *)
Definition encode (value : N) : writer -> res ilint_error unit * writer :=
  let size := encoded_size value in
  if size =? 1 then lift_err ILIntIO (write (N.land value 255))
  else lift_err ILIntIO
         (write_all ((ILINT_BASE + (size - 2))
                     :: encode_tail (N.to_nat (size - 1)) (value - ILINT_BASE) [])).

(** decoded_size, src/ilint/mod.rs:127-133.  [header] is a byte, so the
    additions stay below 256. *)
Definition decoded_size (header : N) : N :=
  if header <? ILINT_BASE then 1 else header - ILINT_BASE + 2.

(** decode_body, src/ilint/mod.rs:145-160.  [<<] on [u64] drops high bits. *)
Definition decode_body (body : list N) : res ilint_error N :=
  if (lenN body =? 0) || (8 <? lenN body) then Err InvalidFormat
  else
    let v := fold_left (fun v x => N.land (N.shiftl v 8) u64_max + x) body 0 in
    if 18446744073709551367 <? v then Err ValueOverflow
    else Ok (v + ILINT_BASE).

(** decode_from_bytes, src/ilint/mod.rs:170-186. *)
Definition decode_from_bytes (value : list N) : res ilint_error (N * N) :=
  match value with
  | [] => Err InvalidFormat
  | header :: _ =>
      let size := decoded_size header in
      if size =? 1 then Ok (header, size)
      else if lenN value <? size then Err InvalidFormat
      else match slice value 1 size with
           | Ok body => map_ok (fun v => (v, size)) (decode_body body)
           | Err e => Err e
           | Panic => Panic
           | OutOfFuel => OutOfFuel
           end
  end.

(** [reader.read_all(&mut buff)] for a buffer whose contents are then used
    only on success: the result carries the buffer. *)
Definition fetch (n : N) (r : reader) : res io_error (list N) * reader :=
  let '(x, got, r') := read_all n r in (map_ok (fun _ => got) x, r').

(** decode, src/ilint/mod.rs:197-213. *)
Definition decode : reader -> res ilint_error N * reader :=
  header <- lift_err ILIntIO read ;;
  let size := decoded_size header in
  if size =? 1 then ret header
  else body <- lift_err ILIntIO (fetch (size - 1)) ;;
       (fun r => (decode_body body, r)).

(** [v as u64] for an [i64] and [v as i64] for a [u64]. *)
Definition as_u64 (z : Z) : N := Z.to_N (z mod 18446744073709551616).
Definition as_i64 (n : N) : Z :=
  if n <? 9223372036854775808 then Z.of_N n else (Z.of_N n - 18446744073709551616)%Z.

(** encode_sign, src/ilint/mod.rs:232-240. *)
Definition encode_sign (v : Z) : N :=
  let tmp := as_u64 v in
  if N.land tmp 9223372036854775808 =? 0
  then N.land (N.shiftl tmp 1) u64_max
  else N.lxor (N.land (N.shiftl tmp 1) u64_max) u64_max.

(** decode_sign, src/ilint/mod.rs:252-258. *)
Definition decode_sign (v : N) : Z :=
  if N.land v 1 =? 0 then as_i64 (N.shiftr v 1)
  else as_i64 (N.lxor (N.shiftr v 1) u64_max).

(** signed_encoded_size, src/ilint/mod.rs:269-271; signed_encode, 284-286;
    signed_decode, 299-302. *)
Definition signed_encoded_size (value : Z) : N := encoded_size (encode_sign value).
Definition signed_encode (value : Z) : writer -> res ilint_error unit * writer :=
  encode (encode_sign value).
Definition signed_decode : reader -> res ilint_error Z * reader :=
  tmp <- decode ;; ret (decode_sign tmp).

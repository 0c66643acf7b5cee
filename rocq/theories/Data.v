(** Model of src/io/data/mod.rs and src/tags/serialization/mod.rs.

    The extension traits only call the functions modelled here and have no
    definition of their own: src/io/data/mod.rs:426-658 (ValueReader, ILIntReader,
    SignedILIntReader, StringValueReader, ValueWriter, ILIntWriter,
    SignedILIntWriter), src/tags/serialization/mod.rs:143-178
    (StringDeserializer), 373-375 (serialize_byte_vec) and the functions with the
    names of the trait methods, 416-418, 428-430, 441-443, 454-456, 468-474. *)
From Verif Require Import Base Types IO ILInt.

(** ** std conversions *)
(** [uN::to_be_bytes] and [uN::from_be_bytes], by shifts. *)
Definition byte_at (v i : N) : N := N.land (N.shiftr v (8 * i)) 255.
Definition to_be_bytes (w : width) (v : N) : list N :=
  map (byte_at v)
      (match w with
       | W8 => [0]
       | W16 => [1; 0]
       | W32 => [3; 2; 1; 0]
       | W64 => [7; 6; 5; 4; 3; 2; 1; 0]
       end).
Definition from_be_bytes (bs : list N) : N :=
  fold_left (fun v x => N.lor (N.shiftl v 8) x) bs 0.
(** Number of bits. *)
Definition wbits (w : width) : N :=
  match w with W8 => 8 | W16 => 16 | W32 => 32 | W64 => 64 end.
(** [z as uN] (two's complement bits) and [n as iN]. *)
Definition cast_unsigned (w : width) (z : Z) : N := Z.to_N (Z.land z (Z.ones (Z.of_N (wbits w)))).
Definition cast_signed (w : width) (n : N) : Z :=
  if N.testbit n (wbits w - 1) then (Z.of_N n - Z.shiftl 1 (Z.of_N (wbits w)))%Z else Z.of_N n.

(** [str::from_utf8] / [String::from_utf8]: std's validation by first byte. *)
Definition cont (b : N) : bool := (128 <=? b) && (b <=? 191).
Definition between (lo b hi : N) : bool := (lo <=? b) && (b <=? hi).
Fixpoint from_utf8 (bs : list N) : bool :=
  match bs with
  | [] => true
  | b0 :: r0 =>
      if b0 <? 128 then from_utf8 r0
      else match r0 with
           | [] => false
           | b1 :: r1 =>
               if between 194 b0 223 then cont b1 && from_utf8 r1
               else match r1 with
                    | [] => false
                    | b2 :: r2 =>
                        if between 224 b0 239 then
                          ((b0 =? 224) && between 160 b1 191
                           || between 225 b0 236 && cont b1
                           || (b0 =? 237) && between 128 b1 159
                           || between 238 b0 239 && cont b1)
                          && cont b2 && from_utf8 r2
                        else match r2 with
                             | [] => false
                             | b3 :: r3 =>
                                 ((b0 =? 240) && between 144 b1 191
                                  || between 241 b0 243 && cont b1
                                  || (b0 =? 244) && between 128 b1 143)
                                 && cont b2 && cont b3 && from_utf8 r3
                             end
                    end
           end
  end.

(** ** Readers of values, src/io/data/mod.rs *)
(** read_u8 (54-56) uses [read]; read_u16 (81-85), read_u32 (109-113) and
    read_u64 (137-141) use [read_all] on a local array. *)
Definition read_uint (w : width) : reader -> res io_error N * reader :=
  match w with
  | W8 => read
  | _ => tmp <- fetch (N.of_nat (wbytes w)) ;; ret (from_be_bytes tmp)
  end.
(** read_i8 (66-71), read_i16 (95-99), read_i32 (123-127), read_i64 (151-155). *)
Definition read_sint (w : width) : reader -> res io_error Z * reader :=
  match w with
  | W8 => v <- read ;; ret (cast_signed W8 v)
  | _ => tmp <- fetch (N.of_nat (wbytes w)) ;; ret (cast_signed w (from_be_bytes tmp))
  end.
(** read_ilint (165-171) and read_signed_ilint (183-189). *)
Definition ilint_read_error (e : ilint_error) : io_error :=
  match e with ILIntIO e => e | _ => IoCorruptedData end.
Definition read_ilint : reader -> res io_error N * reader := lift_err ilint_read_error decode.
Definition read_signed_ilint : reader -> res io_error Z * reader :=
  lift_err ilint_read_error signed_decode.
(** read_f32 (201-204), read_f64 (216-219); the value is its bit pattern. *)
Definition read_f32 : reader -> res io_error N * reader := tmp <- read_uint W32 ;; ret tmp.
Definition read_f64 : reader -> res io_error N * reader := tmp <- read_uint W64 ;; ret tmp.
(** read_string (230-237). *)
Definition read_string (size : N) : reader -> res io_error (list N) * reader :=
  tmp <- fetch size ;;
  if from_utf8 tmp then ret tmp else fail IoCorruptedData.

(** ** Writers of values, src/io/data/mod.rs *)
(** write_u8 (248-250) uses [write]; write_u16 (274-276), write_u32 (300-302),
    write_u64 (326-328) use [write_all]. *)
Definition write_uint (w : width) (v : N) : writer -> res io_error unit * writer :=
  match w with
  | W8 => write v
  | _ => write_all (to_be_bytes w v)
  end.
(** write_i8 (261-263), write_i16 (287-289), write_i32 (313-315),
    write_i64 (339-341). *)
Definition write_sint (w : width) (v : Z) : writer -> res io_error unit * writer :=
  match w with
  | W8 => write (cast_unsigned W8 v)
  | _ => write_all (to_be_bytes w (cast_unsigned w v))
  end.
(** write_ilint (352-358), write_signed_ilint (371-377). *)
Definition ilint_write_error (e : ilint_error) : io_error :=
  match e with ILIntIO e => e | _ => UnableToWriteData end.
Definition write_ilint (v : N) : writer -> res io_error unit * writer :=
  lift_err ilint_write_error (encode v).
Definition write_signed_ilint (v : Z) : writer -> res io_error unit * writer :=
  lift_err ilint_write_error (signed_encode v).
(** write_f32 (389-391), write_f64 (403-405) write the bytes of the bit
    pattern; write_string (416-418). *)
Definition write_f32 (bits : N) : writer -> res io_error unit * writer := write_all (to_be_bytes W32 bits).
Definition write_f64 (bits : N) : writer -> res io_error unit * writer := write_all (to_be_bytes W64 bits).
Definition write_string (s : list N) : writer -> res io_error unit * writer := write_all s.

(** ** Wrappers of src/tags/serialization/mod.rs, which only convert the error
    (From<io::ErrorKind>, src/tags/mod.rs:107-112): deserialize_value (55-96),
    deserialize_ilint (110-135), the signed version (488-513),
    deserialize_string (152-177), and the serializers (266-350, 533-555). *)
Definition deserialize_uint (w : width) : reader -> res tag_error N * reader := lift_err TagIO (read_uint w).
Definition deserialize_sint (w : width) : reader -> res tag_error Z * reader := lift_err TagIO (read_sint w).
Definition deserialize_ilint : reader -> res tag_error N * reader := lift_err TagIO read_ilint.
Definition deserialize_signed_ilint : reader -> res tag_error Z * reader := lift_err TagIO read_signed_ilint.
Definition deserialize_f32 : reader -> res tag_error N * reader := lift_err TagIO read_f32.
Definition deserialize_f64 : reader -> res tag_error N * reader := lift_err TagIO read_f64.
Definition deserialize_string (size : N) : reader -> res tag_error (list N) * reader := lift_err TagIO (read_string size).
(** deserialize_bytes (223-227, 238-242). *)
Definition deserialize_bytes (size : N) : reader -> res tag_error (list N) * reader := lift_err TagIO (fetch size).
(** deserialize_bytes_into_slice (229-233, 244-248) on a buffer: its contents
    afterwards, also when the call fails. *)
Definition into_slice (buff : list N) (r : reader) : res tag_error unit * list N * reader :=
  let '(x, got, r') := read_all (lenN buff) r in
  (map_err TagIO x, got ++ dropN (lenN got) buff, r').
(** deserialize_bytes_into_vec (205-208). *)
Definition into_vec (size : N) (vec : list N) (r : reader) : res tag_error unit * list N * reader :=
  into_slice (resizeN size 0 vec) r.

Definition serialize_uint (w : width) (v : N) : writer -> res tag_error unit * writer := lift_err TagIO (write_uint w v).
Definition serialize_sint (w : width) (v : Z) : writer -> res tag_error unit * writer := lift_err TagIO (write_sint w v).
Definition serialize_ilint (v : N) : writer -> res tag_error unit * writer := lift_err TagIO (write_ilint v).
Definition serialize_signed_ilint (v : Z) : writer -> res tag_error unit * writer := lift_err TagIO (write_signed_ilint v).
Definition serialize_f32 (bits : N) : writer -> res tag_error unit * writer := lift_err TagIO (write_f32 bits).
Definition serialize_f64 (bits : N) : writer -> res tag_error unit * writer := lift_err TagIO (write_f64 bits).
(** serialize_bytes (388-402); ValueSerializer<&str> (308, via write_string). *)
Definition serialize_bytes (bs : list N) : writer -> res tag_error unit * writer := lift_err TagIO (write_all bs).
Definition serialize_str (s : list N) : writer -> res tag_error unit * writer := lift_err TagIO (write_string s).

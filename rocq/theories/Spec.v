(** Independent specification, written from the ILInt and ILTags formats and
    from the Unicode definition of UTF-8, not from the code.  Property
    theorems are stated against this file. *)
From Verif Require Import Base Types.

(** ** Big-endian numbers *)
Definition be_value (bs : list N) : N := fold_left (fun a b => a * 256 + b) bs 0.
Fixpoint be_bytes (w : nat) (n : N) : list N :=
  match w with
  | O => []
  | S w' => be_bytes w' (n / 256) ++ [n mod 256]
  end.

(** Two's complement of width [w]. *)
Definition of_signed (w : width) (z : Z) : N := Z.to_N (z mod Z.of_N (wmod w)).
Definition to_signed (w : width) (n : N) : Z :=
  if n <? wmod w / 2 then Z.of_N n else (Z.of_N n - Z.of_N (wmod w))%Z.
Definition signed_range (w : width) (z : Z) : Prop :=
  (- Z.of_N (wmod w / 2) <= z < Z.of_N (wmod w / 2))%Z.

(** ** ILInt *)
(** The encoding of a value: one byte below 248, otherwise a header telling
    how many bytes [value - 248] needs and that number in big-endian. *)
Definition ilint (v : N) : list N :=
  if v <? 248 then [v]
  else let k := N.log2 (v - 248) / 8 + 1 in
       (247 + k) :: be_bytes (N.to_nat k) (v - 248).

(** The byte strings that denote a value, including those with more body bytes
    than needed. *)
Inductive ilint_repr : N -> list N -> Prop :=
| repr_short v : v < 248 -> ilint_repr v [v]
| repr_long body :
    1 <= lenN body <= 8 -> be_value body + 248 < two64 ->
    ilint_repr (be_value body + 248) ((247 + lenN body) :: body).

(** Sign folding: 0, -1, 1, -2, 2, ... become 0, 1, 2, 3, 4, ... *)
Definition zigzag (z : Z) : N := if (0 <=? z)%Z then Z.to_N (2 * z) else Z.to_N (- 2 * z - 1).
Definition i64_range (z : Z) : Prop := (- 9223372036854775808 <= z <= 9223372036854775807)%Z.

(** ** UTF-8 *)
Definition scalar (c : N) : Prop := c < 55296 \/ (57344 <= c /\ c < 1114112).
Definition utf8_char (c : N) : list N :=
  if c <? 128 then [c]
  else if c <? 2048 then [192 + c / 64; 128 + c mod 64]
  else if c <? 65536 then [224 + c / 4096; 128 + (c / 64) mod 64; 128 + c mod 64]
  else [240 + c / 262144; 128 + (c / 4096) mod 64; 128 + (c / 64) mod 64; 128 + c mod 64].
Definition utf8_encode (cs : list N) : list N := flat_map utf8_char cs.
Definition utf8 (bs : list N) : Prop := exists cs, Forall scalar cs /\ bs = utf8_encode cs.

(** ** Lexicographic order on byte strings *)
Fixpoint lex_ltb (a b : list N) : bool :=
  match a, b with
  | [], [] => false
  | [], _ :: _ => true
  | _ :: _, [] => false
  | x :: a', y :: b' => (x <? y) || ((x =? y) && lex_ltb a' b')
  end.
Definition lex_lt (a b : list N) : Prop := lex_ltb a b = true.

Fixpoint bytes_eqb (a b : list N) : bool :=
  match a, b with
  | [], [] => true
  | x :: a', y :: b' => (x =? y) && bytes_eqb a' b'
  | _, _ => false
  end.

(** Entries of a dictionary in increasing key order (insertion sort). *)
Fixpoint insert_entry {A} (e : list N * A) (l : list (list N * A)) : list (list N * A) :=
  match l with
  | [] => [e]
  | e' :: l' => if lex_ltb (fst e') (fst e) then e' :: insert_entry e l' else e :: l
  end.
Definition sort_entries {A} (l : list (list N * A)) : list (list N * A) :=
  fold_right insert_entry [] l.

(** ** Tag layout *)
(** A string tag (id 17) holding [s]. *)
Definition enc_string (s : list N) : list N := ilint 17 ++ ilint (lenN s) ++ s.

Definition enc_header (id len : N) : list N :=
  ilint id ++ (if id <=? 15 then [] else ilint len).

Fixpoint enc (t : tag) : list N :=
  match t with
  | Tag id v =>
      let payload := encv v in
      enc_header id (lenN payload) ++ payload
  end
with encv (v : value) : list N :=
  match v with
  | VNull => []
  | VBool b => [if b then 1 else 0]
  | VUInt w n => be_bytes (wbytes w) n
  | VSInt w z => be_bytes (wbytes w) (of_signed w z)
  | VBin32 bits => be_bytes 4 bits
  | VBin64 bits => be_bytes 8 bits
  | VBin128 bs => bs
  | VILInt n => ilint n
  | VSILInt z => ilint (zigzag z)
  | VRaw bs | VBytes bs | VString bs | VBigInt bs => bs
  | VBigDec scale bs => be_bytes 4 (of_signed W32 scale) ++ bs
  | VILIntArray l | VOID l => ilint (lenN l) ++ flat_map ilint l
  | VSeq l => concat (map enc l)
  | VArr l => ilint (lenN l) ++ concat (map enc l)
  | VRange start count => ilint start ++ be_bytes 2 count
  | VVersion a b c d =>
      be_bytes 4 (of_signed W32 a) ++ be_bytes 4 (of_signed W32 b)
      ++ be_bytes 4 (of_signed W32 c) ++ be_bytes 4 (of_signed W32 d)
  | VDict l =>
      ilint (lenN l) ++
      concat (map (fun e => enc_string (fst e) ++ snd e)
                  (sort_entries (map (fun e => (fst e, enc (snd e))) l)))
  | VStrDict l =>
      ilint (lenN l) ++
      concat (map (fun e => enc_string (fst e) ++ enc_string (snd e)) (sort_entries l))
  end.

(** ** Well-formed tags: the ranges and invariants Rust's types guarantee *)
Definition all {A} (P : A -> Prop) (l : list A) : Prop :=
  fold_right (fun x acc => P x /\ acc) True l.

Fixpoint wf (t : tag) : Prop :=
  match t with Tag id v => id < two64 /\ wfv v end
with wfv (v : value) : Prop :=
  match v with
  | VNull | VBool _ => True
  | VUInt w n => n < wmod w
  | VSInt w z => signed_range w z
  | VBin32 bits => bits < wmod W32
  | VBin64 bits => bits < wmod W64
  | VBin128 bs => lenN bs = 16 /\ bytes_ok bs
  | VILInt n => n < two64
  | VSILInt z => i64_range z
  | VRaw bs | VBytes bs | VBigInt bs => bytes_ok bs
  | VString bs => utf8 bs
  | VBigDec scale bs => signed_range W32 scale /\ bytes_ok bs
  | VILIntArray l | VOID l => Forall (fun n => n < two64) l
  | VSeq l | VArr l => all wf l
  | VRange start count => start < two64 /\ count < wmod W16
  | VVersion a b c d =>
      signed_range W32 a /\ signed_range W32 b /\ signed_range W32 c /\ signed_range W32 d
  | VDict l => NoDup (map fst l) /\ Forall (fun e => utf8 (fst e)) l /\ all (fun e => wf (snd e)) l
  | VStrDict l => NoDup (map fst l) /\ Forall (fun e => utf8 (fst e) /\ utf8 (snd e)) l
  end.

(** Same data: equal up to the (unspecified) iteration order of dictionaries. *)
Inductive same_tag : tag -> tag -> Prop :=
| same_Tag id v v' : same_value v v' -> same_tag (Tag id v) (Tag id v')
with same_value : value -> value -> Prop :=
| same_refl v : same_value v v
| same_seq l l' : same_tags l l' -> same_value (VSeq l) (VSeq l')
| same_arr l l' : same_tags l l' -> same_value (VArr l) (VArr l')
| same_dict l l1 l' :
    Permutation l l1 -> map fst l1 = map fst l' -> same_tags (map snd l1) (map snd l') ->
    same_value (VDict l) (VDict l')
| same_strdict l l' : Permutation l l' -> same_value (VStrDict l) (VStrDict l')
with same_tags : list tag -> list tag -> Prop :=
| same_nil : same_tags [] []
| same_cons t t' l l' : same_tag t t' -> same_tags l l' -> same_tags (t :: l) (t' :: l').

(** ** Wire grammar
    [mk] says which struct, and with which id, the factory builds for an id
    found on the wire. *)
Definition implicit_size (id : N) : N :=
  match id with
  | 1 | 2 | 3 => 1
  | 4 | 5 => 2
  | 6 | 7 | 11 => 4
  | 8 | 9 | 12 => 8
  | 13 => 16
  | 10 | 14 => 9
  | _ => 0
  end.

(** The declared payload size [n] of a tag, and the bytes [szb] declaring it. *)
Inductive wire_size (wid : N) : list N -> N -> Prop :=
| size_implicit : wid <= 15 -> wire_size wid [] (implicit_size wid)
| size_explicit n szb : 15 < wid -> ilint_repr n szb -> wire_size wid szb n.

(** A sequence of ILInts. *)
Inductive ilints : list N -> list N -> Prop :=
| ilints_nil : ilints [] []
| ilints_cons v b l bs : ilint_repr v b -> ilints l bs -> ilints (v :: l) (b ++ bs).

(** A string tag on the wire. *)
Inductive wire_string : list N -> list N -> Prop :=
| wire_string_intro idb szb s :
    ilint_repr 17 idb -> ilint_repr (lenN s) szb -> lenN s <= 536870912 -> utf8 s ->
    wire_string (idb ++ szb ++ s) s.

(** Insertion in a map: replaces the binding of an existing key. *)
Fixpoint put {A} (k : list N) (x : A) (m : list (list N * A)) : list (list N * A) :=
  match m with
  | [] => [(k, x)]
  | (k', x') :: m' => if bytes_eqb k k' then (k', x) :: m' else (k', x') :: put k x m'
  end.
Definition dict_of {A} (es : list (list N * A)) : list (list N * A) :=
  fold_left (fun m e => put (fst e) (snd e) m) es [].

Inductive wire_strings : list N -> list (list N * list N) -> Prop :=
| wstrs_nil : wire_strings [] []
| wstrs_cons kb k vb v bs es :
    wire_string kb k -> wire_string vb v -> wire_strings bs es ->
    wire_strings (kb ++ vb ++ bs) ((k, v) :: es).

Inductive wire (mk : N -> option (N * kind)) : list N -> tag -> Prop :=
| wire_intro wid idb szb n body id k v :
    ilint_repr wid idb -> wire_size wid szb n -> n <= 536870912 ->
    mk wid = Some (id, k) ->
    payload mk k n body v ->
    (id = 10 \/ id = 14 \/ lenN body = n) ->
    wire mk (idb ++ szb ++ body) (Tag id v)
(** [payload mk k n bs v]: for a struct of type [k] and a declared size of [n],
    the bytes [bs] denote the value [v]. *)
with payload (mk : N -> option (N * kind)) : kind -> N -> list N -> value -> Prop :=
| P_null : payload mk KNull 0 [] VNull
| P_bool b : payload mk KBool 1 [if (b : bool) then 1 else 0] (VBool b)
| P_uint w bs : length bs = wbytes w ->
    payload mk (KUInt w) (lenN bs) bs (VUInt w (be_value bs))
| P_sint w bs : length bs = wbytes w ->
    payload mk (KSInt w) (lenN bs) bs (VSInt w (to_signed w (be_value bs)))
| P_bin32 bs : lenN bs = 4 -> payload mk KBin32 4 bs (VBin32 (be_value bs))
| P_bin64 bs : lenN bs = 8 -> payload mk KBin64 8 bs (VBin64 (be_value bs))
| P_bin128 bs : lenN bs = 16 -> payload mk KBin128 16 bs (VBin128 bs)
| P_ilint n v bs : ilint_repr v bs -> lenN bs <= n -> payload mk KILInt n bs (VILInt v)
| P_silint n z bs : i64_range z -> ilint_repr (zigzag z) bs -> lenN bs <= n ->
    payload mk KSILInt n bs (VSILInt z)
| P_raw bs : payload mk KRaw (lenN bs) bs (VRaw bs)
| P_bytes bs : payload mk KBytes (lenN bs) bs (VBytes bs)
| P_bigint bs : payload mk KBigInt (lenN bs) bs (VBigInt bs)
| P_string bs : utf8 bs -> payload mk KString (lenN bs) bs (VString bs)
| P_bigdec sb bs : lenN sb = 4 ->
    payload mk KBigDec (4 + lenN bs) (sb ++ bs) (VBigDec (to_signed W32 (be_value sb)) bs)
| P_ilintarray cb ib l : ilint_repr (lenN l) cb -> ilints l ib ->
    payload mk KILIntArray (lenN (cb ++ ib)) (cb ++ ib) (VILIntArray l)
| P_oid cb ib l : ilint_repr (lenN l) cb -> ilints l ib ->
    payload mk KOID (lenN (cb ++ ib)) (cb ++ ib) (VOID l)
| P_seq body l : wires mk body l -> payload mk KSeq (lenN body) body (VSeq l)
| P_arr cb body l : ilint_repr (lenN l) cb -> wires mk body l ->
    payload mk KArr (lenN (cb ++ body)) (cb ++ body) (VArr l)
| P_range s sb cb : ilint_repr s sb -> lenN cb = 2 ->
    payload mk KRange (lenN sb + 2) (sb ++ cb) (VRange s (be_value cb))
| P_version a b c d : lenN a = 4 -> lenN b = 4 -> lenN c = 4 -> lenN d = 4 ->
    payload mk KVersion 16 (a ++ b ++ c ++ d)
      (VVersion (to_signed W32 (be_value a)) (to_signed W32 (be_value b))
                (to_signed W32 (be_value c)) (to_signed W32 (be_value d)))
| P_dict cb body es : ilint_repr (lenN es) cb -> wire_entries mk body es ->
    payload mk KDict (lenN (cb ++ body)) (cb ++ body) (VDict (dict_of es))
| P_strdict cb body es : ilint_repr (lenN es) cb -> wire_strings body es ->
    payload mk KStrDict (lenN (cb ++ body)) (cb ++ body) (VStrDict (dict_of es))
with wires (mk : N -> option (N * kind)) : list N -> list tag -> Prop :=
| wires_nil : wires mk [] []
| wires_cons b t bs l : wire mk b t -> wires mk bs l -> wires mk (b ++ bs) (t :: l)
with wire_entries (mk : N -> option (N * kind)) : list N -> list (list N * tag) -> Prop :=
| wents_nil : wire_entries mk [] []
| wents_cons kb k b t bs es :
    wire_string kb k -> wire mk b t -> wire_entries mk bs es ->
    wire_entries mk (kb ++ b ++ bs) ((k, t) :: es).

(** The struct the ILTags standard assigns to each id. *)
Definition standard_kind (id : N) : option kind :=
  match id with
  | 0 => Some KNull
  | 1 => Some KBool
  | 2 => Some (KSInt W8)
  | 3 => Some (KUInt W8)
  | 4 => Some (KSInt W16)
  | 5 => Some (KUInt W16)
  | 6 => Some (KSInt W32)
  | 7 => Some (KUInt W32)
  | 8 => Some (KSInt W64)
  | 9 => Some (KUInt W64)
  | 10 => Some KILInt
  | 11 => Some KBin32
  | 12 => Some KBin64
  | 13 => Some KBin128
  | 14 => Some KSILInt
  | 16 => Some KBytes
  | 17 => Some KString
  | 18 => Some KBigInt
  | 19 => Some KBigDec
  | 20 => Some KILIntArray
  | 21 => Some KArr
  | 22 => Some KSeq
  | 23 => Some KRange
  | 24 => Some KVersion
  | 25 => Some KOID
  | 30 => Some KDict
  | 31 => Some KStrDict
  | _ => None
  end.
(** What a standard factory builds for an id. *)
Definition standard_mk (strict : bool) (id : N) : option (N * kind) :=
  match standard_kind id with
  | Some k => Some (id, k)
  | None => if negb strict && (15 <? id) then Some (id, KRaw) else None
  end.

(** ** Tags a factory can read back
    Each tag of the tree is of the type, and has the id, that the factory builds
    for its id; and a tag with an implicit id, whose size is not on the wire, has
    a payload of the size the standard gives to that id (ILInt tags delimit
    themselves). *)
Definition fits (id : N) (v : value) : Prop :=
  15 < id \/ lenN (encv v) = implicit_size id
  \/ ((id = 10 \/ id = 14) /\ (kind_of v = KILInt \/ kind_of v = KSILInt)).
Fixpoint conforms (mk : N -> option (N * kind)) (t : tag) : Prop :=
  match t with Tag id v => mk id = Some (id, kind_of v) /\ fits id v /\ conformsv mk v end
with conformsv (mk : N -> option (N * kind)) (v : value) : Prop :=
  match v with
  | VSeq l | VArr l => all (conforms mk) l
  | VDict l => all (fun e => conforms mk (snd e)) l
  | _ => True
  end.
(** Each tag of the tree is of the type the standard assigns to its id; unless
    [strict], raw tags may have any explicit id the standard does not assign. *)
Fixpoint standard (strict : bool) (t : tag) : Prop :=
  match t with
  | Tag id v =>
      (standard_kind id = Some (kind_of v)
       \/ (strict = false /\ standard_kind id = None /\ 15 < id /\ kind_of v = KRaw))
      /\ standardv strict v
  end
with standardv (strict : bool) (v : value) : Prop :=
  match v with
  | VSeq l | VArr l => all (standard strict) l
  | VDict l => all (fun e => standard strict (snd e)) l
  | _ => True
  end.

(** Independent specification of canonical encodings: a sub-grammar of [wire]
    (Spec.v).  Written from the ILTags format; it mentions no encoder, neither
    the code's nor [enc]. *)
From Coq Require Import Sorted.
From Verif Require Import Base Types Spec.

(** A shortest byte string that denotes the value. *)
Definition minimal (v : N) (b : list N) : Prop :=
  ilint_repr v b /\ forall b', bytes_ok b' -> ilint_repr v b' -> lenN b <= lenN b'.

(** Keys of a dictionary: no key twice; with [o], in increasing order too. *)
Definition keys_ok (o : bool) (ks : list (list N)) : Prop :=
  NoDup ks /\ (o = true -> StronglySorted lex_lt ks).

Inductive minimal_size (wid : N) : list N -> N -> Prop :=
| msize_implicit : wid <= 15 -> minimal_size wid [] (implicit_size wid)
| msize_explicit n szb : 15 < wid -> minimal n szb -> minimal_size wid szb n.

Inductive minimals : list N -> list N -> Prop :=
| minimals_nil : minimals [] []
| minimals_cons v b l bs : minimal v b -> minimals l bs -> minimals (v :: l) (b ++ bs).

Inductive minimal_string : list N -> list N -> Prop :=
| minimal_string_intro idb szb s :
    minimal 17 idb -> minimal (lenN s) szb -> lenN s <= 536870912 -> utf8 s ->
    minimal_string (idb ++ szb ++ s) s.

Inductive minimal_strings : list N -> list (list N * list N) -> Prop :=
| mstrs_nil : minimal_strings [] []
| mstrs_cons kb k vb v bs es :
    minimal_string kb k -> minimal_string vb v -> minimal_strings bs es ->
    minimal_strings (kb ++ vb ++ bs) ((k, v) :: es).

(** [tight o mk bs t]: [bs] denotes [t], every ILInt in it is as short as it
    can be and no dictionary repeats a key; with [o], every dictionary lists
    its keys in increasing order. *)
Inductive tight (o : bool) (mk : N -> option (N * kind)) : list N -> tag -> Prop :=
| tight_intro wid idb szb n body id k v :
    minimal wid idb -> minimal_size wid szb n -> n <= 536870912 ->
    mk wid = Some (id, k) ->
    tightv o mk k n body v ->
    (id = 10 \/ id = 14 \/ lenN body = n) ->
    tight o mk (idb ++ szb ++ body) (Tag id v)
with tightv (o : bool) (mk : N -> option (N * kind)) : kind -> N -> list N -> value -> Prop :=
| T_null : tightv o mk KNull 0 [] VNull
| T_bool b : tightv o mk KBool 1 [if (b : bool) then 1 else 0] (VBool b)
| T_uint w bs : length bs = wbytes w ->
    tightv o mk (KUInt w) (lenN bs) bs (VUInt w (be_value bs))
| T_sint w bs : length bs = wbytes w ->
    tightv o mk (KSInt w) (lenN bs) bs (VSInt w (to_signed w (be_value bs)))
| T_bin32 bs : lenN bs = 4 -> tightv o mk KBin32 4 bs (VBin32 (be_value bs))
| T_bin64 bs : lenN bs = 8 -> tightv o mk KBin64 8 bs (VBin64 (be_value bs))
| T_bin128 bs : lenN bs = 16 -> tightv o mk KBin128 16 bs (VBin128 bs)
| T_ilint n v bs : minimal v bs -> lenN bs <= n -> tightv o mk KILInt n bs (VILInt v)
| T_silint n z bs : i64_range z -> minimal (zigzag z) bs -> lenN bs <= n ->
    tightv o mk KSILInt n bs (VSILInt z)
| T_raw bs : tightv o mk KRaw (lenN bs) bs (VRaw bs)
| T_bytes bs : tightv o mk KBytes (lenN bs) bs (VBytes bs)
| T_bigint bs : tightv o mk KBigInt (lenN bs) bs (VBigInt bs)
| T_string bs : utf8 bs -> tightv o mk KString (lenN bs) bs (VString bs)
| T_bigdec sb bs : lenN sb = 4 ->
    tightv o mk KBigDec (4 + lenN bs) (sb ++ bs) (VBigDec (to_signed W32 (be_value sb)) bs)
| T_ilintarray cb ib l : minimal (lenN l) cb -> minimals l ib ->
    tightv o mk KILIntArray (lenN (cb ++ ib)) (cb ++ ib) (VILIntArray l)
| T_oid cb ib l : minimal (lenN l) cb -> minimals l ib ->
    tightv o mk KOID (lenN (cb ++ ib)) (cb ++ ib) (VOID l)
| T_seq body l : tights o mk body l -> tightv o mk KSeq (lenN body) body (VSeq l)
| T_arr cb body l : minimal (lenN l) cb -> tights o mk body l ->
    tightv o mk KArr (lenN (cb ++ body)) (cb ++ body) (VArr l)
| T_range s sb cb : minimal s sb -> lenN cb = 2 ->
    tightv o mk KRange (lenN sb + 2) (sb ++ cb) (VRange s (be_value cb))
| T_version a b c d : lenN a = 4 -> lenN b = 4 -> lenN c = 4 -> lenN d = 4 ->
    tightv o mk KVersion 16 (a ++ b ++ c ++ d)
      (VVersion (to_signed W32 (be_value a)) (to_signed W32 (be_value b))
                (to_signed W32 (be_value c)) (to_signed W32 (be_value d)))
| T_dict cb body es : minimal (lenN es) cb -> tight_entries o mk body es -> keys_ok o (map fst es) ->
    tightv o mk KDict (lenN (cb ++ body)) (cb ++ body) (VDict es)
| T_strdict cb body es : minimal (lenN es) cb -> minimal_strings body es -> keys_ok o (map fst es) ->
    tightv o mk KStrDict (lenN (cb ++ body)) (cb ++ body) (VStrDict es)
with tights (o : bool) (mk : N -> option (N * kind)) : list N -> list tag -> Prop :=
| tights_nil : tights o mk [] []
| tights_cons b t bs l : tight o mk b t -> tights o mk bs l -> tights o mk (b ++ bs) (t :: l)
with tight_entries (o : bool) (mk : N -> option (N * kind)) : list N -> list (list N * tag) -> Prop :=
| tents_nil : tight_entries o mk [] []
| tents_cons kb k b t bs es :
    minimal_string kb k -> tight o mk b t -> tight_entries o mk bs es ->
    tight_entries o mk (kb ++ b ++ bs) ((k, t) :: es).

(** The canonical encodings. *)
Definition canonical := tight true.

Scheme tight_min := Minimality for tight Sort Prop
  with tightv_min := Minimality for tightv Sort Prop
  with tights_min := Minimality for tights Sort Prop
  with tight_entries_min := Minimality for tight_entries Sort Prop.
Combined Scheme tight_mutind from tight_min, tightv_min, tights_min, tight_entries_min.

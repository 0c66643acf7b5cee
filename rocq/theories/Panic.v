(** Mending user code: the same code with something else, anything, in place of
    its panics.  What the user code of the library is made of: programs of user
    tags (Prog.v, IntoProg.v, OtherProg.v, FullProg.v), creators (Open.v), readers
    (Any.v, AnyScan.v), writers (AnyWriter.v) and programs of serialize
    (SerProg.v).  These relations are part of the statements of PPanic.v, they
    model no code of /repo by themselves. *)
From Verif Require Import Base Types IO Tags Factory Open Prog IntoProg OtherProg FullProg Any AnyScan AnyWriter SerProg.

(** The programs, bodies of ILTag::deserialize_value (src/tags/mod.rs:250-255) of
    user types: a panic may be replaced by any program. *)
Inductive mends {I} : forall A, prog I A -> prog I A -> Prop :=
| Mends_abort A (p : prog I A) : mends A Abort p
| Mends_done A (a : A) : mends A (Done a) (Done a)
| Mends_read A k1 k2 : (forall x, mends A (k1 x) (k2 x)) -> mends A (DoRead k1) (DoRead k2)
| Mends_read_all A old k1 k2 : (forall x got, mends A (k1 x got) (k2 x got)) -> mends A (DoReadAll old k1) (DoReadAll old k2)
| Mends_skip A n k1 k2 : (forall x, mends A (k1 x) (k2 x)) -> mends A (DoSkip n k1) (DoSkip n k2)
| Mends_skip64 A n k1 k2 : (forall x, mends A (k1 x) (k2 x)) -> mends A (DoSkip64 n k1) (DoSkip64 n k2)
| Mends_tag A k1 k2 : (forall x, mends A (k1 x) (k2 x)) -> mends A (DoTag k1) (DoTag k2)
| Mends_limited A B n (b1 b2 : prog I B) k1 k2 :
    mends B b1 b2 -> (forall b m, mends A (k1 b m) (k2 b m)) -> mends A (DoLimited n b1 k1) (DoLimited n b2 k2).
Arguments mends {I A} p1 p2.
Inductive imends {I} : forall A, iprog I A -> iprog I A -> Prop :=
| IMends_abort A (p : iprog I A) : imends A IAbort p
| IMends_done A (a : A) : imends A (IDone a) (IDone a)
| IMends_read A k1 k2 : (forall x, imends A (k1 x) (k2 x)) -> imends A (IRead k1) (IRead k2)
| IMends_read_all A old k1 k2 : (forall x got, imends A (k1 x got) (k2 x got)) -> imends A (IReadAll old k1) (IReadAll old k2)
| IMends_skip A n k1 k2 : (forall x, imends A (k1 x) (k2 x)) -> imends A (ISkip n k1) (ISkip n k2)
| IMends_skip64 A n k1 k2 : (forall x, imends A (k1 x) (k2 x)) -> imends A (ISkip64 n k1) (ISkip64 n k2)
| IMends_tag A k1 k2 : (forall x, imends A (k1 x) (k2 x)) -> imends A (ITag k1) (ITag k2)
| IMends_limited A B n (b1 b2 : iprog I B) k1 k2 :
    imends B b1 b2 -> (forall b m, imends A (k1 b m) (k2 b m)) -> imends A (ILimited n b1 k1) (ILimited n b2 k2)
| IMends_into A t k1 k2 : (forall x t', imends A (k1 x t') (k2 x t')) -> imends A (IInto t k1) (IInto t k2).
Arguments imends {I A} p1 p2.
Inductive xmends {I} : forall A, xprog I A -> xprog I A -> Prop :=
| XMends_abort A (p : xprog I A) : xmends A XAbort p
| XMends_done A (a : A) : xmends A (XDone a) (XDone a)
| XMends_read A k1 k2 : (forall x, xmends A (k1 x) (k2 x)) -> xmends A (XRead k1) (XRead k2)
| XMends_read_all A old k1 k2 : (forall x got, xmends A (k1 x got) (k2 x got)) -> xmends A (XReadAll old k1) (XReadAll old k2)
| XMends_skip A n k1 k2 : (forall x, xmends A (k1 x) (k2 x)) -> xmends A (XSkip n k1) (XSkip n k2)
| XMends_skip64 A n k1 k2 : (forall x, xmends A (k1 x) (k2 x)) -> xmends A (XSkip64 n k1) (XSkip64 n k2)
| XMends_tag A k1 k2 : (forall x, xmends A (k1 x) (k2 x)) -> xmends A (XTag k1) (XTag k2)
| XMends_limited A B n (b1 b2 : xprog I B) k1 k2 :
    xmends B b1 b2 -> (forall b m, xmends A (k1 b m) (k2 b m)) -> xmends A (XLimited n b1 k1) (XLimited n b2 k2)
| XMends_other A q k1 k2 : (forall x q', xmends A (k1 x q') (k2 x q')) -> xmends A (XOther q k1) (XOther q k2).
Arguments xmends {I A} p1 p2.
Inductive ymends {I} : forall A, yprog I A -> yprog I A -> Prop :=
| YMends_abort A (p : yprog I A) : ymends A YAbort p
| YMends_done A (a : A) : ymends A (YDone a) (YDone a)
| YMends_read A k1 k2 : (forall x, ymends A (k1 x) (k2 x)) -> ymends A (YRead k1) (YRead k2)
| YMends_read_all A old k1 k2 : (forall x got, ymends A (k1 x got) (k2 x got)) -> ymends A (YReadAll old k1) (YReadAll old k2)
| YMends_skip A n k1 k2 : (forall x, ymends A (k1 x) (k2 x)) -> ymends A (YSkip n k1) (YSkip n k2)
| YMends_skip64 A n k1 k2 : (forall x, ymends A (k1 x) (k2 x)) -> ymends A (YSkip64 n k1) (YSkip64 n k2)
| YMends_tag A k1 k2 : (forall x, ymends A (k1 x) (k2 x)) -> ymends A (YTag k1) (YTag k2)
| YMends_limited A B n (b1 b2 : yprog I B) k1 k2 :
    ymends B b1 b2 -> (forall b m, ymends A (k1 b m) (k2 b m)) -> ymends A (YLimited n b1 k1) (YLimited n b2 k2)
| YMends_into A t k1 k2 : (forall x t', ymends A (k1 x t') (k2 x t')) -> ymends A (YInto t k1) (YInto t k2)
| YMends_other A q k1 k2 : (forall x q', ymends A (k1 x q') (k2 x q')) -> ymends A (YOther q k1) (YOther q k2)
| YMends_other_into A q t k1 k2 : (forall x t' q', ymends A (k1 x t' q') (k2 x t' q')) -> ymends A (YOtherInto q t k1) (YOtherInto q t k2).
Arguments ymends {I A} p1 p2.
(** Programs of ILTag::serialize (src/tags/mod.rs:230-236). *)
Inductive smends {I} : sprog I -> sprog I -> Prop :=
| SMends_abort p : smends SAbort p
| SMends_done e : smends (SDone e) (SDone e)
| SMends_write b k1 k2 : (forall x, smends (k1 x) (k2 x)) -> smends (SWrite b k1) (SWrite b k2)
| SMends_write_all bs k1 k2 : (forall x, smends (k1 x) (k2 x)) -> smends (SWriteAll bs k1) (SWriteAll bs k2)
| SMends_tag t k1 k2 : (forall x, smends (k1 x) (k2 x)) -> smends (STag t k1) (STag t k2)
| SMends_other w t k1 k2 : (forall x w', smends (k1 x w') (k2 x w')) -> smends (SOther w t k1) (SOther w t k2).

(** The types of tags that two user modules provide, of which the second has other
    creators (ILTagCreator, src/tags/mod.rs:505-515) where those of
    the first panic ([Some None]). *)
Definition creators_mend {T} (U1 U2 : user_impl T) : Prop :=
  (forall x, u_id U2 x = u_id U1 x) /\ forall id, u_create U1 id = Some None \/ u_create U2 id = u_create U1 id.
(** Implementations of Reader (src/io/mod.rs:74-151) and Writer (162-192), the second
    with anything where a method of the first panics or does not return. *)
Definition reader_mends {U} (M1 M2 : reader_impl U) : Prop :=
  (forall u, returns (fst (u_read M1 u)) -> u_read M2 u = u_read M1 u) /\
  (forall buff u, returns (fst (fst (u_read_all M1 buff u))) -> u_read_all M2 buff u = u_read_all M1 buff u).
Definition full_mends {U} (F1 F2 : full_reader U) : Prop :=
  reader_mends (f_reader F1) (f_reader F2) /\
  (forall n u, returns (fst (f_skip F1 n u)) -> f_skip F2 n u = f_skip F1 n u) /\
  (forall n u, returns (fst (f_skip_u64 F1 n u)) -> f_skip_u64 F2 n u = f_skip_u64 F1 n u).
Definition writer_mends {W} (M1 M2 : writer_impl W) : Prop :=
  (forall b u, returns (fst (u_write M1 b u)) -> u_write M2 b u = u_write M1 b u) /\
  (forall bs u, returns (fst (u_write_all M1 bs u)) -> u_write_all M2 bs u = u_write_all M1 bs u).
(** User types of tags with arbitrary code (Open.v): where a method of the first
    returns, that of the second does the same, and a panic of the factory in
    deserialize_value is one of deserialize_value, however it goes on otherwise. *)
Definition types_mend {T} (U1 U2 : user_impl T) : Prop :=
  creators_mend U1 U2 /\
  (forall x, u_size U2 x = u_size U1 x) /\
  (forall x w, returns (fst (u_serialize U1 x w)) -> u_serialize U2 x w = u_serialize U1 x w) /\
  (forall x, returns (u_to_bytes U1 x) -> u_to_bytes U2 x = u_to_bytes U1 x) /\
  (forall d1 d2, (forall r, returns (fst (d1 r)) -> d2 r = d1 r) -> forall n x r,
     returns (fst (u_deserialize_value U1 d1 n (x, r))) -> u_deserialize_value U2 d2 n (x, r) = u_deserialize_value U1 d1 n (x, r)).

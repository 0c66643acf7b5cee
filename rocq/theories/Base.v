(** Basic definitions shared by the model: results, byte lists indexed by [N]. *)
From Coq Require Export List NArith ZArith Lia Bool Permutation.
From Coq Require Export ZifyBool ZifyNat ZifyN.
Export ListNotations.
Open Scope N_scope.

Ltac Zify.zify_post_hook ::= Z.div_mod_to_equations.

(** Outcome of a modelled Rust function returning [Result<A, E>].  [Panic]
    stands for a failed assertion, an out-of-range index or an arithmetic
    overflow with overflow checks on.  [OutOfFuel] is an artefact of the model
    (a loop bound was reached); theorems show it never occurs. *)
Inductive res (E A : Type) : Type :=
| Ok (a : A)
| Err (e : E)
| Panic
| OutOfFuel.
Arguments Ok {E A} a.
Arguments Err {E A} e.
Arguments Panic {E A}.
Arguments OutOfFuel {E A}.

Definition is_ok {E A} (x : res E A) : bool :=
  match x with Ok _ => true | _ => false end.

(** An ordinary Rust outcome: [Ok] or [Err]. *)
Definition returns {E A} (x : res E A) : Prop :=
  match x with Panic => False | OutOfFuel => False | _ => True end.

(** [Err(e) => Err(f(e))] and [Ok(a) => Ok(g(a))]. *)
Definition map_err {E E' A} (f : E -> E') (x : res E A) : res E' A :=
  match x with Ok a => Ok a | Err e => Err (f e) | Panic => Panic | OutOfFuel => OutOfFuel end.
Definition map_ok {E A B} (g : A -> B) (x : res E A) : res E B :=
  match x with Ok a => Ok (g a) | Err e => Err e | Panic => Panic | OutOfFuel => OutOfFuel end.

(** The [?] operator on a function that threads a mutable state. *)
Definition bind {S E A B} (m : S -> res E A * S) (f : A -> S -> res E B * S)
  : S -> res E B * S :=
  fun s => match m s with
           | (Ok a, s') => f a s'
           | (Err e, s') => (Err e, s')
           | (Panic, s') => (Panic, s')
           | (OutOfFuel, s') => (OutOfFuel, s')
           end.
Definition ret {S E A} (a : A) : S -> res E A * S := fun s => (Ok a, s).
Definition fail {S E A} (e : E) : S -> res E A * S := fun s => (Err e, s).
Definition lift_err {S E E' A} (f : E -> E') (m : S -> res E A * S) : S -> res E' A * S :=
  fun s => let '(x, s') := m s in (map_err f x, s').

Declare Scope monad_scope.
Notation "x <- m ;; k" := (bind m (fun x => k))
  (at level 61, m at next level, right associativity) : monad_scope.
Notation "m ;;; k" := (bind m (fun _ => k))
  (at level 61, right associativity) : monad_scope.
Open Scope monad_scope.

(** ** Lists indexed by [N] *)
Definition lenN {A} (l : list A) : N := N.of_nat (length l).

Fixpoint takeN {A} (n : N) (l : list A) : list A :=
  match l with
  | [] => []
  | x :: l' => if n =? 0 then [] else x :: takeN (N.pred n) l'
  end.
Fixpoint dropN {A} (n : N) (l : list A) : list A :=
  match l with
  | [] => []
  | x :: l' => if n =? 0 then l else dropN (N.pred n) l'
  end.
(** [v[i]] *)
Fixpoint nthN {A} (l : list A) (i : N) : option A :=
  match l with
  | [] => None
  | x :: l' => if i =? 0 then Some x else nthN l' (N.pred i)
  end.
(** [vec![x; n]] *)
Definition repeatN {A} (x : A) (n : N) : list A := repeat x (N.to_nat n).

(** [&v[lo..hi]] in Rust: panics unless [lo <= hi <= v.len()]. *)
Definition slice {E A} (l : list A) (lo hi : N) : res E (list A) :=
  if (lo <=? hi) && (hi <=? lenN l) then Ok (takeN (hi - lo) (dropN lo l)) else Panic.

(** [v[lo..hi].copy_from_slice(src)]: panics unless the range is valid and has
    the length of [src]. *)
Definition copy_into {E A} (l : list A) (lo hi : N) (src : list A) : res E (list A) :=
  if (lo <=? hi) && (hi <=? lenN l) && (hi - lo =? lenN src)
  then Ok (takeN lo l ++ src ++ dropN hi l) else Panic.

(** [Vec::resize(n, x)]. *)
Definition resizeN {A} (n : N) (x : A) (l : list A) : list A :=
  if n <=? lenN l then takeN n l else l ++ repeatN x (n - lenN l).

Definition prefix {A} (p l : list A) : Prop := exists q, l = p ++ q.

Definition byte_ok (b : N) : Prop := b < 256.
Definition bytes_ok (l : list N) : Prop := Forall byte_ok l.
Definition u64_max : N := 18446744073709551615.
Definition two64 : N := 18446744073709551616.

(** Build parameters that change behaviour: overflow checks (debug/release)
    and the largest [usize]. *)
Record cfg := Cfg { overflow_checks : bool; usize_max : N }.
(** Rust supports 16, 32 and 64 bit [usize]; the library needs at least 512 MB. *)
Definition cfg_ok (c : cfg) : Prop := 4294967295 <= usize_max c <= u64_max.

(** [a + b] and [a - b] on [u64]. *)
Definition add_u64 {E} (c : cfg) (a b : N) : res E N :=
  if a + b <? two64 then Ok (a + b)
  else if overflow_checks c then Panic else Ok (a + b - two64).
Definition sub_u64 {E} (c : cfg) (a b : N) : res E N :=
  if b <=? a then Ok (a - b)
  else if overflow_checks c then Panic else Ok (a + two64 - b).
(** [a - b] on [usize]. *)
Definition sub_usize {E} (c : cfg) (a b : N) : res E N :=
  if b <=? a then Ok (a - b)
  else if overflow_checks c then Panic else Ok (a + (usize_max c + 1) - b).

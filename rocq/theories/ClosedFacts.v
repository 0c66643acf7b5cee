(** Properties that hold of every function built from reads.

    Deserialization uses its reader only through [read] and [read_all], directly
    or behind limits.  A predicate that holds of these and is closed under
    sequencing, branching and limits therefore holds of all of it. *)
From Verif Require Import Base BaseFacts Types IO ILInt Data Tags Factory.

Record closed (R : forall E A, (reader -> res E A * reader) -> Prop)
              (M : forall S A, method S A -> Prop) : Prop := {
  c_read : R _ _ read;
  c_fetch : forall n, R _ _ (fetch n);
  c_const : forall E A (x : res E A), R _ _ (fun r => (x, r));
  c_bind : forall E A B (m : reader -> res E A * reader) (f : A -> reader -> res E B * reader),
    R _ _ m -> (forall a, R _ _ (f a)) -> R _ _ (bind m f);
  c_lift : forall E E' A (f : E -> E') (m : reader -> res E A * reader), R _ _ m -> R _ _ (lift_err f m);
  (** a result computed from the state, which stays *)
  c_query : forall S A (g : S * reader -> res tag_error A), M _ _ (fun st => (g st, st));
  c_modify : forall S (f : S -> S), M _ _ (modify f);
  c_mbind : forall S A B (m : method S A) (f : A -> method S B), M _ _ m -> (forall a, M _ _ (f a)) -> M _ _ (bind m f);
  c_if : forall S A (c : S * reader -> bool) (m1 m2 : method S A), M _ _ m1 -> M _ _ m2 -> M _ _ (fun st => if c st then m1 st else m2 st);
  c_fuel : forall S A (g : S * reader -> nat) (m : nat -> method S A), (forall f, M _ _ (m f)) -> M _ _ (fun st => m (g st) st);
  c_on_reader : forall S A (m : reader -> res tag_error A * reader), R _ _ m -> M _ _ (@on_reader S A m);
  c_limited : forall S A n (m : method S A), M _ _ m -> M _ _ (limited n m);
  c_in_place : M _ _ in_place;
  (** a method run on one field or on a changed struct *)
  c_part : forall S T A (get : S -> T) (put : S -> T -> S) (m : method T A), M _ _ m ->
    M _ _ (fun st : S * reader => let '(x, (t', r')) := m (get (fst st), snd st) in (x, (put (fst st) t', r')));
  (** a method run on a struct, and a result made from it *)
  c_run : forall S A B (s : S) (m : method S A) (g : res tag_error A -> S -> res tag_error B),
    (forall x s', is_ok (g x s') = is_ok x) -> M _ _ m ->
    R _ _ (fun r => let '(x, (s', r')) := m (s, r) in (g x s', r'));
  c_ext : forall E A (m m' : reader -> res E A * reader), (forall r, m r = m' r) -> R _ _ m -> R _ _ m';
  c_mext : forall S A (m m' : method S A), (forall st, m st = m' st) -> M _ _ m -> M _ _ m' }.

Section Closed.
Variables (R : forall E A, (reader -> res E A * reader) -> Prop) (M : forall S A, method S A -> Prop).
Hypothesis C : closed R M.
Arguments R {E A} _.
Arguments M {S A} _.

Lemma cl_ret {E A} (a : A) : R (@ret reader E A a).
Proof. exact (c_const _ _ C E A (Ok a)). Qed.
Lemma cl_fail {E A} e : R (@fail reader E A e).
Proof. exact (c_const _ _ C E A (Err e)). Qed.
Lemma cl_mret {S A} (a : A) : M (@ret (S * reader) tag_error A a).
Proof. exact (c_query _ _ C S A (fun _ => Ok a)). Qed.
Lemma cl_mfail {S A} e : M (@fail (S * reader) tag_error A e).
Proof. exact (c_query _ _ C S A (fun _ => Err e)). Qed.
Lemma cl_guard {S} (c : bool) e : M (if c then @fail (S * reader) tag_error unit e else ret tt).
Proof. destruct c; [apply cl_mfail|apply cl_mret]. Qed.
Lemma cl_check_size {S} n k : M (@check_size S n k).
Proof. unfold check_size. destruct (n =? k); [apply cl_mret|apply cl_mfail]. Qed.
Lemma cl_ensure_empty {S} e : M (@limited_reader_ensure_empty S e).
Proof. exact (c_query _ _ C S unit (fun st => if limit_empty (snd st) then Ok tt else Err e)). Qed.
Lemma cl_set_from {A} (m : reader -> res tag_error A * reader) : R m -> M (set_from m).
Proof. intros H. apply (c_mbind _ _ C); [now apply (c_on_reader _ _ C)|]. intros a. apply (c_modify _ _ C). Qed.
Lemma cl_on_snd {S T A} (m : method T A) : M m -> M (@on_snd S T A m).
Proof.
  intros H. eapply (c_mext _ _ C); [|exact (c_part _ _ C (S * T) T A snd (fun s t => (fst s, t)) m H)].
  intros [[s t] r]. unfold on_snd. cbn [fst snd]. destruct (m (t, r)) as [x [t' r']]. reflexivity.
Qed.
Lemma cl_raw n : M (raw_deserialize n).
Proof.
  eapply (c_mext _ _ C); [|exact (c_part _ _ C _ _ _ (resizeN n 0) (fun _ v => v) in_place (c_in_place _ _ C))].
  intros [vec r]. unfold raw_deserialize, in_place, into_vec. cbn [fst snd]. now destruct (into_slice _ r) as [[x v] r'].
Qed.
Lemma cl_repeat {S A} (m : reader -> res tag_error A * reader) (store : A -> S -> S) count :
  R m -> M (fuelled (fun f => repeat_read f m store count)).
Proof.
  intros H. apply (c_fuel _ _ C S unit (fun st => Datatypes.S (left (snd st))) (fun f => repeat_read f m store count)). intros f. revert count.
  induction f as [|f IH]; intros count; cbn [repeat_read]; destruct (count =? 0); try apply cl_mret.
  - exact (c_query _ _ C S unit (fun _ => OutOfFuel)).
  - apply (c_mbind _ _ C); [now apply (c_on_reader _ _ C)|]. intros a.
    apply (c_mbind _ _ C); [apply (c_modify _ _ C)|]. intros _. apply IH.
Qed.
Lemma cl_while {S A} (m : reader -> res tag_error A * reader) (store : A -> S -> S) :
  R m -> M (fuelled (fun f => while_read f m store)).
Proof.
  intros H. apply (c_fuel _ _ C S unit (fun st => Datatypes.S (left (snd st))) (fun f => while_read f m store)).
  induction f as [|f IH].
  - apply (c_mext _ _ C _ _ (fun st : S * reader => if limit_empty (snd st) then (Ok tt, st) else (OutOfFuel, st))); [reflexivity|].
    apply (c_if _ _ C S unit (fun st => limit_empty (snd st))); [exact (c_query _ _ C S unit (fun _ => Ok tt))|exact (c_query _ _ C S unit (fun _ => OutOfFuel))].
  - apply (c_mext _ _ C _ _ (fun st : S * reader => if limit_empty (snd st) then (Ok tt, st)
      else (x <- on_reader m ;; modify (store x) ;;; while_read f m store) st)); [reflexivity|].
    apply (c_if _ _ C S unit (fun st => limit_empty (snd st))); [exact (c_query _ _ C S unit (fun _ => Ok tt))|].
    apply (c_mbind _ _ C); [now apply (c_on_reader _ _ C)|]. intros a.
    apply (c_mbind _ _ C); [apply (c_modify _ _ C)|]. intros _. exact IH.
Qed.

(** *** Data.v *)
Lemma cl_decode : R decode.
Proof.
  apply (c_bind _ _ C); [apply (c_lift _ _ C), (c_read _ _ C)|]. intros h. cbv zeta.
  destruct (_ =? 1); [apply cl_ret|]. apply (c_bind _ _ C); [apply (c_lift _ _ C), (c_fetch _ _ C)|]. intros body.
  apply (c_const _ _ C).
Qed.
Lemma cl_ilint : R deserialize_ilint.
Proof. do 2 apply (c_lift _ _ C). apply cl_decode. Qed.
Lemma cl_signed_ilint : R deserialize_signed_ilint.
Proof. do 2 apply (c_lift _ _ C). apply (c_bind _ _ C); [apply cl_decode|]. intros a. apply cl_ret. Qed.
Lemma cl_read_uint w : R (read_uint w).
Proof. destruct w; [apply (c_read _ _ C)|..]; (apply (c_bind _ _ C); [apply (c_fetch _ _ C)|]; intros a; apply cl_ret). Qed.
Lemma cl_uint w : R (deserialize_uint w).
Proof. apply (c_lift _ _ C), cl_read_uint. Qed.
Lemma cl_sint w : R (deserialize_sint w).
Proof.
  apply (c_lift _ _ C). destruct w; (apply (c_bind _ _ C); [first [apply (c_read _ _ C)|apply (c_fetch _ _ C)]|]; intros a; apply cl_ret).
Qed.
Lemma cl_f32 : R deserialize_f32.
Proof. apply (c_lift _ _ C), (c_bind _ _ C); [apply cl_read_uint|]. intros a. apply cl_ret. Qed.
Lemma cl_f64 : R deserialize_f64.
Proof. apply (c_lift _ _ C), (c_bind _ _ C); [apply cl_read_uint|]. intros a. apply cl_ret. Qed.
Lemma cl_bytes n : R (deserialize_bytes n).
Proof. apply (c_lift _ _ C), (c_fetch _ _ C). Qed.

(** *** Factory.v *)
Lemma cl_string_into : M deserialize_string_tag_from_value_into.
Proof.
  unfold deserialize_string_tag_from_value_into.
  apply (c_mbind _ _ C); [apply (c_on_reader _ _ C), cl_ilint|]. intros id.
  apply (c_mbind _ _ C); [apply cl_guard|]. intros _.
  apply (c_mbind _ _ C); [apply (c_on_reader _ _ C), cl_ilint|]. intros len.
  apply (c_mbind _ _ C); [apply (c_query _ _ C _ _ (fun _ => tag_size_to_usize len))|]. intros n.
  apply (c_mbind _ _ C); [apply (c_on_reader _ _ C), cl_bytes|]. intros tmp.
  destruct (from_utf8 tmp); [apply (c_modify _ _ C)|apply cl_mfail].
Qed.
Lemma cl_string : R deserialize_string_tag_from_value.
Proof.
  apply (c_run _ _ C _ _ _ [] deserialize_string_tag_from_value_into
    (fun x s => match x with Ok _ => Ok s | Err e => Err e | Panic => Panic | OutOfFuel => OutOfFuel end)); [|apply cl_string_into].
  intros [a|e| |] s; reflexivity.
Qed.

(** What [d], the factory, does may be anything in [R]. *)
Section Value.
Variable d : reader -> res tag_error tag * reader.
Hypothesis Hd : R d.
Lemma cl_value {B} v n (g : res tag_error unit -> value -> res tag_error B) :
  (forall x v', is_ok (g x v') = is_ok x) ->
  R (fun r => let '(x, v', r') := deserialize_value d v n r in (g x v', r')).
Proof.
  intros Hg.
  assert (K : forall S (s : S) (m : method S unit) mk, M m ->
    (forall r, deserialize_value d v n r = run m s mk r) ->
    R (fun r => let '(x, v', r') := deserialize_value d v n r in (g x v', r'))).
  { intros S s m mk H Eq.
    apply (c_ext _ _ C) with (m := fun r => let '(x, (s', r')) := m (s, r) in (g x (mk s'), r')).
    - intros r. rewrite Eq. unfold run. destruct (m (s, r)) as [x [s' r']]. reflexivity.
    - apply (c_run _ _ C S unit B s m (fun x s' => g x (mk s'))); [intros; apply Hg|exact H]. }
  destruct v; (eapply K; [|intros r; cbn [deserialize_value]; reflexivity]); try apply cl_raw.
  - apply cl_check_size.
  - apply (c_mbind _ _ C); [apply cl_check_size|]. intros _.
    apply (c_mbind _ _ C); [apply (c_on_reader _ _ C), cl_uint|]. intros a.
    destruct (a =? 0); [apply (c_modify _ _ C)|]. destruct (a =? 1); [apply (c_modify _ _ C)|apply cl_mfail].
  - apply (c_mbind _ _ C); [apply cl_check_size|]. intros _. apply cl_set_from, cl_uint.
  - apply (c_mbind _ _ C); [apply cl_check_size|]. intros _. apply cl_set_from, cl_sint.
  - apply (c_mbind _ _ C); [apply cl_check_size|]. intros _. apply cl_set_from, cl_f32.
  - apply (c_mbind _ _ C); [apply cl_check_size|]. intros _. apply cl_set_from, cl_f64.
  - apply (c_mbind _ _ C); [apply cl_check_size|]. intros _. apply (c_in_place _ _ C).
  - apply cl_set_from, cl_ilint.
  - apply cl_set_from, cl_signed_ilint.
  - apply (c_mbind _ _ C); [apply (c_on_reader _ _ C), cl_bytes|]. intros tmp.
    destruct (from_utf8 tmp); [apply (c_modify _ _ C)|apply cl_mfail].
  - apply (c_mbind _ _ C); [apply cl_guard|]. intros _.
    apply (c_mbind _ _ C); [apply (c_on_reader _ _ C), cl_sint|]. intros a.
    apply (c_mbind _ _ C); [apply (c_modify _ _ C)|]. intros _. apply cl_on_snd, cl_raw.
  - apply (c_limited _ _ C), (c_mbind _ _ C); [apply (c_on_reader _ _ C), cl_ilint|]. intros count.
    apply (c_mbind _ _ C); [apply cl_guard|]. intros _. apply (c_mbind _ _ C); [apply (c_modify _ _ C)|]. intros _.
    apply (c_mbind _ _ C); [apply cl_repeat, cl_ilint|]. intros _. apply cl_ensure_empty.
  - apply (c_limited _ _ C), (c_mbind _ _ C); [apply (c_modify _ _ C)|]. intros _. now apply cl_while.
  - apply (c_limited _ _ C), (c_mbind _ _ C); [apply (c_on_reader _ _ C), cl_ilint|]. intros count.
    apply (c_mbind _ _ C); [apply cl_guard|]. intros _. apply (c_mbind _ _ C); [apply (c_modify _ _ C)|]. intros _.
    apply (c_mbind _ _ C); [now apply cl_repeat|]. intros _. apply cl_ensure_empty.
  - apply (c_limited _ _ C), (c_mbind _ _ C); [apply (c_on_reader _ _ C), cl_ilint|]. intros a.
    apply (c_mbind _ _ C); [apply (c_modify _ _ C)|]. intros _.
    apply (c_mbind _ _ C); [apply (c_on_reader _ _ C), cl_uint|]. intros b.
    apply (c_mbind _ _ C); [apply (c_modify _ _ C)|]. intros _. apply cl_ensure_empty.
  - apply (c_mbind _ _ C); [apply cl_check_size|]. intros _.
    do 3 (apply (c_mbind _ _ C); [apply (c_on_reader _ _ C), cl_sint|]; intros ?; apply (c_mbind _ _ C); [apply (c_modify _ _ C)|]; intros _).
    apply (c_mbind _ _ C); [apply (c_on_reader _ _ C), cl_sint|]. intros ?. apply (c_modify _ _ C).
  - apply (c_limited _ _ C), (c_mbind _ _ C); [apply (c_on_reader _ _ C), cl_ilint|]. intros count.
    apply (c_mbind _ _ C); [apply cl_guard|]. intros _. apply (c_mbind _ _ C); [apply (c_modify _ _ C)|]. intros _.
    apply (c_mbind _ _ C); [apply cl_repeat, cl_ilint|]. intros _. apply cl_ensure_empty.
  - apply (c_limited _ _ C), (c_mbind _ _ C); [apply (c_on_reader _ _ C), cl_ilint|]. intros count.
    apply (c_mbind _ _ C); [apply (c_modify _ _ C)|]. intros _.
    apply (c_mbind _ _ C); [|intros _; apply cl_ensure_empty]. apply cl_repeat.
    apply (c_bind _ _ C); [apply cl_string|]. intros key. apply (c_bind _ _ C); [exact Hd|]. intros t. apply cl_ret.
  - apply (c_limited _ _ C), (c_mbind _ _ C); [apply (c_on_reader _ _ C), cl_ilint|]. intros count.
    apply (c_mbind _ _ C); [apply (c_modify _ _ C)|]. intros _.
    apply (c_mbind _ _ C); [|intros _; apply cl_ensure_empty]. apply cl_repeat.
    apply (c_bind _ _ C); [apply cl_string|]. intros key. apply (c_bind _ _ C); [apply cl_string|]. intros t. apply cl_ret.
Qed.
(** deserialize_tag_value_into, with the tag it fills as the result. *)
Lemma cl_into n t : R (fun r => let '(x, t', r') := deserialize_tag_value_into d n t r in (map_ok (fun _ => t') x, r')).
Proof.
  apply (c_ext _ _ C) with (m := fun r => let '(x, (s', r')) :=
    limited n (v <- on_reader (fun r => let '(x, v', r') := deserialize_value d (tag_val t) n r in (map_ok (fun _ => v') x, r')) ;;
               (fun st => (if negb (tag_id t =? IL_ILINT_TAG_ID) && negb (tag_id t =? IL_SIGNED_ILINT_TAG_ID)
                              && negb (limit_empty (snd st)) then Err CorruptedData else Ok (Tag (tag_id t) v), st))) (tt, r) in (x, r')).
  - intros r. unfold limited, deserialize_tag_value_into, on_reader, bind.
    destruct (deserialize_value d (tag_val t) n (LimitedReader_new r n)) as [[[[]|e| |] v'] r'];
      cbn [map_ok tag_id snd]; try reflexivity. destruct (_ && _); reflexivity.
  - apply (c_run _ _ C unit tag tag tt _ (fun x _ => x)); [reflexivity|].
    apply (c_limited _ _ C), (c_mbind _ _ C).
    + apply (c_on_reader _ _ C). apply (cl_value _ n (fun x v' => map_ok (fun _ => v') x)). now intros [a|e| |] v'.
    + intros v. apply (c_query _ _ C).
Qed.
End Value.
Lemma cl_tag_size id : R (deserialize_tag_size id).
Proof.
  apply (c_bind _ _ C); [destruct (is_implicit_tag id); [apply cl_ret|apply cl_ilint]|].
  intros n. apply (c_const _ _ C).
Qed.
Lemma cl_deserialize_fuel e f : R (deserialize_fuel f e).
Proof.
  induction f as [|f IH]; [exact (c_const _ _ C _ _ OutOfFuel)|].
  cbn [deserialize_fuel]. apply (c_bind _ _ C); [apply cl_ilint|]. intros id.
  apply (c_bind _ _ C); [apply cl_tag_size|]. intros n.
  apply (c_bind _ _ C); [apply (c_const _ _ C)|]. intros [t|]; [now apply cl_into|apply cl_fail].
Qed.
End Closed.

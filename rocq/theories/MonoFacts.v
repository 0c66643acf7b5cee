(** Two runs of a reading function on readers of which one has more data than
    the other: they agree unless the first one runs out of data. *)
From Verif Require Import Base BaseFacts Types IO IOSpec IOFacts ILInt Data Tags Factory.

(** What a well-behaved reader reports when it has not enough data. *)
Fixpoint runs_out (r : reader) (e : io_error) : Prop :=
  match r with
  | RByteArray _ _ | RVec _ _ => e = EndOfData \/ e = UnableToReadData
  | RLimited src _ => e = UnableToReadData \/ runs_out src e
  | RRead _ _ => e = IOErrorStd UnexpectedEof
  | RSeek _ => e = UnableToReadData
  | RCustom _ => e = EndOfData
  end.
(** The I/O errors that say that data is missing. *)
Definition no_data (i : io_error) : Prop := i = EndOfData \/ i = UnableToReadData \/ i = IOErrorStd UnexpectedEof.
Lemma runs_out_no_data r i : runs_out r i -> no_data i.
Proof.
  unfold no_data. induction r; cbn [runs_out]; intuition (subst; auto).
Qed.
Lemma runs_out_delivers r bs r' : delivers r bs r' -> forall e, runs_out r' e -> runs_out r e.
Proof.
  revert r'; induction r; intros r' D e0; destruct r'; cbn [delivers] in D; try contradiction; cbn [runs_out]; auto.
  intros [->|H]; [now left|right]. destruct D as (_ & _ & D). eauto.
Qed.
Lemma read_all_short_error n r : good r -> lenN (pending r) < n ->
  exists e got r', read_all n r = (Err e, got, r') /\ runs_out r e.
Proof.
  revert n; induction r as [a o|v o|s IH m|d sc|s|sc]; intros n G H; cbn [good pending read_all runs_out] in *;
    rewrite ?vecr_read_all_eq.
  - rewrite lenN_dropN in H. unfold mem_read_all. rewrite mem_can_read_cases by assumption.
    destruct (N.eqb_spec n 0); [lia|]. destruct (N.eqb_spec o (lenN a)); [eauto 8|].
    destruct (N.ltb_spec (lenN a - o) n); [eauto 8|lia].
  - rewrite lenN_dropN in H. unfold mem_read_all. rewrite mem_can_read_cases by assumption.
    destruct (N.eqb_spec n 0); [lia|]. destruct (N.eqb_spec o (lenN v)); [eauto 8|].
    destruct (N.ltb_spec (lenN v - o) n); [eauto 8|lia].
  - rewrite lenN_takeN in H. destruct (N.ltb_spec m n); [eauto 8|].
    destruct (IH n G) as (e & got & r' & -> & Se); [lia|]. eauto 8.
  - destruct (read_exact_short n d sc G H) as (got & d' & sc' & ->). cbn. eauto 8.
  - destruct s as [d p sc k]. cbn [sk_pos sk_data sk_sched sk_seeks] in *. unfold seek_read_all.
    destruct G as [G _]. destruct (read_exact_short n (dropN p d) sc G H) as (got & d' & sc' & ->). eauto 8.
  - pose proof (script_bytes_length sc G) as L.
    rewrite read_custom_all_short; [|assumption|unfold lenN in *; lia]. eauto 8.
Qed.

Section Short.
(** The errors that mean a lack of data: the ones of the reader, and the one of
    the limits around it. *)
Variable short_error : io_error -> Prop.
Hypothesis short_limit : short_error UnableToReadData.

(** The same [k] limits around two well-behaved readers, the second of which has
    [q] after the bytes of the first. *)
Fixpoint ext (q : list N) (k : nat) (r r' : reader) : Prop :=
  match k with
  | O => rwf r /\ good r /\ rwf r' /\ good r' /\ (forall e, runs_out r e -> short_error e) /\ pending r' = pending r ++ q
  | S k => exists a b n, r = RLimited a n /\ r' = RLimited b n /\ ext q k a b
  end.

Lemma ext_rwf q k r r' : ext q k r r' -> rwf r /\ rwf r'.
Proof.
  revert r r'; induction k as [|k IH]; intros r r'; cbn [ext]; [tauto|].
  intros (a & b & n & -> & -> & X). cbn [rwf]. auto.
Qed.
Lemma ext_read_all q k n : forall r r', ext q k r r' ->
  (exists e got s, read_all n r = (Err e, got, s) /\ short_error e) \/
  (exists got s s', read_all n r = (Ok tt, got, s) /\ read_all n r' = (Ok tt, got, s') /\ ext q k s s').
Proof.
  induction k as [|k IH]; intros r r'; cbn [ext].
  - intros (W & G & W' & G' & Se & P). destruct (N.le_gt_cases n (lenN (pending r))) as [L|L].
    + right. destruct (read_all_good n r G L) as [s E].
      destruct (read_all_good n r' G') as [s' E']; [rewrite P, lenN_app; lia|].
      rewrite P, takeN_app in E'. replace (n - lenN (pending r)) with 0 in E' by lia.
      rewrite takeN_0, app_nil_r in E'. exists (takeN n (pending r)), s, s'. split; [exact E|]. split; [exact E'|].
      apply read_all_ok in E as [_ D]. apply read_all_ok in E' as [_ D']. remember (takeN n (pending r)) as got.
      destruct (pending_delivers _ _ _ G D) as [P1 G1]. destruct (pending_delivers _ _ _ G' D') as [P2 G2].
      destruct (delivers_rwf _ _ _ W D) as [W1 _]. destruct (delivers_rwf _ _ _ W' D') as [W2 _].
      repeat (split; [assumption|]). split; [eauto using runs_out_delivers|]. rewrite P2, P1 in P. rewrite <- app_assoc in P. apply app_inv_head in P. exact P.
    + left. destruct (read_all_short_error n r G L) as (e & got & s & E & Re). eauto 8.
  - intros (a & b & m & -> & -> & X). cbn [read_all]. destruct (N.ltb_spec m n) as [L|L].
    + left. eauto 8.
    + destruct (IH a b X) as [(e & got & s & -> & Se)|(got & s & s' & -> & -> & X')].
      * left. eauto.
      * right. exists got, (RLimited s (m - n)), (RLimited s' (m - n)). split; [reflexivity|]. split; [reflexivity|]. eauto 8.
Qed.

(** ** Rules *)
Section Rules.
Context {E : Type} (sh fin : E -> Prop).
(** The errors in [fin] are decided by the bytes read. *)
Definition final {A} (x : res E A) : Prop := match x with Err e => fin e | _ => True end.
(** The first run lacked data, or one of the two was cut short by its fuel. *)
Definition gives_up {A} (x y : res E A) : Prop :=
  (exists e, x = Err e /\ sh e) \/ x = OutOfFuel \/ y = OutOfFuel.
(** Actions on a reader. *)
Definition rel {A} q k (m m' : reader -> res E A * reader) : Prop :=
  forall r r' x s y s', ext q k r r' -> m r = (x, s) -> m' r' = (y, s') ->
    gives_up x y \/ (x = y /\ final x /\ ext q k s s').
(** Actions on a state and a reader. *)
Definition mrel {S A} q k (m m' : S * reader -> res E A * (S * reader)) : Prop :=
  forall u r r' x v s y v' s', ext q k r r' -> m (u, r) = (x, (v, s)) -> m' (u, r') = (y, (v', s')) ->
    gives_up x y \/ (x = y /\ final x /\ v = v' /\ ext q k s s').

Lemma rel_const {A} q k (x : res E A) : final x -> rel q k (fun r => (x, r)) (fun r => (x, r)).
Proof. intros F r r' y s z s' X [= <- <-] [= <- <-]. auto. Qed.
Lemma rel_ret {A} q k (a : A) : rel q k (ret a) (ret a).
Proof. now apply rel_const. Qed.
Lemma rel_fail {A} q k (e : E) : fin e -> rel q k (@fail reader E A e) (@fail reader E A e).
Proof. exact (rel_const q k (Err e)). Qed.
Lemma rel_bind {A B} q k (m m' : reader -> res E A * reader) (f f' : A -> reader -> res E B * reader) :
  rel q k m m' -> (forall a, rel q k (f a) (f' a)) -> rel q k (bind m f) (bind m' f').
Proof.
  intros Hm Hf r r' x s y s' X. unfold bind. destruct (m r) as [x1 s1] eqn:E1. destruct (m' r') as [y1 s1'] eqn:E2.
  intros K1 K2. destruct (Hm _ _ _ _ _ _ X E1 E2) as [[(e & -> & He)|[->| ->]]|(-> & F & X1)].
  - left. left. injection K1 as <- <-. eauto.
  - left. right. left. now injection K1 as <- <-.
  - left. right. right. now injection K2 as <- <-.
  - destruct y1 as [a|e| |]; [eapply Hf; eauto| | |]; injection K1 as <- <-; injection K2 as <- <-; auto.
Qed.
Lemma mrel_const {S A} q k (x : res E A) : final x -> mrel q k (fun st : S * reader => (x, st)) (fun st => (x, st)).
Proof. intros F u r r' y v s z v' s' X [= <- <- <-] [= <- <- <-]. auto. Qed.
Lemma mrel_ret {S A} q k (a : A) : mrel q k (@ret (S * reader) E A a) (ret a).
Proof. now apply mrel_const. Qed.
Lemma mrel_fail {S A} q k (e : E) : fin e -> mrel q k (@fail (S * reader) E A e) (fail e).
Proof. exact (mrel_const q k (Err e)). Qed.
Lemma mrel_bind {S A B} q k (m m' : S * reader -> res E A * (S * reader)) (f f' : A -> S * reader -> res E B * (S * reader)) :
  mrel q k m m' -> (forall a, mrel q k (f a) (f' a)) -> mrel q k (bind m f) (bind m' f').
Proof.
  intros Hm Hf u r r' x v s y v' s' X. unfold bind.
  destruct (m (u, r)) as [x1 [u1 s1]] eqn:E1. destruct (m' (u, r')) as [y1 [u1' s1']] eqn:E2.
  intros K1 K2. destruct (Hm _ _ _ _ _ _ _ _ _ X E1 E2) as [[(e & -> & He)|[->| ->]]|(-> & F & -> & X1)].
  - left. left. injection K1 as <- <- <-. eauto.
  - left. right. left. now injection K1 as <- <- <-.
  - left. right. right. now injection K2 as <- <- <-.
  - destruct y1 as [a|e| |]; [eapply Hf; eauto| | |]; injection K1 as <- <- <-; injection K2 as <- <- <-; auto.
Qed.
End Rules.

Lemma rel_lift {E E' A} (sh fin : E -> Prop) (sh' fin' : E' -> Prop) q k (f : E -> E') (m m' : reader -> res E A * reader) :
  (forall e, sh e -> sh' (f e)) -> (forall e, fin e -> fin' (f e)) -> rel sh fin q k m m' -> rel sh' fin' q k (lift_err f m) (lift_err f m').
Proof.
  intros Hf Hg Hm r r' x s y s' X. unfold lift_err. destruct (m r) as [x1 s1] eqn:E1. destruct (m' r') as [y1 s1'] eqn:E2.
  intros [= <- <-] [= <- <-]. destruct (Hm _ _ _ _ _ _ X E1 E2) as [[(e & -> & He)|[->| ->]]|(-> & F & X1)].
  - left. left. cbn. eauto.
  - left. right. now left.
  - left. right. now right.
  - right. split; [reflexivity|]. split; [|exact X1]. destruct y1; cbn in *; auto.
Qed.

Ltac agree := right; split; [reflexivity|split; [first [exact I|assumption]|auto]].
(** ** The functions of Data.v *)
Definition io_final (e : io_error) : Prop := e = IoCorruptedData.
Definition ilint_final (e : ilint_error) : Prop := e = ValueOverflow \/ e = InvalidFormat.
Lemma rel_read fin q k : rel short_error fin q k read read.
Proof.
  intros r r' x s y s' X. destruct (ext_rwf _ _ _ _ X) as [W W'].
  rewrite !read_as_read_all by assumption.
  destruct (ext_read_all q k 1 r r' X) as [(e & got & z & -> & Se)|(got & z & z' & -> & -> & X')].
  - intros [= <- <-] _. left. left. cbn. eauto.
  - intros [= <- <-] [= <- <-]. agree.
Qed.
Lemma rel_fetch fin q k n : rel short_error fin q k (fetch n) (fetch n).
Proof.
  intros r r' x s y s' X. unfold fetch.
  destruct (ext_read_all q k n r r' X) as [(e & got & z & -> & Se)|(got & z & z' & -> & -> & X')].
  - intros [= <- <-] _. left. left. cbn. eauto.
  - intros [= <- <-] [= <- <-]. agree.
Qed.
Definition ilint_short (e : ilint_error) : Prop := exists i, e = ILIntIO i /\ short_error i.
Lemma rel_decode q k : rel ilint_short ilint_final q k decode decode.
Proof.
  unfold decode. apply rel_bind.
  - apply rel_lift with short_error (fun _ => False); [unfold ilint_short; eauto|contradiction|apply rel_read].
  - intros header. cbv zeta. destruct (_ =? 1); [apply rel_ret|]. apply rel_bind.
    + apply rel_lift with short_error (fun _ => False); [unfold ilint_short; eauto|contradiction|apply rel_fetch].
    + intros body. apply rel_const. unfold decode_body. cbv zeta.
      destruct (_ || _); [right; reflexivity|]. destruct (_ <? _); [left; reflexivity|exact I].
Qed.
Lemma rel_read_ilint q k : rel short_error io_final q k read_ilint read_ilint.
Proof. apply rel_lift with ilint_short ilint_final; [intros e (i & -> & H); exact H|intros e [->| ->]; reflexivity|apply rel_decode]. Qed.
Lemma rel_read_signed_ilint q k : rel short_error io_final q k read_signed_ilint read_signed_ilint.
Proof.
  apply rel_lift with ilint_short ilint_final; [intros e (i & -> & H); exact H|intros e [->| ->]; reflexivity|].
  apply rel_bind; [apply rel_decode|]. intros a. apply rel_ret.
Qed.
Lemma rel_read_uint q k w : rel short_error io_final q k (read_uint w) (read_uint w).
Proof. destruct w; [apply rel_read|..]; (apply rel_bind; [apply rel_fetch|]; intros; apply rel_ret). Qed.
Lemma rel_read_sint q k w : rel short_error io_final q k (read_sint w) (read_sint w).
Proof. destruct w; (apply rel_bind; [first [apply rel_read|apply rel_fetch]|]; intros; apply rel_ret). Qed.

(** The tag errors decided by the bytes read. *)
Definition decided (e : tag_error) : Prop :=
  e = CorruptedData \/ e = UnknownTag \/ e = TagTooLarge \/ e = TagIO IoCorruptedData.
Lemma decided_corrupted : decided CorruptedData.
Proof. unfold decided. auto. Qed.
(** The tag errors that mean a lack of data. *)
Definition lacks (e : tag_error) : Prop := exists i, e = TagIO i /\ short_error i.
Lemma rel_tag {A} q k (m m' : reader -> res io_error A * reader) :
  rel short_error io_final q k m m' -> rel lacks decided q k (lift_err TagIO m) (lift_err TagIO m').
Proof. apply rel_lift; [unfold lacks; eauto|]. intros e ->. unfold decided. auto. Qed.
Lemma rel_ilint q k : rel lacks decided q k deserialize_ilint deserialize_ilint.
Proof. apply rel_tag, rel_read_ilint. Qed.
Lemma rel_bytes q k n : rel lacks decided q k (deserialize_bytes n) (deserialize_bytes n).
Proof. apply rel_tag, rel_fetch. Qed.

(** ** The functions of Factory.v *)
Lemma mrel_on_reader {S A} q k (m m' : reader -> res tag_error A * reader) :
  rel lacks decided q k m m' -> mrel lacks decided q k (@on_reader S A m) (on_reader m').
Proof.
  intros H u r r' x v s y v' s' X. unfold on_reader. destruct (m r) as [x1 s1] eqn:E1. destruct (m' r') as [y1 s1'] eqn:E2.
  intros [= <- <- <-] [= <- <- <-]. destruct (H _ _ _ _ _ _ X E1 E2) as [K|(-> & F & K)]; auto.
Qed.
Lemma mrel_modify {S} q k (f : S -> S) : mrel lacks decided q k (modify f) (modify f).
Proof. intros u r r' x v s y v' s' X [= <- <- <-] [= <- <- <-]. agree. Qed.
Lemma mrel_limited {S A} q k n (m m' : method S A) :
  mrel lacks decided q (Datatypes.S k) m m' -> mrel lacks decided q k (limited n m) (limited n m').
Proof.
  intros H u r r' x v s y v' s' X. unfold limited, LimitedReader_new.
  destruct (m (u, RLimited r n)) as [x1 [v1 s1]] eqn:E1. destruct (m' (u, RLimited r' n)) as [y1 [v1' s1']] eqn:E2.
  intros [= <- <- <-] [= <- <- <-].
  assert (X' : ext q (Datatypes.S k) (RLimited r n) (RLimited r' n)) by (cbn [ext]; eauto 8).
  destruct (H _ _ _ _ _ _ _ _ _ X' E1 E2) as [K|(-> & F & -> & K)]; [auto|]. right. split; [reflexivity|]. split; [exact F|]. split; [reflexivity|].
  destruct K as (a & b & n' & -> & -> & K). exact K.
Qed.
Lemma ext_limit_empty q k r r' : ext q (S k) r r' -> limit_empty r = limit_empty r'.
Proof. intros (a & b & n & -> & -> & _). reflexivity. Qed.
Lemma mrel_ensure_empty {S} q k e : decided e ->
  mrel lacks decided q (Datatypes.S k) (@limited_reader_ensure_empty S e) (limited_reader_ensure_empty e).
Proof.
  intros De u r r' x v s y v' s' X. unfold limited_reader_ensure_empty. cbn [snd]. rewrite (ext_limit_empty _ _ _ _ X).
  intros [= <- <- <-] [= <- <- <-]. right. split; [reflexivity|]. split; [destruct (limit_empty r'); [exact I|exact De]|auto].
Qed.
Lemma mrel_repeat_read {S A} q k (m m' : reader -> res tag_error A * reader) (store : A -> S -> S) :
  rel lacks decided q k m m' -> forall f f' count, mrel lacks decided q k (repeat_read f m store count) (repeat_read f' m' store count).
Proof.
  intros H. induction f as [|f IH]; intros f' count.
  - destruct f' as [|f']; cbn [repeat_read]; destruct (count =? 0); try (apply mrel_ret);
      intros u r r' x v s y v' s' X [= <- <- <-] _; left; right; now left.
  - destruct f' as [|f']; cbn [repeat_read]; destruct (count =? 0); try (apply mrel_ret).
    + intros u r r' x v s y v' s' X _ [= <- <- <-]. left. right. now right.
    + apply mrel_bind; [now apply mrel_on_reader|]. intros a. apply mrel_bind; [apply mrel_modify|]. intros _. apply IH.
Qed.
Lemma mrel_while_read {S A} q k (m m' : reader -> res tag_error A * reader) (store : A -> S -> S) :
  rel lacks decided q (Datatypes.S k) m m' -> forall f f', mrel lacks decided q (Datatypes.S k) (while_read f m store) (while_read f' m' store).
Proof.
  intros H. induction f as [|f IH]; intros f'.
  - intros u r r' x v s y v' s' X. destruct f' as [|f']; cbn [while_read snd]; rewrite (ext_limit_empty _ _ _ _ X); destruct (limit_empty r').
    + intros [= <- <- <-] [= <- <- <-]. agree.
    + intros [= <- <- <-] _. left. right. now left.
    + intros [= <- <- <-] [= <- <- <-]. agree.
    + intros [= <- <- <-] _. left. right. now left.
  - intros u r r' x v s y v' s' X. destruct f' as [|f']; cbn [while_read snd]; rewrite (ext_limit_empty _ _ _ _ X); destruct (limit_empty r').
    + intros [= <- <- <-] [= <- <- <-]. agree.
    + intros _ [= <- <- <-]. left. right. now right.
    + intros [= <- <- <-] [= <- <- <-]. agree.
    + intros K1 K2. eapply (mrel_bind lacks decided q (Datatypes.S k) (on_reader m) (on_reader m')); [now apply mrel_on_reader| |exact X|exact K1|exact K2].
      intros a. apply mrel_bind; [apply mrel_modify|]. intros _. apply IH.
Qed.
Lemma mrel_fuelled {S A} q k (m m' : nat -> method S A) :
  (forall f f', mrel lacks decided q k (m f) (m' f')) -> mrel lacks decided q k (fuelled m) (fuelled m').
Proof. intros H u r r' x v s y v' s' X. unfold fuelled. cbn [snd]. now apply H. Qed.
Lemma mrel_set_from {A} q k (m : reader -> res tag_error A * reader) : rel lacks decided q k m m -> mrel lacks decided q k (set_from m) (set_from m).
Proof. intros H. apply mrel_bind; [now apply mrel_on_reader|]. intros a. apply mrel_modify. Qed.
Lemma mrel_guard {S} q k (c : bool) e : decided e -> mrel lacks decided q k (if c then @fail (S * reader) tag_error unit e else ret tt) (if c then fail e else ret tt).
Proof. intros De. destruct c; [now apply mrel_fail|apply mrel_ret]. Qed.
Lemma mrel_check_size {S} q k n m : mrel lacks decided q k (@check_size S n m) (check_size n m).
Proof. unfold check_size. destruct (n =? m); [apply mrel_ret|apply mrel_fail, decided_corrupted]. Qed.
Lemma mrel_in_place q k : mrel lacks decided q k in_place in_place.
Proof.
  intros u r r' x v s y v' s' X. unfold in_place, into_slice.
  destruct (ext_read_all q k (lenN u) r r' X) as [(e & got & z & -> & Se)|(got & z & z' & -> & -> & X')].
  - intros [= <- <- <-] _. left. left. exists (TagIO e). split; [reflexivity|]. unfold lacks. eauto.
  - intros [= <- <- <-] [= <- <- <-]. agree.
Qed.
Lemma mrel_raw q k n : mrel lacks decided q k (raw_deserialize n) (raw_deserialize n).
Proof.
  intros u r r' x v s y v' s' X. unfold raw_deserialize, into_vec.
  exact (mrel_in_place q k (resizeN n 0 u) r r' x v s y v' s' X).
Qed.
Lemma mrel_on_snd {S T A} q k (m m' : method T A) : mrel lacks decided q k m m' -> mrel lacks decided q k (@on_snd S T A m) (on_snd m').
Proof.
  intros H [u w] r r' x v s y v' s' X. unfold on_snd.
  destruct (m (w, r)) as [x1 [v1 s1]] eqn:E1. destruct (m' (w, r')) as [y1 [v1' s1']] eqn:E2.
  intros [= <- <- <-] [= <- <- <-]. destruct (H _ _ _ _ _ _ _ _ _ X E1 E2) as [K|(-> & F & -> & K)]; auto.
Qed.
Lemma final_size n : final decided (tag_size_to_usize n).
Proof. unfold tag_size_to_usize, decided. destruct (_ <? _); cbn; auto. Qed.
Lemma mrel_string_into q k : mrel lacks decided q k deserialize_string_tag_from_value_into deserialize_string_tag_from_value_into.
Proof.
  unfold deserialize_string_tag_from_value_into.
  apply mrel_bind; [apply mrel_on_reader, rel_ilint|]. intros id.
  apply mrel_bind; [apply mrel_guard, decided_corrupted|]. intros _.
  apply mrel_bind; [apply mrel_on_reader, rel_ilint|]. intros len.
  apply mrel_bind; [apply mrel_const, final_size|]. intros n.
  apply mrel_bind; [apply mrel_on_reader, rel_bytes|]. intros tmp.
  destruct (from_utf8 tmp); [apply mrel_modify|apply mrel_fail, decided_corrupted].
Qed.
Lemma rel_string_tag q k : rel lacks decided q k deserialize_string_tag_from_value deserialize_string_tag_from_value.
Proof.
  intros r r' x s y s' X. unfold deserialize_string_tag_from_value.
  destruct (deserialize_string_tag_from_value_into ([], r)) as [x1 [v1 s1]] eqn:E1.
  destruct (deserialize_string_tag_from_value_into ([], r')) as [y1 [v1' s1']] eqn:E2.
  intros [= <- <-] [= <- <-]. destruct (mrel_string_into q k _ _ _ _ _ _ _ _ _ X E1 E2) as [[(e & -> & He)|[->| ->]]|(-> & F & -> & K)].
  - left. left. eauto.
  - left. right. now left.
  - left. right. now right.
  - right. split; [reflexivity|]. split; [|exact K]. destruct y1; exact F.
Qed.

(** [run] of related methods: same result, value and reader relation. *)
Definition vrel q k (m m' : reader -> res tag_error unit * value * reader) : Prop :=
  forall r r' x v s y v' s', ext q k r r' -> m r = (x, v, s) -> m' r' = (y, v', s') ->
    gives_up lacks x y \/ (x = y /\ final decided x /\ v = v' /\ ext q k s s').
Lemma vrel_run {S} q k (m m' : method S unit) s mk : mrel lacks decided q k m m' -> vrel q k (run m s mk) (run m' s mk).
Proof.
  intros H r r' x v s1 y v' s1' X. unfold run.
  destruct (m (s, r)) as [x1 [v1 s2]] eqn:E1. destruct (m' (s, r')) as [y1 [v1' s2']] eqn:E2.
  intros [= <- <- <-] [= <- <- <-]. destruct (H _ _ _ _ _ _ _ _ _ X E1 E2) as [K|(-> & F & -> & K)]; auto.
Qed.
Lemma vrel_deserialize_value q d d' : (forall k, rel lacks decided q k d d') ->
  forall v n k, vrel q k (deserialize_value d v n) (deserialize_value d' v n).
Proof.
  intros Hd v n k. destruct v; cbn [deserialize_value]; apply vrel_run;
    try apply mrel_raw.
  - apply mrel_check_size.
  - apply mrel_bind; [apply mrel_check_size|]. intros _.
    apply mrel_bind; [apply mrel_on_reader, rel_tag, rel_read_uint|]. intros a.
    destruct (a =? 0); [apply mrel_modify|]. destruct (a =? 1); [apply mrel_modify|apply mrel_fail, decided_corrupted].
  - apply mrel_bind; [apply mrel_check_size|]. intros _. apply mrel_set_from, rel_tag, rel_read_uint.
  - apply mrel_bind; [apply mrel_check_size|]. intros _. apply mrel_set_from, rel_tag, rel_read_sint.
  - apply mrel_bind; [apply mrel_check_size|]. intros _. apply mrel_set_from, rel_tag.
    apply rel_bind; [apply rel_read_uint|]. intros a. apply rel_ret.
  - apply mrel_bind; [apply mrel_check_size|]. intros _. apply mrel_set_from, rel_tag.
    apply rel_bind; [apply rel_read_uint|]. intros a. apply rel_ret.
  - apply mrel_bind; [apply mrel_check_size|]. intros _. apply mrel_in_place.
  - apply mrel_set_from, rel_ilint.
  - apply mrel_set_from, rel_tag, rel_read_signed_ilint.
  - apply mrel_bind; [apply mrel_on_reader, rel_bytes|]. intros tmp.
    destruct (from_utf8 tmp); [apply mrel_modify|apply mrel_fail, decided_corrupted].
  - apply mrel_bind; [apply mrel_guard, decided_corrupted|]. intros _.
    apply mrel_bind; [apply mrel_on_reader, rel_tag, rel_read_sint|]. intros a.
    apply mrel_bind; [apply mrel_modify|]. intros _. apply mrel_on_snd, mrel_raw.
  - apply mrel_limited, mrel_bind; [apply mrel_on_reader, rel_ilint|]. intros count.
    apply mrel_bind; [apply mrel_guard, decided_corrupted|]. intros _. apply mrel_bind; [apply mrel_modify|]. intros _.
    apply mrel_bind; [apply mrel_fuelled; intros; apply mrel_repeat_read, rel_ilint|]. intros _. apply mrel_ensure_empty, decided_corrupted.
  - apply mrel_limited, mrel_bind; [apply mrel_modify|]. intros _. apply mrel_fuelled. intros. apply mrel_while_read, Hd.
  - apply mrel_limited, mrel_bind; [apply mrel_on_reader, rel_ilint|]. intros count.
    apply mrel_bind; [apply mrel_guard, decided_corrupted|]. intros _. apply mrel_bind; [apply mrel_modify|]. intros _.
    apply mrel_bind; [apply mrel_fuelled; intros; now apply mrel_repeat_read|]. intros _. apply mrel_ensure_empty, decided_corrupted.
  - apply mrel_limited, mrel_bind; [apply mrel_on_reader, rel_ilint|]. intros a.
    apply mrel_bind; [apply mrel_modify|]. intros _.
    apply mrel_bind; [apply mrel_on_reader, rel_tag, rel_read_uint|]. intros b.
    apply mrel_bind; [apply mrel_modify|]. intros _. apply mrel_ensure_empty, decided_corrupted.
  - apply mrel_bind; [apply mrel_check_size|]. intros _.
    do 3 (apply mrel_bind; [apply mrel_on_reader, rel_tag, rel_read_sint|]; intros ?; apply mrel_bind; [apply mrel_modify|]; intros _).
    apply mrel_bind; [apply mrel_on_reader, rel_tag, rel_read_sint|]. intros ?. apply mrel_modify.
  - apply mrel_limited, mrel_bind; [apply mrel_on_reader, rel_ilint|]. intros count.
    apply mrel_bind; [apply mrel_guard, decided_corrupted|]. intros _. apply mrel_bind; [apply mrel_modify|]. intros _.
    apply mrel_bind; [apply mrel_fuelled; intros; apply mrel_repeat_read, rel_ilint|]. intros _. apply mrel_ensure_empty, decided_corrupted.
  - apply mrel_limited, mrel_bind; [apply mrel_on_reader, rel_ilint|]. intros count.
    apply mrel_bind; [apply mrel_modify|]. intros _.
    apply mrel_bind; [|intros _; apply mrel_ensure_empty, decided_corrupted].
    apply mrel_fuelled; intros; apply mrel_repeat_read.
    apply rel_bind; [apply rel_string_tag|]. intros key. apply rel_bind; [apply Hd|]. intros t. apply rel_ret.
  - apply mrel_limited, mrel_bind; [apply mrel_on_reader, rel_ilint|]. intros count.
    apply mrel_bind; [apply mrel_modify|]. intros _.
    apply mrel_bind; [|intros _; apply mrel_ensure_empty, decided_corrupted].
    apply mrel_fuelled; intros; apply mrel_repeat_read.
    apply rel_bind; [apply rel_string_tag|]. intros key. apply rel_bind; [apply rel_string_tag|]. intros t. apply rel_ret.
Qed.
(** deserialize_tag_value_into and the tag it leaves. *)
Lemma into_rel q d d' : (forall k, rel lacks decided q k d d') ->
  forall n t k r r' x t1 s y t2 s', ext q k r r' ->
  deserialize_tag_value_into d n t r = (x, t1, s) -> deserialize_tag_value_into d' n t r' = (y, t2, s') ->
  gives_up lacks x y \/ (x = y /\ final decided x /\ t1 = t2 /\ ext q k s s').
Proof.
  intros Hd n t k r r' x t1 s y t2 s' X. unfold deserialize_tag_value_into, LimitedReader_new.
  destruct (deserialize_value d (tag_val t) n (RLimited r n)) as [[x1 v1] s1] eqn:E1.
  destruct (deserialize_value d' (tag_val t) n (RLimited r' n)) as [[y1 v2] s2] eqn:E2.
  assert (X' : ext q (Datatypes.S k) (RLimited r n) (RLimited r' n)) by (cbn [ext]; eauto 8).
  intros [= <- <- <-] [= <- <- <-].
  destruct (vrel_deserialize_value q d d' Hd _ _ _ _ _ _ _ _ _ _ _ X' E1 E2) as [[(e & -> & He)|[->| ->]]|(-> & F & -> & K)].
  - left. left. eauto.
  - left. right. now left.
  - left. right. now right.
  - right. rewrite (ext_limit_empty _ _ _ _ K). split; [reflexivity|]. split; [|split; [reflexivity|]].
    { destruct y1; try exact F. destruct (_ && _); [apply decided_corrupted|exact I]. }
    destruct K as (a & b & n' & -> & -> & K). exact K.
Qed.
Lemma rel_tag_size q k id : rel lacks decided q k (deserialize_tag_size id) (deserialize_tag_size id).
Proof.
  unfold deserialize_tag_size. apply rel_bind; [|intros; apply rel_const, final_size].
  destruct (is_implicit_tag id); [apply rel_ret|apply rel_ilint].
Qed.
Lemma final_create e id : final decided (create_tag e id).
Proof.
  unfold create_tag, ILRawTag_new. destruct (cr_get id (creators e)) as [c|]; [destruct (c id); exact I|].
  destruct (is_implicit_tag id); destruct (strict e); exact I.
Qed.
Lemma rel_deserialize_fuel q e : forall f f' k, rel lacks decided q k (deserialize_fuel f e) (deserialize_fuel f' e).
Proof.
  induction f as [|f IH]; intros f' k.
  - intros r r' x s y s' X [= <- <-] _. left. right. now left.
  - destruct f' as [|f'].
    + intros r r' x s y s' X _ [= <- <-]. left. right. now right.
    + intros r r' x s y s' X. cbn [deserialize_fuel]. intros K1 K2.
      eapply rel_bind; [apply rel_ilint| |exact X|exact K1|exact K2]. intros id.
      apply rel_bind; [apply rel_tag_size|]. intros n. apply rel_bind; [apply rel_const, final_create|]. intros [t|]; [|apply rel_fail; unfold decided; auto].
      clear -IH short_limit. intros r r' x s y s' X.
      destruct (deserialize_tag_value_into (deserialize_fuel f e) n t r) as [[x1 t1] s1] eqn:E1.
      destruct (deserialize_tag_value_into (deserialize_fuel f' e) n t r') as [[y1 t2] s2] eqn:E2.
      intros [= <- <-] [= <- <-].
      destruct (into_rel q _ _ (fun k => IH f' k) _ _ _ _ _ _ _ _ _ _ _ X E1 E2) as [[(err & -> & He)|[->| ->]]|(-> & F & -> & K)].
      * left. left. cbn. eauto.
      * left. right. now left.
      * left. right. now right.
      * right. split; [reflexivity|]. split; [|exact K]. destruct y1; exact F.
Qed.
End Short.

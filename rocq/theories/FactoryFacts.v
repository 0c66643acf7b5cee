(** Proofs about Factory.v: the deserializer against the wire grammar. *)
From Verif Require Import Base BaseFacts Types Spec SpecFacts IO IOSpec IOFacts Logic
  ILInt ILIntFacts Data DataFacts Tags SortFacts Factory.

(** ** Rules for methods *)
(** Terminates; panics only if [pan]. *)
Definition okres (pan : Prop) {E A} (x : res E A) : Prop :=
  match x with OutOfFuel => False | Panic => pan | _ => True end.
Lemma returns_okres pan {E A} (x : res E A) : returns x -> okres pan x.
Proof. destruct x; cbn; auto; contradiction. Qed.

Definition rsafe (pan : Prop) (b : nat) {E A} (m : reader -> res E A * reader) : Prop :=
  forall r x r', rwf r -> (left r < b)%nat -> m r = (x, r') -> okres pan x /\ rwf r' /\ (left r' <= left r)%nat.
Definition rcomplete (b : nat) {E A} (m : reader -> res E A * reader) (a : A) (bs : list N) : Prop :=
  forall r rest, rwf r -> good r -> (left r < b)%nat -> pending r = bs ++ rest ->
    exists r', m r = (Ok a, r') /\ delivers r bs r'.
Definition msafe (pan : Prop) (b : nat) {S A} (m : method S A) : Prop :=
  forall s r x s' r', rwf r -> (left r < b)%nat -> m (s, r) = (x, (s', r')) ->
    okres pan x /\ rwf r' /\ (left r' <= left r)%nat.
Definition mcomplete (b : nat) {S A} (m : method S A) (s : S) (a : A) (s' : S) (bs : list N) : Prop :=
  forall r rest, rwf r -> good r -> (left r < b)%nat -> pending r = bs ++ rest ->
    exists r', m (s, r) = (Ok a, (s', r')) /\ delivers r bs r'.
(** Success consumes something. *)
Definition progress {E A} (m : reader -> res E A * reader) : Prop :=
  forall r a r', rwf r -> m r = (Ok a, r') -> (left r' < left r)%nat.
Definition rprogress (b : nat) {E A} (m : reader -> res E A * reader) : Prop :=
  forall r a r', rwf r -> (left r < b)%nat -> m r = (Ok a, r') -> (left r' < left r)%nat.

Lemma safe_rsafe pan b {E A} (m : reader -> res E A * reader) : safe m -> rsafe pan b m.
Proof.
  intros S r x r' W _ H. destruct (S _ _ _ W H) as (R & W' & L). repeat split; auto. now apply returns_okres.
Qed.
Lemma complete_rcomplete b {E A} (m : reader -> res E A * reader) a bs : complete m a bs -> rcomplete b m a bs.
Proof. intros C r rest W G _ P. exact (C r rest W G P). Qed.
Lemma sound_progress {E A} (m : reader -> res E A * reader) P :
  sound m P -> (forall a bs, P a bs -> 0 < lenN bs) -> progress m.
Proof.
  intros S H r a r' W E1. destruct (S _ _ _ W E1) as (bs & Q & D). apply H in Q.
  apply delivers_left in D. unfold lenN in Q. lia.
Qed.
Lemma rsafe_bind pan b {E A B} (m : reader -> res E A * reader) (f : A -> reader -> res E B * reader) :
  rsafe pan b m -> (forall a, rsafe pan b (f a)) -> rsafe pan b (bind m f).
Proof.
  intros Sm Sf r x r' W L. unfold bind. destruct (m r) as [y r1] eqn:Em.
  destruct (Sm _ _ _ W L Em) as (R & W1 & L1).
  destruct y as [a|e| |]; try (intros [= <- <-]; auto; fail).
  intros Ef. destruct (Sf a r1 x r' W1 ltac:(lia) Ef) as (R' & W' & L'). repeat split; auto. lia.
Qed.
Lemma rcomplete_bind b {E A B} (m : reader -> res E A * reader) (f : A -> reader -> res E B * reader) a c b1 b2 :
  rcomplete b m a b1 -> rcomplete b (f a) c b2 -> rcomplete b (bind m f) c (b1 ++ b2).
Proof.
  intros Cm Cf r rest W G L P. rewrite <- app_assoc in P.
  destruct (Cm r _ W G L P) as (r1 & Em & D1).
  destruct (pending_delivers _ _ _ G D1) as [P1 G1]. destruct (delivers_rwf _ _ _ W D1) as [W1 _].
  pose proof (delivers_left _ _ _ D1) as L1.
  rewrite P in P1. apply app_inv_head in P1.
  destruct (Cf r1 rest W1 G1 ltac:(lia) (eq_sym P1)) as (r2 & Ef & D2).
  exists r2. split; [now rewrite (bind_ok _ _ _ _ _ Em)|eapply delivers_trans; eauto].
Qed.

(** *** Safety *)
Section Safe.
Variables (pan : Prop) (b : nat).
Lemma msafe_const {S A} (x : res tag_error A) : returns x -> msafe pan b (fun st : S * reader => (x, st)).
Proof. intros R s r y s' r' W L [= <- <- <-]. repeat split; auto. now apply returns_okres. Qed.
Lemma msafe_ret {S A} (a : A) : msafe pan b (@ret (S * reader) tag_error A a).
Proof. now apply msafe_const. Qed.
Lemma msafe_fail {S A} e : msafe pan b (@fail (S * reader) tag_error A e).
Proof. now apply (msafe_const (Err e)). Qed.
Lemma msafe_on_reader {S A} (m : reader -> res tag_error A * reader) :
  rsafe pan b m -> msafe pan b (@on_reader S A m).
Proof.
  intros Sm s r x s' r' W L. unfold on_reader. destruct (m r) as [y r1] eqn:Em. intros [= <- <- <-]. eauto.
Qed.
Lemma msafe_modify {S} (f : S -> S) : msafe pan b (modify f).
Proof. intros s r x s' r' W L [= <- <- <-]. cbn. auto. Qed.
Lemma msafe_bind {S A B} (m : method S A) (f : A -> method S B) :
  msafe pan b m -> (forall a, msafe pan b (f a)) -> msafe pan b (bind m f).
Proof.
  intros Sm Sf s r x s' r' W L. unfold bind. destruct (m (s, r)) as [y [s1 r1]] eqn:Em.
  destruct (Sm _ _ _ _ _ W L Em) as (R & W1 & L1).
  destruct y as [a|e| |]; try (intros [= <- <- <-]; auto; fail).
  intros Ef. destruct (Sf a s1 r1 x s' r' W1 ltac:(lia) Ef) as (R' & W' & L'). repeat split; auto. lia.
Qed.
Lemma rwf_unlimit r : rwf r -> rwf (unlimit r).
Proof. destruct r; auto. Qed.
Lemma left_unlimit r : left (unlimit r) = left r.
Proof. destruct r; auto. Qed.
Lemma msafe_limited {S A} n (m : method S A) : msafe pan b m -> msafe pan b (limited n m).
Proof.
  intros Sm s r x s' r' W L. unfold limited, LimitedReader_new.
  destruct (m (s, RLimited r n)) as [y [s1 r1]] eqn:Em. intros [= <- <- <-].
  destruct (Sm s (RLimited r n) _ _ _ W L Em) as (R & W1 & L1).
  rewrite left_unlimit. auto using rwf_unlimit.
Qed.
Lemma msafe_ensure_empty {S} e : msafe pan b (@limited_reader_ensure_empty S e).
Proof.
  intros s r x s' r' W L. unfold limited_reader_ensure_empty. intros [= <- <- <-].
  destruct (limit_empty _); cbn; auto.
Qed.
Lemma msafe_check_size {S} n k : msafe pan b (@check_size S n k).
Proof. unfold check_size. destruct (n =? k); [apply msafe_ret|apply msafe_fail]. Qed.
Lemma msafe_set_from {A} (m : reader -> res tag_error A * reader) : rsafe pan b m -> msafe pan b (set_from m).
Proof. intros Sm. apply msafe_bind; [now apply msafe_on_reader|]. intros a. apply msafe_modify. Qed.
Lemma msafe_repeat_read_below {S A} (m : reader -> res tag_error A * reader) (store : A -> S -> S) count :
  rsafe pan b m -> rprogress b m -> msafe pan b (fuelled (fun f => repeat_read f m store count)).
Proof.
  intros Sm Pm s r x s' r' W L. unfold fuelled. cbn [snd].
  assert (K : forall f count s r, rwf r -> (left r < b)%nat -> (left r < f)%nat ->
    repeat_read f m store count (s, r) = (x, (s', r')) -> okres pan x /\ rwf r' /\ (left r' <= left r)%nat).
  { clear s r W L count. induction f as [|f IH]; intros count s r W L Lf; [lia|].
    cbn [repeat_read]. destruct (count =? 0); [intros [= <- <- <-]; cbn; auto|].
    unfold bind, on_reader. destruct (m r) as [y r1] eqn:Em.
    destruct (Sm _ _ _ W L Em) as (R & W1 & L1).
    destruct y as [a|e| |]; try (intros [= <- <- <-]; auto; fail).
    pose proof (Pm _ _ _ W L Em) as Lt. cbn [modify]. intros H. apply IH in H; [|auto|lia|lia].
    destruct H as (R' & W' & L'). repeat split; auto. lia. }
  apply K; auto.
Qed.
Lemma msafe_repeat_read {S A} (m : reader -> res tag_error A * reader) (store : A -> S -> S) count :
  rsafe pan b m -> progress m -> msafe pan b (fuelled (fun f => repeat_read f m store count)).
Proof. intros Sm Pm. apply msafe_repeat_read_below; [exact Sm|]. intros r a r' W _. now apply Pm. Qed.
Lemma msafe_while_read_below {S A} (m : reader -> res tag_error A * reader) (store : A -> S -> S) :
  rsafe pan b m -> rprogress b m -> msafe pan b (fuelled (fun f => while_read f m store)).
Proof.
  intros Sm Pm s r x s' r' W L. unfold fuelled. cbn [snd].
  assert (K : forall f s r, rwf r -> (left r < b)%nat -> (left r < f)%nat ->
    while_read f m store (s, r) = (x, (s', r')) -> okres pan x /\ rwf r' /\ (left r' <= left r)%nat).
  { clear s r W L. induction f as [|f IH]; intros s r W L Lf; [lia|].
    cbn [while_read snd]. destruct (limit_empty r); [intros [= <- <- <-]; cbn; auto|].
    unfold bind, on_reader. destruct (m r) as [y r1] eqn:Em.
    destruct (Sm _ _ _ W L Em) as (R & W1 & L1).
    destruct y as [a|e| |]; try (intros [= <- <- <-]; auto; fail).
    pose proof (Pm _ _ _ W L Em) as Lt. cbn [modify]. intros H. apply IH in H; [|auto|lia|lia].
    destruct H as (R' & W' & L'). repeat split; auto. lia. }
  apply K; auto.
Qed.
Lemma msafe_while_read {S A} (m : reader -> res tag_error A * reader) (store : A -> S -> S) :
  rsafe pan b m -> progress m -> msafe pan b (fuelled (fun f => while_read f m store)).
Proof. intros Sm Pm. apply msafe_while_read_below; [exact Sm|]. intros r a r' W _. now apply Pm. Qed.
Lemma msafe_in_place : msafe pan b in_place.
Proof.
  intros s r x s' r' W L. unfold in_place. destruct (into_slice s r) as [[y v] r1] eqn:E. intros [= <- <- <-].
  destruct (into_slice_spec _ _ _ _ _ W E) as (R & W' & L' & _). repeat split; auto. now apply returns_okres.
Qed.
Lemma msafe_raw n : msafe pan b (raw_deserialize n).
Proof.
  intros s r x s' r' W L. unfold raw_deserialize, into_vec.
  destruct (into_slice _ r) as [[y v] r1] eqn:E. intros [= <- <- <-].
  destruct (into_slice_spec _ _ _ _ _ W E) as (R & W' & L' & _). repeat split; auto. now apply returns_okres.
Qed.
Lemma msafe_on_snd {S T A} (m : method T A) : msafe pan b m -> msafe pan b (@on_snd S T A m).
Proof.
  intros Sm [s t] r x s' r' W L. unfold on_snd. destruct (m (t, r)) as [y [t1 r1]] eqn:Em.
  intros [= <- <- <-]. eauto.
Qed.
End Safe.

Lemma ilint_repr_pos v bs : ilint_repr v bs -> 0 < lenN bs.
Proof. intros H. apply ilint_repr_len in H. lia. Qed.
Lemma progress_ilint : progress deserialize_ilint.
Proof. eapply sound_progress; [apply sound_deserialize_ilint|]. intros a bs. apply ilint_repr_pos. Qed.

(** *** Inversions *)
Lemma on_reader_ok {S A} (m : reader -> res tag_error A * reader) (s : S) r a s' r' :
  on_reader m (s, r) = (Ok a, (s', r')) -> m r = (Ok a, r') /\ s' = s.
Proof. unfold on_reader. destruct (m r) as [y r1]. intros [= -> <- <-]. auto. Qed.
Lemma modify_ok {S} (f : S -> S) s r x s' r' : modify f (s, r) = (x, (s', r')) -> x = Ok tt /\ s' = f s /\ r' = r.
Proof. intros [= <- <- <-]. auto. Qed.
Lemma delivers_limited r n bs r1 : delivers (RLimited r n) bs r1 ->
  lenN bs <= n /\ delivers r bs (unlimit r1) /\ (limit_empty r1 = true <-> lenN bs = n).
Proof.
  destruct r1; cbn [delivers]; try contradiction. intros (L & -> & D). cbn [unlimit limit_empty].
  repeat split; auto; rewrite N.eqb_eq in *; lia.
Qed.
Lemma limited_ok {S A} n (m : method S A) s r a s' r' :
  limited n m (s, r) = (Ok a, (s', r')) ->
  exists r1, m (s, RLimited r n) = (Ok a, (s', r1)) /\ r' = unlimit r1.
Proof.
  unfold limited, LimitedReader_new. destruct (m (s, RLimited r n)) as [y [s1 r1]].
  intros [= -> <- <-]. eauto.
Qed.
Lemma ensure_empty_ok {S} e (s : S) r x s' r' :
  limited_reader_ensure_empty e (s, r) = (Ok x, (s', r')) -> limit_empty r = true /\ s' = s /\ r' = r.
Proof.
  unfold limited_reader_ensure_empty. cbn [snd]. destruct (limit_empty r); [|discriminate].
  intros [= _ <- <-]. auto.
Qed.
Lemma check_size_ok {S} n k (s : S) r x s' r' :
  check_size n k (s, r) = (Ok x, (s', r')) -> n = k /\ s' = s /\ r' = r.
Proof.
  unfold check_size. destruct (N.eqb_spec n k); [|discriminate]. intros [= _ <- <-]. auto.
Qed.
Lemma guard_ok {S} (c : bool) e (s : S) r (x : unit) s' r' :
  (if c then @fail (S * reader) tag_error unit e else ret tt) (s, r) = (Ok x, (s', r')) ->
  c = false /\ s' = s /\ r' = r.
Proof. destruct c; [discriminate|]. intros [= _ <- <-]. auto. Qed.

(** Items read one after the other. *)
Inductive chain {A} (R : A -> list N -> Prop) : list A -> list N -> Prop :=
| chain_nil : chain R [] []
| chain_cons a b l bs : R a b -> chain R l bs -> chain R (a :: l) (b ++ bs).
Lemma chain_impl {A} (R R' : A -> list N -> Prop) l bs :
  (forall a b, R a b -> R' a b) -> chain R l bs -> chain R' l bs.
Proof. intros H C. induction C; constructor; auto. Qed.
Lemma chain_len {A} (R : A -> list N -> Prop) l bs :
  (forall a b, R a b -> 0 < lenN b) -> chain R l bs -> lenN l <= lenN bs.
Proof.
  intros H C. induction C as [|a b l bs Ra C IH]; [rewrite !lenN_nil; lia|].
  rewrite lenN_cons, lenN_app. apply H in Ra. lia.
Qed.

Lemma repeat_read_sound {S A} (m : reader -> res tag_error A * reader) (R : A -> list N -> Prop) (store : A -> S -> S) :
  sound m R ->
  forall fuel count s r x s' r', rwf r -> repeat_read fuel m store count (s, r) = (Ok x, (s', r')) ->
  exists l bs, lenN l = count /\ chain R l bs /\ delivers r bs r' /\ s' = fold_left (fun s a => store a s) l s.
Proof.
  intros Sm. induction fuel as [|f IH]; intros count s r x s' r' W; cbn [repeat_read].
  - destruct (N.eqb_spec count 0) as [->|]; [|discriminate]. intros [= _ <- <-].
    exists [], []. repeat split; auto using delivers_refl; constructor.
  - destruct (N.eqb_spec count 0) as [->|Hc].
    { intros [= _ <- <-]. exists [], []. repeat split; auto using delivers_refl; constructor. }
    intros H. apply bind_inv_ok in H as (a & [s1 r1] & E1 & H). apply on_reader_ok in E1 as [E1 ->].
    apply bind_inv_ok in H as (u & [s2 r2] & E2 & H). apply modify_ok in E2 as (_ & -> & ->).
    destruct (Sm _ _ _ W E1) as (b & Ra & D1). destruct (delivers_rwf _ _ _ W D1) as [W1 _].
    destruct (IH _ _ _ _ _ _ W1 H) as (l & bs & Ll & C & D2 & Hs).
    exists (a :: l), (b ++ bs). split; [rewrite lenN_cons; lia|]. split; [now constructor|].
    split; [eapply delivers_trans; eauto|]. exact Hs.
Qed.
Lemma while_read_sound {S A} (m : reader -> res tag_error A * reader) (R : A -> list N -> Prop) (store : A -> S -> S) :
  sound m R ->
  forall fuel s r x s' r', rwf r -> while_read fuel m store (s, r) = (Ok x, (s', r')) ->
  exists l bs, chain R l bs /\ delivers r bs r' /\ limit_empty r' = true /\ s' = fold_left (fun s a => store a s) l s.
Proof.
  intros Sm. induction fuel as [|f IH]; intros s r x s' r' W; cbn [while_read snd].
  - destruct (limit_empty r) eqn:Em; [|discriminate]. intros [= _ <- <-].
    exists [], []. repeat split; auto using delivers_refl; constructor.
  - destruct (limit_empty r) eqn:Em.
    { intros [= _ <- <-]. exists [], []. repeat split; auto using delivers_refl; constructor. }
    intros H. apply bind_inv_ok in H as (a & [s1 r1] & E1 & H). apply on_reader_ok in E1 as [E1 ->].
    apply bind_inv_ok in H as (u & [s2 r2] & E2 & H). apply modify_ok in E2 as (_ & -> & ->).
    destruct (Sm _ _ _ W E1) as (b & Ra & D1). destruct (delivers_rwf _ _ _ W D1) as [W1 _].
    destruct (IH _ _ _ _ _ W1 H) as (l & bs & C & D2 & Em' & Hs).
    exists (a :: l), (b ++ bs). split; [now constructor|].
    split; [eapply delivers_trans; eauto|]. auto.
Qed.

(** *** Completeness *)
Lemma takeN_app_r {A} n (l k : list A) : lenN l <= n -> takeN n (l ++ k) = l ++ takeN (n - lenN l) k.
Proof. intros H. rewrite takeN_app. now rewrite takeN_all by assumption. Qed.
Section Complete.
Variable b : nat.
Lemma mcomplete_ret {S A} (s : S) (a : A) : mcomplete b (ret a) s a s [].
Proof. intros r rest W G L P. exists r. split; [reflexivity|apply delivers_refl]. Qed.
Lemma mcomplete_on_reader {S A} (m : reader -> res tag_error A * reader) (s : S) a bs :
  rcomplete b m a bs -> mcomplete b (on_reader m) s a s bs.
Proof.
  intros C r rest W G L P. destruct (C r rest W G L P) as (r' & E & D). exists r'.
  unfold on_reader. rewrite E. auto.
Qed.
Lemma mcomplete_modify {S} (f : S -> S) s : mcomplete b (modify f) s tt (f s) [].
Proof. intros r rest W G L P. exists r. split; [reflexivity|apply delivers_refl]. Qed.
Lemma mcomplete_bind {S A B} (m : method S A) (f : A -> method S B) s a s1 c s2 b1 b2 :
  mcomplete b m s a s1 b1 -> mcomplete b (f a) s1 c s2 b2 -> mcomplete b (bind m f) s c s2 (b1 ++ b2).
Proof.
  intros Cm Cf r rest W G L P. rewrite <- app_assoc in P.
  destruct (Cm r _ W G L P) as (r1 & Em & D1).
  destruct (pending_delivers _ _ _ G D1) as [P1 G1]. destruct (delivers_rwf _ _ _ W D1) as [W1 _].
  pose proof (delivers_left _ _ _ D1) as L1.
  rewrite P in P1. apply app_inv_head in P1.
  destruct (Cf r1 rest W1 G1 ltac:(lia) (eq_sym P1)) as (r2 & Ef & D2).
  exists r2. split; [now rewrite (bind_ok _ _ _ _ _ Em)|eapply delivers_trans; eauto].
Qed.
Lemma mcomplete_bind_l {S A B} (m : method S A) (f : A -> method S B) s a s1 c s2 b2 :
  mcomplete b m s a s1 [] -> mcomplete b (f a) s1 c s2 b2 -> mcomplete b (bind m f) s c s2 b2.
Proof. intros Cm Cf. exact (mcomplete_bind m f s a s1 c s2 [] b2 Cm Cf). Qed.
Lemma mcomplete_bind_r {S A B} (m : method S A) (f : A -> method S B) s a s1 c s2 b1 :
  mcomplete b m s a s1 b1 -> mcomplete b (f a) s1 c s2 [] -> mcomplete b (bind m f) s c s2 b1.
Proof. intros Cm Cf. rewrite <- (app_nil_r b1). eapply mcomplete_bind; eauto. Qed.
Lemma mcomplete_guard {S} (c : bool) e (s : S) :
  c = false -> mcomplete b (if c then fail e else ret tt) s tt s [].
Proof. intros ->. apply mcomplete_ret. Qed.
Lemma mcomplete_check_size {S} n (s : S) : mcomplete b (check_size n n) s tt s [].
Proof. unfold check_size. rewrite N.eqb_refl. apply mcomplete_ret. Qed.
Lemma mcomplete_set_from {A} (m : reader -> res tag_error A * reader) s a bs :
  rcomplete b m a bs -> mcomplete b (set_from m) s tt a bs.
Proof.
  intros C. eapply mcomplete_bind_r; [apply mcomplete_on_reader; exact C|].
  apply (mcomplete_modify (fun _ => a) s).
Qed.
Lemma mcomplete_repeat_read {S A} (m : reader -> res tag_error A * reader) (store : A -> S -> S) l bs s :
  chain (fun a c => rcomplete b m a c /\ 0 < lenN c) l bs ->
  mcomplete b (fuelled (fun f => repeat_read f m store (lenN l))) s tt (fold_left (fun s a => store a s) l s) bs.
Proof.
  intros C r rest W G L P. unfold fuelled. cbn [snd].
  assert (K : forall f r s, rwf r -> good r -> (left r < b)%nat -> (left r < f)%nat -> pending r = bs ++ rest ->
    exists r', repeat_read f m store (lenN l) (s, r) = (Ok tt, (fold_left (fun s a => store a s) l s, r'))
               /\ delivers r bs r').
  { clear r W G L P s. induction C as [|a c l bs [Ca Hc] C IH]; intros f r s W G L Lf P.
    - exists r. split; [|apply delivers_refl]. destruct f; reflexivity.
    - destruct f as [|f]; [lia|]. cbn [repeat_read]. rewrite lenN_cons.
      destruct (N.eqb_spec (1 + lenN l) 0); [lia|]. replace (1 + lenN l - 1) with (lenN l) by lia.
      rewrite <- app_assoc in P. destruct (Ca r _ W G L P) as (r1 & E1 & D1).
      destruct (pending_delivers _ _ _ G D1) as [P1 G1]. destruct (delivers_rwf _ _ _ W D1) as [W1 _].
      pose proof (delivers_left _ _ _ D1) as L1. rewrite P in P1. apply app_inv_head in P1.
      destruct (IH f r1 (store a s) W1 G1 ltac:(lia) ltac:(unfold lenN in Hc; lia) (eq_sym P1)) as (r2 & E2 & D2).
      exists r2. split; [|eapply delivers_trans; eauto].
      unfold bind, on_reader. rewrite E1. cbn [modify]. exact E2. }
  apply K; auto.
Qed.
(** The loop ends exactly when the limit is reached. *)
Lemma while_read_complete {S A} (m : reader -> res tag_error A * reader) (store : A -> S -> S) l bs :
  chain (fun a c => rcomplete b m a c /\ 0 < lenN c) l bs ->
  forall f r s rest, rwf r -> good r -> (left r < b)%nat -> (left r < f)%nat -> pending r = bs ++ rest ->
  exists r', while_read f m store (s, RLimited r (lenN bs)) = (Ok tt, (fold_left (fun s a => store a s) l s, RLimited r' 0))
             /\ delivers r bs r'.
Proof.
  induction 1 as [|a c l bs [Ca Hc] C IH]; intros f r s rest W G L Lf P.
  - exists r. split; [|apply delivers_refl]. destruct f; reflexivity.
  - destruct f as [|f]; [lia|]. cbn [while_read snd limit_empty]. rewrite lenN_app.
    destruct (N.eqb_spec (lenN c + lenN bs) 0); [lia|].
    rewrite <- app_assoc in P.
    destruct (Ca (RLimited r (lenN c + lenN bs)) (takeN (lenN bs) (bs ++ rest)) W G L) as (r1 & E1 & D1).
    { cbn [pending]. rewrite P. rewrite takeN_app_r by lia. f_equal. f_equal. lia. }
    destruct r1; cbn [delivers] in D1; try contradiction. destruct D1 as (_ & -> & D1).
    destruct (pending_delivers _ _ _ G D1) as [P1 G1]. destruct (delivers_rwf _ _ _ W D1) as [W1 _].
    pose proof (delivers_left _ _ _ D1) as L1. rewrite P in P1. apply app_inv_head in P1.
    destruct (IH f r1 (store a s) rest W1 G1 ltac:(lia) ltac:(unfold lenN in Hc; lia) (eq_sym P1)) as (r2 & E2 & D2).
    exists r2. split; [|eapply delivers_trans; eauto].
    unfold bind, on_reader. rewrite E1. cbn [modify].
    replace (lenN c + lenN bs - lenN c) with (lenN bs) by lia. exact E2.
Qed.
Lemma takeN_prefix_pending n (bs rest : list N) : lenN bs <= n -> takeN n (bs ++ rest) = bs ++ takeN (n - lenN bs) rest.
Proof. intros H. now rewrite takeN_app_r by lia. Qed.
(** Inside a limit that the method uses up exactly. *)
Lemma mcomplete_limited_exact {S} (m : method S unit) e s s' bs :
  mcomplete b m s tt s' bs ->
  mcomplete b (limited (lenN bs) (m ;;; limited_reader_ensure_empty e)) s tt s' bs.
Proof.
  intros C r rest W G L P. unfold limited, LimitedReader_new.
  destruct (C (RLimited r (lenN bs)) [] W G L) as (r1 & E & D).
  { cbn [pending]. rewrite P, takeN_prefix_pending by lia. now rewrite N.sub_diag, takeN_0. }
  pose proof (delivers_limited _ _ _ _ D) as (_ & D' & Em).
  exists (unlimit r1). unfold bind. rewrite E. unfold limited_reader_ensure_empty. cbn [snd].
  destruct Em as [_ Em]. rewrite Em by reflexivity. auto.
Qed.
End Complete.

Lemma fold_push {A} (l s : list A) : fold_left (fun s a => push a s) l s = s ++ l.
Proof.
  revert s; induction l as [|a l IH]; intros s; cbn [fold_left]; [now rewrite app_nil_r|].
  rewrite IH. unfold push. now rewrite <- app_assoc.
Qed.
Lemma fold_insert {A} (es m : list (list N * A)) :
  fold_left (fun s e => hm_insert (fst e) (snd e) s) es m = fold_left (fun m e => put (fst e) (snd e) m) es m.
Proof.
  revert m; induction es as [|e es IH]; intros m; cbn [fold_left]; [reflexivity|]. now rewrite hm_insert_put, IH.
Qed.

(** ** Strings inside dictionaries *)
Lemma string_into_msafe pan b : msafe pan b deserialize_string_tag_from_value_into.
Proof.
  unfold deserialize_string_tag_from_value_into.
  apply msafe_bind; [apply msafe_on_reader, safe_rsafe, safe_deserialize_ilint|]. intros id.
  apply msafe_bind; [destruct (negb _); [apply msafe_fail|apply msafe_ret]|]. intros _.
  apply msafe_bind; [apply msafe_on_reader, safe_rsafe, safe_deserialize_ilint|]. intros len.
  apply msafe_bind.
  { apply msafe_const. unfold tag_size_to_usize. destruct (_ <? _); exact I. }
  intros n. apply msafe_bind; [apply msafe_on_reader, safe_rsafe, safe_deserialize_bytes|]. intros tmp.
  destruct (from_utf8 tmp); [apply msafe_modify|apply msafe_fail].
Qed.
Lemma string_into_sound s r x s' r' :
  rwf r -> deserialize_string_tag_from_value_into (s, r) = (Ok x, (s', r')) ->
  exists bs, wire_string bs s' /\ delivers r bs r'.
Proof.
  intros W H. unfold deserialize_string_tag_from_value_into in H.
  apply bind_inv_ok in H as (id & [s1 r1] & E1 & H). apply on_reader_ok in E1 as [E1 ->].
  destruct (sound_deserialize_ilint _ _ _ W E1) as (idb & R1 & D1). destruct (delivers_rwf _ _ _ W D1) as [W1 _].
  apply bind_inv_ok in H as (u & [s2 r2] & E2 & H). apply guard_ok in E2 as (Hid & -> & ->).
  apply bind_inv_ok in H as (len & [s3 r3] & E3 & H). apply on_reader_ok in E3 as [E3 ->].
  destruct (sound_deserialize_ilint _ _ _ W1 E3) as (szb & R3 & D3). destruct (delivers_rwf _ _ _ W1 D3) as [W3 _].
  apply bind_inv_ok in H as (n & [s4 r4] & E4 & H). unfold tag_size_to_usize in E4.
  destruct (N.ltb_spec MAX_TAG_SIZE len) as [|Hl]; [discriminate|]. injection E4 as <- <- <-.
  apply bind_inv_ok in H as (tmp & [s5 r5] & E5 & H). apply on_reader_ok in E5 as [E5 ->].
  destruct (sound_deserialize_bytes _ _ _ _ W3 E5) as (bs & (-> & L5 & B5) & D5).
  destruct (from_utf8 bs) eqn:U; [|discriminate]. apply modify_ok in H as (_ & -> & ->).
  apply Bool.negb_false_iff, N.eqb_eq in Hid. subst id len.
  exists (idb ++ szb ++ bs). split.
  - constructor; auto. now apply from_utf8_spec.
  - eapply delivers_trans; [exact D1|]. eapply delivers_trans; eauto.
Qed.
Lemma string_into_complete b s s' bs :
  bytes_ok bs -> wire_string bs s' -> mcomplete b deserialize_string_tag_from_value_into s tt s' bs.
Proof.
  intros B H. inversion H as [idb szb s0 R1 R2 L U E1 E2]; subst. rewrite !bytes_ok_app in B. destruct B as (B1 & B2 & B3).
  unfold deserialize_string_tag_from_value_into.
  eapply mcomplete_bind; [apply mcomplete_on_reader, complete_rcomplete; exact (complete_deserialize_ilint _ _ B1 R1)|].
  eapply mcomplete_bind_l; [apply mcomplete_guard; reflexivity|].
  eapply mcomplete_bind; [apply mcomplete_on_reader, complete_rcomplete; exact (complete_deserialize_ilint _ _ B2 R2)|].
  eapply mcomplete_bind_l.
  { intros r rest W G Lr P. exists r. split; [|apply delivers_refl]. unfold tag_size_to_usize.
    destruct (N.ltb_spec MAX_TAG_SIZE (lenN s')) as [K|K]; [unfold MAX_TAG_SIZE in K; lia|reflexivity]. }
  eapply mcomplete_bind_r; [apply mcomplete_on_reader, complete_rcomplete; apply complete_deserialize_bytes; reflexivity|].
  rewrite from_utf8_complete by assumption. apply (mcomplete_modify b (fun _ => s') s).
Qed.
Lemma rsafe_string pan b : rsafe pan b deserialize_string_tag_from_value.
Proof.
  intros r x r' W L. unfold deserialize_string_tag_from_value.
  destruct (deserialize_string_tag_from_value_into ([], r)) as [y [s r1]] eqn:E. intros [= <- <-].
  destruct (string_into_msafe pan b _ _ _ _ _ W L E) as (R & W' & L'). repeat split; auto.
  destruct y; auto.
Qed.
Lemma sound_string : sound deserialize_string_tag_from_value (fun s bs => wire_string bs s).
Proof.
  intros r a r' W. unfold deserialize_string_tag_from_value.
  destruct (deserialize_string_tag_from_value_into ([], r)) as [y [s r1]] eqn:E.
  destruct y; try discriminate. intros [= <- <-]. eapply string_into_sound; eauto.
Qed.
Lemma rcomplete_string b s bs : bytes_ok bs -> wire_string bs s -> rcomplete b deserialize_string_tag_from_value s bs.
Proof.
  intros B H r rest W G L P. destruct (string_into_complete b [] s bs B H r rest W G L P) as (r' & E & D).
  exists r'. unfold deserialize_string_tag_from_value. rewrite E. auto.
Qed.
Lemma wire_string_pos bs s : wire_string bs s -> 0 < lenN bs.
Proof. destruct 1. rewrite lenN_app. pose proof (ilint_repr_pos _ _ H). lia. Qed.

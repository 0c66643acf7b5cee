(** The containers of the library with a factory of the user: C68. *)
From Verif Require Import Base BaseFacts Types Spec SpecFacts IO IOSpec IOFacts Logic ILInt ILIntFacts Data DataFacts Tags TagsFacts
  Factory FactoryFacts DecodeFacts DeserFacts ClosedFacts ConsumeFacts.

(** Consecutive successful calls of [d] from [r]. *)
Inductive calls {E A} (d : reader -> res E A * reader) : reader -> list A -> reader -> Prop :=
| calls_nil r : calls d r [] r
| calls_cons r a r1 l r2 : d r = (Ok a, r1) -> calls d r1 l r2 -> calls d r (a :: l) r2.
(** The same, each of them with some of the limit left. *)
Inductive pulls {E A} (d : reader -> res E A * reader) : reader -> list A -> reader -> Prop :=
| pulls_nil r : pulls d r [] r
| pulls_cons r a r1 l r2 : limit_empty r = false -> d r = (Ok a, r1) -> pulls d r1 l r2 -> pulls d r (a :: l) r2.
(** [x] is the failure that [d] reports at [r], leaving [r']. *)
Definition fails {E A B} (d : reader -> res E A * reader) (r : reader) (x : res E B) (r' : reader) : Prop :=
  match d r with
  | (Ok _, _) => False
  | (Err e, r1) => x = Err e /\ r' = r1
  | (Panic, r1) => x = Panic /\ r' = r1
  | (OutOfFuel, r1) => x = OutOfFuel /\ r' = r1
  end.

Lemma push_all {A} (l : list A) : forall s, fold_left (fun s a => push a s) l s = s ++ l.
Proof. induction l as [|a l IH]; intros s; cbn [fold_left]; [now rewrite app_nil_r|]. rewrite IH. unfold push. now rewrite <- app_assoc. Qed.
Lemma while_spec {S A} (m : reader -> res tag_error A * reader) (store : A -> S -> S) f : forall s r x s' r',
  while_read f m store (s, r) = (x, (s', r')) -> x <> OutOfFuel ->
  exists l lr, pulls m r l lr /\ s' = fold_left (fun s a => store a s) l s /\
    ((x = Ok tt /\ limit_empty lr = true /\ r' = lr) \/ (limit_empty lr = false /\ fails m lr x r')).
Proof.
  induction f as [|f IH]; intros s r x s' r'; cbn [while_read snd]; destruct (limit_empty r) eqn:El; intros H Hx.
  - injection H as <- <- <-. exists [], r. split; [constructor|]. auto.
  - congruence.
  - injection H as <- <- <-. exists [], r. split; [constructor|]. auto.
  - unfold bind, on_reader in H. destruct (m r) as [y r1] eqn:Em. destruct y as [a|e| |]; cbn [modify] in H.
    + destruct (IH _ _ _ _ _ H Hx) as (l & lr & P & -> & K). exists (a :: l), lr.
      split; [econstructor; eauto|]. auto.
    + injection H as <- <- <-. exists [], r. split; [constructor|]. split; [reflexivity|]. right. unfold fails. rewrite Em. auto.
    + injection H as <- <- <-. exists [], r. split; [constructor|]. split; [reflexivity|]. right. unfold fails. rewrite Em. auto.
    + congruence.
Qed.
Lemma repeat_spec {S A} (m : reader -> res tag_error A * reader) (store : A -> S -> S) f : forall count s r x s' r',
  repeat_read f m store count (s, r) = (x, (s', r')) -> x <> OutOfFuel ->
  exists l lr, calls m r l lr /\ s' = fold_left (fun s a => store a s) l s /\
    ((x = Ok tt /\ lenN l = count /\ r' = lr) \/ (lenN l < count /\ fails m lr x r')).
Proof.
  induction f as [|f IH]; intros count s r x s' r'; cbn [repeat_read]; destruct (N.eqb_spec count 0) as [->|Hc]; intros H Hx.
  - injection H as <- <- <-. exists [], r. split; [constructor|]. rewrite lenN_nil. auto.
  - congruence.
  - injection H as <- <- <-. exists [], r. split; [constructor|]. rewrite lenN_nil. auto.
  - unfold bind, on_reader in H. destruct (m r) as [y r1] eqn:Em. destruct y as [a|e| |]; cbn [modify] in H.
    + destruct (IH _ _ _ _ _ _ H Hx) as (l & lr & P & -> & K). exists (a :: l), lr.
      split; [econstructor; eauto|]. split; [reflexivity|]. rewrite lenN_cons.
      destruct K as [(-> & K1 & K2)|(K1 & K2)]; [left; repeat split; auto; lia|right; split; [lia|exact K2]].
    + injection H as <- <- <-. exists [], r. split; [constructor|]. split; [reflexivity|]. rewrite lenN_nil. right. split; [lia|]. unfold fails. rewrite Em. auto.
    + injection H as <- <- <-. exists [], r. split; [constructor|]. split; [reflexivity|]. rewrite lenN_nil. right. split; [lia|]. unfold fails. rewrite Em. auto.
    + congruence.
Qed.

(** What a sequence holds afterwards are the tags that consecutive calls of the
    factory returned, whatever the factory and whatever the sequence held before.
    It succeeds when the declared bytes are used up, and otherwise reports the
    failure of the factory unchanged. *)
Theorem C68_sequence : forall I (d : reader -> res tag_error I * reader) n old r x l r',
  seq_deserialize d n (old, r) = (x, (l, r')) -> x <> OutOfFuel ->
  exists lr, pulls d (RLimited r n) l lr /\
    ((x = Ok tt /\ limit_empty lr = true /\ r' = unlimit lr) \/
     (limit_empty lr = false /\ exists lr', fails d lr x lr' /\ r' = unlimit lr')).
Proof.
  intros I d n old r x l r' H Hx. unfold seq_deserialize, limited, LimitedReader_new, bind, modify, fuelled in H.
  destruct (while_read _ d push ([], RLimited r n)) as [y [l1 r1]] eqn:E. injection H as <- <- <-.
  destruct (while_spec _ _ _ _ _ _ _ _ E Hx) as (l & lr & P & -> & K). rewrite push_all. exists lr. split; [exact P|].
  destruct K as [(-> & K1 & ->)|(K1 & K2)]; eauto.
Qed.
Print Assumptions C68_sequence.

(** An array calls the factory once for each of the items it declares, refuses
    more items than declared bytes without changing its contents, and refuses
    bytes left over. *)
Theorem C68_array : forall I (d : reader -> res tag_error I * reader) n old r x l r',
  arr_deserialize d n (old, r) = (x, (l, r')) -> x <> OutOfFuel ->
  (exists lr, fails deserialize_ilint (RLimited r n) x lr /\ l = old /\ r' = unlimit lr) \/
  exists count lr, deserialize_ilint (RLimited r n) = (Ok count, lr) /\
    ((n < count /\ x = Err CorruptedData /\ l = old /\ r' = unlimit lr) \/
     (count <= n /\ exists lr1, calls d lr l lr1 /\
       ((lenN l = count /\ x = (if limit_empty lr1 then Ok tt else Err CorruptedData) /\ r' = unlimit lr1) \/
        (lenN l < count /\ exists lr2, fails d lr1 x lr2 /\ r' = unlimit lr2)))).
Proof.
  intros I d n old r x l r' H Hx. unfold arr_deserialize, limited, LimitedReader_new, bind, on_reader in H.
  destruct (deserialize_ilint (RLimited r n)) as [y lr] eqn:E1. destruct y as [count|e| |].
  2-4: injection H as <- <- <-; left; exists lr; unfold fails; rewrite E1; auto.
  right. exists count, lr. split; [reflexivity|].
  destruct (N.ltb_spec n count) as [Lc|Lc]; cbn [fail ret modify] in H.
  { injection H as <- <- <-. left. auto. }
  right. split; [exact Lc|]. unfold fuelled in H.
  destruct (repeat_read _ d push count ([], lr)) as [y [l1 r1]] eqn:E.
  assert (Hy : y <> OutOfFuel) by (intros ->; congruence).
  destruct (repeat_spec _ _ _ _ _ _ _ _ _ E Hy) as (l2 & lr1 & P & -> & K). rewrite push_all in H. cbn [app] in H.
  exists lr1. destruct K as [(-> & K1 & ->)|(K1 & K2)].
  - unfold limited_reader_ensure_empty in H. cbn [snd] in H. injection H as <- <- <-. split; [exact P|]. left. auto.
  - unfold fails in K2. destruct y as [[]|e| |]; destruct (d lr1) as [z r2] eqn:Ed; destruct z; try (destruct K2; congruence); try contradiction;
      injection H as <- <- <-; (split; [exact P|]); right; (split; [exact K1|]); exists r1; unfold fails; rewrite Ed; auto.
Qed.
Print Assumptions C68_array.

(** A dictionary reads a key, then calls the factory, once for each entry it
    declares; equal keys are merged by [hm_insert] in that order. *)
Theorem C68_dictionary : forall I (d : reader -> res tag_error I * reader) n old r x l r',
  dict_deserialize d n (old, r) = (x, (l, r')) -> x <> OutOfFuel ->
  let entry := k <- deserialize_string_tag_from_value ;; t <- d ;; ret (k, t) in
  (exists lr, fails deserialize_ilint (RLimited r n) x lr /\ l = old /\ r' = unlimit lr) \/
  exists count lr es lr1, deserialize_ilint (RLimited r n) = (Ok count, lr) /\
    calls entry lr es lr1 /\ l = fold_left (fun m e => hm_insert (fst e) (snd e) m) es [] /\
    ((lenN es = count /\ x = (if limit_empty lr1 then Ok tt else Err CorruptedData) /\ r' = unlimit lr1) \/
     (lenN es < count /\ exists lr2, fails entry lr1 x lr2 /\ r' = unlimit lr2)).
Proof.
  intros I d n old r x l r' H Hx entry. unfold dict_deserialize, limited, LimitedReader_new in H. fold entry in H. unfold bind, on_reader in H.
  destruct (deserialize_ilint (RLimited r n)) as [y lr] eqn:E1. destruct y as [count|e| |].
  2-4: injection H as <- <- <-; left; exists lr; unfold fails; rewrite E1; auto.
  right. exists count, lr. cbn [modify] in H. unfold fuelled in H.
  match type of H with context [repeat_read ?f ?m ?st count ?s] => destruct (repeat_read f m st count s) as [y [l1 r1]] eqn:E end.
  assert (Hy : y <> OutOfFuel) by (intros ->; congruence).
  destruct (repeat_spec _ _ _ _ _ _ _ _ _ E Hy) as (es & lr1 & P & -> & K).
  exists es, lr1. split; [reflexivity|]. split; [exact P|]. destruct K as [(-> & K1 & ->)|(K1 & K2)].
  - unfold limited_reader_ensure_empty in H. cbn [snd] in H. injection H as <- <- <-. split; [reflexivity|]. left. auto.
  - unfold fails in K2. destruct y as [[]|e| |]; destruct (entry lr1) as [z r2] eqn:Ed; destruct z; try (destruct K2; congruence); try contradiction;
      injection H as <- <- <-; (split; [reflexivity|]); right; (split; [exact K1|]); exists r1; unfold fails; rewrite Ed; auto.
Qed.
Print Assumptions C68_dictionary.

(** Whatever the factory does with the reader it is given, a container takes at
    most the bytes it declares, and exactly those if it succeeds.  A factory can
    only read ([moved], see C65). *)
Lemma limited_moves {S} n (m : method S unit) s r x s' r' : Mmoves _ _ m -> rwf r ->
  (forall st st', m st = (Ok tt, st') -> limit_empty (snd st') = true) ->
  limited n m (s, r) = (x, (s', r')) ->
  exists bs, moved (is_ok x) r bs r' /\ lenN bs <= n /\ (x = Ok tt -> lenN bs = n).
Proof.
  intros Hm W He. unfold limited, LimitedReader_new. destruct (m (s, RLimited r n)) as [y [s1 r1]] eqn:E.
  intros H. injection H as <- <- <-. destruct (Hm s (RLimited r n) _ _ _ W E) as [bs M]. exists bs.
  destruct r1; cbn [moved unlimit] in *; try contradiction. destruct M as (L & _ & Eq & M). split; [exact M|]. split; [exact L|].
  intros ->. apply He in E. cbn [snd limit_empty] in E. specialize (Eq eq_refl). lia.
Qed.
Lemma ends_empty {S A} (m : method S A) e : forall st st', (bind m (fun _ => limited_reader_ensure_empty e)) st = (Ok tt, st') ->
  limit_empty (snd st') = true.
Proof.
  intros st st'. unfold bind, limited_reader_ensure_empty. destruct (m st) as [[a|err| |] st1]; try discriminate.
  destruct (limit_empty (snd st1)) eqn:El; [|discriminate]. intros H. now injection H as <-.
Qed.
Lemma bind_ends {S A B} (m : method S A) (k : A -> method S B) (P : S * reader -> Prop) b :
  (forall a st st', k a st = (Ok b, st') -> P st') -> forall st st', bind m k st = (Ok b, st') -> P st'.
Proof. intros H st st'. unfold bind. destruct (m st) as [[a|err| |] st1]; try discriminate. apply H. Qed.
Theorem C68_extent : forall I (d : reader -> res tag_error I * reader) n r,
  (forall q x q', rwf q -> d q = (x, q') -> exists bs, moved (is_ok x) q bs q') -> rwf r ->
  (forall old x l r', seq_deserialize d n (old, r) = (x, (l, r')) ->
     exists bs, moved (is_ok x) r bs r' /\ lenN bs <= n /\ (x = Ok tt -> lenN bs = n)) /\
  (forall old x l r', arr_deserialize d n (old, r) = (x, (l, r')) ->
     exists bs, moved (is_ok x) r bs r' /\ lenN bs <= n /\ (x = Ok tt -> lenN bs = n)) /\
  (forall old x l r', dict_deserialize d n (old, r) = (x, (l, r')) ->
     exists bs, moved (is_ok x) r bs r' /\ lenN bs <= n /\ (x = Ok tt -> lenN bs = n)).
Proof.
  intros I d n r Hd W. pose proof closed_moves as C.
  assert (Re : Rmoves _ _ (k <- deserialize_string_tag_from_value ;; t <- d ;; ret (k, t))).
  { apply (c_bind _ _ C); [apply (cl_string _ _ C)|]. intros k. apply (c_bind _ _ C); [exact Hd|]. intros t. apply (cl_ret _ _ C). }
  split; [|split]; intros old x l r' H; eapply limited_moves in H; try exact H; try exact W.
  - apply (c_mbind _ _ C); [apply (c_modify _ _ C)|]. intros _. now apply (cl_while _ _ C).
  - apply (bind_ends _ _ (fun st => limit_empty (snd st) = true)). intros _ st st'. unfold fuelled.
    generalize (S (left (snd st))). intros f. revert st st'. induction f as [|f IH]; intros st st'; cbn [while_read].
    + destruct (limit_empty (snd st)) eqn:El; [|discriminate]. intros E. now injection E as <-.
    + destruct (limit_empty (snd st)) eqn:El; [intros E; now injection E as <-|].
      apply (bind_ends _ _ (fun st => limit_empty (snd st) = true)). intros a.
      apply (bind_ends _ _ (fun st => limit_empty (snd st) = true)). intros _. exact IH.
  - apply (c_mbind _ _ C); [apply (c_on_reader _ _ C), (cl_ilint _ _ C)|]. intros c.
    apply (c_mbind _ _ C); [apply (cl_guard _ _ C)|]. intros _.
    apply (c_mbind _ _ C); [apply (c_modify _ _ C)|]. intros _.
    apply (c_mbind _ _ C); [now apply (cl_repeat _ _ C)|]. intros _. apply (cl_ensure_empty _ _ C).
  - do 3 (apply (bind_ends _ _ (fun st => limit_empty (snd st) = true)); intros ?). apply ends_empty.
  - apply (c_mbind _ _ C); [apply (c_on_reader _ _ C), (cl_ilint _ _ C)|]. intros c.
    apply (c_mbind _ _ C); [apply (c_modify _ _ C)|]. intros _.
    apply (c_mbind _ _ C); [now apply (cl_repeat _ _ C)|]. intros _. apply (cl_ensure_empty _ _ C).
  - do 2 (apply (bind_ends _ _ (fun st => limit_empty (snd st) = true)); intros ?). apply ends_empty.
Qed.
Print Assumptions C68_extent.

(** A factory that returns makes dictionaries return, and if it takes at least a
    byte when it succeeds, also sequences and arrays. *)
Theorem C68_ends : forall I (d : reader -> res tag_error I * reader) n r,
  (forall q x q', rwf q -> d q = (x, q') -> returns x /\ rwf q' /\ (left q' <= left q)%nat) ->
  rwf r ->
  (forall old, returns (fst (dict_deserialize d n (old, r)))) /\
  ((forall q a q', rwf q -> d q = (Ok a, q') -> (left q' < left q)%nat) ->
   (forall old, returns (fst (seq_deserialize d n (old, r)))) /\
   (forall old, returns (fst (arr_deserialize d n (old, r))))).
Proof.
  intros I d n r Hd W.
  set (b := S (left r)). assert (Lb : (left r < b)%nat) by (unfold b; lia).
  assert (Sd : rsafe False b d).
  { intros q x q' Wq _ E. destruct (Hd _ _ _ Wq E) as (R & K). split; [now apply returns_okres|exact K]. }
  assert (K : forall S (m : method S unit) s, msafe False b m -> returns (fst (m (s, r)))).
  { intros S m s Hm. destruct (m (s, r)) as [x [s' r']] eqn:E. destruct (Hm _ _ _ _ _ W Lb E) as (R & _). destruct x; cbn in *; auto. }
  split; [|intros Hp; split]; intros old; apply K.
  - apply msafe_limited, msafe_bind; [apply msafe_on_reader, safe_rsafe, safe_deserialize_ilint|]. intros c.
    apply msafe_bind; [apply msafe_modify|]. intros _.
    apply msafe_bind; [apply msafe_repeat_read|intros _; apply msafe_ensure_empty].
    + apply rsafe_bind; [apply rsafe_string|]. intros k. apply rsafe_bind; [exact Sd|]. intros t. apply rsafe_ret.
    + apply progress_bind; [apply progress_string|intros q x q' Wq E; now apply (rwf_string _ _ _ Wq E)|].
      intros k q y q' Wq H. apply bind_inv_ok in H as (t & q1 & E1 & H). injection H as <- <-. now apply (Hd _ _ _ Wq E1).
  - apply msafe_limited, msafe_bind; [apply msafe_modify|]. intros _. now apply msafe_while_read.
  - apply msafe_limited, msafe_bind; [apply msafe_on_reader, safe_rsafe, safe_deserialize_ilint|]. intros c.
    apply msafe_bind; [apply msafe_guard|]. intros _. apply msafe_bind; [apply msafe_modify|]. intros _.
    apply msafe_bind; [now apply msafe_repeat_read|]. intros _. apply msafe_ensure_empty.
Qed.
Print Assumptions C68_ends.
(** "Every container returns if the factory does" is false: with a factory that
    takes no bytes the loop of a sequence goes on for ever, whatever number of
    iterations is allowed, and the sequence grows with each of them.  An array
    with the same factory returns after the number of calls it declares. *)
Theorem C68_always_ends_refuted : forall I (t : I) n r, n <> 0 ->
  let d := fun q : reader => (@Ok tag_error I t, q) in
  (forall f, while_read f d push ([], RLimited r n) = (OutOfFuel, (repeat t f, RLimited r n))) /\
  (forall f count, count <= N.of_nat f -> repeat_read f d push count ([], RLimited r n) = (Ok tt, (repeat t (N.to_nat count), RLimited r n))).
Proof.
  intros I t n r Hn d. split.
  - assert (K : forall f l, while_read f d push (l, RLimited r n) = (OutOfFuel, (l ++ repeat t f, RLimited r n))).
    { induction f as [|f IH]; intros l; cbn [while_read snd limit_empty]; destruct (N.eqb_spec n 0); try contradiction.
      - now rewrite app_nil_r.
      - unfold bind, on_reader. unfold d at 1. cbn [modify]. rewrite IH. unfold push. now rewrite <- app_assoc. }
    intros f. now rewrite K.
  - assert (K : forall f count l, count <= N.of_nat f -> repeat_read f d push count (l, RLimited r n) = (Ok tt, (l ++ repeat t (N.to_nat count), RLimited r n))).
    { induction f as [|f IH]; intros count l L; cbn [repeat_read]; destruct (N.eqb_spec count 0) as [->|Hc]; try (now rewrite app_nil_r); [lia|].
      unfold bind, on_reader. unfold d at 1. cbn [modify]. rewrite IH by lia. unfold push. rewrite <- app_assoc.
      replace (N.to_nat count) with (S (N.to_nat (count - 1))) by lia. reflexivity. }
    intros f count L. now rewrite K.
Qed.
Print Assumptions C68_always_ends_refuted.

(** A factory of the user: every byte is a tag. *)
Definition byte_factory (q : reader) : res tag_error N * reader :=
  match read q with
  | (Ok b, q') => (Ok b, q')
  | (Err e, q') => (Err (TagIO e), q')
  | (Panic, q') => (Panic, q')
  | (OutOfFuel, q') => (OutOfFuel, q')
  end.
Example C68_bytes :
  seq_deserialize byte_factory 3 ([9], ByteArrayReader_new [5; 6; 7; 8]) = (Ok tt, ([5; 6; 7], RByteArray [5; 6; 7; 8] 3)) /\
  arr_deserialize byte_factory 3 ([9], ByteArrayReader_new [2; 6; 7; 8]) = (Ok tt, ([6; 7], RByteArray [2; 6; 7; 8] 3)) /\
  arr_deserialize byte_factory 3 ([9], ByteArrayReader_new [1; 6; 7; 8]) = (Err CorruptedData, ([6], RByteArray [1; 6; 7; 8] 2)) /\
  arr_deserialize byte_factory 3 ([9], ByteArrayReader_new [4; 6; 7; 8]) = (Err CorruptedData, ([9], RByteArray [4; 6; 7; 8] 1)) /\
  dict_deserialize byte_factory 5 ([], ByteArrayReader_new [1; 17; 1; 65; 200]) = (Ok tt, ([([65], 200)], RByteArray [1; 17; 1; 65; 200] 5)).
Proof. vm_compute. repeat split. Qed.
Example C68_byte_factory_hypotheses :
  (forall q x q', rwf q -> byte_factory q = (x, q') -> exists bs, moved (is_ok x) q bs q') /\
  (forall q x q', rwf q -> byte_factory q = (x, q') -> returns x /\ rwf q' /\ (left q' <= left q)%nat) /\
  (forall q a q', rwf q -> byte_factory q = (Ok a, q') -> (left q' < left q)%nat).
Proof.
  split; [|split].
  - intros q x q' W. unfold byte_factory. destruct (read q) as [y q1] eqn:E. destruct (c_read _ _ closed_moves _ _ _ W E) as [bs M].
    intros H. exists bs. destruct y; injection H as <- <-; exact M.
  - intros q x q' W. unfold byte_factory. destruct (read q) as [y q1] eqn:E. destruct (read_wf _ _ _ W E) as (R & W1 & L1 & _).
    intros H. destruct y; injection H as <- <-; cbn in *; auto.
  - intros q a q' W. unfold byte_factory. destruct (read q) as [y q1] eqn:E. destruct y; try discriminate.
    intros H. injection H as <- <-. destruct (sound_read _ _ _ W E) as (bs & (-> & _) & D).
    apply delivers_left in D. cbn [length] in D. lia.
Qed.

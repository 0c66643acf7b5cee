(** The fuel of [deserialize_fuel] is immaterial, and what a deserialization
    stores does not depend on what the struct held before. *)
From Verif Require Import Base BaseFacts Types Spec SpecFacts IO IOSpec IOFacts Logic
  ILInt ILIntFacts Data DataFacts Tags SortFacts TagsFacts Factory FactoryFacts DecodeFacts DeserFacts.

(** ** Fuel *)
Definition agree (b : nat) {A} (m1 m2 : reader -> res tag_error A * reader) : Prop :=
  forall r, rwf r -> (left r < b)%nat -> m1 r = m2 r.
Definition magree (b : nat) {S A} (m1 m2 : method S A) : Prop :=
  forall s r, rwf r -> (left r < b)%nat -> m1 (s, r) = m2 (s, r).
Lemma magree_refl b {S A} (m : method S A) : magree b m m.
Proof. intros s r _ _. reflexivity. Qed.
Lemma magree_on_reader b {S A} (m1 m2 : reader -> res tag_error A * reader) :
  agree b m1 m2 -> magree b (@on_reader S A m1) (on_reader m2).
Proof. intros H s r W L. unfold on_reader. now rewrite H. Qed.
Lemma magree_bind pan b {S A B} (m1 m2 : method S A) (f1 f2 : A -> method S B) :
  msafe pan b m1 -> magree b m1 m2 -> (forall a, magree b (f1 a) (f2 a)) -> magree b (bind m1 f1) (bind m2 f2).
Proof.
  intros Sm H Hf s r W L. unfold bind. rewrite <- H by assumption.
  destruct (m1 (s, r)) as [x [s1 r1]] eqn:E. destruct (Sm _ _ _ _ _ W L E) as (_ & W1 & L1).
  destruct x; auto. apply Hf; [exact W1|lia].
Qed.
Lemma magree_limited b {S A} n (m1 m2 : method S A) : magree b m1 m2 -> magree b (limited n m1) (limited n m2).
Proof. intros H s r W L. unfold limited, LimitedReader_new. rewrite H; [reflexivity|exact W|exact L]. Qed.
Lemma magree_repeat pan b {S A} (m1 m2 : reader -> res tag_error A * reader) (store : A -> S -> S) f count :
  rsafe pan b m1 -> agree b m1 m2 -> magree b (repeat_read f m1 store count) (repeat_read f m2 store count).
Proof.
  intros Sm H. revert count. induction f as [|f IH]; intros count; [apply magree_refl|]. cbn [repeat_read].
  destruct (count =? 0); [apply magree_refl|].
  eapply magree_bind; [apply msafe_on_reader; exact Sm|now apply magree_on_reader|]. intros a.
  eapply magree_bind; [apply (msafe_modify pan)|apply magree_refl|]. intros _. apply IH.
Qed.
Lemma magree_while pan b {S A} (m1 m2 : reader -> res tag_error A * reader) (store : A -> S -> S) f :
  rsafe pan b m1 -> agree b m1 m2 -> magree b (while_read f m1 store) (while_read f m2 store).
Proof.
  intros Sm H. induction f as [|f IH]; [apply magree_refl|]. intros s r W L. cbn [while_read].
  destruct (limit_empty _); [reflexivity|].
  revert s r W L.
  match goal with |- forall s r, _ -> _ -> ?m (s, r) = ?m' (s, r) => change (magree b m m') end.
  eapply magree_bind; [apply msafe_on_reader; exact Sm|now apply magree_on_reader|]. intros a.
  eapply magree_bind; [apply (msafe_modify pan)|apply magree_refl|]. intros _. exact IH.
Qed.
Lemma magree_fuelled b {S A} (m1 m2 : nat -> method S A) :
  (forall f, magree b (m1 f) (m2 f)) -> magree b (fuelled m1) (fuelled m2).
Proof. intros H s r W L. unfold fuelled. now apply H. Qed.

Section Agree.
Variables (pan : Prop) (b : nat) (d1 d2 : reader -> res tag_error tag * reader).
Hypothesis Hsafe : rsafe pan b d1.
Hypothesis Hprog : progress d1.
Hypothesis Hagree : agree b d1 d2.
Lemma magree_seq n : magree b (seq_deserialize d1 n) (seq_deserialize d2 n).
Proof.
  apply magree_limited. eapply magree_bind; [apply (msafe_modify pan)|apply magree_refl|]. intros _.
  apply magree_fuelled. intros f. eapply magree_while; eauto.
Qed.
Lemma magree_arr n : magree b (arr_deserialize d1 n) (arr_deserialize d2 n).
Proof.
  apply magree_limited.
  eapply magree_bind; [apply (msafe_on_reader pan), safe_rsafe, safe_deserialize_ilint|apply magree_refl|]. intros c.
  eapply magree_bind; [apply (msafe_guard pan)|apply magree_refl|]. intros _.
  eapply magree_bind; [apply (msafe_modify pan)|apply magree_refl|]. intros _.
  eapply magree_bind; [apply (msafe_repeat_read pan); eassumption|
    apply magree_fuelled; intros f; eapply magree_repeat; eauto|]. intros _. apply magree_refl.
Qed.
Lemma entry_agree : agree b (k <- deserialize_string_tag_from_value ;; t <- d1 ;; ret (k, t))
                          (k <- deserialize_string_tag_from_value ;; t <- d2 ;; ret (k, t)).
Proof.
  intros r W L. unfold bind. destruct (deserialize_string_tag_from_value r) as [x r1] eqn:E.
  destruct (rwf_string _ _ _ W E) as [W1 L1]. destruct x; auto. rewrite Hagree; [reflexivity|exact W1|lia].
Qed.
Lemma magree_dict n : magree b (dict_deserialize d1 n) (dict_deserialize d2 n).
Proof.
  assert (Se : rsafe pan b (k <- deserialize_string_tag_from_value ;; t <- d1 ;; ret (k, t))).
  { apply rsafe_bind; [apply rsafe_string|]. intros k. apply rsafe_bind; [exact Hsafe|]. intros t. apply rsafe_ret. }
  apply magree_limited.
  eapply magree_bind; [apply (msafe_on_reader pan), safe_rsafe, safe_deserialize_ilint|apply magree_refl|]. intros c.
  eapply magree_bind; [apply (msafe_modify pan)|apply magree_refl|]. intros _.
  eapply magree_bind; [apply (msafe_repeat_read pan); [exact Se|now apply progress_entry]|
    apply magree_fuelled; intros f; eapply magree_repeat; [exact Se|exact entry_agree]|].
  intros _. apply magree_refl.
Qed.
Lemma deserialize_value_agree v n r : rwf r -> (left r < b)%nat -> deserialize_value d1 v n r = deserialize_value d2 v n r.
Proof.
  intros W L. destruct v; cbn [deserialize_value]; try reflexivity; unfold run.
  - now rewrite magree_seq.
  - now rewrite magree_arr.
  - now rewrite magree_dict.
Qed.
End Agree.

Lemma create_tag_terminates e id : okres True (create_tag e id).
Proof.
  unfold create_tag. destruct (cr_get _ _) as [c|]; [destruct (c id); exact I|].
  destruct (_ && _)%bool; [|exact I]. unfold ILRawTag_new. destruct (is_implicit_tag id); exact I.
Qed.
Lemma deserialize_fuel_irrelevant e : engine_ok e -> forall f f' r, rwf r -> (left r < f)%nat -> (left r < f')%nat ->
  deserialize_fuel f e r = deserialize_fuel f' e r.
Proof.
  intros He. induction f as [|f IH]; intros [|f'] r W L L'; try lia. cbn [deserialize_fuel].
  unfold bind. destruct (deserialize_ilint r) as [x r1] eqn:E1. destruct x as [wid| | |]; auto.
  destruct (safe_deserialize_ilint _ _ _ W E1) as (_ & W1 & _). pose proof (progress_ilint _ _ _ W E1) as P1.
  destruct (deserialize_tag_size wid r1) as [x r2] eqn:E2. destruct x as [n| | |]; auto.
  destruct (safe_tag_size _ _ _ _ W1 E2) as (_ & W2 & L2).
  destruct (create_tag e wid) as [[t|]| | |]; auto.
  unfold deserialize_tag_value_into, LimitedReader_new.
  rewrite (deserialize_value_agree True (S (left r2)) (deserialize_fuel f e) (deserialize_fuel f' e)); [reflexivity| | | | |].
  - intros q x q' Wq Lq E.
    apply (deserialize_fuel_safe True e f He (create_tag_terminates e) q x q' Wq); [lia|exact E].
  - now apply progress_deserialize.
  - intros q Wq Lq. apply IH; [exact Wq|lia|lia].
  - exact W2.
  - cbn [left]. lia.
Qed.
Lemma deserialize_fuel_eq e f r : engine_ok e -> rwf r -> (left r < f)%nat -> deserialize_fuel f e r = deserialize e r.
Proof. intros He W L. apply deserialize_fuel_irrelevant; auto. Qed.

(** ** Previous contents *)
Definition indep {S} (Q : S -> Prop) (m : method S unit) : Prop :=
  forall s1 s2 r, Q s1 -> Q s2 -> rwf r -> exists x s1' s2' r',
    m (s1, r) = (x, (s1', r')) /\ m (s2, r) = (x, (s2', r')) /\ (x = Ok tt -> s1' = s2').
Lemma indep_same {S} (Q : S -> Prop) (m : method S unit) :
  (forall s1 s2 r, m (s1, r) = m (s2, r)) -> indep Q m.
Proof.
  intros H s1 s2 r _ _ _. rewrite (H s1 s2 r). destruct (m (s2, r)) as [x [s' r']].
  exists x, s', s', r'. auto.
Qed.
Definition stateless {S A} (m : method S A) : Prop :=
  forall r, rwf r -> exists x r', rwf r' /\ forall s, m (s, r) = (x, (s, r')).
Lemma indep_bind {S A} Q (m : method S A) f : stateless m -> (forall a, indep Q (f a)) -> indep Q (bind m f).
Proof.
  intros H K s1 s2 r Q1 Q2 W. destruct (H r W) as (x & r1 & W1 & E). unfold bind. rewrite !E.
  destruct x as [a|e| |]; [exact (K a s1 s2 r1 Q1 Q2 W1)| | |]; repeat eexists; discriminate.
Qed.
Lemma stateless_on_reader {S A} (m : reader -> res tag_error A * reader) : safe m -> stateless (@on_reader S A m).
Proof.
  intros Sm r W. destruct (m r) as [x r'] eqn:E. exists x, r'. split; [now apply (Sm _ _ _ W E)|].
  intros s. unfold on_reader. now rewrite E.
Qed.
Lemma stateless_guard {S} (c : bool) e : stateless (if c then @fail (S * reader) tag_error unit e else ret tt).
Proof. intros r W. destruct c; [exists (Err e)|exists (Ok tt)]; exists r; auto. Qed.
Lemma stateless_check {S} n k : stateless (@check_size S n k).
Proof. unfold check_size. intros r W. destruct (n =? k); [exists (Ok tt)|exists (Err CorruptedData)]; exists r; auto. Qed.
Lemma indep_reset {S} Q (c : S) (m : unit -> method S unit) : indep Q (bind (modify (fun _ => c)) m).
Proof. apply indep_same. reflexivity. Qed.
Lemma indep_limited {S} Q n (m : method S unit) : indep Q m -> indep Q (limited n m).
Proof.
  intros H s1 s2 r Q1 Q2 W. destruct (H s1 s2 (RLimited r n) Q1 Q2 W) as (x & s1' & s2' & r' & E1 & E2 & K).
  exists x, s1', s2', (unlimit r'). unfold limited, LimitedReader_new. rewrite E1, E2. auto.
Qed.
Lemma indep_fail {S} (Q : S -> Prop) e : indep Q (fail e).
Proof. intros s1 s2 r _ _ _. exists (Err e), s1, s2, r. repeat split; discriminate. Qed.
Lemma indep_set_from {A} Q (m : reader -> res tag_error A * reader) : safe m -> indep Q (set_from m).
Proof.
  intros Sm. apply indep_bind; [now apply stateless_on_reader|]. intros a. now apply indep_same.
Qed.
Lemma into_slice_indep s1 s2 r : rwf r -> lenN s1 = lenN s2 -> exists x s1' s2' r',
  into_slice s1 r = (x, s1', r') /\ into_slice s2 r = (x, s2', r') /\ (x = Ok tt -> s1' = s2').
Proof.
  intros W L. unfold into_slice. rewrite <- L. destruct (read_all (lenN s1) r) as [[x got] r'] eqn:E.
  exists (map_err TagIO x), (got ++ dropN (lenN got) s1), (got ++ dropN (lenN got) s2), r'.
  repeat split. destruct x as [[]| | |]; try discriminate. intros _.
  destruct (read_all_ok _ _ _ _ E) as (Lg & _). rewrite !dropN_all by lia. reflexivity.
Qed.
Lemma indep_in_place k : indep (fun s => lenN s = k) in_place.
Proof.
  intros s1 s2 r Q1 Q2 W. destruct (into_slice_indep s1 s2 r W ltac:(congruence)) as (x & a & b & r' & E1 & E2 & K).
  exists x, a, b, r'. unfold in_place. rewrite E1, E2. auto.
Qed.
Lemma indep_raw n : indep (fun _ => True) (raw_deserialize n).
Proof.
  intros s1 s2 r Q1 Q2 W. unfold raw_deserialize, into_vec.
  destruct (into_slice_indep (resizeN n 0 s1) (resizeN n 0 s2) r W ltac:(now rewrite !lenN_resizeN)) as (x & a & b & r' & E1 & E2 & K).
  exists x, a, b, r'. rewrite E1, E2. auto.
Qed.
Lemma safe_f32 : safe deserialize_f32.
Proof. apply safe_lift. intros r x r'. rewrite read_f32_eq. apply safe_read_uint. Qed.
Lemma safe_f64 : safe deserialize_f64.
Proof. apply safe_lift. intros r x r'. rewrite read_f64_eq. apply safe_read_uint. Qed.

Definition Any {S} (s : S) : Prop := True.
Lemma indep_counted {A B} (m : reader -> res tag_error A * reader) (store : A -> list B -> list B) (g : N -> bool) n :
  indep Any (limited n (
    count <- on_reader deserialize_ilint ;;
    (if g count then fail CorruptedData else ret tt) ;;;
    modify (fun _ => []) ;;;
    fuelled (fun f => repeat_read f m store count) ;;;
    limited_reader_ensure_empty CorruptedData)).
Proof.
  apply indep_limited. apply indep_bind; [apply stateless_on_reader, safe_deserialize_ilint|]. intros c.
  apply indep_bind; [apply stateless_guard|]. intros _. apply indep_reset.
Qed.
Lemma indep_bool n : indep Any (bool_deserialize n).
Proof.
  apply indep_bind; [apply stateless_check|]. intros _.
  apply indep_bind; [apply stateless_on_reader, safe_deserialize_uint|]. intros v.
  destruct (v =? 0); [now apply indep_same|]. destruct (v =? 1); [now apply indep_same|apply indep_fail].
Qed.
Lemma indep_string n : indep Any (string_deserialize n).
Proof.
  apply indep_bind; [apply stateless_on_reader, safe_deserialize_bytes|]. intros v.
  destruct (from_utf8 v); [now apply indep_same|apply indep_fail].
Qed.
Lemma indep_bigdec n : indep Any (bigdec_deserialize n).
Proof.
  apply indep_bind; [apply stateless_guard|]. intros _.
  apply indep_bind; [apply stateless_on_reader, safe_deserialize_sint|]. intros sc.
  intros [z1 s1] [z2 s2] r _ _ W. unfold bind, modify. cbn [snd].
  destruct (indep_raw (n - 4) s1 s2 r I I W) as (x & a & b & r' & E1 & E2 & K).
  exists x, (sc, a), (sc, b), r'. unfold on_snd. rewrite E1, E2. repeat split. intros Hx. now rewrite K.
Qed.
Lemma indep_range n : indep Any (range_deserialize n).
Proof.
  apply indep_limited. apply indep_bind; [apply stateless_on_reader, safe_deserialize_ilint|]. intros st.
  intros [a1 b1] [a2 b2] r _ _ W. unfold bind, modify, on_reader. cbn [fst snd].
  destruct (deserialize_uint W16 r) as [[c|e| |] r1]; repeat eexists; try discriminate.
Qed.
Lemma indep_version n : indep Any (version_deserialize n).
Proof.
  apply indep_bind; [apply stateless_check|]. intros _.
  intros [[[a1 b1] c1] d1] [[[a2 b2] c2] d2] r _ _ W. unfold bind, modify, on_reader.
  destruct (deserialize_sint W32 r) as [[c|e| |] r1]; [|repeat eexists; discriminate..].
  destruct (deserialize_sint W32 r1) as [[d|e| |] r2]; [|repeat eexists; discriminate..].
  destruct (deserialize_sint W32 r2) as [[f|e| |] r3]; [|repeat eexists; discriminate..].
  destruct (deserialize_sint W32 r3) as [[g|e| |] r4]; [|repeat eexists; discriminate..].
  repeat eexists.
Qed.

Lemma deserialize_value_indep deser v1 v2 n r :
  rwf r -> shape v1 -> shape v2 -> kind_of v1 = kind_of v2 -> exists x v1' v2' r',
    deserialize_value deser v1 n r = (x, v1', r') /\ deserialize_value deser v2 n r = (x, v2', r')
    /\ (x = Ok tt -> v1' = v2').
Proof.
  intros W Sh1 Sh2 K.
  assert (R : forall S (Q : S -> Prop) (m : method S unit) s1 s2 mkv, indep Q m -> Q s1 -> Q s2 ->
    exists x v1' v2' r', run m s1 mkv r = (x, v1', r') /\ run m s2 mkv r = (x, v2', r') /\ (x = Ok tt -> v1' = v2')).
  { intros S Q m s1 s2 mkv H Q1 Q2. destruct (H s1 s2 r Q1 Q2 W) as (x & a & b & r' & E1 & E2 & Hx).
    exists x, (mkv a), (mkv b), r'. unfold run. rewrite E1, E2. repeat split. intros E. now rewrite Hx. }
  destruct v1, v2; try discriminate K; cbn [deserialize_value];
    try (injection K as ->);
    try (apply (R _ (fun s => lenN s = 16)); [|exact Sh1|exact Sh2]);
    try (apply (R _ Any); [|exact I|exact I]).
  - apply indep_same. intros [] [] r0. reflexivity.
  - apply indep_bool.
  - apply indep_bind; [apply stateless_check|]. intros _. apply indep_set_from, safe_deserialize_uint.
  - apply indep_bind; [apply stateless_check|]. intros _. apply indep_set_from, safe_deserialize_sint.
  - apply indep_bind; [apply stateless_check|]. intros _. apply indep_set_from, safe_f32.
  - apply indep_bind; [apply stateless_check|]. intros _. apply indep_set_from, safe_f64.
  - apply indep_bind; [apply stateless_check|]. intros _. apply indep_in_place.
  - apply indep_set_from, safe_deserialize_ilint.
  - apply indep_set_from, safe_deserialize_signed_ilint.
  - apply indep_raw.
  - apply indep_raw.
  - apply indep_string.
  - apply indep_raw.
  - apply indep_bigdec.
  - apply (indep_counted _ push (fun c => n <? c)).
  - apply indep_limited, indep_reset.
  - apply (indep_counted _ push (fun c => n <? c)).
  - apply indep_range.
  - apply indep_version.
  - apply (indep_counted _ push (fun c => n <? c)).
  - apply (indep_counted _ (fun e => hm_insert (fst e) (snd e)) (fun _ => false)).
  - apply (indep_counted _ (fun e => hm_insert (fst e) (snd e)) (fun _ => false)).
Qed.

(** ** deserialize_into against deserialize *)
Lemma wf_id t : wf t -> tag_id t < two64.
Proof. destruct t as [id v]. intros [H _]. exact H. Qed.
(** The target's type and id are those the factory would create. *)
Lemma deserialize_into_agrees e r t :
  engine_ok e -> rwf r -> wf t -> mk_of e (tag_id t) = Some (tag_id t, kind_of (tag_val t)) ->
  forall x r', deserialize e r = (x, r') ->
  (forall wid r1, deserialize_ilint r = (Ok wid, r1) -> wid = tag_id t) ->
  exists y t', deserialize_into e r t = (y, t', r') /\
    (y = Ok tt -> x = Ok t') /\ (forall err, y = Err err -> x = Err err) /\
    (forall t0, x = Ok t0 -> y = Ok tt) /\ (forall err, x = Err err -> y = Err err) /\ (y = Panic <-> x = Panic).
Proof.
  intros He W Wt Hmk x r' E Hid. unfold deserialize in E. cbn [deserialize_fuel] in E. unfold deserialize_into.
  unfold bind in E. destruct (deserialize_ilint r) as [y r1] eqn:E1.
  destruct (safe_deserialize_ilint _ _ _ W E1) as (R1 & W1 & L1).
  destruct y as [wid|err| |]; try contradiction.
  2:{ injection E as <- <-. exists (Err err), t. repeat split; try discriminate; intros ? [= <-]; reflexivity. }
  rewrite (Hid wid r1 eq_refl) in *. rewrite N.eqb_refl. cbn [negb].
  pose proof (progress_ilint _ _ _ W E1) as P1.
  destruct (deserialize_tag_size (tag_id t) r1) as [y r2] eqn:E2.
  destruct (safe_tag_size _ _ _ _ W1 E2) as (R2 & W2 & L2).
  destruct y as [n|err| |]; try contradiction.
  2:{ injection E as <- <-. exists (Err err), t. repeat split; try discriminate; intros ? [= <-]; reflexivity. }
  unfold mk_of in Hmk. destruct (create_tag e (tag_id t)) as [[t0|]| | |] eqn:E3; try discriminate Hmk.
  injection Hmk as Hi Hk.
  unfold deserialize_tag_value_into, LimitedReader_new in *.
  rewrite (deserialize_value_agree True (S (left r2)) (deserialize_fuel (S (left r2)) e) (deserialize_fuel (left r) e)).
  2:{ intros q z q' Wq Lq Eq.
      apply (deserialize_fuel_safe True e (S (left r2)) He (create_tag_terminates e) q z q' Wq); [lia|exact Eq]. }
  2:{ now apply progress_deserialize. }
  2:{ intros q Wq Lq. apply deserialize_fuel_irrelevant; auto; lia. }
  2:{ exact W2. }
  2:{ cbn [left]. lia. }
  destruct (deserialize_value_indep (deserialize_fuel (left r) e) (tag_val t0) (tag_val t) n (RLimited r2 n) W2
    (wf_shape _ (He _ _ (wf_id _ Wt) E3)) (wf_shape _ Wt) Hk) as (z & v0 & v1 & lr & Ea & Eb & Hz).
  rewrite Ea in E. rewrite Eb. cbn [tag_id] in *. rewrite Hi in E.
  injection E as <- <-. eexists _, _. split; [reflexivity|].
  destruct z as [[]|err| |]; cbn [map_ok].
  - rewrite (Hz eq_refl). destruct (_ && _)%bool; cbn [map_ok]; repeat split; try discriminate; try congruence.
  - repeat split; try discriminate; intros ? [= <-]; reflexivity.
  - repeat split; try discriminate; auto.
  - repeat split; try discriminate; auto.
Qed.

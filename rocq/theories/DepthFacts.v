(** How deep the calls of deserialize nest at most. *)
From Verif Require Import Base BaseFacts Types Spec SpecFacts IO IOSpec IOFacts Logic ILInt ILIntFacts Data DataFacts Tags SortFacts TagsFacts
  Factory FactoryFacts DecodeFacts DeserFacts IntoFacts ClosedFacts ConsumeFacts.

(** The bytes a reader can still give, with its limits. *)
Fixpoint room (r : reader) : N :=
  match r with
  | RLimited src n => N.min n (room src)
  | _ => N.of_nat (left r)
  end.
Lemma served_len calls : (length (served calls) <= length calls)%nat.
Proof. induction calls as [|[e|b] l IH]; unfold served in *; cbn; lia. Qed.
Lemma room_moved ok r bs r' : moved ok r bs r' -> room r' <= room r /\ (ok = true -> room r' + lenN bs <= room r).
Proof.
  revert r'; induction r as [a o|v o|s IH n|d sc|s|sc]; intros r'; destruct r'; cbn [moved]; try contradiction; cbn [room left].
  - intros (-> & -> & P). apply prefix_len in P. rewrite lenN_dropN in P. unfold lenN in *. lia.
  - intros (-> & -> & P). apply prefix_len in P. rewrite lenN_dropN in P. unfold lenN in *. lia.
  - intros (L & Le & Eq & H). destruct (IH _ H) as [K1 K2]. split; [lia|]. intros Ok. specialize (K2 Ok). specialize (Eq Ok). lia.
  - intros ->. rewrite app_length. unfold lenN. lia.
  - intros (-> & -> & P). apply prefix_len in P. rewrite lenN_dropN in P. unfold lenN in *. lia.
  - intros (c & -> & ->). rewrite app_length. pose proof (served_len c). unfold lenN. lia.
Qed.
Definition ragree (K : N) {E A} (m1 m2 : reader -> res E A * reader) : Prop := forall r, rwf r -> room r <= K -> m1 r = m2 r.
Definition magree (K : N) {S A} (m1 m2 : method S A) : Prop := forall s r, rwf r -> room r <= K -> m1 (s, r) = m2 (s, r).
Lemma magree_refl K {S A} (m : method S A) : magree K m m.
Proof. intros s r _ _. reflexivity. Qed.
Lemma magree_on_reader K {S A} (m1 m2 : reader -> res tag_error A * reader) :
  ragree K m1 m2 -> magree K (@on_reader S A m1) (on_reader m2).
Proof. intros H s r W L. unfold on_reader. now rewrite H. Qed.
Lemma magree_bind K {S A B} (m1 m2 : method S A) (f1 f2 : A -> method S B) :
  Mmoves _ _ m1 -> magree K m1 m2 -> (forall a, magree K (f1 a) (f2 a)) -> magree K (bind m1 f1) (bind m2 f2).
Proof.
  intros Mv H Hf s r W L. unfold bind. rewrite <- H by assumption.
  destruct (m1 (s, r)) as [x [s1 r1]] eqn:E. destruct (Mv _ _ _ _ _ W E) as [bs M]. 
  destruct x; auto. apply Hf; [exact (moved_rwf _ _ _ _ W M)|]. apply room_moved in M. lia.
Qed.
Lemma magree_limited K {S A} n (m1 m2 : method S A) : magree K m1 m2 -> magree K (limited n m1) (limited n m2).
Proof. intros H s r W L. unfold limited, LimitedReader_new. rewrite H; [reflexivity|exact W|cbn [room]; lia]. Qed.
Lemma magree_fuelled K {S A} (m1 m2 : nat -> method S A) : (forall f, magree K (m1 f) (m2 f)) -> magree K (fuelled m1) (fuelled m2).
Proof. intros H s r W L. unfold fuelled. now apply H. Qed.
Notation mv_reader := (c_on_reader _ _ closed_moves).
Notation mv_modify := (c_modify _ _ closed_moves).
Lemma magree_repeat K {S A} (m1 m2 : reader -> res tag_error A * reader) (store : A -> S -> S) f count :
  Rmoves _ _ m1 -> ragree K m1 m2 -> magree K (repeat_read f m1 store count) (repeat_read f m2 store count).
Proof.
  intros Mv H. revert count. induction f as [|f IH]; intros count; [apply magree_refl|]. cbn [repeat_read].
  destruct (count =? 0); [apply magree_refl|].
  apply magree_bind; [now apply mv_reader|now apply magree_on_reader|]. intros a.
  apply magree_bind; [apply mv_modify|apply magree_refl|]. intros _. apply IH.
Qed.
Lemma magree_while K {S A} (m1 m2 : reader -> res tag_error A * reader) (store : A -> S -> S) f :
  Rmoves _ _ m1 -> ragree K m1 m2 -> magree K (while_read f m1 store) (while_read f m2 store).
Proof.
  intros Mv H. induction f as [|f IH]; [apply magree_refl|]. intros s r W L. cbn [while_read].
  destruct (limit_empty _); [reflexivity|]. revert s r W L.
  match goal with |- forall s r, _ -> _ -> ?m (s, r) = ?m' (s, r) => change (magree K m m') end.
  apply magree_bind; [now apply mv_reader|now apply magree_on_reader|]. intros a.
  apply magree_bind; [apply mv_modify|apply magree_refl|]. intros _. exact IH.
Qed.
Section Agree.
Variables (K : N) (d1 d2 : reader -> res tag_error tag * reader).
Hypothesis Mv : Rmoves _ _ d1.
Hypothesis H : ragree K d1 d2.
Lemma magree_seq n : magree K (seq_deserialize d1 n) (seq_deserialize d2 n).
Proof.
  apply magree_limited, magree_bind; [apply mv_modify|apply magree_refl|]. intros _.
  apply magree_fuelled. intros f. now apply magree_while.
Qed.
Lemma magree_arr n : magree K (arr_deserialize d1 n) (arr_deserialize d2 n).
Proof.
  apply magree_limited.
  apply magree_bind; [apply mv_reader, (cl_ilint _ _ closed_moves)|apply magree_refl|]. intros c.
  apply magree_bind; [apply (cl_guard _ _ closed_moves)|apply magree_refl|]. intros _.
  apply magree_bind; [apply mv_modify|apply magree_refl|]. intros _.
  apply magree_bind; [now apply (cl_repeat _ _ closed_moves)|apply magree_fuelled; intros f; now apply magree_repeat|].
  intros _. apply magree_refl.
Qed.
Lemma magree_dict n : magree K (dict_deserialize d1 n) (dict_deserialize d2 n).
Proof.
  assert (Me : Rmoves _ _ (k <- deserialize_string_tag_from_value ;; t <- d1 ;; ret (k, t))).
  { apply (c_bind _ _ closed_moves); [apply (cl_string _ _ closed_moves)|]. intros k.
    apply (c_bind _ _ closed_moves); [exact Mv|]. intros t. apply (cl_ret _ _ closed_moves). }
  assert (Ae : ragree K (k <- deserialize_string_tag_from_value ;; t <- d1 ;; ret (k, t))
                        (k <- deserialize_string_tag_from_value ;; t <- d2 ;; ret (k, t))).
  { intros r W L. unfold bind. destruct (deserialize_string_tag_from_value r) as [x r1] eqn:E.
    destruct (cl_string _ _ closed_moves _ _ _ W E) as [bs M]. destruct x; auto.
    rewrite H; [reflexivity|exact (moved_rwf _ _ _ _ W M)|]. apply room_moved in M. lia. }
  apply magree_limited.
  apply magree_bind; [apply mv_reader, (cl_ilint _ _ closed_moves)|apply magree_refl|]. intros c.
  apply magree_bind; [apply mv_modify|apply magree_refl|]. intros _.
  apply magree_bind; [now apply (cl_repeat _ _ closed_moves)|apply magree_fuelled; intros f; now apply magree_repeat|].
  intros _. apply magree_refl.
Qed.
Lemma value_ragree v n r : rwf r -> room r <= K -> deserialize_value d1 v n r = deserialize_value d2 v n r.
Proof.
  intros W L. destruct v; cbn [deserialize_value]; try reflexivity; unfold run.
  - now rewrite magree_seq.
  - now rewrite magree_arr.
  - now rewrite magree_dict.
Qed.
End Agree.

(** Sixty times the number of levels that [k] bytes allow, roughly: a level around
    [k] bytes takes 2 bytes if a size of one byte can express [k], then 3, 4, 5 and
    6. *)
Definition levels60 (k : N) : N :=
  30 * N.min k 249 + 20 * (N.min k 506 - 249) + 15 * (N.min k 65787 - 506) + 12 * (N.min k 16777468 - 65787) + 10 * (k - 16777468).
(** Nested calls that [k] bytes allow.  The second part is for sequences with
    implicit ids, whose header is one byte, and which no standard factory makes. *)
Definition levels (k : N) : N := levels60 k / 60 + N.min k 17 + 1.
Lemma levels60_mono a b : a <= b -> levels60 a <= levels60 b.
Proof. unfold levels60. lia. Qed.
(** One more level around [k'] bytes. *)
Lemma level_explicit k k' n : k' <= n -> k' + 1 + encoded_size n <= k -> levels60 k' + 60 <= levels60 k.
Proof.
  intros Hn Hk. assert (He : k' + 1 + encoded_size k' <= k).
  { enough (encoded_size k' <= encoded_size n) by lia. unfold encoded_size, ILINT_BASE.
    repeat match goal with |- context [if ?c then _ else _] => destruct c eqn:? end; lia. }
  clear Hn Hk n. transitivity (levels60 (k' + 1 + encoded_size k')); [|now apply levels60_mono].
  unfold levels60, encoded_size, ILINT_BASE.
  repeat match goal with |- context [if ?c then _ else _] => destruct c eqn:? end; lia.
Qed.
Lemma div60 a b : a + 60 <= b -> a / 60 + 1 <= b / 60.
Proof. lia. Qed.
Lemma div60_mono a b : a <= b -> a / 60 <= b / 60.
Proof. lia. Qed.
(** A header that declares [n] bytes. *)
Lemma level_header wid idb szb n k : ilint_repr wid idb -> bytes_ok szb -> wire_size wid szb n ->
  lenN idb + lenN szb <= k -> levels (N.min n (k - (lenN idb + lenN szb))) + 1 <= levels k.
Proof.
  intros R B Sz. revert B. destruct Sz as [Hw|m z Hw Rz]; intros B L; apply ilint_repr_len in R; unfold levels.
  - assert (Hi : implicit_size wid <= 16) by (unfold implicit_size; repeat match goal with |- context [match ?c with _ => _ end] => destruct c end; lia).
    rewrite lenN_nil in *. set (k' := N.min _ _). assert (k' <= 16 /\ k' + 1 <= k) as [H1 H2] by lia.
    pose proof (div60_mono _ _ (levels60_mono k' k ltac:(lia))). lia.
  - pose proof (ilint_minimal _ _ B Rz) as Mn. rewrite <- encoded_size_spec in Mn by (eapply ilint_repr_bound; eauto).
    set (k' := N.min _ _). assert (k' <= m /\ k' + 1 + encoded_size m <= k) as [H1 H2] by lia.
    pose proof (div60 _ _ (level_explicit k k' m H1 H2)). lia.
Qed.

Lemma levels_mono a b : a <= b -> levels a <= levels b.
Proof. intros H. unfold levels. pose proof (div60_mono _ _ (levels60_mono _ _ H)). lia. Qed.
Lemma levels_max k : k <= 536870912 -> levels k <= 90041125.
Proof. intros H. apply levels_mono in H. etransitivity; [exact H|]. now apply N.leb_le. Qed.

(** Nested calls that are enough for [r]. *)
Definition depth_limit (r : reader) : N := N.min (levels (room r)) 90041126.
Lemma deserialize_fuel_levels e : forall f f' r, rwf r -> depth_limit r <= N.of_nat f -> depth_limit r <= N.of_nat f' ->
  deserialize_fuel f e r = deserialize_fuel f' e r.
Proof.
  induction f as [|f IH]; intros f' r W L L'; unfold depth_limit in *; [unfold levels in L; lia|].
  destruct f' as [|f']; [unfold levels in L'; lia|]. cbn [deserialize_fuel].
  unfold bind. destruct (deserialize_ilint r) as [x r1] eqn:E1. destruct x as [wid| | |]; auto.
  destruct (sound_deserialize_ilint _ _ _ W E1) as (idb & R1 & D1). destruct (delivers_rwf _ _ _ W D1) as [W1 _].
  destruct (deserialize_tag_size wid r1) as [x r2] eqn:E2. destruct x as [n| | |]; auto.
  destruct (sound_tag_size _ _ _ _ W1 E2) as (szb & (Sz & Ln) & D2). destruct (delivers_rwf _ _ _ W1 D2) as [W2 B2].
  destruct (create_tag e wid) as [[t|]| | |]; auto.
  destruct (room_moved true _ _ _ (moved_delivers _ _ _ _ D1)) as [_ K1].
  destruct (room_moved true _ _ _ (moved_delivers _ _ _ _ D2)) as [_ K2]. specialize (K1 eq_refl). specialize (K2 eq_refl).
  pose proof (level_header wid idb szb n (room r) R1 B2 Sz ltac:(lia)) as Lv.
  set (k := N.min n (room r - (lenN idb + lenN szb))) in *.
  pose proof (levels_max k ltac:(unfold MAX_TAG_SIZE in *; lia)) as Lk.
  unfold deserialize_tag_value_into, LimitedReader_new.
  rewrite (value_ragree k (deserialize_fuel f e) (deserialize_fuel f' e)); [reflexivity| | |exact W2|cbn [room]; lia].
  - apply fuel_moves.
  - intros q Wq Lq. apply levels_mono in Lq. apply IH; [exact Wq|lia|lia].
Qed.
Lemma deserialize_depth e f r : engine_ok e -> rwf r -> depth_limit r <= N.of_nat f -> deserialize_fuel f e r = deserialize e r.
Proof.
  intros He W L. rewrite <- (deserialize_fuel_eq e (Nat.max f (S (left r)))) by (auto; lia).
  apply deserialize_fuel_levels; [exact W|exact L|lia].
Qed.
(** Readers of unlimited length are covered by the constant. *)
Lemma depth_limit_max r : depth_limit r <= 90041126.
Proof. unfold depth_limit. lia. Qed.

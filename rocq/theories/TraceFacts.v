(** Trace.v without the trace is Factory.v; and how much is requested. *)
From Verif Require Import Base BaseFacts Types Spec SpecFacts IO IOSpec IOFacts Logic ILInt ILIntFacts Data DataFacts Tags
  Factory FactoryFacts DecodeFacts DeserFacts Trace.

(** ** Erasure *)
Definition erases {St A} (m : traced St A) (m0 : St -> res tag_error A * St) : Prop := forall s, fst (m s) = m0 s.
Lemma erases_quiet {St A} (m : St -> res tag_error A * St) : erases (quiet m) m.
Proof. intros s. unfold quiet. now destruct (m s). Qed.
Lemma erases_ret {St A} (a : A) : erases (@tret St A a) (ret a).
Proof. now intros s. Qed.
Lemma erases_fail {St A} e : erases (@tfail St A e) (fail e).
Proof. now intros s. Qed.
Lemma erases_bind {St A B} (m : traced St A) m0 (f : A -> traced St B) f0 :
  erases m m0 -> (forall a, erases (f a) (f0 a)) -> erases (tbind m f) (bind m0 f0).
Proof.
  intros Hm Hf s. unfold tbind, bind. rewrite <- (Hm s). destruct (m s) as [[[a|e| |] s'] l]; cbn [fst]; try reflexivity.
  rewrite <- (Hf a s'). now destruct (f a s') as [[x s''] l'].
Qed.
Lemma erases_tell {St A} ev (m : traced St A) m0 : erases m m0 -> erases (tell ev ;~ m) m0.
Proof. intros H s. unfold tbind, tell. rewrite <- (H s). now destruct (m s) as [[x s''] l']. Qed.
Lemma erases_on_reader {S A} (m : treader_fn A) m0 : erases m m0 -> erases (@t_on_reader S A m) (on_reader m0).
Proof. intros H [s r]. unfold t_on_reader, on_reader. rewrite <- (H r). now destruct (m r) as [[x r'] l]. Qed.
Lemma erases_limited {S A} n (m : tmethod S A) m0 : erases m m0 -> erases (t_limited n m) (limited n m0).
Proof.
  intros H [s r]. unfold t_limited, limited. rewrite <- (H (s, LimitedReader_new r n)).
  now destruct (m (s, LimitedReader_new r n)) as [[x [s' r']] l].
Qed.
Lemma erases_repeat_read {S A} (m : treader_fn A) m0 (store : A -> S -> S) f : erases m m0 ->
  forall count, erases (t_repeat_read f m store count) (repeat_read f m0 store count).
Proof.
  intros H. induction f as [|f IH]; intros count; cbn [t_repeat_read repeat_read]; destruct (count =? 0); try apply erases_ret.
  - now intros s.
  - apply erases_bind; [now apply erases_on_reader|]. intros a. apply erases_bind; [apply erases_quiet|]. intros _. apply IH.
Qed.
Lemma erases_while_read {S A} (m : treader_fn A) m0 (store : A -> S -> S) f : erases m m0 ->
  erases (t_while_read f m store) (while_read f m0 store).
Proof.
  intros H. induction f as [|f IH]; intros st; cbn [t_while_read while_read]; destruct (limit_empty (snd st)); try reflexivity.
  apply erases_bind; [now apply erases_on_reader|]. intros a. apply erases_bind; [apply erases_quiet|]. intros _. apply IH.
Qed.
Lemma erases_fuelled {S A} (m : nat -> tmethod S A) m0 : (forall f, erases (m f) (m0 f)) -> erases (t_fuelled m) (fuelled m0).
Proof. intros H st. apply H. Qed.
Lemma erases_guard {St} (c : bool) e : erases (if c then @tfail St unit e else tret tt) (if c then fail e else ret tt).
Proof. destruct c; [apply erases_fail|apply erases_ret]. Qed.
Lemma erases_bytes {S} n : erases (@t_bytes S n) (on_reader (deserialize_bytes n)).
Proof. apply erases_tell, erases_quiet. Qed.
Lemma erases_string_tag : erases t_string_tag deserialize_string_tag_from_value.
Proof.
  assert (H : erases t_string_tag_into deserialize_string_tag_from_value_into).
  { unfold t_string_tag_into, deserialize_string_tag_from_value_into.
    apply erases_bind; [apply erases_quiet|]. intros id. apply erases_bind; [apply erases_guard|]. intros _.
    apply erases_bind; [apply erases_quiet|]. intros len. apply erases_bind; [apply erases_quiet|]. intros n.
    apply erases_bind; [apply erases_bytes|]. intros tmp. destruct (from_utf8 tmp); [apply erases_quiet|apply erases_fail]. }
  intros r. unfold t_string_tag, deserialize_string_tag_from_value. rewrite <- (H ([], r)).
  now destruct (t_string_tag_into ([], r)) as [[x [s r']] l].
Qed.
Definition runs (y : res tag_error unit * value * reader * list event) (y0 : res tag_error unit * value * reader) : Prop := fst y = y0.
Lemma erases_run {S} (m : tmethod S unit) m0 s mk r : erases m m0 -> runs (t_run m s mk r) (run m0 s mk r).
Proof. intros H. unfold runs, t_run, run. rewrite <- (H (s, r)). now destruct (m (s, r)) as [[x [s' r']] l]. Qed.
Lemma erases_raw n : erases (t_raw n) (raw_deserialize n).
Proof. apply erases_tell, erases_quiet. Qed.
Section Erase.
Variables (deser : treader_fn tag) (deser0 : reader -> res tag_error tag * reader).
Hypothesis Hd : erases deser deser0.
Lemma erases_value v n r : runs (t_deserialize_value deser v n r) (deserialize_value deser0 v n r).
Proof.
  destruct v; cbn [t_deserialize_value];
    try (unfold runs; cbn [deserialize_value]; match goal with |- context [run ?m ?s ?mk r] => now destruct (run m s mk r) as [[? ?] ?] end);
    apply erases_run; try apply erases_raw.
  - unfold t_string, string_deserialize. apply erases_bind; [apply erases_bytes|]. intros tmp.
    destruct (from_utf8 tmp); [apply erases_quiet|apply erases_fail].
  - unfold t_bigdec, bigdec_deserialize. apply erases_bind; [apply erases_guard|]. intros _.
    apply erases_bind; [apply erases_quiet|]. intros sc. apply erases_bind; [apply erases_quiet|]. intros _.
    intros [[s t] r0]. unfold t_on_snd, on_snd. rewrite <- (erases_raw _ (t, r0)).
    now destruct (t_raw (n - 4) (t, r0)) as [[x [t' r']] l].
  - apply erases_limited. apply erases_bind; [apply erases_quiet|]. intros c. apply erases_bind; [apply erases_guard|]. intros _.
    apply erases_bind; [apply erases_quiet|]. intros _. apply erases_tell.
    apply erases_bind; [|intros _; apply erases_quiet]. apply erases_fuelled. intros f. apply erases_repeat_read, erases_quiet.
  - apply erases_limited. apply erases_bind; [apply erases_quiet|]. intros _. apply erases_fuelled. intros f. now apply erases_while_read.
  - apply erases_limited. apply erases_bind; [apply erases_quiet|]. intros c. apply erases_bind; [apply erases_guard|]. intros _.
    apply erases_bind; [apply erases_quiet|]. intros _. apply erases_tell.
    apply erases_bind; [|intros _; apply erases_quiet]. apply erases_fuelled. intros f. now apply erases_repeat_read.
  - apply erases_limited. apply erases_bind; [apply erases_quiet|]. intros c. apply erases_bind; [apply erases_guard|]. intros _.
    apply erases_bind; [apply erases_quiet|]. intros _. apply erases_tell.
    apply erases_bind; [|intros _; apply erases_quiet]. apply erases_fuelled. intros f. apply erases_repeat_read, erases_quiet.
  - apply erases_limited. apply erases_bind; [apply erases_quiet|]. intros c.
    apply erases_bind; [apply erases_quiet|]. intros _.
    apply erases_bind; [|intros _; apply erases_quiet]. apply erases_fuelled. intros f. apply erases_repeat_read.
    apply erases_bind; [apply erases_string_tag|]. intros k. apply erases_bind; [exact Hd|]. intros t. apply erases_ret.
  - apply erases_limited. apply erases_bind; [apply erases_quiet|]. intros c.
    apply erases_bind; [apply erases_quiet|]. intros _.
    apply erases_bind; [|intros _; apply erases_quiet]. apply erases_fuelled. intros f. apply erases_repeat_read.
    apply erases_bind; [apply erases_string_tag|]. intros k. apply erases_bind; [apply erases_string_tag|]. intros t. apply erases_ret.
Qed.
End Erase.
Lemma erases_deserialize_fuel e f : erases (t_deserialize_fuel f e) (deserialize_fuel f e).
Proof.
  induction f as [|f IH]; cbn [t_deserialize_fuel deserialize_fuel]; [now intros r|]. intros r.
  change (fst ((tag_id <~ quiet deserialize_ilint ;; tag_size <~ quiet (deserialize_tag_size tag_id) ;;
      created <~ quiet (fun r => (create_tag e tag_id, r)) ;;
      match created with
      | None => tfail UnknownTag
      | Some t => tell (EvTag tag_id) ;~
          (fun r => let '(x, t', r', l) := t_deserialize_tag_value_into (t_deserialize_fuel f e) tag_size t r in (map_ok (fun _ => t') x, r', l))
      end) r) = (tag_id <- deserialize_ilint ;;
       tag_size <- deserialize_tag_size tag_id ;;
       created <- (fun r => (create_tag e tag_id, r)) ;;
       match created with
       | None => fail UnknownTag
       | Some t => fun r =>
           let '(x, t', r') := deserialize_tag_value_into (deserialize_fuel f e) tag_size t r in
           (map_ok (fun _ => t') x, r')
       end) r).
  revert r. apply erases_bind; [apply erases_quiet|]. intros id. apply erases_bind; [apply erases_quiet|]. intros n.
  apply erases_bind; [apply erases_quiet|]. intros [t|]; [|apply erases_fail].
  apply erases_tell. intros r. unfold t_deserialize_tag_value_into, deserialize_tag_value_into.
  pose proof (erases_value _ _ IH (tag_val t) n (LimitedReader_new r n)) as K. unfold runs in K. rewrite <- K.
  now destruct (t_deserialize_value _ _ _ _) as [[[x v'] lr] l].
Qed.

(** ** Every request is paid for by a byte of the input *)
Definition allowed (ev : event) : Prop :=
  match ev with EvTag _ => True | EvBytes n => n <= 536870912 | EvElements _ n => n <= 536870912 end.
Definition credit {A} (k e : Z) (x : res tag_error A) : Z := match x with Ok _ => k | _ => e end.
(** Two requests are allowed for each byte consumed, plus [k] when it succeeds
    and [e] when it does not. *)
Definition spent (r r' : reader) (l : list event) (k : Z) : Prop :=
  rwf r' /\ (left r' <= left r)%nat /\ Forall allowed l /\
  (Z.of_nat (length l) + 2 * Z.of_nat (left r') <= 2 * Z.of_nat (left r) + k)%Z.
Definition paid (k e : Z) {S A} (m : tmethod S A) : Prop :=
  forall s r x s' r' l, rwf r -> m (s, r) = (x, (s', r'), l) -> spent r r' l (credit k e x).
Definition rpaid (k e : Z) {A} (m : treader_fn A) : Prop :=
  forall r x r' l, rwf r -> m r = (x, r', l) -> spent r r' l (credit k e x).
Lemma paid_weaken k e k' e' {S A} (m : tmethod S A) : paid k e m -> (k <= k')%Z -> (e <= e')%Z -> paid k' e' m.
Proof.
  intros H Hk He s r x s' r' l W E. destruct (H _ _ _ _ _ _ W E) as (W' & L & F & B). repeat split; auto.
  destruct x; cbn [credit] in *; lia.
Qed.
Lemma spent_trans r r1 r2 l l' k k' : spent r r1 l k -> spent r1 r2 l' k' -> spent r r2 (l ++ l') (k + k').
Proof.
  intros (W1 & L1 & F1 & B1) (W2 & L2 & F2 & B2). repeat split; auto; [lia|now apply Forall_app|].
  rewrite app_length, Nat2Z.inj_add. lia.
Qed.
Lemma spent_weaken r r' l k k' : spent r r' l k -> (k <= k')%Z -> spent r r' l k'.
Proof. intros (W & L & F & B) H. repeat split; auto. lia. Qed.
Lemma paid_bind k1 e1 k2 e2 k e {S A B} (m : tmethod S A) (f : A -> tmethod S B) :
  paid k1 e1 m -> (forall a, paid k2 e2 (f a)) -> (k1 + k2 <= k)%Z -> (e1 <= e)%Z -> (k1 + e2 <= e)%Z -> paid k e (tbind m f).
Proof.
  intros Hm Hf H1 H2 H3 s r x s' r' l W E. unfold tbind in E.
  destruct (m (s, r)) as [[y [s1 r1]] l1] eqn:Em. pose proof (Hm _ _ _ _ _ _ W Em) as K.
  destruct y as [a|er| |].
  - destruct (f a (s1, r1)) as [[z [s2 r2]] l2] eqn:Ef. injection E as <- <- <- <-.
    pose proof (Hf a _ _ _ _ _ _ (proj1 K) Ef) as K2. eapply spent_weaken; [eapply spent_trans; eauto|].
    cbn [credit]. destruct z; cbn [credit] in *; lia.
  - injection E as <- <- <- <-. eapply spent_weaken; [exact K|]. cbn [credit]. lia.
  - injection E as <- <- <- <-. eapply spent_weaken; [exact K|]. cbn [credit]. lia.
  - injection E as <- <- <- <-. eapply spent_weaken; [exact K|]. cbn [credit]. lia.
Qed.
Lemma rpaid_bind k1 e1 k2 e2 k e {A B} (m : treader_fn A) (f : A -> treader_fn B) :
  rpaid k1 e1 m -> (forall a, rpaid k2 e2 (f a)) -> (k1 + k2 <= k)%Z -> (e1 <= e)%Z -> (k1 + e2 <= e)%Z -> rpaid k e (tbind m f).
Proof.
  intros Hm Hf H1 H2 H3 r x r' l W E. unfold tbind in E.
  destruct (m r) as [[y r1] l1] eqn:Em. pose proof (Hm _ _ _ _ W Em) as K.
  destruct y as [a|er| |].
  - destruct (f a r1) as [[z r2] l2] eqn:Ef. injection E as <- <- <-.
    pose proof (Hf a _ _ _ _ (proj1 K) Ef) as K2. eapply spent_weaken; [eapply spent_trans; eauto|].
    cbn [credit]. destruct z; cbn [credit] in *; lia.
  - injection E as <- <- <-. eapply spent_weaken; [exact K|]. cbn [credit]. lia.
  - injection E as <- <- <-. eapply spent_weaken; [exact K|]. cbn [credit]. lia.
  - injection E as <- <- <-. eapply spent_weaken; [exact K|]. cbn [credit]. lia.
Qed.
Lemma paid_quiet {S A} (m : method S A) : (forall b, msafe True b m) -> paid 0 0 (quiet m).
Proof.
  intros H s r x s' r' l W E. unfold quiet in E. destruct (m (s, r)) as [y [s1 r1]] eqn:Em. injection E as <- <- <- <-.
  destruct (H (Datatypes.S (left r)) _ _ _ _ _ W ltac:(lia) Em) as (_ & W' & L). repeat split; auto.
  destruct y; cbn [credit length]; lia.
Qed.
Lemma rpaid_quiet {A} (m : reader -> res tag_error A * reader) : (forall b, rsafe True b m) -> rpaid 0 0 (quiet m).
Proof.
  intros H r x r' l W E. unfold quiet in E. destruct (m r) as [y r1] eqn:Em. injection E as <- <- <-.
  destruct (H (Datatypes.S (left r)) _ _ _ W ltac:(lia) Em) as (_ & W' & L). repeat split; auto.
  destruct y; cbn [credit length]; lia.
Qed.
(** An ILInt read pays for two requests. *)
Lemma rpaid_ilint : rpaid (-2) 0 (quiet deserialize_ilint).
Proof.
  intros r x r' l W E. unfold quiet in E. destruct (deserialize_ilint r) as [y r1] eqn:Em. injection E as <- <- <-.
  destruct (safe_deserialize_ilint _ _ _ W Em) as (_ & W' & L). repeat split; auto.
  destruct y as [v|er| |]; cbn [credit length]; try lia. pose proof (progress_ilint _ _ _ W Em). lia.
Qed.
Lemma paid_ilint {S} : paid (-2) 0 (@quiet (S * reader) N (on_reader deserialize_ilint)).
Proof.
  intros s r x s' r' l W E. apply (rpaid_ilint r x r' l W). unfold quiet, on_reader in *.
  destruct (deserialize_ilint r) as [y r1]. now injection E as <- _ <- <-.
Qed.
Lemma paid_tell {S} ev : allowed ev -> paid 1 1 (@tell (S * reader) ev).
Proof.
  intros H s r x s' r' l W E. unfold tell in E. injection E as <- <- <- <-. repeat split; auto.
  cbn [credit length]. lia.
Qed.
Lemma paid_ret {S A} (a : A) : paid 0 0 (@tret (S * reader) A a).
Proof. intros s r x s' r' l W E. unfold tret in E. injection E as <- <- <- <-. repeat split; auto. cbn [credit length]. lia. Qed.
Lemma paid_fail {S A} er : paid 0 0 (@tfail (S * reader) A er).
Proof. intros s r x s' r' l W E. unfold tfail in E. injection E as <- <- <- <-. repeat split; auto. cbn [credit length]. lia. Qed.
Lemma rpaid_ret {A} (a : A) : rpaid 0 0 (@tret reader A a).
Proof. intros r x r' l W E. unfold tret in E. injection E as <- <- <-. repeat split; auto. cbn [credit length]. lia. Qed.
Lemma paid_guard {S} (c : bool) er : paid 0 0 (if c then @tfail (S * reader) unit er else tret tt).
Proof. destruct c; [apply paid_fail|apply paid_ret]. Qed.
Lemma paid_modify {S} (f : S -> S) : paid 0 0 (quiet (modify f)).
Proof. apply paid_quiet. intros b. apply msafe_modify. Qed.
Lemma paid_on_reader k e {S A} (m : treader_fn A) : rpaid k e m -> paid k e (@t_on_reader S A m).
Proof.
  intros H s r x s' r' l W E. unfold t_on_reader in E. destruct (m r) as [[y r1] l1] eqn:Em. injection E as <- <- <- <-. eauto.
Qed.
Lemma paid_limited k e {S A} n (m : tmethod S A) : paid k e m -> paid k e (t_limited n m).
Proof.
  intros H s r x s' r' l W E. unfold t_limited, LimitedReader_new in E.
  destruct (m (s, RLimited r n)) as [[y [s1 r1]] l1] eqn:Em. injection E as <- <- <- <-.
  destruct (H s (RLimited r n) _ _ _ _ W Em) as (W' & L & F & B). cbn [left] in *. repeat split; auto using rwf_unlimit;
  rewrite left_unlimit; auto.
Qed.
Lemma paid_repeat_read {S A} (m : treader_fn A) (store : A -> S -> S) : rpaid 0 0 m ->
  forall f count, paid 0 0 (t_repeat_read f m store count).
Proof.
  intros H. induction f as [|f IH]; intros count; cbn [t_repeat_read]; destruct (count =? 0); try apply paid_ret.
  - intros s r x s' r' l W E. injection E as <- <- <- <-. repeat split; auto. cbn [credit length]. lia.
  - apply (paid_bind 0 0 0 0); try lia; [now apply paid_on_reader|]. intros a.
    apply (paid_bind 0 0 0 0); try lia; [apply paid_modify|]. intros _. apply IH.
Qed.
Lemma paid_while_read {S A} (m : treader_fn A) (store : A -> S -> S) : rpaid 0 0 m -> forall f, paid 0 0 (t_while_read f m store).
Proof.
  intros H. induction f as [|f IH]; intros s r x s' r' l W E; cbn [t_while_read snd] in E; destruct (limit_empty r).
  - injection E as <- <- <- <-. repeat split; auto. cbn [credit length]. lia.
  - injection E as <- <- <- <-. repeat split; auto. cbn [credit length]. lia.
  - injection E as <- <- <- <-. repeat split; auto. cbn [credit length]. lia.
  - revert E. apply (paid_bind 0 0 0 0 0 0); try lia; [now apply paid_on_reader| |assumption]. intros a.
    apply (paid_bind 0 0 0 0); try lia; [apply paid_modify|]. intros _. apply IH.
Qed.
Lemma paid_fuelled k e {S A} (m : nat -> tmethod S A) : (forall f, paid k e (m f)) -> paid k e (t_fuelled m).
Proof. intros H s r x s' r' l W E. unfold t_fuelled in E. eapply H; eauto. Qed.
Lemma paid_bytes {S} n : n <= 536870912 -> paid 1 1 (@t_bytes S n).
Proof.
  intros H. apply (paid_bind 1 1 0 0); try lia; [now apply paid_tell|]. intros _. apply paid_quiet.
  intros b. apply msafe_on_reader, safe_rsafe, safe_deserialize_bytes.
Qed.
Lemma rpaid_string_tag : rpaid (-1) 0 t_string_tag.
Proof.
  assert (H : paid (-1) 0 t_string_tag_into).
  { unfold t_string_tag_into. apply (paid_bind (-2) 0 1 1); try lia; [apply paid_ilint|]. intros id.
    apply (paid_bind 0 0 1 1); try lia; [apply paid_guard|]. intros _.
    apply (paid_bind (-2) 0 1 1); try lia; [apply paid_ilint|]. intros len.
    intros s r x s' r' l W E. unfold tbind at 1, quiet at 1 in E. unfold tag_size_to_usize in E.
    destruct (N.ltb_spec MAX_TAG_SIZE len) as [|Hl].
    { injection E as <- <- <- <-. repeat split; auto. cbn [credit length]. lia. }
    match type of E with context [tbind (t_bytes len) ?g (s, r)] => destruct (tbind (t_bytes len) g (s, r)) as [[y [s1 r1]] l1] eqn:Eq end.
    injection E as <- <- <- <-. cbn [app]. revert Eq. apply (paid_bind 1 1 0 0 1 1); try lia; [now apply paid_bytes| |assumption].
    intros tmp. destruct (from_utf8 tmp); [apply paid_modify|apply paid_fail]. }
  intros r x r' l W E. unfold t_string_tag in E. destruct (t_string_tag_into ([], r)) as [[y [s1 r1]] l1] eqn:Em.
  injection E as <- <- <-. pose proof (H _ _ _ _ _ _ W Em) as K. destruct y; exact K.
Qed.
Lemma paid_raw n : n <= 536870912 -> paid 1 1 (t_raw n).
Proof.
  intros H. apply (paid_bind 1 1 0 0); try lia; [now apply paid_tell|]. intros _. apply paid_quiet. intros b. apply msafe_raw.
Qed.

Lemma paid_guarded k e {S A} (c : bool) er (m : tmethod S A) : (0 <= e)%Z -> (c = false -> paid k e m) ->
  paid k e ((if c then tfail er else tret tt) ;~ m).
Proof.
  intros He H. destruct c.
  - intros s r x s' r' l W E. injection E as <- <- <- <-. repeat split; auto. cbn [credit length]. lia.
  - apply (paid_bind 0 0 k e); try lia; [apply paid_ret|]. intros _. now apply H.
Qed.
(** The two array types. *)
Lemma paid_counted {A} (m : treader_fn A) k n : n <= 536870912 -> rpaid 0 0 m ->
  paid 1 1 (t_limited n (
    count <~ quiet (on_reader deserialize_ilint) ;;
    (if n <? count then tfail CorruptedData else tret tt) ;~
    quiet (modify (fun _ => [])) ;~
    tell (EvElements k count) ;~
    t_fuelled (fun f => t_repeat_read f m push count) ;~
    quiet (limited_reader_ensure_empty CorruptedData))).
Proof.
  intros Hn Hm. apply paid_limited. apply (paid_bind (-2) 0 1 1); try lia; [apply paid_ilint|]. intros c.
  apply paid_guarded; [lia|]. intros Hc. rewrite N.ltb_ge in Hc.
  apply (paid_bind 0 0 1 1); try lia; [apply paid_modify|]. intros _.
  apply (paid_bind 1 1 0 0); try lia; [apply paid_tell; cbn [allowed]; lia|]. intros _.
  apply (paid_bind 0 0 0 0); try lia; [|intros _; apply paid_quiet; intros b; apply msafe_ensure_empty].
  apply paid_fuelled. intros f. now apply paid_repeat_read.
Qed.
(** The two dictionary types. *)
Lemma paid_entries {A} (m : treader_fn (list N * A)) n : rpaid 0 0 m ->
  paid 1 1 (t_limited n (
    count <~ quiet (on_reader deserialize_ilint) ;;
    quiet (modify (fun _ => [])) ;~
    t_fuelled (fun f => t_repeat_read f m (fun e => hm_insert (fst e) (snd e)) count) ;~
    quiet (limited_reader_ensure_empty CorruptedData))).
Proof.
  intros Hm. apply paid_limited. apply (paid_bind (-2) 0 1 1); try lia; [apply paid_ilint|]. intros c.
  apply (paid_bind 0 0 1 1); try lia; [apply paid_modify|]. intros _.
  apply (paid_bind 0 0 0 0); try lia; [|intros _; apply paid_quiet; intros b; apply msafe_ensure_empty].
  apply paid_fuelled. intros f. now apply paid_repeat_read.
Qed.
Lemma rpaid_ilint_weak : rpaid 0 0 (quiet deserialize_ilint).
Proof. apply rpaid_quiet. intros b. apply safe_rsafe, safe_deserialize_ilint. Qed.

Section Paid.
Variable deser : treader_fn tag.
Hypothesis Hd : rpaid 0 0 deser.
Lemma paid_value v n r x v' r' l : n <= 536870912 -> rwf r -> t_deserialize_value deser v n r = (x, v', r', l) -> spent r r' l 1.
Proof.
  intros Hn W E.
  assert (K : forall S (m : tmethod S unit) s mk, paid 1 1 m -> t_run m s mk r = (x, v', r', l) -> spent r r' l 1).
  { intros S m s mk H Er. unfold t_run in Er. destruct (m (s, r)) as [[y [s1 r1]] l1] eqn:Em. injection Er as <- <- <- <-.
    pose proof (H _ _ _ _ _ _ W Em) as G. now destruct y. }
  destruct v; cbn [t_deserialize_value] in E;
    try (match type of E with context [deserialize_value ?d ?vv n r] =>
           destruct (deserialize_value d vv n r) as [[y v1] r1] eqn:Ed; injection E as <- <- <- <-;
           destruct (deserialize_value_safe True (Datatypes.S (left r)) d) with (v := vv) (n := n) (r := r) (x := y) (v' := v1) (r' := r1)
             as (_ & W' & L' & _); auto;
             [ intros r0 x0 r0' W0 _ [= <- <-]; repeat split; auto
             | intros r0 a0 r0' W0 E0; discriminate E0
             | repeat split; auto; cbn [length]; lia ]
         end);
    revert E; apply K; clear K.
  - now apply paid_raw.
  - now apply paid_raw.
  - apply (paid_bind 1 1 0 0); try lia; [now apply paid_bytes|]. intros tmp. destruct (from_utf8 tmp); [apply paid_modify|apply paid_fail].
  - now apply paid_raw.
  - unfold t_bigdec. apply (paid_bind 0 0 1 1); try lia; [apply paid_guard|]. intros _.
    apply (paid_bind 0 0 1 1); try lia; [apply paid_quiet; intros b; apply msafe_on_reader, safe_rsafe, safe_deserialize_sint|]. intros sc.
    apply (paid_bind 0 0 1 1); try lia; [apply paid_modify|]. intros _.
    intros [s t] r0 y s' r0' l0 W0 E0. unfold t_on_snd in E0. destruct (t_raw (n - 4) (t, r0)) as [[z [t1 r1]] l1] eqn:Em.
    injection E0 as <- <- <- <-. eapply (paid_raw (n - 4)); eauto. lia.
  - now apply paid_counted, rpaid_ilint_weak.
  - apply paid_limited. apply (paid_bind 0 0 0 0); try lia; [apply paid_modify|]. intros _. apply paid_fuelled. intros f. now apply paid_while_read.
  - now apply paid_counted.
  - now apply paid_counted, rpaid_ilint_weak.
  - apply paid_entries. apply (rpaid_bind (-1) 0 0 0); try lia; [apply rpaid_string_tag|]. intros k.
    apply (rpaid_bind 0 0 0 0); try lia; [exact Hd|]. intros t. apply rpaid_ret.
  - apply paid_entries. apply (rpaid_bind (-1) 0 0 0); try lia; [apply rpaid_string_tag|]. intros k.
    apply (rpaid_bind (-1) 0 0 0); try lia; [apply rpaid_string_tag|]. intros t. apply rpaid_ret.
Qed.
End Paid.

Lemma tag_size_le id r n r' : deserialize_tag_size id r = (Ok n, r') -> n <= 536870912.
Proof.
  unfold deserialize_tag_size, bind. destruct ((if is_implicit_tag id then ret (implicit_tag_size id) else deserialize_ilint) r) as [[z| | |] r1];
    try discriminate. intros H. apply pair_inv in H as [H _]. unfold tag_size_to_usize in H.
  destruct (N.ltb_spec MAX_TAG_SIZE z) as [|Hl]; [discriminate|]. apply Ok_inv in H as <-. exact Hl.
Qed.
Lemma rpaid_deserialize_fuel e f : rpaid 0 0 (t_deserialize_fuel f e).
Proof.
  induction f as [|f IH]; cbn [t_deserialize_fuel].
  { intros r x r' l W E. injection E as <- <- <-. repeat split; auto. cbn [credit length]. lia. }
  apply (rpaid_bind (-2) 0 2 2); try lia; [apply rpaid_ilint|]. intros id.
  intros r x r' l W E. unfold tbind at 1 in E. unfold quiet at 1 in E.
  destruct (deserialize_tag_size id r) as [y r1] eqn:E1.
  destruct (safe_tag_size _ _ _ _ W E1) as (_ & W1 & L1).
  destruct y as [n|er| |]; try (injection E as <- <- <-; repeat split; auto; cbn [credit length]; lia).
  pose proof (tag_size_le _ _ _ _ E1) as Hn. unfold tbind at 1 in E. unfold quiet at 1 in E.
  destruct (create_tag e id) as [[t|]|er| |];
    try (injection E as <- <- <-; repeat split; auto; cbn [credit length]; lia).
  unfold tbind, tell, t_deserialize_tag_value_into, LimitedReader_new in E.
  destruct (t_deserialize_value (t_deserialize_fuel f e) (tag_val t) n (RLimited r1 n)) as [[[y v'] lr] l1] eqn:Ev.
  destruct (paid_value _ IH _ _ (RLimited r1 n) _ _ _ _ Hn W1 Ev) as (W2 & L2 & F2 & B2). cbn [left] in *.
  injection E as <- <- <-.
  assert (G : spent r (unlimit lr) (EvTag id :: l1) 2).
  { repeat split; [now apply rwf_unlimit|rewrite left_unlimit; lia|now constructor|].
    rewrite left_unlimit. cbn [length]. lia. }
  eapply spent_weaken; [exact G|]. match goal with |- (2 <= credit 2 2 ?z)%Z => destruct z; cbn [credit]; lia end.
Qed.
Lemma erases_deserialize_into e r t : fst (t_deserialize_into e r t) = deserialize_into e r t.
Proof.
  unfold t_deserialize_into, deserialize_into. destruct (deserialize_ilint r) as [[id|er| |] r1]; try reflexivity.
  destruct (negb (id =? tag_id t)); [reflexivity|]. destruct (deserialize_tag_size id r1) as [[n|er| |] r2]; try reflexivity.
  unfold t_deserialize_tag_value_into, deserialize_tag_value_into.
  pose proof (erases_value _ _ (erases_deserialize_fuel e (Datatypes.S (left r2))) (tag_val t) n (LimitedReader_new r2 n)) as K.
  unfold runs in K. destruct (t_deserialize_value _ _ _ _) as [[[x v'] lr] l]. cbn [fst] in K. rewrite <- K. reflexivity.
Qed.
Lemma paid_deserialize_into e r t x t' r' l : rwf r -> t_deserialize_into e r t = (x, t', r', l) -> spent r r' l 0.
Proof.
  intros W E. unfold t_deserialize_into in E. destruct (deserialize_ilint r) as [y r1] eqn:E1.
  destruct (safe_deserialize_ilint _ _ _ W E1) as (_ & W1 & L1).
  destruct y as [id|er| |]; try (injection E as <- <- <- <-; repeat split; auto; cbn [length]; lia).
  pose proof (progress_ilint _ _ _ W E1) as P1.
  destruct (negb (id =? tag_id t)); [injection E as <- <- <- <-; repeat split; auto; cbn [length]; lia|].
  destruct (deserialize_tag_size id r1) as [y r2] eqn:E2. destruct (safe_tag_size _ _ _ _ W1 E2) as (_ & W2 & L2).
  destruct y as [n|er| |]; try (injection E as <- <- <- <-; repeat split; auto; cbn [length]; lia).
  pose proof (tag_size_le _ _ _ _ E2) as Hn.
  unfold t_deserialize_tag_value_into, LimitedReader_new in E.
  destruct (t_deserialize_value _ (tag_val t) n (RLimited r2 n)) as [[[y v'] lr] l1] eqn:Ev.
  destruct (paid_value _ (rpaid_deserialize_fuel e _) _ _ (RLimited r2 n) _ _ _ _ Hn W2 Ev) as (W3 & L3 & F3 & B3). cbn [left] in *.
  injection E as _ _ <- <-. repeat split; [now apply rwf_unlimit|rewrite left_unlimit; lia|exact F3|]. rewrite left_unlimit. lia.
Qed.

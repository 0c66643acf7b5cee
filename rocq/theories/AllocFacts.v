(** Alloc.v against the requests recorded by Trace.v. *)
From Verif Require Import Base BaseFacts Types Spec SpecFacts IO IOSpec IOFacts Logic ILInt ILIntFacts Data DataFacts Tags
  Factory FactoryFacts DecodeFacts DeserFacts Trace TraceFacts Alloc.

(** ** The capacity checks stop the program at the first request too large *)
Section Capped.
Variable c : cfg.
Definition granted (ev : event) : bool :=
  match ev with
  | EvTag _ => true
  | EvBytes n => negb (usize_max c <? 2 * (1 * n))
  | EvElements k n => negb (usize_max c <? 2 * (element_bytes c k * n))
  end.
Definition capped {St A} (m : St -> res tag_error A * St) (t : traced St A) : Prop :=
  forall s, if forallb granted (snd (t s)) then m s = fst (t s) else fst (m s) = Panic.
Lemma capped_quiet {St A} (m : St -> res tag_error A * St) : capped m (quiet m).
Proof. intros s. unfold quiet. now destruct (m s). Qed.
Lemma capped_ret {St A} (a : A) : capped (ret a) (@tret St A a).
Proof. now intros s. Qed.
Lemma capped_fail {St A} e : capped (fail e) (@tfail St A e).
Proof. now intros s. Qed.
Lemma capped_guard {St} (b : bool) e : capped (if b then fail e else ret tt) (if b then @tfail St unit e else tret tt).
Proof. destruct b; [apply capped_fail|apply capped_ret]. Qed.
Lemma capped_bind {St A B} (m : St -> res tag_error A * St) t (f : A -> St -> res tag_error B * St) g :
  capped m t -> (forall a, capped (f a) (g a)) -> capped (bind m f) (tbind t g).
Proof.
  intros Hm Hf s. specialize (Hm s). unfold tbind, bind. destruct (t s) as [[[a|e| |] s'] l]; cbn [fst snd] in *.
  2,3,4: destruct (forallb granted l); cbn [fst snd]; [rewrite Hm; reflexivity|destruct (m s) as [[| | |] ?]; cbn [fst] in *; congruence].
  specialize (Hf a s'). destruct (g a s') as [[x s''] l'] eqn:G. cbn [fst snd] in *. rewrite forallb_app.
  destruct (forallb granted l); cbn [andb].
  - rewrite Hm. exact Hf.
  - destruct (m s) as [[| | |] ?]; cbn [fst] in *; congruence.
Qed.
Lemma capped_bytes {St A} n (m : St -> res tag_error A * St) t : capped m t -> capped (allocate c 1 n ;;; m) (tell (EvBytes n) ;~ t).
Proof.
  intros H s. specialize (H s). unfold bind, allocate, tbind, tell. destruct (t s) as [[x s'] l]. cbn [fst snd app forallb granted] in *.
  destruct (usize_max c <? 2 * (1 * n)); cbn [negb andb fst]; [reflexivity|exact H].
Qed.
Lemma capped_elements {St A} k n (m : St -> res tag_error A * St) t : capped m t ->
  capped (allocate c (element_bytes c k) n ;;; m) (tell (EvElements k n) ;~ t).
Proof.
  intros H s. specialize (H s). unfold bind, allocate, tbind, tell. destruct (t s) as [[x s'] l]. cbn [fst snd app forallb granted] in *.
  destruct (usize_max c <? 2 * (element_bytes c k * n)); cbn [negb andb fst]; [reflexivity|exact H].
Qed.
Lemma capped_tag {St A} id (m : St -> res tag_error A * St) t : capped m t -> capped m (tell (EvTag id) ;~ t).
Proof. intros H s. specialize (H s). unfold tbind, tell. destruct (t s) as [[x s'] l]. exact H. Qed.
Lemma capped_on_reader {S A} (m : reader -> res tag_error A * reader) t : capped m t -> capped (@on_reader S A m) (t_on_reader t).
Proof.
  intros H [s r]. specialize (H r). unfold t_on_reader, on_reader. destruct (t r) as [[x r'] l]. cbn [fst snd] in *.
  destruct (forallb granted l); [now rewrite H|]. destruct (m r) as [y r1]. exact H.
Qed.
Lemma capped_limited {S A} n (m : method S A) t : capped m t -> capped (limited n m) (t_limited n t).
Proof.
  intros H [s r]. specialize (H (s, LimitedReader_new r n)). unfold t_limited, limited.
  destruct (t (s, LimitedReader_new r n)) as [[x [s' r']] l]. cbn [fst snd] in *.
  destruct (forallb granted l); [now rewrite H|]. destruct (m (s, LimitedReader_new r n)) as [y [s1 r1]]. exact H.
Qed.
Lemma capped_repeat_read {S A} (m : reader -> res tag_error A * reader) t (store : A -> S -> S) f : capped m t ->
  forall count, capped (repeat_read f m store count) (t_repeat_read f t store count).
Proof.
  intros H. induction f as [|f IH]; intros count; cbn [t_repeat_read repeat_read]; destruct (count =? 0); try apply capped_ret.
  - now intros s.
  - apply capped_bind; [now apply capped_on_reader|]. intros a. apply capped_bind; [apply capped_quiet|]. intros _. apply IH.
Qed.
Lemma capped_while_read {S A} (m : reader -> res tag_error A * reader) t (store : A -> S -> S) f : capped m t ->
  capped (while_read f m store) (t_while_read f t store).
Proof.
  intros H. induction f as [|f IH]; intros st; cbn [t_while_read while_read]; destruct (limit_empty (snd st)); try reflexivity.
  revert st. apply capped_bind; [now apply capped_on_reader|]. intros a. apply capped_bind; [apply capped_quiet|]. intros _. apply IH.
Qed.
Lemma capped_fuelled {S A} (m : nat -> method S A) t : (forall f, capped (m f) (t f)) -> capped (fuelled m) (t_fuelled t).
Proof. intros H st. apply H. Qed.
Lemma capped_deserialize_bytes {S} n : capped (on_reader (deserialize_bytes_k c n)) (@t_bytes S n).
Proof.
  intros [s r]. unfold on_reader, deserialize_bytes_k, t_bytes, allocate, bind, tbind, tell, quiet, on_reader.
  destruct (deserialize_bytes n r) as [x r']. cbn [fst snd app forallb granted].
  destruct (usize_max c <? 2 * (1 * n)); cbn [negb andb fst]; reflexivity.
Qed.
Lemma capped_raw n : capped (raw_deserialize_k c n) (t_raw n).
Proof. apply capped_bytes, capped_quiet. Qed.
Lemma capped_string_tag_into : capped (string_tag_into_k c) t_string_tag_into.
Proof.
  unfold t_string_tag_into, string_tag_into_k.
  apply capped_bind; [apply capped_quiet|]. intros id. apply capped_bind; [apply capped_guard|]. intros _.
  apply capped_bind; [apply capped_quiet|]. intros len. apply capped_bind; [apply capped_quiet|]. intros n.
  apply capped_bind; [apply capped_deserialize_bytes|]. intros tmp. destruct (from_utf8 tmp); [apply capped_quiet|apply capped_fail].
Qed.
Lemma capped_string_tag : capped (string_tag_k c) t_string_tag.
Proof.
  intros r. unfold t_string_tag, string_tag_k. pose proof (capped_string_tag_into ([], r)) as H.
  destruct (t_string_tag_into ([], r)) as [[x [s r']] l]. cbn [fst snd] in *.
  destruct (forallb granted l); [now rewrite H|]. destruct (string_tag_into_k c ([], r)) as [y [s1 r1]]. cbn [fst] in *. now rewrite H.
Qed.
Definition crun (y0 : res tag_error unit * value * reader) (y : res tag_error unit * value * reader * list event) : Prop :=
  if forallb granted (snd y) then y0 = fst y else fst (fst y0) = Panic.
Lemma capped_run {S} (m : method S unit) t s mk r : capped m t -> crun (run m s mk r) (t_run t s mk r).
Proof.
  intros H. specialize (H (s, r)). unfold crun, t_run, run. destruct (t (s, r)) as [[x [s' r']] l]. cbn [fst snd] in *.
  destruct (forallb granted l); [now rewrite H|]. destruct (m (s, r)) as [y [s1 r1]]. exact H.
Qed.
Section Value.
Variables (deser0 : reader -> res tag_error tag * reader) (deser : treader_fn tag).
Hypothesis Hd : capped deser0 deser.
Lemma capped_value v n r : crun (deserialize_value_k c deser0 v n r) (t_deserialize_value deser v n r).
Proof.
  destruct v; cbn [t_deserialize_value deserialize_value_k];
    try (unfold crun; match goal with |- context [deserialize_value ?d ?vv n r] => destruct (deserialize_value d vv n r) as [[? ?] ?] end; reflexivity);
    apply capped_run; try apply capped_raw.
  - unfold t_string, string_deserialize_k. apply capped_bind; [apply capped_deserialize_bytes|]. intros tmp.
    destruct (from_utf8 tmp); [apply capped_quiet|apply capped_fail].
  - unfold t_bigdec, bigdec_deserialize_k. apply capped_bind; [apply capped_guard|]. intros _.
    apply capped_bind; [apply capped_quiet|]. intros sc. apply capped_bind; [apply capped_quiet|]. intros _.
    intros [[s t] r0]. unfold t_on_snd, on_snd. pose proof (capped_raw (n - 4) (t, r0)) as K.
    destruct (t_raw (n - 4) (t, r0)) as [[x [t' r']] l]. cbn [fst snd] in *.
    destruct (forallb granted l); [now rewrite K|]. destruct (raw_deserialize_k c (n - 4) (t, r0)) as [y [t1 r1]]. exact K.
  - apply capped_limited. apply capped_bind; [apply capped_quiet|]. intros k. apply capped_bind; [apply capped_guard|]. intros _.
    apply capped_bind; [apply capped_quiet|]. intros _. apply capped_elements.
    apply capped_bind; [|intros _; apply capped_quiet]. apply capped_fuelled. intros f. apply capped_repeat_read, capped_quiet.
  - apply capped_limited. apply capped_bind; [apply capped_quiet|]. intros _. apply capped_fuelled. intros f. now apply capped_while_read.
  - apply capped_limited. apply capped_bind; [apply capped_quiet|]. intros k. apply capped_bind; [apply capped_guard|]. intros _.
    apply capped_bind; [apply capped_quiet|]. intros _. apply capped_elements.
    apply capped_bind; [|intros _; apply capped_quiet]. apply capped_fuelled. intros f. now apply capped_repeat_read.
  - apply capped_limited. apply capped_bind; [apply capped_quiet|]. intros k. apply capped_bind; [apply capped_guard|]. intros _.
    apply capped_bind; [apply capped_quiet|]. intros _. apply capped_elements.
    apply capped_bind; [|intros _; apply capped_quiet]. apply capped_fuelled. intros f. apply capped_repeat_read, capped_quiet.
  - apply capped_limited. apply capped_bind; [apply capped_quiet|]. intros k.
    apply capped_bind; [apply capped_quiet|]. intros _.
    apply capped_bind; [|intros _; apply capped_quiet]. apply capped_fuelled. intros f. apply capped_repeat_read.
    apply capped_bind; [apply capped_string_tag|]. intros s. apply capped_bind; [exact Hd|]. intros t. apply capped_ret.
  - apply capped_limited. apply capped_bind; [apply capped_quiet|]. intros k.
    apply capped_bind; [apply capped_quiet|]. intros _.
    apply capped_bind; [|intros _; apply capped_quiet]. apply capped_fuelled. intros f. apply capped_repeat_read.
    apply capped_bind; [apply capped_string_tag|]. intros s. apply capped_bind; [apply capped_string_tag|]. intros t. apply capped_ret.
Qed.
Lemma capped_tag_value_into n t r :
  let y := t_deserialize_tag_value_into deser n t r in
  let y0 := tag_value_into_k c deser0 n t r in
  if forallb granted (snd y) then y0 = fst y else fst (fst y0) = Panic.
Proof.
  cbv zeta. unfold t_deserialize_tag_value_into, tag_value_into_k.
  pose proof (capped_value (tag_val t) n (LimitedReader_new r n)) as K. unfold crun in K.
  destruct (t_deserialize_value _ _ _ _) as [[[x v'] lr] l]. cbn [fst snd] in *.
  destruct (forallb granted l); [now rewrite K|].
  destruct (deserialize_value_k _ _ _ _ _) as [[y v1] lr1]. cbn [fst] in *. now rewrite K.
Qed.
End Value.
Lemma capped_deserialize_fuel e f : capped (deserialize_fuel_k c f e) (t_deserialize_fuel f e).
Proof.
  induction f as [|f IH]; cbn [t_deserialize_fuel deserialize_fuel_k]; [now intros r|].
  refine (capped_bind _ _ _ _ (capped_quiet _) _). intros id. apply capped_bind; [apply capped_quiet|]. intros n.
  apply capped_bind; [apply capped_quiet|]. intros [t|]; [|apply capped_fail].
  apply capped_tag. intros r. pose proof (capped_tag_value_into _ _ IH n t r) as K. cbv zeta in K.
  destruct (t_deserialize_tag_value_into _ _ _ _) as [[[x t'] r'] l]. cbn [fst snd] in *.
  destruct (forallb granted l); [now rewrite K|].
  destruct (tag_value_into_k _ _ _ _ _) as [[y t1] r1]. cbn [fst] in *. now rewrite K.
Qed.
End Capped.

(** ** What a successful call requested, it read *)
Definition within (k : nat) (ev : event) : Prop :=
  match ev with EvElements _ n => n <= N.of_nat k | _ => True end.
Definition used (r r' : reader) (l : list event) : Prop :=
  rwf r' /\ (left r' <= left r)%nat /\ Forall (within (left r - left r')) l.
Definition covers {S A} (m : tmethod S A) : Prop :=
  forall s r a s' r' l, rwf r -> m (s, r) = (Ok a, (s', r'), l) -> used r r' l.
Definition rcovers {A} (m : treader_fn A) : Prop :=
  forall r a r' l, rwf r -> m r = (Ok a, r', l) -> used r r' l.
Lemma within_mono k k' l : (k <= k')%nat -> Forall (within k) l -> Forall (within k') l.
Proof. intros H. apply Forall_impl. intros [| |e n]; cbn [within]; auto. lia. Qed.
Lemma used_trans r r1 r2 l l' : used r r1 l -> used r1 r2 l' -> used r r2 (l ++ l').
Proof.
  intros (W1 & L1 & F1) (W2 & L2 & F2). repeat split; auto; [lia|]. apply Forall_app. split.
  - eapply within_mono; [|exact F1]. lia.
  - eapply within_mono; [|exact F2]. lia.
Qed.
Lemma used_nil r r' : rwf r' -> (left r' <= left r)%nat -> used r r' [].
Proof. now repeat split. Qed.
Lemma covers_bind {S A B} (m : tmethod S A) (f : A -> tmethod S B) : covers m -> (forall a, covers (f a)) -> covers (tbind m f).
Proof.
  intros Hm Hf s r b s' r' l W E. unfold tbind in E. destruct (m (s, r)) as [[y [s1 r1]] l1] eqn:Em.
  destruct y as [a| | |]; try discriminate. pose proof (Hm _ _ _ _ _ _ W Em) as K.
  destruct (f a (s1, r1)) as [[z [s2 r2]] l2] eqn:Ef. injection E as -> <- <- <-.
  eapply used_trans; [exact K|]. eapply Hf; [exact (proj1 K)|exact Ef].
Qed.
Lemma rcovers_bind {A B} (m : treader_fn A) (f : A -> treader_fn B) : rcovers m -> (forall a, rcovers (f a)) -> rcovers (tbind m f).
Proof.
  intros Hm Hf r b r' l W E. unfold tbind in E. destruct (m r) as [[y r1] l1] eqn:Em.
  destruct y as [a| | |]; try discriminate. pose proof (Hm _ _ _ _ W Em) as K.
  destruct (f a r1) as [[z r2] l2] eqn:Ef. injection E as -> <- <-.
  eapply used_trans; [exact K|]. eapply Hf; [exact (proj1 K)|exact Ef].
Qed.
Lemma covers_quiet {S A} (m : method S A) : (forall b, msafe True b m) -> covers (quiet m).
Proof.
  intros H s r a s' r' l W E. unfold quiet in E. destruct (m (s, r)) as [y [s1 r1]] eqn:Em. injection E as -> <- <- <-.
  destruct (H (Datatypes.S (left r)) _ _ _ _ _ W ltac:(lia) Em) as (_ & W' & L). now apply used_nil.
Qed.
Lemma rcovers_quiet {A} (m : reader -> res tag_error A * reader) : safe m -> rcovers (quiet m).
Proof.
  intros H r a r' l W E. unfold quiet in E. destruct (m r) as [y r1] eqn:Em. injection E as -> <- <-.
  destruct (H _ _ _ W Em) as (_ & W' & L). now apply used_nil.
Qed.
Lemma covers_ret {S A} (a : A) : covers (@tret (S * reader) A a).
Proof. intros s r b s' r' l W E. injection E as _ <- <- <-. now apply used_nil. Qed.
Lemma rcovers_ret {A} (a : A) : rcovers (@tret reader A a).
Proof. intros r b r' l W E. injection E as _ <- <-. now apply used_nil. Qed.
Lemma covers_fail {S A} e : covers (@tfail (S * reader) A e).
Proof. intros s r b s' r' l W E. discriminate E. Qed.
Lemma covers_guard {S} (b : bool) e : covers (if b then @tfail (S * reader) unit e else tret tt).
Proof. destruct b; [apply covers_fail|apply covers_ret]. Qed.
Lemma covers_tell {S} ev : (forall k, within k ev) -> covers (@tell (S * reader) ev).
Proof. intros H s r b s' r' l W E. injection E as _ <- <- <-. repeat split; auto. Qed.
Lemma covers_on_reader {S A} (m : treader_fn A) : rcovers m -> covers (@t_on_reader S A m).
Proof.
  intros H s r a s' r' l W E. unfold t_on_reader in E. destruct (m r) as [[y r1] l1] eqn:Em. injection E as -> <- <- <-. eauto.
Qed.
Lemma covers_modify {S} (f : S -> S) : covers (quiet (modify f)).
Proof. apply covers_quiet. intros b. apply msafe_modify. Qed.
Lemma covers_limited {S A} n (m : tmethod S A) : covers m -> covers (t_limited n m).
Proof.
  intros H s r a s' r' l W E. unfold t_limited, LimitedReader_new in E.
  destruct (m (s, RLimited r n)) as [[y [s1 r1]] l1] eqn:Em. injection E as -> <- <- <-.
  destruct (H s (RLimited r n) _ _ _ _ W Em) as (W' & L & F). cbn [left] in *.
  repeat split; auto using rwf_unlimit; rewrite left_unlimit; auto.
Qed.
Lemma covers_repeat_read {S A} (m : treader_fn A) (store : A -> S -> S) : rcovers m ->
  forall f count, covers (t_repeat_read f m store count).
Proof.
  intros H. induction f as [|f IH]; intros count; cbn [t_repeat_read]; destruct (count =? 0); try apply covers_ret.
  - intros s r a s' r' l W E. discriminate E.
  - apply covers_bind; [now apply covers_on_reader|]. intros a. apply covers_bind; [apply covers_modify|]. intros _. apply IH.
Qed.
Lemma covers_while_read {S A} (m : treader_fn A) (store : A -> S -> S) : rcovers m -> forall f, covers (t_while_read f m store).
Proof.
  intros H. induction f as [|f IH]; intros s r a s' r' l W E; cbn [t_while_read snd] in E; destruct (limit_empty r).
  - injection E as _ <- <- <-. now apply used_nil.
  - discriminate E.
  - injection E as _ <- <- <-. now apply used_nil.
  - revert E. apply covers_bind; [now apply covers_on_reader| |assumption]. intros b.
    apply covers_bind; [apply covers_modify|]. intros _. apply IH.
Qed.
Lemma covers_fuelled {S A} (m : nat -> tmethod S A) : (forall f, covers (m f)) -> covers (t_fuelled m).
Proof. intros H s r a s' r' l W E. unfold t_fuelled in E. eapply H; eauto. Qed.
Lemma covers_bytes {S} n : covers (@t_bytes S n).
Proof.
  apply covers_bind; [apply covers_tell; now intros k|]. intros _. apply covers_quiet.
  intros b. apply msafe_on_reader, safe_rsafe, safe_deserialize_bytes.
Qed.
Lemma covers_ilint {S} : covers (@quiet (S * reader) N (on_reader deserialize_ilint)).
Proof. apply covers_quiet. intros b. apply msafe_on_reader, safe_rsafe, safe_deserialize_ilint. Qed.
Lemma rcovers_string_tag : rcovers t_string_tag.
Proof.
  assert (H : covers t_string_tag_into).
  { unfold t_string_tag_into. apply covers_bind; [apply covers_ilint|]. intros id.
    apply covers_bind; [apply covers_guard|]. intros _. apply covers_bind; [apply covers_ilint|]. intros len.
    apply covers_bind.
    { intros s r a s' r' l W E. unfold quiet in E. injection E as _ <- <- <-. now apply used_nil. }
    intros n. apply covers_bind; [apply covers_bytes|]. intros tmp.
    destruct (from_utf8 tmp); [apply covers_modify|apply covers_fail]. }
  intros r a r' l W E. unfold t_string_tag in E. destruct (t_string_tag_into ([], r)) as [[y [s1 r1]] l1] eqn:Em.
  injection E as E <- <-. destruct y; try discriminate. eauto.
Qed.
Lemma covers_raw n : covers (t_raw n).
Proof.
  apply covers_bind; [apply covers_tell; now intros k|]. intros _. apply covers_quiet. intros b. apply msafe_raw.
Qed.
(** A counted loop that ends read at least as many bytes as items. *)
Definition tprogress {A} (m : treader_fn A) : Prop :=
  forall r a r' l, rwf r -> m r = (Ok a, r', l) -> (left r' < left r)%nat.
Lemma repeat_read_consumes {S A} (m : treader_fn A) (store : A -> S -> S) : rcovers m -> tprogress m ->
  forall f count s r u s' r' l, rwf r -> t_repeat_read f m store count (s, r) = (Ok u, (s', r'), l) ->
  count <= N.of_nat (left r - left r').
Proof.
  intros H P. induction f as [|f IH]; intros count s r u s' r' l W E; cbn [t_repeat_read] in E;
    destruct (N.eqb_spec count 0) as [->|Hc]; try lia; [discriminate E|].
  unfold tbind at 1 in E. unfold t_on_reader in E. destruct (m r) as [[y r1] l1] eqn:Em. destruct y as [a| | |]; try discriminate E.
  destruct (H _ _ _ _ W Em) as (W1 & L1 & _). pose proof (P _ _ _ _ W Em) as L2.
  unfold tbind at 1, quiet, modify in E.
  match type of E with context [t_repeat_read f m store (count - 1) ?z] => destruct (t_repeat_read f m store (count - 1) z) as [[z1 [s2 r2]] l2] eqn:Er end.
  injection E as -> <- <- <-. pose proof (IH _ _ _ _ _ _ _ W1 Er) as K.
  pose proof (covers_repeat_read m store H f (count - 1) _ _ _ _ _ _ W1 Er) as (_ & L3 & _). lia.
Qed.
Lemma covers_counted {A} (m : treader_fn A) k n : rcovers m -> tprogress m ->
  covers (t_limited n (
    count <~ quiet (on_reader deserialize_ilint) ;;
    (if n <? count then tfail CorruptedData else tret tt) ;~
    quiet (modify (fun _ => [])) ;~
    tell (EvElements k count) ;~
    t_fuelled (fun f => t_repeat_read f m push count) ;~
    quiet (limited_reader_ensure_empty CorruptedData))).
Proof.
  intros Hm P. apply covers_limited. apply covers_bind; [apply covers_ilint|]. intros c.
  apply covers_bind; [apply covers_guard|]. intros _. apply covers_bind; [apply covers_modify|]. intros _.
  intros s r u s' r' l W E. unfold tbind at 1, tell in E.
  match type of E with context [tbind ?m0 ?f0 (s, r)] =>
    destruct (tbind m0 f0 (s, r)) as [[y [s1 r1]] l1] eqn:Et end.
  injection E as -> <- <- <-.
  assert (G : used r r1 l1).
  { revert Et. apply covers_bind; [|intros _; apply covers_quiet; intros b; apply msafe_ensure_empty|exact W].
    apply covers_fuelled. intros f. now apply covers_repeat_read. }
  destruct G as (W1 & L1 & F1). repeat split; auto. constructor; [|exact F1]. cbn [within].
  unfold tbind, t_fuelled in Et.
  destruct (t_repeat_read (Datatypes.S (left (snd (s, r)))) m push c (s, r)) as [[z [s2 r2]] l2] eqn:Er.
  destruct z as [[]| | |]; try discriminate Et. pose proof (repeat_read_consumes _ _ Hm P _ _ _ _ _ _ _ _ W Er) as K.
  unfold quiet, limited_reader_ensure_empty in Et. cbn [snd] in Et. injection Et as _ _ <- _. exact K.
Qed.
Lemma covers_entries {A} (m : treader_fn (list N * A)) n : rcovers m ->
  covers (t_limited n (
    count <~ quiet (on_reader deserialize_ilint) ;;
    quiet (modify (fun _ => [])) ;~
    t_fuelled (fun f => t_repeat_read f m (fun e => hm_insert (fst e) (snd e)) count) ;~
    quiet (limited_reader_ensure_empty CorruptedData))).
Proof.
  intros Hm. apply covers_limited. apply covers_bind; [apply covers_ilint|]. intros c.
  apply covers_bind; [apply covers_modify|]. intros _.
  apply covers_bind; [|intros _; apply covers_quiet; intros b; apply msafe_ensure_empty].
  apply covers_fuelled. intros f. now apply covers_repeat_read.
Qed.
Lemma rcovers_ilint : rcovers (quiet deserialize_ilint).
Proof. apply rcovers_quiet, safe_deserialize_ilint. Qed.
Lemma tprogress_ilint : tprogress (quiet deserialize_ilint).
Proof.
  intros r a r' l W E. unfold quiet in E. destruct (deserialize_ilint r) as [y r1] eqn:Em. injection E as -> <- <-.
  exact (progress_ilint _ _ _ W Em).
Qed.
Section Covers.
Variable deser : treader_fn tag.
Hypothesis Hd : rcovers deser.
Hypothesis Hp : tprogress deser.
Lemma covers_value v n r v' r' l : rwf r -> t_deserialize_value deser v n r = (Ok tt, v', r', l) -> used r r' l.
Proof.
  intros W E.
  assert (K : forall S (m : tmethod S unit) s mk, covers m -> t_run m s mk r = (Ok tt, v', r', l) -> used r r' l).
  { intros S m s mk H Er. unfold t_run in Er. destruct (m (s, r)) as [[y [s1 r1]] l1] eqn:Em. injection Er as -> <- <- <-. eauto. }
  destruct v; cbn [t_deserialize_value] in E;
    try (match type of E with context [deserialize_value ?d ?vv n r] =>
           destruct (deserialize_value d vv n r) as [[y v1] r1] eqn:Ed; injection E as -> <- <- <-;
           destruct (deserialize_value_safe True (Datatypes.S (left r)) d) with (v := vv) (n := n) (r := r) (x := Ok tt : res tag_error unit) (v' := v1) (r' := r1)
             as (_ & W' & L' & _); auto;
             [ intros r0 x0 r0' W0 _ [= <- <-]; repeat split; auto
             | intros r0 a0 r0' W0 E0; discriminate E0
             | now apply used_nil ]
         end);
    revert E; apply K; clear K.
  - apply covers_raw.
  - apply covers_raw.
  - apply covers_bind; [apply covers_bytes|]. intros tmp. destruct (from_utf8 tmp); [apply covers_modify|apply covers_fail].
  - apply covers_raw.
  - unfold t_bigdec. apply covers_bind; [apply covers_guard|]. intros _.
    apply covers_bind; [apply covers_quiet; intros b; apply msafe_on_reader, safe_rsafe, safe_deserialize_sint|]. intros sc.
    apply covers_bind; [apply covers_modify|]. intros _.
    intros [s t] r0 y s' r0' l0 W0 E0. unfold t_on_snd in E0. destruct (t_raw (n - 4) (t, r0)) as [[z [t1 r1]] l1] eqn:Em.
    injection E0 as -> <- <- <-. eapply (covers_raw (n - 4)); eauto.
  - apply covers_counted; [apply rcovers_ilint|apply tprogress_ilint].
  - apply covers_limited. apply covers_bind; [apply covers_modify|]. intros _. apply covers_fuelled. intros f. now apply covers_while_read.
  - now apply covers_counted.
  - apply covers_counted; [apply rcovers_ilint|apply tprogress_ilint].
  - apply covers_entries. apply rcovers_bind; [apply rcovers_string_tag|]. intros k.
    apply rcovers_bind; [exact Hd|]. intros t. apply rcovers_ret.
  - apply covers_entries. apply rcovers_bind; [apply rcovers_string_tag|]. intros k.
    apply rcovers_bind; [apply rcovers_string_tag|]. intros t. apply rcovers_ret.
Qed.
Lemma covers_tag_value_into n t r t' r' l : rwf r ->
  t_deserialize_tag_value_into deser n t r = (Ok tt, t', r', l) -> used r r' l.
Proof.
  intros W E. unfold t_deserialize_tag_value_into, LimitedReader_new in E.
  destruct (t_deserialize_value deser (tag_val t) n (RLimited r n)) as [[[y v'] lr] l1] eqn:Ev.
  injection E as E <- <- <-. destruct y as [[]| | |]; try discriminate.
  destruct (covers_value _ _ (RLimited r n) _ _ _ W Ev) as (W2 & L2 & F2). cbn [left] in *.
  repeat split; [now apply rwf_unlimit|now rewrite left_unlimit|now rewrite left_unlimit].
Qed.
End Covers.
Lemma rcovers_deserialize_fuel e f : rcovers (t_deserialize_fuel f e) /\ tprogress (t_deserialize_fuel f e).
Proof.
  induction f as [|f [IH IHp]]; cbn [t_deserialize_fuel]; [split; intros r a r' l W E; discriminate E|].
  match goal with |- rcovers (tbind _ ?g) /\ _ => assert (G : forall id, rcovers (g id)) end.
  { intros id. apply rcovers_bind; [apply rcovers_quiet, safe_tag_size|]. intros n. cbn beta.
    intros r a r' l W E. unfold tbind at 1, quiet at 1 in E.
    destruct (create_tag e id) as [[t|]|er| |]; try discriminate E.
    unfold tbind, tell in E. destruct (t_deserialize_tag_value_into (t_deserialize_fuel f e) n t r) as [[[x t'] r1] l1] eqn:Et.
    destruct x as [[]| | |]; try discriminate E. cbn [map_ok app] in E. injection E as _ <- <-.
    destruct (covers_tag_value_into _ IH IHp _ _ _ _ _ _ W Et) as (W' & L & F). repeat split; auto. constructor; [exact I|exact F]. }
  split; [apply rcovers_bind; [apply rcovers_ilint|exact G]|].
  intros r a r' l W E. unfold tbind at 1 in E. destruct (quiet deserialize_ilint r) as [[y r1] l1] eqn:Em.
  destruct y as [id| | |]; try discriminate E. pose proof (tprogress_ilint _ _ _ _ W Em) as L1.
  destruct (rcovers_ilint _ _ _ _ W Em) as (W1 & _ & _).
  match type of E with context [match ?z with pair _ _ => _ end] => destruct z as [[z1 r2] l2] eqn:Ez end.
  injection E as -> <- <-. destruct (G id _ _ _ _ W1 Ez) as (_ & L2 & _). lia.
Qed.

(** The deserializer computes what the reference parser says. *)
From Verif Require Import Base BaseFacts Types Spec SpecFacts IO IOSpec IOFacts Logic ILInt ILIntFacts Data DataFacts Tags TagsFacts
  Factory FactoryFacts DecodeFacts DeserFacts IntoFacts MonoFacts ParseSpec.

(** ** The parser has enough steps *)
(** The parser leaves at most what it got, and runs out of steps only on inputs
    of length at least [b]. *)
Definition settles {A} (b : nat) (p : parser A) : Prop :=
  forall l, match p l with
            | (inl _, l') => (length l' <= length l)%nat
            | (inr f, _) => f = Steps -> (b <= length l)%nat
            end.
Definition shrinks {A} (p : parser A) : Prop :=
  forall l a l', p l = (inl a, l') -> (length l' < length l)%nat.
Lemma settles_ret {A} b (a : A) : settles b (pret a).
Proof. intros l. cbn. lia. Qed.
Lemma settles_fail {A} b f : f <> Steps -> settles b (@pfail A f).
Proof. intros H l. cbn. contradiction. Qed.
Lemma settles_require b c f : f <> Steps -> settles b (require c f).
Proof. intros H. unfold require. destruct c; [apply settles_ret|now apply settles_fail]. Qed.
Lemma settles_bind {A B} b (p : parser A) (q : A -> parser B) : settles b p -> (forall a, settles b (q a)) -> settles b (pbind p q).
Proof.
  intros Hp Hq l. unfold pbind. specialize (Hp l). destruct (p l) as [[a|f] l1]; [|exact Hp].
  specialize (Hq a l1). destruct (q a l1) as [[c|f] l2]; [lia|]. intros E. specialize (Hq E). lia.
Qed.
Lemma settles_take b n : settles b (takeP n).
Proof.
  intros l. unfold takeP. destruct (lenN l <? n); [discriminate|]. pose proof (lenN_dropN n l) as D. unfold lenN in D. lia.
Qed.
Lemma settles_ilint b : settles b ilintP.
Proof.
  apply settles_bind; [apply settles_take|]. intros h. destruct (be_value h <? 248); [apply settles_ret|].
  apply settles_bind; [apply settles_take|]. intros body.
  apply settles_bind; [now apply settles_require|]. intros _. apply settles_ret.
Qed.
Lemma settles_string b : settles b stringP.
Proof.
  apply settles_bind; [apply settles_ilint|]. intros id. apply settles_bind; [now apply settles_require|]. intros _.
  apply settles_bind; [apply settles_ilint|]. intros n. apply settles_bind; [now apply settles_require|]. intros _.
  apply settles_bind; [apply settles_take|]. intros s. apply settles_bind; [now apply settles_require|]. intros _. apply settles_ret.
Qed.
Lemma settles_pair {A B} b (p : parser A) (q : parser B) : settles b p -> settles b q -> settles b (pairP p q).
Proof.
  intros Hp Hq. apply settles_bind; [exact Hp|]. intros a. apply settles_bind; [exact Hq|]. intros c. apply settles_ret.
Qed.
Lemma settles_many {A} b (p : parser A) : settles b p -> forall c, settles b (manyP c p).
Proof.
  intros Hp c. induction c as [|c IH]; cbn [manyP]; [apply settles_ret|]. apply settles_bind; [exact Hp|]. intros a.
  apply settles_bind; [exact IH|]. intros l. apply settles_ret.
Qed.
Lemma settles_until {A} b (p : parser A) : settles b p -> shrinks p ->
  forall s n l, match untilP s p n l with
                | (inl _, l') => (length l' <= length l)%nat
                | (inr f, _) => f = Steps -> (b <= length l \/ s <= length l)%nat
                end.
Proof.
  intros Hp Sp s. induction s as [|s IH]; intros n l; cbn [untilP]; destruct (n =? 0); try (cbn; lia).
  pose proof (Hp l) as K. destruct (p l) as [[a|f] l1] eqn:E; [|auto]. pose proof (Sp _ _ _ E) as Q.
  unfold pbind. specialize (IH (n - (lenN l - lenN l1)) l1).
  destruct (untilP s p _ l1) as [[r|f] l2]; [cbn; lia|]. intros Ef. specialize (IH Ef). lia.
Qed.
Lemma settles_exactly {A} b n (p : parser A) : settles b p -> settles b (exactlyP n p).
Proof.
  intros H l. unfold exactlyP. specialize (H l). destruct (p l) as [[a|f] l1]; [|exact H]. destruct (_ =? n); [exact H|discriminate].
Qed.
Lemma settles_within {A} b n (p : parser A) : settles b p -> settles b (withinP n p).
Proof.
  intros H l. unfold withinP.
  assert (T : (length (takeN n l) + length (dropN n l) = length l)%nat) by (rewrite <- app_length, takeN_dropN; reflexivity).
  specialize (H (takeN n l)). destruct (p (takeN n l)) as [[a|f] l1]; [rewrite app_length; lia|]. intros Ef. specialize (H Ef). lia.
Qed.
Ltac settle :=
  repeat first
    [ apply settles_ret | apply settles_take | apply settles_ilint | apply settles_string | assumption
    | apply settles_require; discriminate | apply settles_fail; discriminate
    | apply settles_exactly | apply settles_many | apply settles_pair
    | apply settles_bind; [|intros ?] ].
Lemma settles_payload b p k n : settles b p -> shrinks p -> settles b (payloadP p k n).
Proof.
  intros Hp Sp. destruct k; cbn [payloadP]; settle.
  intros l. unfold pbind. pose proof (settles_until b p Hp Sp (S (length l)) n l) as K.
  destruct (untilP _ p n l) as [[r|f] l1]; [exact K|]. intros Ef. specialize (K Ef). lia.
Qed.
Lemma take_inv n l a l' : takeP n l = (inl a, l') -> a = takeN n l /\ l' = dropN n l /\ n <= lenN l.
Proof. unfold takeP. destruct (N.ltb_spec (lenN l) n); [discriminate|]. intros [= <- <-]. auto. Qed.
Lemma shrinks_bind {A B} b (p : parser A) (q : A -> parser B) : shrinks p -> (forall a, settles b (q a)) -> shrinks (pbind p q).
Proof.
  intros Sp Hq l c l'. unfold pbind. destruct (p l) as [[a|f] l1] eqn:E; [|discriminate]. pose proof (Sp _ _ _ E).
  intros H1. specialize (Hq a l1). rewrite H1 in Hq. lia.
Qed.
Lemma shrinks_take n : n <> 0 -> shrinks (takeP n).
Proof. intros Hn l a l' H. apply take_inv in H as (-> & -> & L). pose proof (lenN_dropN n l). unfold lenN in *. lia. Qed.
Lemma shrinks_ilint : shrinks ilintP.
Proof. apply (shrinks_bind 0); [now apply shrinks_take|]. intros h. destruct (be_value h <? 248); settle. Qed.
Lemma settles_size b wid : settles b (sizeP wid).
Proof. apply settles_bind; [destruct (wid <=? 15); settle|]. intros n. settle. Qed.
Lemma settles_slot b id n q : settles b q -> settles b (slotP id n q).
Proof.
  intros H. apply settles_within. assert (V : settles b (let* v := q in pret (Tag id v))).
  { apply settles_bind; [exact H|]. intros v. settle. }
  destruct (_ || _); [exact V|now apply settles_exactly].
Qed.
Lemma tag_settles s mk : shrinks (tagP s mk) /\ settles s (tagP s mk).
Proof.
  induction s as [|s [Ss Hs]]; [split; [intros l a l' H; discriminate|intros l; cbn; lia]|].
  cbn [tagP].
  match goal with |- shrinks (pbind _ ?x) /\ _ => set (q := x) end.
  assert (Q : forall wid, settles s (q wid)).
  { intros wid. unfold q. apply settles_bind; [apply settles_size|]. intros n.
    destruct (mk wid) as [[id k]|]; [|settle]. now apply settles_slot, settles_payload. }
  split; [exact (shrinks_bind s ilintP q shrinks_ilint Q)|].
  intros l. unfold pbind. pose proof (settles_ilint (S s) l) as I.
  destruct (ilintP l) as [[wid|f] l1] eqn:E; [|exact I]. pose proof (shrinks_ilint _ _ _ E).
  specialize (Q wid l1). destruct (q wid l1) as [[t|f] l2]; [lia|]. intros Ef. specialize (Q Ef). lia.
Qed.
(** [parse] never runs out of steps. *)
Lemma parse_settles mk l : fst (parse mk l) <> inr Steps.
Proof.
  unfold parse. destruct (tag_settles (S (length l)) mk) as [_ H]. specialize (H l).
  destruct (tagP _ mk l) as [[a|f] l1]; cbn [fst]; [discriminate|]. intros [= ->]. specialize (H eq_refl). lia.
Qed.
Lemma parse_into_settles mk id k l : fst (parse_into mk id k l) <> inr Steps.
Proof.
  assert (H : settles (S (length l)) (let* wid := ilintP in let* _ := require (wid =? id) Unexpected in
    let* n := sizeP wid in slotP id n (payloadP (tagP (S (length l)) mk) k n))).
  { destruct (tag_settles (S (length l)) mk) as [Q1 Q2].
    apply settles_bind; [apply settles_ilint|]. intros wid. apply settles_bind; [settle|]. intros _.
    apply settles_bind; [apply settles_size|]. intros n. now apply settles_slot, settles_payload. }
  unfold parse_into. specialize (H l). match goal with |- fst ?x <> _ => destruct x as [[a|f] l1] end; cbn [fst]; [discriminate|].
  intros [= ->]. specialize (H eq_refl). lia.
Qed.

(** ** Readers that fail *)
Lemma suffix_In {A} (s l : list A) x : suffix s l -> In x s -> In x l.
Proof. intros [p ->] H. apply in_or_app. now right. Qed.
Lemma faults_delivers r bs r' : delivers r bs r' -> forall e, faults r' e -> faults r e.
Proof.
  revert r'; induction r; intros r' D e0; destruct r'; cbn [delivers] in D; try contradiction; cbn [faults]; auto.
  - intros [->|H]; [now left|right]. destruct D as (_ & _ & D). eauto.
  - intros [->|(k & H & ->)]; [now left|right]. destruct D as [_ D]. eauto using suffix_In.
  - intros [->|H]; [now left|right]. rewrite D. apply in_or_app. now right.
Qed.
Lemma read_exact_faults n data sched k got d s : read_exact n data sched = (Err k, got, d, s) ->
  k = UnexpectedEof \/ In (Fail k) sched.
Proof.
  revert n data got d s. induction sched as [|ev sched IH]; intros n data got d s; cbn [read_exact].
  - destruct (n =? 0); [discriminate|]. destruct (n <=? lenN data); [discriminate|]. intros [= <- _ _ _]. now left.
  - destruct (n =? 0); [discriminate|]. destruct ev as [c| |k'|].
    + cbv zeta. destruct (lenN _ =? 0); [intros [= <- _ _ _]; now left|].
      destruct (read_exact _ _ sched) as [[[y more] d'] s'] eqn:E. intros [= -> _ _ _].
      apply IH in E as [->|H]; [now left|right; now right].
    + intros E. apply IH in E as [->|H]; [now left|right; now right].
    + intros [= <- _ _ _]. right. now left.
    + destruct (n <=? lenN data); [discriminate|]. intros [= <- _ _ _]. now left.
Qed.
Lemma read_custom_faults n sc e got sc' : read_custom_all n sc = (Err e, got, sc') -> e = EndOfData \/ In (inl e) sc.
Proof.
  revert sc got sc'; induction n as [|n IH]; intros sc got sc'; cbn [read_custom_all]; [discriminate|].
  destruct sc as [|[e'|b] sc].
  - intros [= <- _ _]. now left.
  - intros [= <- _ _]. right. now left.
  - destruct (read_custom_all n sc) as [[y more] s'] eqn:E. intros [= -> _ _]. apply IH in E as [->|H]; [now left|right; now right].
Qed.
Lemma mem_read_all_faults n d o e got o' : o <= lenN d -> mem_read_all n d o = (Err e, got, o') -> e = EndOfData \/ e = UnableToReadData.
Proof.
  intros H. unfold mem_read_all, slice. rewrite mem_can_read_cases by assumption.
  destruct (n =? 0); [destruct (_ && _); discriminate|]. destruct (o =? lenN d); [intros [= <- _ _]; now left|].
  destruct (_ <? n); [intros [= <- _ _]; now right|]. destruct (_ && _); discriminate.
Qed.
Lemma read_all_faults n r e got r' : rwf r -> read_all n r = (Err e, got, r') -> faults r e.
Proof.
  revert n got r'; induction r as [a o|v o|s IH m|d sc|s|sc]; intros n got r' W; cbn [read_all faults rwf] in *; rewrite ?vecr_read_all_eq.
  - destruct W as [_ W]. destruct (mem_read_all n a o) as [[y g] o'] eqn:E. intros [= -> _ _]. eauto using mem_read_all_faults.
  - destruct W as [_ W]. destruct (mem_read_all n v o) as [[y g] o'] eqn:E. intros [= -> _ _]. eauto using mem_read_all_faults.
  - destruct (m <? n); [intros [= <- _ _]; now left|]. destruct (read_all n s) as [[y g] s'] eqn:E. intros [= -> _ _]. right. eauto.
  - destruct (read_exact n d sc) as [[[y g] d'] sc'] eqn:E. intros [= Ey _ _]. destruct y as [|k| |]; try discriminate. injection Ey as <-.
    apply read_exact_faults in E as [->|E]; eauto.
  - destruct s as [d p sc k]. unfold seek_read_all. destruct (read_exact _ _ sc) as [[[y g] d'] sc'] eqn:E. intros [= Ey _ _].
    destruct y; congruence.
  - destruct (read_custom_all _ sc) as [[y g] sc'] eqn:E. intros [= -> _ _]. eauto using read_custom_faults.
Qed.
(** Well-behaved readers fail only for lack of data. *)
Lemma good_faults r e : good r -> faults r e -> no_data e.
Proof.
  unfold no_data. induction r as [a o|v o|s IH m|d sc|s|sc]; cbn [good faults]; intros G; try tauto.
  - intros [->|(k & H & ->)]; [auto|]. rewrite Forall_forall in G. now apply G in H.
  - intros [->|H]; [auto|]. rewrite Forall_forall in G. now apply G in H.
Qed.
Lemma delivers_pending r bs r' : delivers r bs r' -> pending r = bs ++ pending r'.
Proof.
  revert r'; induction r as [a o|v o|s IH m|d sc|s|sc]; intros r' D; destruct r'; cbn [delivers] in D; try contradiction; cbn [pending] in *.
  - destruct D as (-> & -> & q & Hq). now rewrite <- dropN_dropN, Hq, dropN_app_exact by reflexivity.
  - destruct D as (-> & -> & q & Hq). now rewrite <- dropN_dropN, Hq, dropN_app_exact by reflexivity.
  - destruct D as (L & -> & D). rewrite (IH _ D), takeN_app, (takeN_all m bs) by assumption. reflexivity.
  - now destruct D as (-> & _).
  - destruct D as (H1 & H2 & (q & Hq) & _). now rewrite H1, H2, <- dropN_dropN, Hq, dropN_app_exact by reflexivity.
  - rewrite D. clear D. induction bs as [|b bs IHb]; [reflexivity|]. cbn. now rewrite IHb.
Qed.

(** ** Actions and parsers *)
(** The reader delivered everything but [rest]. *)
Definition took (r : reader) (rest : list N) (r' : reader) : Prop :=
  exists bs, delivers r bs r' /\ pending r = bs ++ rest.
Lemma took_refl r : took r (pending r) r.
Proof. exists []. split; [apply delivers_refl|reflexivity]. Qed.
Lemma took_limited src n rest r' : took (RLimited src n) rest r' ->
  exists bs src', r' = RLimited src' (n - lenN bs) /\ lenN bs <= n /\ delivers src bs src' /\ pending (RLimited src n) = bs ++ rest.
Proof.
  intros (bs & D & P). destruct (IOFacts.delivers_limited _ _ _ _ D) as (src' & -> & L & D'). eauto 8.
Qed.
Lemma took_length r rest r' : took r rest r' -> lenN rest <= lenN (pending r).
Proof. intros (bs & _ & ->). rewrite lenN_app. lia. Qed.
Lemma took_rest r rest r' : took r rest r' -> pending r' = rest.
Proof. intros (bs & D & P). pose proof (delivers_pending _ _ _ D) as P'. rewrite P in P'. now apply app_inv_head in P'. Qed.
Lemma took_good r rest r' : took r rest r' -> good r -> good r'.
Proof. intros (bs & D & _) G. exact (proj2 (pending_delivers _ _ _ G D)). Qed.

(** How a type of errors shows the errors of the reader and the flaws. *)
Record errs (E : Type) := Errs { wrap : io_error -> E; says : flaw -> E -> Prop }.
Arguments wrap {E} e i.
Arguments says {E} e f x.

Section Faulty.
(** All errors the readers considered can return, and the one of the limits put
    around them. *)
Variable F : io_error -> Prop.
Hypothesis HF : F UnableToReadData.
Definition fits (r : reader) : Prop := forall i, faults r i -> F i.
Lemma took_pending r rest r' : rwf r -> fits r -> took r rest r' -> rwf r' /\ fits r' /\ pending r' = rest.
Proof.
  intros W G (bs & D & P). destruct (delivers_rwf _ _ _ W D) as [W' _]. pose proof (delivers_pending _ _ _ D) as P'.
  rewrite P in P'. apply app_inv_head in P'. split; [exact W'|]. split; [|now symmetry].
  intros i Hi. apply G. eapply faults_delivers; eauto.
Qed.
Lemma took_trans r rest r1 rest' r2 : rwf r -> fits r -> took r rest r1 -> took r1 rest' r2 -> took r rest' r2.
Proof.
  intros W G T (b2 & D2 & P2). destruct (took_pending _ _ _ W G T) as (_ & _ & Q). destruct T as (b1 & D1 & P1).
  exists (b1 ++ b2). split; [eapply delivers_trans; eauto|]. rewrite P1, <- Q, P2. apply app_assoc.
Qed.
Lemma fits_limited r n : fits r -> fits (RLimited r n).
Proof. intros H i [->|Hi]; auto. Qed.
Lemma fits_inner r n : fits (RLimited r n) -> fits r.
Proof. intros H i Hi. apply H. now right. Qed.

Section Refines.
Context {E : Type} (err : errs E).
(** The run ended with an error of the reader; a well-behaved one only fails if
    the parser needs more data. *)
Definition off {A B} (o : outcome A) (r : reader) (x : res E B) : Prop :=
  x = OutOfFuel \/ exists i, x = Err (wrap err i) /\ F i /\ (good r -> fst o = inr Short).
(** [x] and [r'] are what the outcome says. *)
Definition flawed {A} (f : flaw) (rest : list N) (r : reader) (x : res E A) (r' : reader) : Prop :=
  f = Steps \/ exists e, x = Err e /\ says err f e /\ took r rest r'.
Definition answers {A} (o : outcome A) (r : reader) (x : res E A) (r' : reader) : Prop :=
  off o r x \/
  match o with
  | (inl a, rest) => x = Ok a /\ took r rest r'
  | (inr f, rest) => flawed f rest r x r'
  end.
Definition refines {A} (m : reader -> res E A * reader) (p : parser A) : Prop :=
  forall r x r', rwf r -> fits r -> m r = (x, r') -> answers (p (pending r)) r x r'.
Lemma off_ext {A B C D} (o : outcome A) (o' : outcome B) r (x : res E C) (x' : res E D) :
  off o r x -> (fst o = inr Short -> fst o' = inr Short) -> (x = OutOfFuel -> x' = OutOfFuel) -> (forall e, x = Err e -> x' = Err e) -> off o' r x'.
Proof. intros [H|(i & H & Fi & S)] Ho H1 H2; [left; auto|right]. exists i. auto. Qed.
Lemma off_trans {A B} (o : outcome A) r r1 l1 (x : res E B) : took r l1 r1 -> off o r1 x -> off o r x.
Proof. intros T [->|(i & -> & Fi & S)]; [now left|right]. exists i. split; [reflexivity|]. split; [exact Fi|]. eauto using took_good. Qed.
Lemma pbind_short {A B} (p : parser A) (q : A -> parser B) l : fst (p l) = inr Short -> fst (pbind p q l) = inr Short.
Proof. unfold pbind. destruct (p l) as [[a|f] l1]; [discriminate|]. cbn. now intros [= ->]. Qed.
Lemma pret_short {A B} (p : parser A) (k : A -> B) l : fst (pbind p (fun a => pret (k a)) l) = inr Short -> fst (p l) = inr Short.
Proof. unfold pbind, pret. destruct (p l) as [[a|f] l1]; [discriminate|]. cbn. now intros [= ->]. Qed.
Lemma exactlyP_short {A} n (p : parser A) l : fst (p l) = inr Short -> fst (exactlyP n p l) = inr Short.
Proof. unfold exactlyP. destruct (p l) as [[a|f] l1]; [discriminate|]. cbn. now intros [= ->]. Qed.
Lemma withinP_short {A} n (p : parser A) l : fst (p (takeN n l)) = inr Short -> fst (withinP n p l) = inr Short.
Proof. unfold withinP. now destruct (p (takeN n l)). Qed.
Lemma refines_ret {A} (a : A) : refines (ret a) (pret a).
Proof. intros r x r' W G [= <- <-]. right. split; [reflexivity|apply took_refl]. Qed.
Lemma refines_fail {A} e f : says err f e -> refines (@fail reader E A e) (pfail f).
Proof. intros H r x r' W G [= <- <-]. right. right. eauto using took_refl. Qed.
Lemma flawed_trans {A} f rest r r1 l1 (x : res E A) r' : rwf r -> fits r -> took r l1 r1 -> flawed f rest r1 x r' -> flawed f rest r x r'.
Proof. intros W G T [->|(e & -> & He & T')]; [now left|right]. exists e. eauto using took_trans. Qed.
Lemma answers_trans {A} (o : outcome A) r r1 l1 x r' : rwf r -> fits r -> took r l1 r1 -> answers o r1 x r' -> answers o r x r'.
Proof.
  intros W G T [H|H]; [left; eauto using off_trans|right]. destruct o as [[a|f] rest]; [|eauto using flawed_trans].
  destruct H as [-> T']. eauto using took_trans.
Qed.
(** What follows may assume what holds of every result of [p]. *)
Definition yields {A} (p : parser A) (Q : A -> Prop) : Prop := forall l a l1, bytes_ok l -> p l = (inl a, l1) -> Q a.
Lemma refines_bind_if {A B} (m : reader -> res E A * reader) (f : A -> reader -> res E B * reader) p q Q :
  refines m p -> yields p Q -> (forall a, Q a -> refines (f a) (q a)) -> refines (bind m f) (pbind p q).
Proof.
  intros Hm Hp Hf r x r' W G H. unfold bind in H. destruct (m r) as [y r1] eqn:Em. specialize (Hm _ _ _ W G Em).
  destruct Hm as [K|K].
  { left. eapply off_ext; [exact K|apply pbind_short|intros -> |intros e ->]; now injection H as <- <-. }
  unfold pbind. destruct (p (pending r)) as [[a|fl] l1] eqn:Et.
  - destruct K as [-> T]. destruct (took_pending _ _ _ W G T) as (W1 & G1 & P1).
    specialize (Hf a (Hp _ _ _ (bytes_ok_pending _ W) Et) _ _ _ W1 G1 H). rewrite P1 in Hf. eapply answers_trans; eauto.
  - right. destruct K as [->|(e & -> & K)]; [now left|right]. injection H as <- <-. eauto.
Qed.
Lemma refines_bind {A B} (m : reader -> res E A * reader) (f : A -> reader -> res E B * reader) p q :
  refines m p -> (forall a, refines (f a) (q a)) -> refines (bind m f) (pbind p q).
Proof. intros Hm Hf. apply refines_bind_if with (fun _ => True); [exact Hm|intros ? ? ? ? ?; exact I|]. intros a _. apply Hf. Qed.
Lemma refines_ext {A} (m : reader -> res E A * reader) p q : (forall l, bytes_ok l -> p l = q l) -> refines m p -> refines m q.
Proof. intros H K r x r' W G E0. rewrite <- H; [now apply K|]. now apply bytes_ok_pending. Qed.
End Refines.
Lemma refines_lift {E E' A} (err : errs E) (err' : errs E') (g : E -> E') (m : reader -> res E A * reader) p :
  (forall f e, says err f e -> says err' f (g e)) -> (forall i, g (wrap err i) = wrap err' i) -> refines err m p -> refines err' (lift_err g m) p.
Proof.
  intros Hg Hw Hm r x r' W G. unfold lift_err. destruct (m r) as [y r1] eqn:Em. intros [= <- <-].
  destruct (Hm _ _ _ W G Em) as [[->|(i & -> & Fi & S)]|K].
  { left. now left. }
  { left. right. exists i. cbn. rewrite Hw. auto. }
  right. destruct (p (pending r)) as [[a|fl] l1].
  - destruct K as [-> T]. auto.
  - destruct K as [->|(e & -> & He & T)]; [now left|right]. cbn. eauto.
Qed.
Definition io_flaw : errs io_error := Errs _ (fun i => i) (fun f e => f = Overflow /\ e = IoCorruptedData).
Definition ilint_flaw : errs ilint_error := Errs _ ILIntIO (fun f e => f = Overflow /\ e = ValueOverflow).
(** The error of each flaw. *)
Definition tag_says (f : flaw) (e : tag_error) : Prop :=
  match f with
  | Short => False
  | Invalid => e = CorruptedData
  | Overflow => e = TagIO IoCorruptedData
  | TooLarge => e = TagTooLarge
  | Unknown => e = UnknownTag
  | Unexpected => e = UnexpectedTagType
  | Steps => False
  end.
Definition tag_flaw : errs tag_error := Errs _ TagIO tag_says.

(** ** Data.v *)
Lemma fetch_cases n r : rwf r -> fits r ->
  (exists got r', fetch n r = (Ok got, r') /\ got = takeN n (pending r) /\ lenN got = n /\ n <= lenN (pending r) /\ took r (dropN n (pending r)) r') \/
  (exists i r', fetch n r = (Err i, r') /\ F i /\ (good r -> lenN (pending r) < n)).
Proof.
  intros W G. unfold fetch. destruct (read_all n r) as [[y got] r1] eqn:E.
  destruct (read_all_wf _ _ _ _ _ W E) as (R & _). destruct y as [[]|i| |]; try contradiction.
  - left. exists got, r1. split; [reflexivity|]. apply read_all_ok in E as [L D]. pose proof (delivers_pending _ _ _ D) as P.
    assert (Eg : takeN n (pending r) = got).
    { rewrite P, takeN_app, (takeN_all n got) by lia. replace (n - lenN got) with 0 by lia. now rewrite takeN_0, app_nil_r. }
    split; [now symmetry|]. split; [exact L|]. split; [rewrite P, lenN_app; lia|].
    exists got. split; [exact D|]. rewrite <- Eg. symmetry. apply takeN_dropN.
  - right. exists i, r1. split; [reflexivity|]. split; [apply G; eapply read_all_faults; eauto|].
    intros Gd. destruct (N.lt_ge_cases (lenN (pending r)) n) as [L|L]; [exact L|]. destruct (read_all_good n r Gd L) as [s Es]. congruence.
Qed.
Lemma takeP_short n l : lenN l < n -> fst (takeP n l) = inr Short.
Proof. intros H. unfold takeP. destruct (N.ltb_spec (lenN l) n); [reflexivity|lia]. Qed.
Lemma takeP_ok n l : n <= lenN l -> takeP n l = (inl (takeN n l), dropN n l).
Proof. intros H. unfold takeP. destruct (N.ltb_spec (lenN l) n); [lia|reflexivity]. Qed.
Lemma refines_fetch n : refines io_flaw (fetch n) (takeP n).
Proof.
  intros r x r' W G H. destruct (fetch_cases n r W G) as [(got & r1 & E & -> & _ & L & T)|(i & r1 & E & Fi & S)];
    rewrite E in H; injection H as <- <-.
  - right. rewrite takeP_ok by assumption. auto.
  - left. right. exists i. split; [reflexivity|]. split; [exact Fi|]. intros Gd. apply takeP_short. auto.
Qed.
Lemma be_value_one b : be_value [b] = b.
Proof. reflexivity. Qed.
Lemma take_one l : lenN l = 1 -> l = [be_value l].
Proof. destruct l as [|a [|b l]]; rewrite ?lenN_nil, ?lenN_cons; try lia. intros _. now rewrite be_value_one. Qed.
Lemma refines_read : refines io_flaw read (let* b := takeP 1 in pret (be_value b)).
Proof.
  intros r x r' W G H. rewrite read_as_read_all in H by assumption. pose proof (fetch_cases 1 r W G) as K. unfold fetch in K.
  destruct (read_all 1 r) as [[y got] r1]. injection H as <- <-.
  destruct K as [(g & r2 & E & Eg & L1 & L & T)|(i & r2 & E & Fi & S)].
  - destruct y as [[]|e| |]; cbn in E; try discriminate. injection E as E1 E2. subst g r2. cbn [map_ok].
    right. unfold pbind. rewrite takeP_ok by assumption. cbn. rewrite <- Eg. split; [|exact T]. f_equal. rewrite (take_one got L1) at 1. reflexivity.
  - destruct y as [[]|e| |]; cbn in E; try discriminate. injection E as E1 E2. subst e r2.
    left. right. exists i. split; [reflexivity|]. split; [exact Fi|]. intros Gd. apply pbind_short, takeP_short. auto.
Qed.
Lemma pbind_assoc {A B C} (p : parser A) (q : A -> parser B) (k : B -> parser C) l :
  pbind (pbind p q) k l = pbind p (fun a => pbind (q a) k) l.
Proof. unfold pbind. destruct (p l) as [[a|f] l1]; reflexivity. Qed.
Lemma pbind_ext {A B} (p : parser A) (q q' : A -> parser B) l :
  (forall a l1, p l = (inl a, l1) -> q a l1 = q' a l1) -> pbind p q l = pbind p q' l.
Proof. unfold pbind. intros H. destruct (p l) as [[a|f] l1]; [now apply H|reflexivity]. Qed.
Lemma take_bytes n l a l1 : bytes_ok l -> takeP n l = (inl a, l1) -> bytes_ok a /\ bytes_ok l1 /\ lenN a = n.
Proof.
  intros B H. apply take_inv in H as (-> & -> & L). split; [now apply Forall_takeN|]. split; [now apply Forall_dropN|].
  rewrite lenN_takeN. lia.
Qed.
Lemma yields_take n : yields (takeP n) (fun a => bytes_ok a /\ lenN a = n).
Proof. intros l a l1 B H. destruct (take_bytes _ _ _ _ B H) as (? & _ & ?). auto. Qed.
Lemma be_value_byte b : bytes_ok b -> lenN b = 1 -> be_value b < 256.
Proof. intros B L. rewrite (take_one b L) in B. apply bytes_ok_cons in B as [B _]. exact B. Qed.
Lemma yields_byte : yields (let* b := takeP 1 in pret (be_value b)) (fun h => h < 256).
Proof.
  intros l a l1 B. unfold pbind. destruct (takeP 1 l) as [[b|f] l2] eqn:E; [|discriminate]. intros [= <- <-].
  destruct (yields_take _ _ _ _ B E). now apply be_value_byte.
Qed.
Lemma refines_decode : refines ilint_flaw decode ilintP.
Proof.
  unfold decode. apply refines_ext with
    (let* h := (let* b := takeP 1 in pret (be_value b)) in
     if h <? 248 then pret h
     else let* body := takeP (h - 247) in let* _ := require (be_value body + 248 <? two64) Overflow in pret (be_value body + 248)).
  { intros l _. apply pbind_assoc. }
  assert (Sh : forall A (m : reader -> res io_error A * reader) n (k : list N -> A),
    refines io_flaw m (let* b := takeP n in pret (k b)) -> refines ilint_flaw (lift_err ILIntIO m) (let* b := takeP n in pret (k b))).
  { intros A m n k Hm r x r' W G. unfold lift_err. destruct (m r) as [y r1] eqn:Em. intros [= <- <-].
    destruct (Hm _ _ _ W G Em) as [[->|(i & -> & Fi & S)]|K]; [left; now left|left; right; exists i; auto|right].
    unfold pbind, pret in *. unfold takeP in *. destruct (lenN (pending r) <? n).
    - destruct K as [K|(e & -> & [K _] & T)]; discriminate.
    - destruct K as [-> T]. auto. }
  apply (refines_bind_if _ _ _ _ _ (fun h => h < 256)); [apply Sh, refines_read|apply yields_byte|].
  intros h Hh. cbv zeta. unfold decoded_size, ILINT_BASE. destruct (N.ltb_spec h 248); [apply refines_ret|].
  destruct (N.eqb_spec (h - 248 + 2) 1); [lia|]. replace (h - 248 + 2 - 1) with (h - 247) by lia.
  apply (refines_bind_if _ _ _ _ _ (fun b => bytes_ok b /\ lenN b = h - 247)).
  - apply refines_ext with (let* b := takeP (h - 247) in pret b).
    { intros l _. unfold pbind, takeP, pret. destruct (_ <? _); reflexivity. }
    apply Sh. apply refines_ext with (takeP (h - 247)); [|apply refines_fetch].
    intros l _. unfold pbind, takeP, pret. destruct (_ <? _); reflexivity.
  - apply yields_take.
  - intros body [B Lb]. intros r x r' W G [= <- <-]. rewrite decode_body_spec by assumption.
    destruct (N.leb_spec 1 (lenN body)); [|lia]. destruct (N.leb_spec (lenN body) 8); [|lia]. cbn [andb].
    unfold pbind, require. destruct (_ <? two64); right; [split; [reflexivity|apply took_refl]|].
    right. exists ValueOverflow. split; [reflexivity|]. split; [now split|]. apply took_refl.
Qed.
Lemma yields_ilint : yields ilintP (fun v => v < two64).
Proof.
  intros l a l1 B. unfold ilintP, pbind at 1. destruct (takeP 1 l) as [[h|f] l2]; [|discriminate].
  destruct (N.ltb_spec (be_value h) 248); [intros [= <- <-]; unfold two64; lia|].
  unfold pbind, require. destruct (takeP _ l2) as [[body|f] l3]; [|discriminate].
  destruct (N.ltb_spec (be_value body + 248) two64); [|discriminate]. intros [= <- <-]. assumption.
Qed.
Lemma io_ilint f e : says ilint_flaw f e -> says io_flaw f (ilint_read_error e).
Proof. intros [-> ->]. now split. Qed.
Lemma refines_read_ilint : refines io_flaw read_ilint ilintP.
Proof. exact (refines_lift _ _ _ _ _ io_ilint (fun i => eq_refl) refines_decode). Qed.
Lemma decode_sign_unzigzag n : n < two64 -> decode_sign n = unzigzag n.
Proof.
  intros H. unfold decode_sign, unzigzag. rewrite land_1, !N.shiftr_div_pow2. change (2 ^ 1) with 2.
  unfold two64 in H. rewrite lxor_max by (unfold two64; lia).
  unfold as_i64, u64_max. destruct (n mod 2 =? 0).
  - destruct (N.ltb_spec (n / 2) 9223372036854775808); lia.
  - destruct (N.ltb_spec (18446744073709551615 - n / 2) 9223372036854775808); lia.
Qed.
Lemma refines_signed : refines io_flaw read_signed_ilint (let* v := ilintP in pret (unzigzag v)).
Proof.
  apply (refines_lift ilint_flaw io_flaw); [exact io_ilint|reflexivity|].
  eapply refines_bind_if; [apply refines_decode|apply yields_ilint|]. intros v Hv. cbv beta in Hv.
  rewrite decode_sign_unzigzag by assumption. apply refines_ret.
Qed.
Lemma refines_uint w : refines io_flaw (read_uint w) (let* b := takeP (N.of_nat (wbytes w)) in pret (be_value b)).
Proof.
  destruct w; [apply refines_read|..];
    (eapply refines_bind_if; [apply refines_fetch|apply yields_take|]; intros b [B _]; rewrite from_be_bytes_spec by assumption; apply refines_ret).
Qed.
Lemma refines_sint w : refines io_flaw (read_sint w) (let* b := takeP (N.of_nat (wbytes w)) in pret (to_signed w (be_value b))).
Proof.
  assert (K : forall w b, bytes_ok b -> lenN b = N.of_nat (wbytes w) -> be_value b < wmod w).
  { intros w0 b B L. pose proof (be_value_bound b B) as Q. unfold lenN in L. apply Nat2N.inj in L. rewrite L in Q. destruct w0; exact Q. }
  destruct w.
  { apply refines_ext with (let* h := (let* b := takeP 1 in pret (be_value b)) in pret (to_signed W8 h)).
    { intros l _. apply pbind_assoc. }
    eapply refines_bind_if; [apply refines_read|apply yields_byte|]. intros h Hh. cbv beta in Hh.
    rewrite cast_signed_spec by exact Hh. apply refines_ret. }
  all: (eapply refines_bind_if; [apply refines_fetch|apply yields_take|]; intros b [B L]; rewrite from_be_bytes_spec by assumption;
    rewrite cast_signed_spec by (apply K; assumption); apply refines_ret).
Qed.
Lemma io_tag f e : says io_flaw f e -> says tag_flaw f (TagIO e).
Proof. intros [-> ->]. reflexivity. Qed.
Lemma refines_tag {A} (m : reader -> res io_error A * reader) p : refines io_flaw m p -> refines tag_flaw (lift_err TagIO m) p.
Proof. exact (refines_lift _ _ _ _ _ io_tag (fun i => eq_refl)). Qed.
Lemma refines_ilint : refines tag_flaw deserialize_ilint ilintP.
Proof. apply refines_tag, refines_read_ilint. Qed.
Lemma refines_bytes n : refines tag_flaw (deserialize_bytes n) (takeP n).
Proof. apply refines_tag, refines_fetch. Qed.

(** ** Methods: the value parsed and the fields afterwards are related by [R] *)
Definition manswers {A S} (R : A -> S -> Prop) (o : outcome A) (r : reader) (x : res tag_error unit) (s : S) (r' : reader) : Prop :=
  off tag_flaw o r x \/
  match o with
  | (inl a, rest) => x = Ok tt /\ R a s /\ took r rest r'
  | (inr f, rest) => flawed tag_flaw f rest r x r'
  end.
Definition meets {A S} (R : A -> S -> Prop) (p : parser A) (g : reader -> res tag_error unit * (S * reader)) : Prop :=
  forall r x s r', rwf r -> fits r -> g r = (x, (s, r')) -> manswers R (p (pending r)) r x s r'.
Lemma manswers_trans {A S} (R : A -> S -> Prop) (o : outcome A) r r1 l1 x s r' :
  rwf r -> fits r -> took r l1 r1 -> manswers R o r1 x s r' -> manswers R o r x s r'.
Proof.
  intros W G T [H|H]; [left; eauto using off_trans|right]. destruct o as [[a|f] rest]; [|eauto using flawed_trans].
  destruct H as (-> & Ra & T'). eauto using took_trans.
Qed.
Lemma meets_read {A B S} (R : B -> S -> Prop) u (m : reader -> res tag_error A * reader) f p q :
  refines tag_flaw m p -> (forall a, meets R (q a) (fun r => f a (u, r))) ->
  meets R (pbind p q) (fun r => bind (on_reader m) f (u, r)).
Proof.
  intros Hm Hf r x s r' W G H. unfold bind, on_reader in H. destruct (m r) as [y r1] eqn:Em. specialize (Hm _ _ _ W G Em).
  destruct Hm as [K|K]; [left; eapply off_ext; [exact K|apply pbind_short|intros ->|intros e ->]; now injection H as <- <- <-|]. unfold pbind.
  destruct (p (pending r)) as [[a|fl] l1].
  - destruct K as [-> T]. destruct (took_pending _ _ _ W G T) as (W1 & G1 & P1).
    specialize (Hf a _ _ _ _ W1 G1 H). rewrite P1 in Hf. eapply manswers_trans; eauto.
  - right. destruct K as [->|(e & -> & K)]; [now left|right]. injection H as <- <- <-. eauto.
Qed.
Lemma meets_modify {A S} (R : A -> S -> Prop) u g a : R a (g u) -> meets R (pret a) (fun r => modify g (u, r)).
Proof. intros H r x s r' W G [= <- <- <-]. right. split; [reflexivity|]. split; [exact H|apply took_refl]. Qed.
Lemma meets_fail {A S} (R : A -> S -> Prop) u e f : says tag_flaw f e -> meets R (pfail f) (fun r => fail e (u, r)).
Proof. intros H r x s r' W G [= <- <- <-]. right. right. eauto using took_refl. Qed.
Lemma meets_ret {A S} (R : A -> S -> Prop) u a : R a u -> meets R (pret a) (fun r => ret tt (u, r)).
Proof. intros H r x s r' W G [= <- <- <-]. right. split; [reflexivity|]. split; [exact H|apply took_refl]. Qed.
(** A condition checked before going on. *)
Lemma meets_guard {A S} (R : A -> S -> Prop) u (b c : bool) fl e f q :
  c = negb b -> says tag_flaw fl e -> (b = true -> meets R q (fun r => f tt (u, r))) ->
  meets R (pbind (require b fl) (fun _ => q)) (fun r => bind (if c then @fail (S * reader) tag_error unit e else ret tt) f (u, r)).
Proof.
  intros -> He H. unfold require. destruct b; cbn [negb]; [exact (H eq_refl)|]. apply meets_fail, He.
Qed.
Lemma meets_check {A S} (R : A -> S -> Prop) u n k f q :
  (n = k -> meets R q (fun r => f tt (u, r))) ->
  meets R (pbind (require (n =? k) Invalid) (fun _ => q)) (fun r => bind (@check_size S n k) f (u, r)).
Proof.
  intros H. unfold check_size, require. destruct (N.eqb_spec n k); [exact (H e)|]. apply meets_fail. reflexivity.
Qed.
Lemma meets_set {A B} (R : B -> A -> Prop) u (m : reader -> res tag_error A * reader) p (k : A -> B) :
  refines tag_flaw m p -> (forall a, R (k a) a) -> meets R (let* a := p in pret (k a)) (fun r => set_from m (u, r)).
Proof. intros Hm H. apply meets_read; [exact Hm|]. intros a. apply meets_modify. apply H. Qed.
Lemma meets_in_place {A} (R : A -> list N -> Prop) u (k : list N -> A) :
  (forall b, R (k b) b) -> meets R (let* b := takeP (lenN u) in pret (k b)) (fun r => in_place (u, r)).
Proof.
  intros HR r x s r' W G. unfold in_place, into_slice. pose proof (refines_fetch (lenN u) r) as K. unfold fetch in K.
  destruct (read_all (lenN u) r) as [[y got] r1] eqn:Er. specialize (K _ _ W G eq_refl). intros [= <- <- <-].
  destruct K as [[K|(i & K & Fi & S)]|K].
  { destruct y; try discriminate. left. now left. }
  { left. right. exists i. destruct y as [[]| | |]; try discriminate. injection K as ->. split; [reflexivity|]. split; [exact Fi|].
    intros Gd. now apply pbind_short, S. }
  right. unfold pbind.
  destruct (takeP (lenN u) (pending r)) as [[b|f] l1] eqn:Et.
  - destruct K as [K T]. destruct y as [[]| | |]; try discriminate. injection K as ->. cbn [map_err].
    split; [reflexivity|]. split; [|exact T]. apply read_all_ok in Er as [L _].
    rewrite dropN_all, app_nil_r by lia. apply HR.
  - destruct K as [->|(e & K & He & T)]; [now left|right]. destruct y as [[]| | |]; try discriminate. injection K as ->.
    cbn. exists (TagIO e). split; [reflexivity|]. split; [now apply io_tag|exact T].
Qed.
Lemma meets_raw {A} (R : A -> list N -> Prop) u n (k : list N -> A) :
  (forall b, R (k b) b) -> meets R (let* b := takeP n in pret (k b)) (fun r => raw_deserialize n (u, r)).
Proof.
  intros HR. pose proof (meets_in_place R (resizeN n 0 u) k HR) as K. rewrite lenN_resizeN in K. exact K.
Qed.
Lemma meets_on_snd {A S T} (R : A -> S * T -> Prop) s t p (m : method T unit) :
  meets (fun a v => R a (s, v)) p (fun r => m (t, r)) -> meets R p (fun r => on_snd m ((s, t), r)).
Proof.
  intros H r x st r' W G. unfold on_snd. destruct (m (t, r)) as [y [v r1]] eqn:E. intros [= <- <- <-].
  exact (H _ _ _ _ W G E).
Qed.
Lemma meets_weaken {A S} (R : A -> S -> Prop) p q g : (forall l, bytes_ok l -> p l = q l) -> meets R p g -> meets R q g.
Proof. intros H K r x s r' W G E0. rewrite <- H; [now apply K|]. now apply bytes_ok_pending. Qed.
Lemma refines_string : refines tag_flaw deserialize_string_tag_from_value stringP.
Proof.
  assert (K : meets eq stringP (fun r => deserialize_string_tag_from_value_into ([], r))).
  { unfold deserialize_string_tag_from_value_into. apply meets_read; [apply refines_ilint|]. intros id.
    apply meets_guard; [reflexivity|reflexivity|]. intros _.
    apply meets_read; [apply refines_ilint|]. intros len.
    intros r x s r' W G H. unfold bind at 1 in H. unfold tag_size_to_usize in H. revert r x s r' W G H.
    change MAX_TAG_SIZE with 536870912. unfold require. rewrite N.ltb_antisym. destruct (len <=? 536870912); cbn [negb].
    2:{ intros r x s r' W G [= <- <- <-]. right. right. exists TagTooLarge. split; [reflexivity|]. split; [reflexivity|]. apply took_refl. }
    change (meets eq (let* s := takeP len in let* _ := require (from_utf8 s) Invalid in pret s)
      (fun r => (tmp <- on_reader (deserialize_bytes len) ;; if from_utf8 tmp then modify (fun _ => tmp) else fail CorruptedData) ([], r))).
    apply meets_read; [apply refines_bytes|]. intros tmp. unfold require. destruct (from_utf8 tmp).
    - now apply meets_modify.
    - apply meets_fail. reflexivity. }
  intros r x r' W G. unfold deserialize_string_tag_from_value.
  destruct (deserialize_string_tag_from_value_into ([], r)) as [y [s r1]] eqn:E. intros [= <- <-].
  destruct (K _ _ _ _ W G E) as [Q|Q]; [left; eapply off_ext; [exact Q|auto|now intros ->|now intros e ->]|right]. destruct (stringP (pending r)) as [[a|f] rest].
  - destruct Q as (-> & -> & T). auto.
  - destruct Q as [->|(e & -> & Q)]; [now left|right]. eauto.
Qed.

(** ** Inside a limit of [n] bytes *)
Definition lmeets {A S} (R : A -> S -> Prop) (n : N) (p : parser A) (g : reader -> res tag_error unit * (S * reader)) : Prop :=
  forall src x s r', rwf src -> fits (RLimited src n) -> g (RLimited src n) = (x, (s, r')) ->
    manswers R (p (pending (RLimited src n))) (RLimited src n) x s r'.
Lemma meets_map {A B S} (R : A -> S -> Prop) (R' : B -> S -> Prop) (k : A -> B) p g :
  (forall a s, R a s -> R' (k a) s) -> meets R p g -> meets R' (let* a := p in pret (k a)) g.
Proof.
  intros H Hg r x s r' W G E. destruct (Hg _ _ _ _ W G E) as [K|K]; [left; eapply off_ext; eauto using pbind_short|right]. unfold pbind.
  destruct (p (pending r)) as [[a|f] rest]; [|exact K]. destruct K as (-> & Ra & T). cbn. auto.
Qed.
Lemma meets_repeat {A S} (m : reader -> res tag_error A * reader) p (store : A -> S -> S) : refines tag_flaw m p ->
  forall f count u, meets (fun items s => s = fold_left (fun s a => store a s) items u) (manyP (N.to_nat count) p)
    (fun r => repeat_read f m store count (u, r)).
Proof.
  intros Hm f. induction f as [|f IH]; intros count u.
  - cbn [repeat_read]. destruct (N.eqb_spec count 0) as [->|Hc]; [now apply meets_ret|].
    intros r x s r' W G [= <- <- <-]. left. now left.
  - cbn [repeat_read]. destruct (N.eqb_spec count 0) as [->|Hc]; [now apply meets_ret|].
    replace (N.to_nat count) with (Datatypes.S (N.to_nat (count - 1))) by lia. cbn [manyP].
    apply meets_read; [exact Hm|]. intros a.
    change (meets (fun items s => s = fold_left (fun s a0 => store a0 s) items u) (let* l := manyP (N.to_nat (count - 1)) p in pret (a :: l))
      (fun r => repeat_read f m store (count - 1) (store a u, r))).
    eapply meets_map; [|apply IH]. intros l s ->. reflexivity.
Qed.
(** [p] must use up the limit. *)
Definition xmeets {A S} (R : A -> S -> Prop) n (p : parser A) g := @lmeets A S R n (exactlyP n p) g.
Lemma xmeets_step {A B C S} (R1 : A -> B -> S -> Prop) (R : C -> S -> Prop) n p q u (m : method S B) f :
  (forall r y s r1, rwf r -> fits r -> m (u, r) = (y, (s, r1)) ->
     off tag_flaw (p (pending r)) r y \/ match p (pending r) with
                      | (inl a, rest) => exists b, y = Ok b /\ R1 a b s /\ took r rest r1
                      | (inr fl, rest) => flawed tag_flaw fl rest r y r1
                      end) ->
  (forall a b s k, R1 a b s -> xmeets R k (q a) (fun r => f b (s, r))) ->
  xmeets R n (pbind p q) (fun r => bind m f (u, r)).
Proof.
  intros H1 H2 src x s r' W G E. unfold bind in E. destruct (m (u, RLimited src n)) as [y [s1 r1]] eqn:E1.
  assert (Wl : rwf (RLimited src n)) by exact W.
  specialize (H1 _ _ _ _ Wl G E1).
  destruct H1 as [K|K]; [left; eapply off_ext; [exact K|intros Hs; now apply exactlyP_short, pbind_short|intros ->|intros e ->]; now injection E as <- <- <-|].
  unfold exactlyP, pbind.
  destruct (p (pending (RLimited src n))) as [[a|fl] l1].
  - destruct K as (b & -> & Ra & T). destruct (took_pending _ _ _ Wl G T) as (W1 & G1 & P1).
    destruct (took_limited _ _ _ _ T) as (bs & src' & -> & Lb & D & P).
    specialize (H2 a b s1 (n - lenN bs) Ra src' x s r' W1 G1 E). unfold exactlyP in H2. rewrite P1 in H2.
    eapply manswers_trans; [exact Wl|exact G|exact T|].
    destruct H2 as [H2|H2].
    { left. eapply off_ext; [exact H2| |auto|auto]. destruct (q a l1) as [[c|fl] l2]; [|auto]. destruct (_ =? n - _); discriminate. }
    right. rewrite P, lenN_app. destruct (q a l1) as [[c|fl] l2]; [|exact H2].
    + assert (L2 : lenN l2 <= lenN l1).
      { destruct (_ =? _) in H2; [destruct H2 as (_ & _ & T2)|destruct H2 as [H2|(e & _ & _ & T2)]; [discriminate|]];
          apply took_length in T2; now rewrite P1 in T2. }
      assert (Eq : (lenN bs + lenN l1 - lenN l2 =? n) = (lenN l1 - lenN l2 =? n - lenN bs)).
      { destruct (N.eqb_spec (lenN bs + lenN l1 - lenN l2) n), (N.eqb_spec (lenN l1 - lenN l2) (n - lenN bs)); try reflexivity; lia. }
      rewrite Eq. exact H2.
  - right. destruct K as [->|(e & -> & K)]; [now left|right]. injection E as <- <- <-. eauto.
Qed.
Lemma xmeets_read {A B S} (R : B -> S -> Prop) n u (m : reader -> res tag_error A * reader) f p q :
  refines tag_flaw m p -> (forall a k, xmeets R k (q a) (fun r => f a (u, r))) ->
  xmeets R n (pbind p q) (fun r => bind (on_reader m) f (u, r)).
Proof.
  intros Hm Hf. apply xmeets_step with (R1 := fun a b s => a = b /\ s = u).
  - intros r y s r1 W G. unfold on_reader. destruct (m r) as [z r2] eqn:E. intros [= <- <- <-].
    destruct (Hm _ _ _ W G E) as [K|K]; [now left|right]. destruct (p (pending r)) as [[a|fl] rest]; [|exact K].
    destruct K as [-> T]. eauto.
  - intros a b s k [<- ->]. apply Hf.
Qed.
Lemma xmeets_bind {A B S} (R1 : A -> S -> Prop) (R : B -> S -> Prop) n u (m : method S unit) f p q :
  meets R1 p (fun r => m (u, r)) -> (forall a s k, R1 a s -> xmeets R k (q a) (fun r => f tt (s, r))) ->
  xmeets R n (pbind p q) (fun r => bind m f (u, r)).
Proof.
  intros Hm Hf. apply xmeets_step with (R1 := fun a b s => R1 a s).
  - intros r y s r1 W G E. destruct (Hm _ _ _ _ W G E) as [K|K]; [now left|right].
    destruct (p (pending r)) as [[a|fl] rest]; [|exact K]. destruct K as (-> & Ra & T). eauto.
  - intros a [] s k Ra. now apply Hf.
Qed.
Lemma xmeets_guard {A S} (R : A -> S -> Prop) n u (b c : bool) f q :
  c = negb b -> xmeets R n q (fun r => f tt (u, r)) ->
  xmeets R n (pbind (require b Invalid) (fun _ => q)) (fun r => bind (if c then @fail (S * reader) tag_error unit CorruptedData else ret tt) f (u, r)).
Proof.
  intros -> H. unfold require. destruct b; cbn [negb]; [exact H|].
  intros src x s r' W G [= <- <- <-]. right. right. exists CorruptedData. split; [reflexivity|]. split; [reflexivity|]. apply took_refl.
Qed.
Lemma xmeets_end {A S} (R : A -> S -> Prop) n u a : R a u ->
  xmeets R n (pret a) (fun r => limited_reader_ensure_empty CorruptedData (u, r)).
Proof.
  intros H src x s r' W G. unfold limited_reader_ensure_empty, exactlyP, pret. cbn [snd limit_empty].
  rewrite N.sub_diag, (N.eqb_sym 0 n). destruct (n =? 0); intros [= <- <- <-]; right.
  - split; [reflexivity|]. split; [exact H|apply took_refl].
  - right. exists CorruptedData. split; [reflexivity|]. split; [reflexivity|]. apply took_refl.
Qed.
Lemma lmeets_while {A S} (m : reader -> res tag_error A * reader) p (store : A -> S -> S) : refines tag_flaw m p ->
  forall f st n u, lmeets (fun items s => s = fold_left (fun s a => store a s) items u) n (untilP st p n)
    (fun r => while_read f m store (u, r)).
Proof.
  intros Hm f. induction f as [|f IH]; intros st n u src x s r' W G; cbn [while_read snd limit_empty].
  - destruct (N.eqb_spec n 0) as [->|Hn].
    + intros [= <- <- <-]. right. destruct st; cbn [untilP]; cbn; (split; [reflexivity|]; split; [reflexivity|apply took_refl]).
    + intros [= <- <- <-]. left. now left.
  - destruct (N.eqb_spec n 0) as [->|Hn].
    + intros [= <- <- <-]. right. destruct st; cbn [untilP]; cbn; (split; [reflexivity|]; split; [reflexivity|apply took_refl]).
    + destruct st as [|st].
      { intros _. right. cbn [untilP]. destruct (N.eqb_spec n 0); [contradiction|]. now left. }
      unfold bind at 1, on_reader at 1. destruct (m (RLimited src n)) as [y r1] eqn:Em. intros E.
      assert (Wl : rwf (RLimited src n)) by exact W.
      cbn [untilP]. destruct (N.eqb_spec n 0); [contradiction|].
      destruct (Hm _ _ _ Wl G Em) as [K|K].
      { left. eapply off_ext; [exact K| |intros ->; now injection E as <- <- <-|intros e ->; now injection E as <- <- <-].
        destruct (p (pending (RLimited src n))) as [[a|fl] l1]; [discriminate|cbn; now intros [= ->]]. }
      destruct (p (pending (RLimited src n))) as [[a|fl] l1].
      * destruct K as [-> T]. destruct (took_pending _ _ _ Wl G T) as (W1 & G1 & P1).
        destruct (took_limited _ _ _ _ T) as (bs & src' & -> & Lb & D & P).
        specialize (IH st (n - lenN bs) (store a u) src' x s r' W1 G1 E). rewrite P1 in IH.
        replace (lenN (pending (RLimited src n)) - lenN l1) with (lenN bs) by (rewrite P, lenN_app; lia).
        eapply manswers_trans; [exact Wl|exact G|exact T|].
        destruct IH as [IH|IH]; [left; eapply off_ext; [exact IH|apply pbind_short|auto|auto]|right]. unfold pbind. destruct (untilP st p (n - lenN bs) l1) as [[items|fl] l2]; [|exact IH].
        cbn. exact IH.
      * right. destruct K as [->|(e & -> & K)]; [now left|right]. injection E as <- <- <-. eauto.
Qed.
(** [limited n] on a reader with at most [n] bytes. *)
Definition bmeets {A S} (R : A -> S -> Prop) (n : N) (p : parser A) (g : reader -> res tag_error unit * (S * reader)) : Prop :=
  forall r x s r', rwf r -> fits r -> lenN (pending r) <= n -> g r = (x, (s, r')) -> manswers R (p (pending r)) r x s r'.
Lemma bmeets_limited {A S} (R : A -> S -> Prop) n u p (m : method S unit) :
  lmeets R n p (fun r => m (u, r)) -> bmeets R n p (fun r => limited n m (u, r)).
Proof.
  intros H r x s r' W G L. unfold limited, LimitedReader_new. destruct (m (u, RLimited r n)) as [y [v r1]] eqn:E. intros [= <- <- <-].
  specialize (H r _ _ _ W (fits_limited _ _ G) E).
  assert (P : pending (RLimited r n) = pending r) by (cbn [pending]; now apply takeN_all). rewrite P in H.
  assert (T : forall rest, took (RLimited r n) rest r1 -> took r rest (unlimit r1)).
  { intros rest T. destruct (took_limited _ _ _ _ T) as (bs & src' & -> & _ & D & Q). rewrite P in Q. exists bs. auto. }
  destruct H as [H|H]; [left; exact H|right]. destruct (p (pending r)) as [[a|f] rest].
  - destruct H as (-> & Ra & T1). auto.
  - destruct H as [->|(e & -> & He & T1)]; [now left|right]. eauto 8.
Qed.
Lemma bmeets_meets {A S} (R : A -> S -> Prop) n p (g : reader -> res tag_error unit * (S * reader)) : meets R p g -> bmeets R n p g.
Proof. intros H r x s r' W G _. now apply H. Qed.
Lemma meets_read_map {A B C S} (R : C -> S -> Prop) u (m : reader -> res tag_error B * reader) f p (k : A -> B) q :
  refines tag_flaw m (let* a := p in pret (k a)) -> (forall a, meets R (q a) (fun r => f (k a) (u, r))) ->
  meets R (pbind p q) (fun r => bind (on_reader m) f (u, r)).
Proof.
  intros Hm Hf r x s r' W G H. unfold bind, on_reader in H. destruct (m r) as [y r1] eqn:Em. specialize (Hm _ _ _ W G Em).
  destruct Hm as [K|K]; [left; eapply off_ext; [exact K|intros Hs; apply pret_short in Hs; now apply pbind_short|intros ->|intros e ->]; now injection H as <- <- <-|]. unfold pbind in *.
  destruct (p (pending r)) as [[a|fl] l1]; cbn [pret] in K.
  - destruct K as [-> T]. destruct (took_pending _ _ _ W G T) as (W1 & G1 & P1).
    specialize (Hf a _ _ _ _ W1 G1 H). rewrite P1 in Hf. eapply manswers_trans; eauto.
  - right. destruct K as [->|(e & -> & K)]; [now left|right]. injection H as <- <- <-. eauto.
Qed.
Lemma xmeets_read_map {A B C S} (R : C -> S -> Prop) n u (m : reader -> res tag_error B * reader) f p (k : A -> B) q :
  refines tag_flaw m (let* a := p in pret (k a)) -> (forall a n, xmeets R n (q a) (fun r => f (k a) (u, r))) ->
  xmeets R n (pbind p q) (fun r => bind (on_reader m) f (u, r)).
Proof.
  intros Hm Hf. apply xmeets_step with (R1 := fun a b s => b = k a /\ s = u).
  - intros r y s r1 W G. unfold on_reader. destruct (m r) as [z r2] eqn:E. intros [= <- <- <-].
    specialize (Hm _ _ _ W G E).
    destruct Hm as [K|K]; [left; eapply off_ext; [exact K|apply pret_short|auto|auto]|right]. unfold pbind in K. destruct (p (pending r)) as [[a|fl] rest]; [|exact K].
    destruct K as [-> T]. eauto.
  - intros a b s j [-> ->]. apply Hf.
Qed.
Lemma bmeets_weaken {A S} (R R' : A -> S -> Prop) n p g : (forall a s, R a s -> R' a s) -> bmeets R n p g -> bmeets R' n p g.
Proof.
  intros H K r x s r' W G L E. destruct (K _ _ _ _ W G L E) as [Q|Q]; [now left|right].
  destruct (p (pending r)) as [[a|f] rest]; [|exact Q]. destruct Q as (-> & Ra & T). auto.
Qed.
Lemma xmeets_repeat {A B S} (R : B -> S -> Prop) n u (m : reader -> res tag_error A * reader) p (store : A -> S -> S) count (k : list A -> B) :
  refines tag_flaw m p -> (forall items, R (k items) (fold_left (fun s a => store a s) items u)) ->
  xmeets R n (let* l := manyP (N.to_nat count) p in pret (k l))
    (fun r => (fuelled (fun f => repeat_read f m store count) ;;; limited_reader_ensure_empty CorruptedData) (u, r)).
Proof.
  intros Hm HR. apply xmeets_bind with (R1 := fun items s => s = fold_left (fun s a => store a s) items u).
  - intros r. unfold fuelled. cbn [snd]. revert r.
    intros r x s r' W G. apply (meets_repeat m p store Hm _ count u r x s r' W G).
  - intros a s j ->. apply xmeets_end. apply HR.
Qed.

Local Ltac modifies := match goal with |- meets ?R ?q (fun r => bind (modify ?g) ?f (?u, r)) => change (meets R q (fun r => f tt (g u, r))); cbv beta iota end.
Local Ltac xmodifies := match goal with |- xmeets ?R ?k ?q (fun r => bind (modify ?g) ?f (?u, r)) => change (xmeets R k q (fun r => f tt (g u, r))); cbv beta iota end.
(** ** deserialize_value *)
Section Values.
Variable d : reader -> res tag_error tag * reader.
Variable p : parser tag.
Hypothesis Hd : refines tag_flaw d p.
Definition vmeets (n : N) (q : parser value) (g : reader -> res tag_error unit * value * reader) : Prop :=
  forall r x v r', rwf r -> fits r -> lenN (pending r) <= n -> g r = (x, v, r') -> manswers eq (q (pending r)) r x v r'.
Lemma vmeets_run {S} n q (m : method S unit) s (mk : S -> value) :
  bmeets (fun v s => v = mk s) n q (fun r => m (s, r)) -> vmeets n q (run m s mk).
Proof.
  intros H r x v r' W G L. unfold run. destruct (m (s, r)) as [y [s1 r1]] eqn:E. intros [= <- <- <-].
  destruct (H _ _ _ _ W G L E) as [K|K]; [now left|right]. destruct (q (pending r)) as [[a|f] rest]; [|exact K].
  destruct K as (-> & -> & T). auto.
Qed.
Lemma refines_pair {A B} (m1 : reader -> res tag_error A * reader) (m2 : reader -> res tag_error B * reader) p1 p2 :
  refines tag_flaw m1 p1 -> refines tag_flaw m2 p2 ->
  refines tag_flaw (a <- m1 ;; b <- m2 ;; ret (a, b)) (pairP p1 p2).
Proof. intros H1 H2. apply refines_bind; [exact H1|]. intros a. apply refines_bind; [exact H2|]. intros b. apply refines_ret. Qed.
Lemma vmeets_value v n : shape v -> vmeets n (payloadP p (kind_of v) n) (fun r => deserialize_value d v n r).
Proof.
  intros Hs. destruct v; cbn [deserialize_value kind_of payloadP]; apply vmeets_run.
  - (* null *) apply bmeets_meets. unfold null_deserialize, check_size, require. destruct (n =? 0).
    + now apply meets_ret.
    + apply meets_fail. reflexivity.
  - (* bool *) apply bmeets_meets. apply meets_check. intros _. apply (meets_read_map _ _ _ _ (takeP 1) be_value).
    { apply refines_tag, (refines_uint W8). }
    intros c0. unfold require. destruct (N.eqb_spec (be_value c0) 0) as [->|H0]; [now apply meets_modify|].
    destruct (N.eqb_spec (be_value c0) 1) as [->|H1]; [now apply meets_modify|].
    destruct (N.leb_spec (be_value c0) 1); [lia|]. now apply meets_fail.
  - apply bmeets_meets. apply meets_check. intros ->. apply (meets_read_map _ _ _ _ _ be_value); [apply refines_tag, refines_uint|].
    intros c0. now apply meets_modify.
  - apply bmeets_meets. apply meets_check. intros ->. apply (meets_read_map _ _ _ _ _ (fun b => to_signed w (be_value b))); [apply refines_tag, refines_sint|].
    intros c0. now apply meets_modify.
  - apply bmeets_meets. apply meets_check. intros ->. apply (meets_read_map _ _ _ _ _ be_value); [apply refines_tag; intros r x r'; rewrite read_f32_eq; apply (refines_uint W32)|].
    intros c0. now apply meets_modify.
  - apply bmeets_meets. apply meets_check. intros ->. apply (meets_read_map _ _ _ _ _ be_value); [apply refines_tag; intros r x r'; rewrite read_f64_eq; apply (refines_uint W64)|].
    intros c0. now apply meets_modify.
  - apply bmeets_meets. apply meets_check. intros ->. 
    match goal with |- meets _ _ (fun r => in_place (?l, r)) => assert (L : lenN l = 16) by exact Hs; rewrite <- L at 1 end.
    now apply meets_in_place.
  - apply bmeets_meets. apply meets_set; [apply refines_ilint|reflexivity].
  - apply bmeets_meets. apply (meets_read_map _ _ _ _ _ unzigzag); [apply refines_tag, refines_signed|]. intros c0. now apply meets_modify.
  - apply bmeets_meets. now apply meets_raw.
  - apply bmeets_meets. now apply meets_raw.
  - apply bmeets_meets. apply meets_read; [apply refines_bytes|]. intros c0. unfold require. destruct (from_utf8 c0); [now apply meets_modify|now apply meets_fail].
  - apply bmeets_meets. now apply meets_raw.
  - apply bmeets_meets. apply meets_guard; [now rewrite N.ltb_antisym|reflexivity|]. intros _.
    apply (meets_read_map _ _ _ _ (takeP 4) (fun b => to_signed W32 (be_value b))); [apply refines_tag, (refines_sint W32)|].
    intros c0. modifies. cbn [snd]. apply meets_on_snd. now apply meets_raw.
  - apply bmeets_limited. change (xmeets (fun v s => v = VILIntArray s) n
      (let* c := ilintP in let* _ := require (c <=? n) Invalid in let* l := manyP (N.to_nat c) ilintP in pret (VILIntArray l))
      (fun r => (count <- on_reader deserialize_ilint ;;
    (if n <? count then fail CorruptedData else ret tt) ;;;
    modify (fun _ => []) ;;;
    fuelled (fun f => repeat_read f deserialize_ilint push count) ;;;
    limited_reader_ensure_empty CorruptedData) (l, r))).
    apply xmeets_read; [apply refines_ilint|]. intros c0 k. apply xmeets_guard; [now rewrite N.ltb_antisym|]. xmodifies.
    apply xmeets_repeat; [apply refines_ilint|]. intros items. now rewrite fold_push.
  - (* seq *) intros r x s r' W G L E.
    assert (Q : bmeets (fun v s => v = VSeq s) n (let* ts := untilP (S (length (pending r))) p n in pret (VSeq ts)) (fun r => seq_deserialize d n (l, r))).
    { apply bmeets_limited. intros src y st r2 W2 G2 E2. unfold bind in E2. cbn [modify] in E2. unfold fuelled in E2.
      destruct (lmeets_while d p push Hd _ (S (length (pending r))) n [] src _ _ _ W2 G2 E2) as [K|K]; [left; eapply off_ext; eauto using pbind_short|right].
      unfold pbind. destruct (untilP _ _ _ _) as [[items|f] rest]; [|exact K]. destruct K as (-> & -> & T). rewrite fold_push. cbn. auto. }
    exact (Q _ _ _ _ W G L E).
  - (* arr *) apply bmeets_limited.
    match goal with |- lmeets ?R n (exactlyP n ?q) ?g => change (xmeets R n q g) end.
    apply xmeets_read; [apply refines_ilint|]. intros c0 k. apply xmeets_guard; [now rewrite N.ltb_antisym|]. xmodifies.
    apply xmeets_repeat; [exact Hd|]. intros items. now rewrite fold_push.
  - (* range *) apply bmeets_limited.
    match goal with |- lmeets ?R n (exactlyP n ?q) ?g => change (xmeets R n q g) end.
    apply xmeets_read; [apply refines_ilint|]. intros c0 k. xmodifies.
    apply (xmeets_read_map _ _ _ _ _ (takeP 2) be_value); [apply refines_tag, (refines_uint W16)|]. intros b k2. xmodifies.
    now apply xmeets_end.
  - (* version *) apply bmeets_meets. apply meets_check. intros _.
    do 4 (apply (meets_read_map _ _ _ _ (takeP 4) (fun b => to_signed W32 (be_value b))); [apply refines_tag, (refines_sint W32)|];
      let b := fresh "b" in intros b; try modifies).
    now apply meets_modify.
  - (* oid *) apply bmeets_limited.
    match goal with |- lmeets ?R n (exactlyP n ?q) ?g => change (xmeets R n q g) end.
    apply xmeets_read; [apply refines_ilint|]. intros c0 k. apply xmeets_guard; [now rewrite N.ltb_antisym|]. xmodifies.
    apply xmeets_repeat; [apply refines_ilint|]. intros items. now rewrite fold_push.
  - (* dict *) apply bmeets_limited.
    match goal with |- lmeets ?R n (exactlyP n ?q) ?g => change (xmeets R n q g) end.
    apply xmeets_read; [apply refines_ilint|]. intros c0 k. xmodifies.
    apply xmeets_repeat; [apply refines_pair; [apply refines_string|exact Hd]|]. intros items. now rewrite fold_insert.
  - (* strdict *) apply bmeets_limited.
    match goal with |- lmeets ?R n (exactlyP n ?q) ?g => change (xmeets R n q g) end.
    apply xmeets_read; [apply refines_ilint|]. intros c0 k. xmodifies.
    apply xmeets_repeat; [apply refines_pair; apply refines_string|]. intros items. now rewrite fold_insert.
Qed.
End Values.

(** ** The factory *)
Lemma refines_size wid : refines tag_flaw (deserialize_tag_size wid) (sizeP wid).
Proof.
  apply refines_bind.
  - unfold is_implicit_tag. change IMPLICIT_ID_MAX with 15. destruct (N.leb_spec wid 15).
    + rewrite implicit_size_spec by assumption. apply refines_ret.
    + apply refines_ilint.
  - intros n. unfold tag_size_to_usize. change MAX_TAG_SIZE with 536870912. unfold require. rewrite N.ltb_antisym.
    destruct (n <=? 536870912); cbn [negb]; [apply refines_ret|now apply refines_fail].
Qed.
Lemma into_answers d p n t r x t' r' : refines tag_flaw d p -> shape (tag_val t) -> rwf r -> fits r ->
  deserialize_tag_value_into d n t r = (x, t', r') ->
  manswers eq (slotP (tag_id t) n (payloadP p (kind_of (tag_val t)) n) (pending r)) r x t' r'.
Proof.
  intros Hd Hs W G. unfold deserialize_tag_value_into, LimitedReader_new.
  destruct (deserialize_value d (tag_val t) n (RLimited r n)) as [[y v'] lr] eqn:E. intros [= <- <- <-].
  assert (L : lenN (pending (RLimited r n)) <= n) by (cbn [pending]; rewrite lenN_takeN; lia).
  assert (Wl : rwf (RLimited r n)) by exact W.
  pose proof (vmeets_value d p Hd (tag_val t) n Hs (RLimited r n) y v' lr Wl (fits_limited _ _ G) L E) as K.
  assert (T : forall rest, took (RLimited r n) rest lr -> took r (rest ++ dropN n (pending r)) (unlimit lr)
    /\ limit_empty lr = (lenN (takeN n (pending r)) - lenN rest =? n)).
  { intros rest T. destruct (took_limited _ _ _ _ T) as (bs & src' & -> & Lb & D & Q). cbn [pending] in Q. split.
    - exists bs. split; [exact D|]. rewrite app_assoc, <- Q. symmetry. apply takeN_dropN.
    - rewrite Q, lenN_app. cbn [limit_empty]. destruct (N.eqb_spec (n - lenN bs) 0), (N.eqb_spec (lenN bs + lenN rest - lenN rest) n); try reflexivity; lia. }
  unfold slotP. cbn [pending] in K. cbn [tag_id].
  destruct K as [[->|(i & -> & Fi & S)]|K].
  { left. now left. }
  { left. right. exists i. split; [reflexivity|]. split; [exact Fi|]. intros Gd. specialize (S Gd).
    apply (withinP_short n). apply (pbind_short _ (fun v => pret (Tag (tag_id t) v))) in S.
    destruct (_ || _); [exact S|now apply exactlyP_short]. }
  right. unfold withinP, exactlyP, pbind.
  destruct (payloadP p (kind_of (tag_val t)) n (takeN n (pending r))) as [[v|f] rest] eqn:Ep.
  - destruct K as (-> & <- & T1). destruct (T _ T1) as [T2 ->]. change IL_ILINT_TAG_ID with 10. change IL_SIGNED_ILINT_TAG_ID with 14.
    destruct (tag_id t =? 10) eqn:E10; cbn [orb negb andb]; cbv beta; rewrite ?Ep; [cbn; auto|].
    destruct (tag_id t =? 14) eqn:E14; cbn [orb negb andb]; cbv beta; rewrite ?Ep; [cbn; auto|]. cbn [pret]. destruct (_ =? n); cbn [negb]; [auto|].
    right. exists CorruptedData. split; [reflexivity|]. split; [reflexivity|]. exact T2.
  - assert (Q : flawed tag_flaw f (rest ++ dropN n (pending r)) r y (unlimit lr)).
    { destruct K as [->|(e & -> & He & T1)]; [now left|right]. exists e. split; [reflexivity|]. split; [exact He|]. apply T, T1. }
    destruct ((tag_id t =? 10) || (tag_id t =? 14)); cbv beta; rewrite Ep; (destruct y; [destruct Q as [->|(e & Q & _)]; [now left|discriminate]|exact Q..]).
Qed.
Lemma refines_deserialize e : engine_ok e -> engine_total e -> forall f s, refines tag_flaw (deserialize_fuel f e) (tagP s (mk_of e)).
Proof.
  intros Ho Ht f. induction f as [|f IH]; intros s.
  { intros r x r' W G [= <- <-]. left. now left. }
  destruct s as [|s]. { intros r x r' W G _. right. now left. }
  cbn [deserialize_fuel tagP].
  intros r x r' W G. revert r x r' W G. apply (refines_bind_if _ _ _ _ _ _ refines_ilint yields_ilint). intros wid Hw.
  apply refines_bind; [apply refines_size|].
  intros n r x r' W G. unfold bind, mk_of. pose proof (Ht wid) as Hc. destruct (create_tag e wid) as [[t|]|err| |] eqn:Ec; cbn in Hc; try contradiction.
  - destruct (deserialize_tag_value_into (deserialize_fuel f e) n t r) as [[y t'] r1] eqn:Ed. intros [= <- <-].
    apply (into_answers _ (tagP s (mk_of e))) in Ed; [|apply IH|apply wf_shape; eapply Ho; eauto|exact W|exact G].
    destruct Ed as [K|K]; [left; eapply off_ext; [exact K|auto|now intros ->|now intros er ->]|right]. destruct (slotP _ _ _ _) as [[a|fl] rest].
    + destruct K as (-> & -> & T). auto.
    + destruct K as [->|(er & -> & K)]; [now left|right]. cbn. eauto.
  - intros [= <- <-]. right. right. exists UnknownTag. split; [reflexivity|]. split; [reflexivity|]. apply took_refl.
  - exfalso. unfold create_tag, ILRawTag_new in Ec. destruct (cr_get wid (creators e)) as [c|]; [destruct (c wid); discriminate|].
    destruct (strict e), (is_implicit_tag wid); discriminate.
Qed.

End Faulty.

(** ** The whole run *)
(** The outcome of the parser, or an error of the reader. *)
Definition ended (r : reader) (i : io_error) : Prop := i = UnableToReadData \/ faults r i.
Definition precise (o : outcome tag) (r : reader) (x : res tag_error tag) (r' : reader) : Prop :=
  match o with
  | (inl t, rest) => x = Ok t /\ took r rest r'
  | (inr f, rest) => exists e, x = Err e /\ tag_says f e /\ took r rest r'
  end.
Lemma deserialize_run e r x r' : engine_ok e -> engine_total e -> rwf r -> deserialize e r = (x, r') ->
  (exists i, x = Err (TagIO i) /\ ended r i /\ (good r -> fst (parse (mk_of e) (pending r)) = inr Short))
  \/ precise (parse (mk_of e) (pending r)) r x r'.
Proof.
  intros Ho Ht W E. pose proof (deserialize_terminates _ _ _ _ Ho W E) as N.
  assert (G : fits (ended r) r) by (intros i Hi; now right).
  destruct (refines_deserialize (ended r) (or_introl eq_refl) e Ho Ht _ (S (length (pending r))) _ _ _ W G E) as [[->|K]|K]; [contradiction|left; exact K|right].
  pose proof (parse_settles (mk_of e) (pending r)) as Q. fold (parse (mk_of e) (pending r)) in K. unfold precise.
  destruct (parse (mk_of e) (pending r)) as [[t|f] rest]; [exact K|]. destruct K as [->|K]; [now contradiction Q|exact K].
Qed.
Definition precise_into (o : outcome tag) (r : reader) (x : res tag_error unit) (t' : tag) (r' : reader) : Prop :=
  match o with
  | (inl a, rest) => x = Ok tt /\ t' = a /\ took r rest r'
  | (inr f, rest) => exists e, x = Err e /\ tag_says f e /\ took r rest r'
  end.
Lemma deserialize_into_run e r t x t' r' : engine_ok e -> engine_total e -> rwf r -> wf t -> deserialize_into e r t = (x, t', r') ->
  (exists i, x = Err (TagIO i) /\ ended r i /\ (good r -> fst (parse_into (mk_of e) (tag_id t) (kind_of (tag_val t)) (pending r)) = inr Short))
  \/ precise_into (parse_into (mk_of e) (tag_id t) (kind_of (tag_val t)) (pending r)) r x t' r'.
Proof.
  intros Ho Ht W Wt E. assert (G : fits (ended r) r) by (intros i Hi; now right).
  pose proof (or_introl eq_refl : ended r UnableToReadData) as HF.
  enough (K : x <> OutOfFuel /\ manswers (ended r) eq (parse_into (mk_of e) (tag_id t) (kind_of (tag_val t)) (pending r)) r x t' r').
  { destruct K as [Nf [[->|K]|K]]; [contradiction|left; exact K|right].
    pose proof (parse_into_settles (mk_of e) (tag_id t) (kind_of (tag_val t)) (pending r)) as Q. unfold precise_into.
    destruct (parse_into _ _ _ (pending r)) as [[a|f] rest]; [destruct K as (-> & -> & T); auto|].
    destruct K as [->|K]; [now contradiction Q|exact K]. }
  pose proof (settles_ilint (S (length (pending r))) (pending r)) as S1.
  unfold parse_into. unfold deserialize_into in E.
  destruct (deserialize_ilint r) as [y r1] eqn:E1. pose proof (refines_ilint _ _ _ _ W G E1) as A1.
  destruct (safe_deserialize_ilint _ _ _ W E1) as (R1 & W1 & L1).
  destruct A1 as [[->|(i & -> & Fi & Si)]|A1]; [contradiction| |].
  { injection E as <- <- <-. split; [discriminate|]. left. right. exists i. split; [reflexivity|]. split; [exact Fi|]. intros Gd. now apply pbind_short, Si. }
  unfold pbind at 1. destruct (ilintP (pending r)) as [[wid|f] l1].
  2:{ destruct A1 as [->|(err & -> & A1)]; [specialize (S1 eq_refl); lia|].
      injection E as <- <- <-. split; [discriminate|]. right. right. eauto. }
  destruct A1 as [-> T1]. destruct (took_pending _ _ _ _ W G T1) as (_ & G1 & P1).
  unfold require at 1. destruct (wid =? tag_id t); cbn [negb] in E.
  2:{ injection E as <- <- <-. split; [discriminate|]. right. right. exists UnexpectedTagType. cbn. auto. }
  unfold pbind at 1. cbn [pret].
  destruct (deserialize_tag_size wid r1) as [y r2] eqn:E2. pose proof (refines_size _ _ _ _ _ W1 G1 E2) as A2. rewrite P1 in A2.
  destruct (safe_tag_size _ _ _ _ W1 E2) as (R2 & W2 & L2).
  destruct A2 as [[->|(i & -> & Fi & Si)]|A2]; [contradiction| |].
  { injection E as <- <- <-. split; [discriminate|]. left. right. exists i. split; [reflexivity|]. split; [exact Fi|]. intros Gd.
    apply pbind_short, Si. eapply took_good; eauto. }
  unfold pbind at 1. pose proof (settles_size (S (length l1)) wid l1) as S2. destruct (sizeP wid l1) as [[n|f] l2].
  2:{ destruct A2 as [->|(err & -> & He & A2)]; [specialize (S2 eq_refl); lia|].
      injection E as <- <- <-. split; [discriminate|]. right. right. exists err. split; [reflexivity|]. split; [exact He|].
      eapply took_trans; [exact W|exact G|exact T1|exact A2]. }
  destruct A2 as [-> T2]. destruct (took_pending _ _ _ _ W1 G1 T2) as (_ & G2 & P2).
  split.
  - destruct (tag_value_into_safe True (S (left r2)) _ _ _ _ _ _ _
      (deserialize_fuel_safe True e (S (left r2)) Ho (create_tag_terminates e)) (progress_deserialize e _ Ho) W2 ltac:(lia) E) as (R & _).
    intros ->. exact R.
  - apply (into_answers _ HF _ (tagP (S (length (pending r))) (mk_of e))) in E; [|now apply refines_deserialize|now apply wf_shape|exact W2|exact G2].
    rewrite P2 in E. eapply manswers_trans; [exact W|exact G|eapply took_trans; [exact W|exact G|exact T1|exact T2]|exact E].
Qed.

(** ** On well-behaved readers *)
Definition tag_error_of (f : flaw) (e : tag_error) : Prop :=
  match f with Short => exists i, e = TagIO i /\ no_data i | _ => tag_says f e end.
Definition followed (o : outcome tag) (r : reader) (x : res tag_error tag) (r' : reader) : Prop :=
  match o with
  | (inl t, rest) => x = Ok t /\ exists bs, delivers r bs r' /\ pending r = bs ++ rest
  | (inr f, rest) => exists e, x = Err e /\ tag_error_of f e /\ (f <> Short -> exists bs, delivers r bs r' /\ pending r = bs ++ rest)
  end.
Lemma ended_good r i : good r -> ended r i -> no_data i.
Proof. intros G [->|H]; [unfold no_data; auto|exact (good_faults _ _ G H)]. Qed.
Lemma tag_says_error f e : tag_says f e -> tag_error_of f e.
Proof. now destruct f. Qed.
Lemma deserialize_followed e r x r' : engine_ok e -> engine_total e -> rwf r -> good r ->
  deserialize e r = (x, r') -> followed (parse (mk_of e) (pending r)) r x r'.
Proof.
  intros Ho Ht W G E. unfold followed. destruct (deserialize_run e r x r' Ho Ht W E) as [(i & -> & Hi & S)|K].
  - specialize (S G). destruct (parse (mk_of e) (pending r)) as [[t|f] rest]; [discriminate|]. injection S as ->.
    exists (TagIO i). split; [reflexivity|]. split; [|now intros H]. exists i. eauto using ended_good.
  - unfold precise in K. destruct (parse (mk_of e) (pending r)) as [[t|f] rest]; [exact K|].
    destruct K as (err & -> & He & T). exists err. auto using tag_says_error.
Qed.
Lemma deserialize_into_followed e r t x t' r' : engine_ok e -> engine_total e -> rwf r -> good r -> wf t ->
  deserialize_into e r t = (x, t', r') ->
  match parse_into (mk_of e) (tag_id t) (kind_of (tag_val t)) (pending r) with
  | (inl a, rest) => x = Ok tt /\ t' = a /\ took r rest r'
  | (inr f, rest) => exists err, x = Err err /\ tag_error_of f err /\ (f <> Short -> took r rest r')
  end.
Proof.
  intros Ho Ht W G Wt E. destruct (deserialize_into_run e r t x t' r' Ho Ht W Wt E) as [(i & -> & Hi & S)|K].
  - specialize (S G). destruct (parse_into _ _ _ _) as [[a|f] rest]; [discriminate|]. injection S as ->.
    exists (TagIO i). split; [reflexivity|]. split; [|now intros H]. exists i. eauto using ended_good.
  - unfold precise_into in K. destruct (parse_into _ _ _ _) as [[a|f] rest]; [exact K|].
    destruct K as (err & -> & He & T). exists err. auto using tag_says_error.
Qed.

(** Proofs about Prog.v. *)
From Verif Require Import Base BaseFacts Types Spec SpecFacts IO IOSpec IOFacts Logic HistFacts ILInt ILIntFacts Data DataFacts Tags
  Factory FactoryFacts DecodeFacts DeserFacts ClosedFacts Open KinFacts OpenFacts Prog.

Lemma lenN_u8s old : lenN (u8s old) = lenN old.
Proof. apply lenN_map. Qed.
Lemma u8s_ok old : bytes_ok (u8s old).
Proof. apply Forall_map, Forall_forall. intros b _. unfold byte_ok. lia. Qed.
Lemma u8s_id old : bytes_ok old -> u8s old = old.
Proof. induction 1 as [|b l Hb _ IH]; [reflexivity|]. cbn [u8s map]. fold (u8s l). rewrite IH. f_equal. unfold byte_ok in Hb. lia. Qed.
Lemma filled_all old got : lenN got = lenN old -> filled old got = got.
Proof. intros L. unfold filled. rewrite dropN_all, app_nil_r by (rewrite lenN_u8s; lia). reflexivity. Qed.
Lemma after_inv {E A B} (x : res E A) (go : res E A -> reader -> res tag_error B * reader) r y r' :
  after x go r = (y, r') ->
  (x = Panic /\ y = Panic /\ r' = r) \/ (x = OutOfFuel /\ y = OutOfFuel /\ r' = r) \/
  ((exists a, x = Ok a) \/ (exists e, x = Err e)) /\ go x r = (y, r').
Proof. destruct x; cbn [after]; intros H; try injection H as <- <-; eauto 7. Qed.

(** ** The reader stays *)
Lemma exec_kin {I A} c (deser : reader -> res tag_error I * reader) (p : prog I A) : Rkin _ _ deser -> Rkin _ _ (exec c deser p).
Proof.
  intros Kd. induction p as [A a|A|A k IH|A n k IH|A n k IH|A n k IH|A k IH|A B n body IHb k IH]; intros r y r'; cbn [exec].
  - intros [= _ <-]. apply kin_refl.
  - intros [= _ <-]. apply kin_refl.
  - destruct (read r) as [x r1] eqn:E. apply kin_read in E. intros H.
    apply after_inv in H as [(_ & _ & ->)|[(_ & _ & ->)|[_ H]]]; auto. apply IH in H. eapply kin_trans; eauto.
  - destruct (read_all (lenN n) r) as [[x g] r1] eqn:E. apply kin_read_all in E. intros H.
    apply after_inv in H as [(_ & _ & ->)|[(_ & _ & ->)|[_ H]]]; auto. apply IH in H. eapply kin_trans; eauto.
  - destruct (skip c n r) as [x r1] eqn:E. apply kin_skip in E. intros H.
    apply after_inv in H as [(_ & _ & ->)|[(_ & _ & ->)|[_ H]]]; auto. apply IH in H. eapply kin_trans; eauto.
  - destruct (skip_u64 c n r) as [x r1] eqn:E. apply kin_skip_u64 in E. intros H.
    apply after_inv in H as [(_ & _ & ->)|[(_ & _ & ->)|[_ H]]]; auto. apply IH in H. eapply kin_trans; eauto.
  - destruct (deser r) as [x r1] eqn:E. apply Kd in E. intros H.
    apply after_inv in H as [(_ & _ & ->)|[(_ & _ & ->)|[_ H]]]; auto. apply IH in H. eapply kin_trans; eauto.
  - unfold LimitedReader_new. destruct (exec c deser body (RLimited r n)) as [x lr] eqn:E. apply IHb in E.
    apply kin_limited in E as (r1 & n1 & -> & K).
    destruct x; cbn [unlimit]; intros H; try (injection H as _ <-; exact K). apply IH in H. eapply kin_trans; eauto.
Qed.
Lemma scripted_kin {T} c (U : user_impl T) P deser n : Rkin _ _ deser -> Mkin _ _ (u_deserialize_value (scripted c U P) deser n).
Proof.
  intros Kd s r x s' r'. cbn [u_deserialize_value scripted]. destruct (exec c deser (P n s) r) as [y r1] eqn:E.
  apply (exec_kin _ _ _ Kd) in E. destruct y as [[[e|] x1]|e| |]; intros [= _ _ <-]; exact E.
Qed.

(** ** Termination *)
Definition limited_reader (r : reader) : Prop := match r with RLimited _ _ => True | _ => False end.
Lemma kin_limited_reader r r' : kin r r' -> limited_reader r -> limited_reader r'.
Proof. destruct r; cbn [limited_reader]; try contradiction. intros K _. now apply kin_limited in K as (s & m & -> & _). Qed.
Lemma exec_safe {I A} c pan b (deser : reader -> res tag_error I * reader) (p : prog I A) :
  1 <= usize_max c -> rsafe pan b deser -> Rkin _ _ deser -> (pan \/ calm p) ->
  forall r x r', limited_reader r -> rwf r -> (left r < b)%nat -> exec c deser p r = (x, r') ->
    okres pan x /\ rwf r' /\ (left r' <= left r)%nat /\ (forall e, x <> Err e).
Proof.
  intros Hc Sd Kd. induction p as [A a|A|A k IH|A n k IH|A n k IH|A n k IH|A k IH|A B n body IHb k IH]; intros Hp r y r' Lr W L; cbn [exec].
  - intros [= <- <-]. cbn. repeat split; auto. discriminate.
  - intros [= <- <-]. cbn. repeat split; auto; [cbn in Hp; tauto|discriminate].
  - destruct (read r) as [x r1] eqn:E. destruct (read_wf _ _ _ W E) as (R1 & W1 & L1 & _).
    pose proof (kin_limited_reader _ _ (kin_read _ _ _ E) Lr) as Lr1.
    destruct x as [a|e| |]; try contradiction; cbn [after]; intros H;
      (apply IH in H as (R & W' & L' & Q); auto; [repeat split; auto; lia|destruct Hp as [?|Hp]; [auto|right; now apply Hp]|lia]).
  - destruct (read_all (lenN n) r) as [[x g] r1] eqn:E. destruct (read_all_wf _ _ _ _ _ W E) as (R1 & W1 & L1 & _).
    pose proof (kin_limited_reader _ _ (kin_read_all _ _ _ _ _ E) Lr) as Lr1.
    destruct x as [a|e| |]; try contradiction; cbn [after]; intros H;
      (apply IH in H as (R & W' & L' & Q); auto; [repeat split; auto; lia|destruct Hp as [?|Hp]; [auto|right; now apply Hp]|lia]).
  - assert (Ns : no_seek r) by (destruct r; cbn in *; auto).
    destruct (skip c n r) as [x r1] eqn:E. destruct (skip_safe _ _ _ _ _ W Ns E) as (R1 & W1 & L1).
    pose proof (kin_limited_reader _ _ (kin_skip _ _ _ _ _ E) Lr) as Lr1.
    destruct x as [a|e| |]; try contradiction; cbn [after]; intros H;
      (apply IH in H as (R & W' & L' & Q); auto; [repeat split; auto; lia|destruct Hp as [?|Hp]; [auto|right; now apply Hp]|lia]).
  - assert (Ns : no_seek r) by (destruct r; cbn in *; auto).
    destruct (skip_u64 c n r) as [x r1] eqn:E. destruct (skip_u64_safe _ _ _ _ _ Hc W Ns E) as (R1 & W1 & L1).
    pose proof (kin_limited_reader _ _ (kin_skip_u64 _ _ _ _ _ E) Lr) as Lr1.
    destruct x as [a|e| |]; try contradiction; cbn [after]; intros H;
      (apply IH in H as (R & W' & L' & Q); auto; [repeat split; auto; lia|destruct Hp as [?|Hp]; [auto|right; now apply Hp]|lia]).
  - destruct (deser r) as [x r1] eqn:E. destruct (Sd _ _ _ W L E) as (R1 & W1 & L1).
    pose proof (kin_limited_reader _ _ (Kd _ _ _ E) Lr) as Lr1.
    destruct x as [a|e| |]; cbn [after]; intros H; try contradiction;
      try (injection H as <- <-; repeat split; auto; discriminate);
      (apply IH in H as (R & W' & L' & Q); auto; [repeat split; auto; lia|destruct Hp as [?|Hp]; [auto|right; now apply Hp]|lia]).
  - unfold LimitedReader_new. destruct (exec c deser body (RLimited r n)) as [x lr] eqn:E.
    pose proof (exec_kin _ _ _ Kd _ _ _ E) as K. apply kin_limited in K as (r1 & n1 & -> & K).
    apply IHb in E as (R1 & W1 & L1 & Q1); cbn; auto; [|destruct Hp as [|[]]; auto].
    cbn [rwf left] in *. pose proof (kin_limited_reader _ _ K Lr) as Lr1.
    destruct x as [a|e| |]; cbn [unlimit]; intros H; try (now elim (Q1 e)); try contradiction;
      try (injection H as <- <-; repeat split; auto; discriminate).
    apply IH in H as (R & W' & L' & Q); auto; [repeat split; auto; lia|destruct Hp as [|[]]; auto|lia].
Qed.
Lemma scripted_behaves {T} c pan (U : user_impl T) P : 1 <= usize_max c -> (pan \/ forall n x, calm (P n x)) ->
  behaves pan (scripted c U P).
Proof.
  intros Hc Hp. split; [intros deser n; apply scripted_kin|].
  intros b deser n x r m y x' r' Sd Pd Kd W L. cbn [u_deserialize_value scripted].
  destruct (exec c deser (P n x) (RLimited r m)) as [z r1] eqn:E.
  apply (exec_safe c pan b deser _ Hc Sd Kd) in E as (R & W' & L' & Q); cbn; auto; [|destruct Hp; auto].
  destruct z as [[[e|] x1]|e| |]; intros H; injection H as <- <- <-; cbn; auto.
Qed.

(** ** Soundness *)
Lemma is_limited r : limited_reader r -> no_seek r.
Proof. destruct r; cbn; auto. Qed.
Lemma delivers_kin r bs r' : delivers r bs r' -> kin r r'.
Proof. revert r'; induction r; intros r'; destruct r'; cbn [delivers kin]; auto. intros (_ & _ & D). eauto. Qed.
Lemma answered {E A} (x : res E A) : (exists a, x = Ok a) \/ (exists e, x = Err e) -> returns x.
Proof. intros [[a ->]|[e ->]]; exact I. Qed.
(** A program that has had a failure ends in [F]. *)
Lemma exec_ends {I A} c (deser : reader -> res tag_error I * reader) (p : prog I A) :
  forall F r a r', ends_in p F -> exec c deser p r = (Ok a, r') -> F a.
Proof.
  induction p as [A a0|A|A k IH|A n k IH|A n k IH|A n k IH|A k IH|A B n body IHb k IH]; intros F r a r' He; cbn [exec ends_in] in *.
  - intros [= <- _]. exact He.
  - discriminate.
  - destruct (read r) as [x r1]. intros H. apply after_inv in H as [(_ & H & _)|[(_ & H & _)|[Rx H]]]; try discriminate. exact (IH _ F _ _ _ (He _ (answered _ Rx)) H).
  - destruct (read_all (lenN n) r) as [[x g] r1]. intros H. apply after_inv in H as [(_ & H & _)|[(_ & H & _)|[Rx H]]]; try discriminate. exact (IH _ _ F _ _ _ (He _ _ (answered _ Rx)) H).
  - destruct (skip c n r) as [x r1]. intros H. apply after_inv in H as [(_ & H & _)|[(_ & H & _)|[Rx H]]]; try discriminate. exact (IH _ F _ _ _ (He _ (answered _ Rx)) H).
  - destruct (skip_u64 c n r) as [x r1]. intros H. apply after_inv in H as [(_ & H & _)|[(_ & H & _)|[Rx H]]]; try discriminate. exact (IH _ F _ _ _ (He _ (answered _ Rx)) H).
  - destruct (deser r) as [x r1]. intros H. apply after_inv in H as [(_ & H & _)|[(_ & H & _)|[Rx H]]]; try discriminate. exact (IH _ F _ _ _ (He _ (answered _ Rx)) H).
  - destruct (exec c deser body (LimitedReader_new r n)) as [[b|e| |] lr]; try discriminate. destruct lr; try discriminate. intros H. exact (IH _ _ F _ _ _ (He _ _) H).
Qed.
Lemma exec_sound {I A} c (deser : reader -> res tag_error I * reader) G (p : prog I A) : sound deser G ->
  forall F r a r', strict p F -> limited_reader r -> rwf r -> exec c deser p r = (Ok a, r') ->
    F a \/ exists bs, delivers r bs r' /\ reads G p bs a.
Proof.
  intros Sd.
  assert (Step : forall A (p : prog I A) (k : prog I A) got r r1 a r' F, rwf r -> limited_reader r -> delivers r got r1 ->
    (limited_reader r1 -> rwf r1 -> F a \/ exists bs, delivers r1 bs r' /\ reads G k bs a) ->
    (forall bs, reads G k bs a -> reads G p (got ++ bs) a) ->
    F a \/ exists bs, delivers r bs r' /\ reads G p bs a).
  { intros A0 p0 k got r r1 a r' F W L D IH Hr.
    destruct (IH (kin_limited_reader _ _ (delivers_kin _ _ _ D) L) (proj1 (delivers_rwf _ _ _ W D))) as [|(bs & D' & Rk)]; [now left|].
    right. exists (got ++ bs). split; [eapply delivers_trans; eauto|auto]. }
  induction p as [A a0|A|A k IH|A n k IH|A n k IH|A n k IH|A k IH|A B n body IHb k IH]; intros F r a r' He L W; cbn [exec strict] in *.
  - intros [= <- <-]. right. exists []. split; [apply delivers_refl|constructor].
  - discriminate.
  - destruct He as [He1 He2]. destruct (read r) as [x r1] eqn:E. intros H.
    apply after_inv in H as [(_ & H & _)|[(_ & H & _)|[[[b ->]|[e ->]] H]]]; try discriminate; [|left; eapply exec_ends; eauto].
    apply read_ok in E. apply (Step _ _ (k (Ok b)) [b] _ _ _ _ _ W L E); [eauto|]. intros bs. apply (Reads_read G A k b bs a).
  - destruct He as [He1 He2]. destruct (read_all (lenN n) r) as [[x g] r1] eqn:E. intros H.
    apply after_inv in H as [(_ & H & _)|[(_ & H & _)|[[[[] ->]|[e ->]] H]]]; try discriminate; [|left; eapply exec_ends; eauto].
    apply read_all_ok in E as [Lg E]. rewrite (filled_all _ _ Lg) in H. apply (Step _ _ (k (Ok tt) g) g _ _ _ _ _ W L E); [eauto|]. intros bs. now constructor.
  - destruct He as [He1 He2]. destruct (skip c n r) as [x r1] eqn:E. intros H.
    apply after_inv in H as [(_ & H & _)|[(_ & H & _)|[[[[] ->]|[e ->]] H]]]; try discriminate; [|left; eapply exec_ends; eauto].
    apply skip_sound in E as (g & Lg & E); [|exact W|now apply is_limited].
    apply (Step _ _ (k (Ok tt)) g _ _ _ _ _ W L E); [eauto|]. intros bs. now constructor.
  - destruct He as [He1 He2]. destruct (skip_u64 c n r) as [x r1] eqn:E. intros H.
    apply after_inv in H as [(_ & H & _)|[(_ & H & _)|[[[[] ->]|[e ->]] H]]]; try discriminate; [|left; eapply exec_ends; eauto].
    apply skip_u64_sound in E as (g & Lg & E); [|exact W|now apply is_limited].
    apply (Step _ _ (k (Ok tt)) g _ _ _ _ _ W L E); [eauto|]. intros bs. now constructor.
  - destruct He as [He1 He2]. destruct (deser r) as [x r1] eqn:E. intros H.
    apply after_inv in H as [(_ & H & _)|[(_ & H & _)|[[[t ->]|[e ->]] H]]]; try discriminate; [|left; eapply exec_ends; eauto].
    apply Sd in E as (g & Gt & E); [|exact W].
    apply (Step _ _ (k (Ok t)) g _ _ _ _ _ W L E); [eauto|]. intros bs. now apply Reads_tag.
  - destruct He as (G' & He1 & He2 & He3). unfold LimitedReader_new.
    destruct (exec c deser body (RLimited r n)) as [[b|e| |] lr] eqn:E; try discriminate. destruct lr as [| |r1 n1| | |]; try discriminate.
    intros H. destruct (IHb G' (RLimited r n) _ _ He1 Logic.I W E) as [Hb|(g & D & Rb)]; [left; eapply exec_ends; eauto|].
    destruct D as (Lg & -> & D).
    apply (Step _ _ (k b (n - lenN g)) g _ _ _ _ _ W L D); [eauto|]. intros bs. now apply Reads_limited with (b := b).
Qed.

(** ** Readers over memory lose nothing when a call fails *)
Fixpoint in_memory (r : reader) : Prop :=
  match r with
  | RByteArray _ _ | RVec _ _ => True
  | RLimited s _ => in_memory s
  | _ => False
  end.
Lemma kin_memory r r' : kin r r' -> in_memory r -> in_memory r'.
Proof. revert r'; induction r; intros r'; destruct r'; cbn [kin in_memory]; try contradiction; eauto. Qed.
Lemma mem_failed n (d : list N) o x got o' : mem_read_all n d o = (x, got, o') -> x = Ok tt \/ o' = o.
Proof.
  unfold mem_read_all. destruct (mem_can_read (lenN d) o n); [destruct (slice d o (o + n))|..];
    intros H; apply pair_inv in H as [H <-]; apply pair_inv in H as [<- _]; auto.
Qed.
Lemma memory_read_all n r x got r' : in_memory r -> read_all n r = (x, got, r') -> x = Ok tt \/ r' = r.
Proof.
  revert n x got r'; induction r as [a o|v o|s IH m|d sc|s|sc]; intros n x got r' Q; cbn [read_all in_memory] in *; try contradiction.
  - destruct (mem_read_all n a o) as [[y g] o'] eqn:E. intros H. apply pair_inv in H as [H <-]. apply pair_inv in H as [<- _].
    apply mem_failed in E as [->| ->]; auto.
  - rewrite vecr_read_all_eq. destruct (mem_read_all n v o) as [[y g] o'] eqn:E. intros H. apply pair_inv in H as [H <-]. apply pair_inv in H as [<- _].
    apply mem_failed in E as [->| ->]; auto.
  - destruct (m <? n); [intros H; apply pair_inv in H as [_ <-]; auto|].
    destruct (read_all n s) as [[y g] s'] eqn:E. intros H. apply pair_inv in H as [H <-]. apply pair_inv in H as [<- _].
    destruct (IH _ _ _ _ Q E) as [->| ->]; auto. destruct y as [[]| | |]; auto.
Qed.
(** Whatever the outcome, what was taken was counted by every limit. *)
Definition Rkeep (E A : Type) (m : reader -> res E A * reader) : Prop :=
  forall r x r', rwf r -> in_memory r -> m r = (x, r') -> exists bs, delivers r bs r'.
Definition Mkeep (S A : Type) (m : method S A) : Prop :=
  forall s r x s' r', rwf r -> in_memory r -> m (s, r) = (x, (s', r')) -> exists bs, delivers r bs r'.
Lemma keep_read_all n r x got r' : in_memory r -> read_all n r = (x, got, r') -> exists bs, delivers r bs r'.
Proof.
  intros Q E. destruct (memory_read_all _ _ _ _ _ Q E) as [->| ->]; [|exists []; apply delivers_refl].
  apply read_all_ok in E as [_ E]. eauto.
Qed.
Ltac keep_on W Q D :=
  let W' := fresh "W" in let Q' := fresh "Q" in
  pose proof (proj1 (delivers_rwf _ _ _ W D)) as W'; pose proof (kin_memory _ _ (delivers_kin _ _ _ D) Q) as Q'.
Lemma closed_keep : closed Rkeep Mkeep.
Proof.
  constructor.
  - intros r x r' W Q. rewrite read_as_read_all by exact W. destruct (read_all 1 r) as [[y g] r1] eqn:E.
    intros H. apply pair_inv in H as [_ <-]. eapply keep_read_all; eauto.
  - intros n r x r' W Q. unfold fetch. destruct (read_all n r) as [[y g] r1] eqn:E.
    intros H. apply pair_inv in H as [_ <-]. eapply keep_read_all; eauto.
  - intros E A x r y r' W Q [= _ <-]. exists []. apply delivers_refl.
  - intros E A B m f Hm Hf r x r' W Q. unfold bind. destruct (m r) as [y r1] eqn:E1.
    destruct (Hm _ _ _ W Q E1) as [b1 D1]. keep_on W Q D1.
    destruct y as [a|e| |]; try (intros [= _ <-]; eauto; fail).
    intros E2. destruct (Hf a _ _ _ W0 Q0 E2) as [b2 D2]. exists (b1 ++ b2). eapply delivers_trans; eauto.
  - intros E E' A f m Hm r x r' W Q. unfold lift_err. destruct (m r) as [y r1] eqn:E1. intros H. apply pair_inv in H as [_ <-]. eauto.
  - intros S A g s r x s' r' W Q [= _ _ <-]. exists []. apply delivers_refl.
  - intros S f s r x s' r' W Q [= _ _ <-]. exists []. apply delivers_refl.
  - intros S A B m f Hm Hf s r x s' r' W Q. unfold bind. destruct (m (s, r)) as [y [s1 r1]] eqn:E1.
    destruct (Hm _ _ _ _ _ W Q E1) as [b1 D1]. keep_on W Q D1.
    destruct y as [a|e| |]; try (intros [= _ _ <-]; eauto; fail).
    intros E2. destruct (Hf a _ _ _ _ _ W0 Q0 E2) as [b2 D2]. exists (b1 ++ b2). eapply delivers_trans; eauto.
  - intros S A c m1 m2 H1 H2 s r x s' r' W Q. destruct (c (s, r)); [now apply H1|now apply H2].
  - intros S A g m H s r x s' r' W Q. now apply H.
  - intros S A m Hm s r x s' r' W Q. unfold on_reader. destruct (m r) as [y r1] eqn:E1. intros [= _ _ <-]. eauto.
  - intros S A n m Hm s r x s' r' W Q. unfold limited, LimitedReader_new.
    destruct (m (s, RLimited r n)) as [y [s1 r1]] eqn:E1. intros [= _ _ <-].
    destruct (Hm s (RLimited r n) _ _ _ W Q E1) as [b1 D1]. exists b1.
    destruct r1; cbn [delivers unlimit] in *; try contradiction. tauto.
  - intros s r x s' r' W Q. unfold in_place, into_slice. destruct (read_all (lenN s) r) as [[y g] r1] eqn:E.
    intros H. apply pair_inv in H as [_ H]. apply pair_inv in H as [_ <-]. eapply keep_read_all; eauto.
  - intros S T A get put m Hm s r x s' r' W Q. cbn [fst snd]. destruct (m (get s, r)) as [y [t1 r1]] eqn:E1.
    intros [= _ _ <-]. eauto.
  - intros S A B s m g Hg Hm r x r' W Q. destruct (m (s, r)) as [y [s1 r1]] eqn:E1. intros [= _ <-]. eauto.
  - intros E A m m' Hx Hm r x r' W Q E1. rewrite <- Hx in E1. eauto.
  - intros S A m m' Hx Hm s r x s' r' W Q E1. rewrite <- Hx in E1. eauto.
Qed.
Lemma keep_skip_loop f : forall n, Rkeep _ _ (skip_loop f n).
Proof.
  induction f as [|f IH]; intros n r x r' W Q; cbn [skip_loop]; destruct (n =? 0); try (intros [= _ <-]; exists []; apply delivers_refl).
  destruct (read_all _ r) as [[y g] r1] eqn:E. destruct (keep_read_all _ _ _ _ _ Q E) as [b1 D1]. keep_on W Q D1.
  destruct y; intros H; try (injection H as _ <-; eauto; fail).
  destruct (IH _ _ _ _ W0 Q0 H) as [b2 D2]. exists (b1 ++ b2). eapply delivers_trans; eauto.
Qed.
Lemma keep_skip c n : Rkeep _ _ (skip c n).
Proof.
  intros r x r' W Q E. assert (S : no_seek r) by (destruct r; cbn in *; auto).
  destruct r as [a o|v o|s m|d sc|s|sc]; cbn [in_memory] in Q; try contradiction.
  - destruct x as [[]|e| |]; [apply skip_sound in E as (bs & _ & D); eauto|..]; exists [];
      cbn [skip] in E; destruct W as [_ W]; rewrite mem_skip_spec in E by exact W;
      destruct (n =? 0); [discriminate| |discriminate| |discriminate|];
      destruct (o =? lenN a); try discriminate; destruct (lenN a - o <? n); try discriminate;
      injection E as _ <-; apply delivers_refl.
  - destruct x as [[]|e| |]; [apply skip_sound in E as (bs & _ & D); eauto|..]; exists [];
      cbn [skip] in E; rewrite vecr_skip_eq in E; destruct W as [_ W]; rewrite mem_skip_spec in E by exact W;
      destruct (n =? 0); [discriminate| |discriminate| |discriminate|];
      destruct (o =? lenN v); try discriminate; destruct (lenN v - o <? n); try discriminate;
      injection E as _ <-; apply delivers_refl.
  - revert E. now apply keep_skip_loop.
Qed.
Lemma keep_skip_u64_loop c f : forall n, Rkeep _ _ (skip_u64_loop c f n).
Proof.
  induction f as [|f IH]; intros n r x r' W Q; cbn [skip_u64_loop]; destruct (n =? 0); try (intros [= _ <-]; exists []; apply delivers_refl).
  destruct (skip c _ r) as [y r1] eqn:E. destruct (keep_skip _ _ _ _ _ W Q E) as [b1 D1]. keep_on W Q D1.
  destruct y; intros H; try (injection H as _ <-; eauto; fail).
  destruct (IH _ _ _ _ W0 Q0 H) as [b2 D2]. exists (b1 ++ b2). eapply delivers_trans; eauto.
Qed.
Lemma keep_skip_u64 c n : Rkeep _ _ (skip_u64 c n).
Proof. intros r x r' W Q. destruct r; cbn [in_memory] in Q; try contradiction; now apply keep_skip_u64_loop. Qed.
Lemma exec_keep {I A} c (deser : reader -> res tag_error I * reader) (p : prog I A) : Rkeep _ _ deser -> Rkeep _ _ (exec c deser p).
Proof.
  intros Kd.
  assert (Step : forall A E B (x : res E B) (go : res E B -> reader -> res tag_error A * reader) r r1 y r', rwf r -> in_memory r ->
    (exists bs, delivers r bs r1) -> (forall x, Rkeep _ _ (go x)) -> after x go r1 = (y, r') -> exists bs, delivers r bs r').
  { intros A0 E B x go r r1 y r' W Q [b1 D1] Hgo H. keep_on W Q D1.
    apply after_inv in H as [(_ & _ & ->)|[(_ & _ & ->)|[_ H]]]; eauto.
    destruct (Hgo _ _ _ _ W0 Q0 H) as [b2 D2]. exists (b1 ++ b2). eapply delivers_trans; eauto. }
  induction p as [A a|A|A k IH|A n k IH|A n k IH|A n k IH|A k IH|A B n body IHb k IH]; intros r y r' W Q; cbn [exec].
  - intros [= _ <-]. exists []. apply delivers_refl.
  - intros [= _ <-]. exists []. apply delivers_refl.
  - destruct (read r) as [x r1] eqn:E. apply Step; auto. exact (c_read _ _ closed_keep _ _ _ W Q E).
  - destruct (read_all (lenN n) r) as [[x g] r1] eqn:E. apply Step; auto. eapply keep_read_all; eauto.
  - destruct (skip c n r) as [x r1] eqn:E. apply Step; auto. eapply keep_skip; eauto.
  - destruct (skip_u64 c n r) as [x r1] eqn:E. apply Step; auto. eapply keep_skip_u64; eauto.
  - destruct (deser r) as [x r1] eqn:E. apply Step; auto. eapply Kd; eauto.
  - unfold LimitedReader_new. destruct (exec c deser body (RLimited r n)) as [x lr] eqn:E.
    destruct (IHb (RLimited r n) _ _ W Q E) as [b1 D1]. destruct lr as [| |r1 n1| | |]; cbn [delivers] in D1; try contradiction.
    destruct D1 as (_ & _ & D1). keep_on W Q D1.
    destruct x; cbn [unlimit]; intros H; try (injection H as _ <-; eauto; fail).
    destruct (IH _ _ _ _ _ W0 Q0 H) as [b2 D2]. exists (b1 ++ b2). eapply delivers_trans; eauto.
Qed.
Lemma scripted_keep {T} c (U : user_impl T) P deser n : Rkeep _ _ deser -> Mkeep _ _ (u_deserialize_value (scripted c U P) deser n).
Proof.
  intros Kd s r x s' r' W Q. cbn [u_deserialize_value scripted]. destruct (exec c deser (P n s) r) as [y r1] eqn:E.
  apply (exec_keep _ _ _ Kd) in E; auto. destruct y as [[[e|] x1]|e| |]; intros [= _ _ <-]; exact E.
Qed.

(** ** Code that does the same on readers over memory does the same in the factory *)
Definition ragree {E A} (m1 m2 : reader -> res E A * reader) : Prop := forall r, in_memory r -> m1 r = m2 r.
Definition magree {S A} (m1 m2 : method S A) : Prop := forall s r, in_memory r -> m1 (s, r) = m2 (s, r).
Lemma magree_refl {S A} (m : method S A) : magree m m.
Proof. intros s r _. reflexivity. Qed.
Lemma magree_on_reader {S A} (m1 m2 : reader -> res tag_error A * reader) : ragree m1 m2 -> magree (@on_reader S A m1) (on_reader m2).
Proof. intros H s r Q. unfold on_reader. now rewrite H. Qed.
Lemma magree_bind {S A B} (m1 m2 : method S A) (f1 f2 : A -> method S B) :
  Mkin _ _ m1 -> magree m1 m2 -> (forall a, magree (f1 a) (f2 a)) -> magree (bind m1 f1) (bind m2 f2).
Proof.
  intros Mv H Hf s r Q. unfold bind. rewrite <- H by assumption.
  destruct (m1 (s, r)) as [x [s1 r1]] eqn:E. apply Mv in E. destruct x; auto. apply Hf. eapply kin_memory; eauto.
Qed.
Lemma ragree_bind {E A B} (m : reader -> res E A * reader) (f1 f2 : A -> reader -> res E B * reader) :
  Rkin _ _ m -> (forall a, ragree (f1 a) (f2 a)) -> ragree (bind m f1) (bind m f2).
Proof.
  intros Mv Hf r Q. unfold bind. destruct (m r) as [x r1] eqn:E1. apply Mv in E1. destruct x; auto. apply Hf. eapply kin_memory; eauto.
Qed.
Lemma magree_limited {S A} n (m1 m2 : method S A) : magree m1 m2 -> magree (limited n m1) (limited n m2).
Proof. intros H s r Q. unfold limited, LimitedReader_new. rewrite H; [reflexivity|exact Q]. Qed.
Lemma magree_fuelled {S A} (m1 m2 : nat -> method S A) : (forall f, magree (m1 f) (m2 f)) -> magree (fuelled m1) (fuelled m2).
Proof. intros H s r Q. unfold fuelled. now apply H. Qed.
Notation kn_reader := (c_on_reader _ _ closed_kin).
Notation kn_modify := (c_modify _ _ closed_kin).
Lemma magree_repeat {S A} (m1 m2 : reader -> res tag_error A * reader) (store : A -> S -> S) f count :
  Rkin _ _ m1 -> ragree m1 m2 -> magree (repeat_read f m1 store count) (repeat_read f m2 store count).
Proof.
  intros Mv H. revert count. induction f as [|f IH]; intros count; [apply magree_refl|]. cbn [repeat_read].
  destruct (count =? 0); [apply magree_refl|].
  apply magree_bind; [now apply kn_reader|now apply magree_on_reader|]. intros a.
  apply magree_bind; [apply kn_modify|apply magree_refl|]. intros _. apply IH.
Qed.
Lemma magree_while {S A} (m1 m2 : reader -> res tag_error A * reader) (store : A -> S -> S) f :
  Rkin _ _ m1 -> ragree m1 m2 -> magree (while_read f m1 store) (while_read f m2 store).
Proof.
  intros Mv H. induction f as [|f IH]; [apply magree_refl|]. intros s r Q. cbn [while_read].
  destruct (limit_empty _); [reflexivity|]. revert s r Q.
  match goal with |- forall s r, _ -> ?m (s, r) = ?m' (s, r) => change (magree m m') end.
  apply magree_bind; [now apply kn_reader|now apply magree_on_reader|]. intros a.
  apply magree_bind; [apply kn_modify|apply magree_refl|]. intros _. exact IH.
Qed.
Section Agree.
Context {T : Type} (U1 U2 : user_impl T) (e : engine).
Hypothesis Hid : forall x, u_id U1 x = u_id U2 x.
Hypothesis Hcr : forall id, u_create U1 id = u_create U2 id.
Hypothesis HK : forall (d : reader -> res tag_error (otag T) * reader) n, Rkin _ _ d -> Mkin _ _ (u_deserialize_value U1 d n).
Hypothesis HA : forall (d1 d2 : reader -> res tag_error (otag T) * reader) n, Rkin _ _ d1 -> ragree d1 d2 ->
  magree (u_deserialize_value U1 d1 n) (u_deserialize_value U2 d2 n).
Lemma o_value_agree d1 d2 t n r : Rkin _ _ d1 -> ragree d1 d2 -> in_memory r ->
  o_deserialize_value U1 d1 t n r = o_deserialize_value U2 d2 t n r.
Proof.
  intros Kd H Q. destruct t as [id v|x|id l|id l|id l]; cbn [o_deserialize_value]; try reflexivity; unfold o_run.
  - now rewrite (HA d1 d2 n Kd H).
  - enough (K : magree (seq_deserialize d1 n) (seq_deserialize d2 n)) by now rewrite K.
    apply magree_limited, magree_bind; [apply kn_modify|apply magree_refl|]. intros _.
    apply magree_fuelled. intros f. now apply magree_while.
  - enough (K : magree (arr_deserialize d1 n) (arr_deserialize d2 n)) by now rewrite K.
    apply magree_limited.
    apply magree_bind; [apply kn_reader, (cl_ilint _ _ closed_kin)|apply magree_refl|]. intros c.
    apply magree_bind; [apply (cl_guard _ _ closed_kin)|apply magree_refl|]. intros _.
    apply magree_bind; [apply kn_modify|apply magree_refl|]. intros _.
    apply magree_bind; [now apply (cl_repeat _ _ closed_kin)|apply magree_fuelled; intros f; now apply magree_repeat|].
    intros _. apply magree_refl.
  - enough (K : magree (dict_deserialize d1 n) (dict_deserialize d2 n)) by now rewrite K.
    assert (Me : Rkin _ _ (k <- deserialize_string_tag_from_value ;; t <- d1 ;; ret (k, t))).
    { apply (c_bind _ _ closed_kin); [apply (cl_string _ _ closed_kin)|]. intros k.
      apply (c_bind _ _ closed_kin); [exact Kd|]. intros t. apply (cl_ret _ _ closed_kin). }
    assert (Ae : ragree (k <- deserialize_string_tag_from_value ;; t <- d1 ;; ret (k, t))
                        (k <- deserialize_string_tag_from_value ;; t <- d2 ;; ret (k, t))).
    { apply ragree_bind; [apply (cl_string _ _ closed_kin)|]. intros k r0 Q0. unfold bind. now rewrite H. }
    apply magree_limited.
    apply magree_bind; [apply kn_reader, (cl_ilint _ _ closed_kin)|apply magree_refl|]. intros c.
    apply magree_bind; [apply kn_modify|apply magree_refl|]. intros _.
    apply magree_bind; [now apply (cl_repeat _ _ closed_kin)|apply magree_fuelled; intros f; now apply magree_repeat|].
    intros _. apply magree_refl.
Qed.
Lemma o_fuel_agree f : ragree (o_deserialize_fuel U1 f e) (o_deserialize_fuel U2 f e).
Proof.
  induction f as [|f IH]; [intros r Q; reflexivity|]. cbn [o_deserialize_fuel].
  pose proof (co_deserialize_fuel _ _ closed_kin U1 HK e f) as Kf.
  apply ragree_bind; [apply (cl_ilint _ _ closed_kin)|]. intros id.
  apply ragree_bind; [apply (cl_tag_size _ _ closed_kin)|]. intros n r Q.
  assert (Ec : o_create U2 e id = o_create U1 e id) by (unfold o_create; now rewrite Hcr).
  unfold bind. rewrite Ec. destruct (o_create U1 e id) as [[t|]| | |]; try reflexivity.
  unfold o_value_into, LimitedReader_new.
  rewrite (o_value_agree _ _ t n (RLimited r n) Kf IH Q).
  destruct (o_deserialize_value U2 _ t n (RLimited r n)) as [[x t'] lr].
  replace (o_id U1 t') with (o_id U2 t') by (destruct t'; cbn [o_id]; auto). reflexivity.
Qed.
End Agree.
Lemma exec_agree {I A} c (d1 d2 : reader -> res tag_error I * reader) (p : prog I A) :
  Rkin _ _ d1 -> ragree d1 d2 -> ragree (exec c d1 p) (exec c d2 p).
Proof.
  intros Kd H.
  assert (Step : forall A E B (x : res E B) (g1 g2 : res E B -> reader -> res tag_error A * reader) r, in_memory r ->
    (forall x, ragree (g1 x) (g2 x)) -> after x g1 r = after x g2 r).
  { intros A0 E B [a|e| |] g1 g2 r Q Hg; cbn [after]; auto; now apply Hg. }
  induction p as [A a|A|A k IH|A n k IH|A n k IH|A n k IH|A k IH|A B n body IHb k IH]; intros r Q; cbn [exec]; try reflexivity.
  - destruct (read r) as [x r1] eqn:E. apply kin_read in E. apply Step; auto. eapply kin_memory; eauto.
  - destruct (read_all (lenN n) r) as [[x g] r1] eqn:E. apply kin_read_all in E. apply Step; auto. eapply kin_memory; eauto.
  - destruct (skip c n r) as [x r1] eqn:E. apply kin_skip in E. apply Step; auto. eapply kin_memory; eauto.
  - destruct (skip_u64 c n r) as [x r1] eqn:E. apply kin_skip_u64 in E. apply Step; auto. eapply kin_memory; eauto.
  - rewrite <- H by exact Q. destruct (d1 r) as [x r1] eqn:E. apply Kd in E. apply Step; auto. eapply kin_memory; eauto.
  - unfold LimitedReader_new. rewrite <- IHb by exact Q. destruct (exec c d1 body (RLimited r n)) as [x lr] eqn:E.
    apply (exec_kin _ _ _ Kd) in E. apply kin_limited in E as (r1 & n1 & -> & K).
    destruct x; try reflexivity. apply IH. eapply kin_memory; eauto.
Qed.
Lemma scripted_agree {T} c (U : user_impl T) P (d1 d2 : reader -> res tag_error (otag T) * reader) n : Rkin _ _ d1 -> ragree d1 d2 ->
  magree (u_deserialize_value (scripted c U P) d1 n) (u_deserialize_value (scripted c U P) d2 n).
Proof. intros Kd H s r Q. cbn [u_deserialize_value scripted]. now rewrite (exec_agree c d1 d2 (P n s) Kd H r Q). Qed.

(** User code that fails on every reader that is not over memory. *)
Fixpoint in_memoryb (r : reader) : bool :=
  match r with
  | RByteArray _ _ | RVec _ _ => true
  | RLimited s _ => in_memoryb s
  | _ => false
  end.
Lemma in_memoryb_spec r : in_memoryb r = true <-> in_memory r.
Proof. induction r; cbn; tauto || (split; [discriminate|contradiction]). Qed.
Definition memory_only {T} (U : user_impl T) : user_impl T := {|
  u_id := u_id U; u_size := u_size U; u_serialize := u_serialize U; u_to_bytes := u_to_bytes U;
  u_deserialize_value := fun deser n st =>
    if in_memoryb (snd st) then u_deserialize_value U deser n st else (Err CorruptedData, st);
  u_create := u_create U |}.

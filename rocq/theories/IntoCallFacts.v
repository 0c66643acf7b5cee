(** Proofs about the programs of IntoProg.v that call deserialize_into. *)
From Verif Require Import Base BaseFacts Types Spec SpecFacts IO IOSpec IOFacts Logic HistFacts ILInt ILIntFacts Data DataFacts Tags
  Factory FactoryFacts DecodeFacts DeserFacts IntoFacts ClosedFacts Open KinFacts OpenFacts Prog ProgFacts IntoProg IntoProgFacts.

(** ** How deep the calls go *)
(** Every limit has gone down. *)
Fixpoint bites (r r' : reader) : Prop :=
  match r, r' with
  | RLimited s n, RLimited s' n' => n' < n /\ bites s s'
  | RLimited _ _, _ | _, RLimited _ _ => False
  | _, _ => True
  end.
Lemma bites_read r : forall b r', read r = (Ok b, r') -> bites r r'.
Proof.
  induction r as [a o|v o|s IH m|d sc|s|sc]; intros x r'; cbn [read].
  - destruct (mem_read a o). intros [= _ <-]. exact I.
  - destruct (vecr_read v o). intros [= _ <-]. exact I.
  - destruct (N.ltb_spec m 1); [discriminate|]. destruct (read s) as [y s'] eqn:E. intros H1.
    apply pair_inv in H1 as [-> <-]. cbn [bites is_ok]. split; [lia|eauto].
  - destruct (read_exact 1 d sc) as [[[y g] d'] sc']. intros H. apply pair_inv in H as [_ <-]. exact I.
  - destruct (seek_read_all 1 s) as [[y g] s']. intros H. apply pair_inv in H as [_ <-]. exact I.
  - destruct sc as [|[e|b] sc]; intros [= _ <-]; exact I.
Qed.
Lemma bites_shrinks r r1 r2 : bites r r1 -> shrinks r1 r2 -> bites r r2.
Proof.
  revert r1 r2; induction r; intros r1 r2; destruct r1; cbn [bites]; try contradiction; destruct r2; cbn [bites shrinks]; auto.
  intros [? ?] [? ?]. split; [lia|]. eapply IHr; eauto.
Qed.
Lemma bites_ilint r a r' : deserialize_ilint r = (Ok a, r') -> bites r r'.
Proof.
  unfold deserialize_ilint, read_ilint, decode, lift_err, bind.
  destruct (read r) as [[b|e| |] s1] eqn:E; cbn [map_err]; try discriminate. apply bites_read in E.
  destruct (decoded_size b =? 1); [intros [= _ <-]; exact E|].
  destruct (fetch _ _) as [y r2] eqn:Ef.
  assert (K : shrinks s1 r2) by (eapply (c_fetch _ _ closed_shrinks); exact Ef).
  intros Ey. assert (r' = r2) as -> by (destruct y; cbn [map_err] in Ey; try discriminate; congruence).
  eapply bites_shrinks; eauto.
Qed.
(** Some limit is below [d]. *)
Fixpoint below (d : nat) (r : reader) : Prop :=
  match r with RLimited s n => (N.to_nat n < d)%nat \/ below d s | _ => False end.
Lemma below_shrinks d r r' : shrinks r r' -> below d r -> below d r'.
Proof.
  revert r'; induction r; intros r'; destruct r'; cbn [shrinks below]; try contradiction. intros [? ?] [H1|H1]; [left; lia|right; eauto].
Qed.
Lemma below_bites d r r' : bites r r' -> below (Datatypes.S d) r -> below d r'.
Proof.
  revert r'; induction r; intros r'; destruct r'; cbn [bites below]; try contradiction. intros [? ?] [H1|H1]; [left; lia|right; eauto].
Qed.

(** ** Unrolling *)
Section Depth.
Context {T : Type} (c : cfg) (U0 : user_impl T) (b : nat) (deser : reader -> res tag_error (otag T) * reader).
Hypothesis Hc : 1 <= usize_max c.
Hypothesis Sd : rsafe True b deser.
Hypothesis Kd : Rkin _ _ deser.
Hypothesis Hd : Rshrink _ _ deser.
Lemma exec_down {A} (p : prog (otag T) A) r x r' d : there b r -> below d r -> exec c deser p r = (x, r') -> there b r' /\ below d r'.
Proof.
  intros Tr B E. split; [exact (exec_there _ _ _ Hc Sd Kd _ _ _ _ Tr E)|].
  apply (exec_shrinks _ _ _ Hd) in E. eapply below_shrinks; eauto.
Qed.
Definition agree (d : nat) (go go' : script T) : Prop :=
  forall m x q, there b (RLimited q m) -> below d (RLimited q m) ->
    exec c deser (go m x) (RLimited q m) = exec c deser (go' m x) (RLimited q m).
Lemma into_agree d go go' t r : agree d go go' -> there b r -> below (Datatypes.S d) r ->
  exec c deser (into_p U0 go t) r = exec c deser (into_p U0 go' t) r.
Proof.
  intros H Tr B. unfold into_p. rewrite !exec_seqp. pose proof (rsame_ilint c b deser Hc Sd Kd r Tr) as E. rewrite E.
  destruct (deserialize_ilint r) as [[id|e| |] r1] eqn:E1; cbn [told] in E |- *; try reflexivity.
  destruct (negb _); [reflexivity|]. rewrite !exec_seqp.
  pose proof (exec_there _ _ _ Hc Sd Kd _ _ _ _ Tr E) as Tr1. pose proof (below_bites _ _ _ (bites_ilint _ _ _ E1) B) as B1.
  destruct (exec c deser (tag_size_p id) r1) as [[[n|e| |]|e| |] r2] eqn:E2; try reflexivity.
  destruct (exec_down _ _ _ _ d Tr1 B1 E2) as [Tr2 B2]. unfold value_into_p. cbn [exec]. unfold LimitedReader_new.
  assert (Ev : exec c deser (value_p go t n) (RLimited r2 n) = exec c deser (value_p go' t n) (RLimited r2 n)).
  { destruct t; cbn [value_p]; try reflexivity. rewrite !exec_seqp, H; [reflexivity|now apply there_limited|now right]. }
  now rewrite Ev.
Qed.
Lemma there_up r n r1 n1 : there b r -> kin (RLimited r n) (RLimited r1 n1) -> there b (RLimited r1 n1) -> there b r1.
Proof.
  intros (L & _ & _) K (_ & W & Lf). split; [|split; [exact W|exact Lf]].
  apply kin_limited in K as (q & m & [= <- <-] & K). exact (kin_limited_reader _ _ K L).
Qed.
Lemma compile_agree d go go' A (p : iprog (otag T) A) : agree d go go' -> forall r, there b r -> below (Datatypes.S d) r ->
  exec c deser (compile U0 go p) r = exec c deser (compile U0 go' p) r.
Proof.
  intros H. induction p as [A a|A|A k IH|A n k IH|A n k IH|A n k IH|A k IH|A C n body IHb k IH|A t k IH]; intros r Tr B;
    cbn [compile exec]; try reflexivity.
  - pose proof (exec_down (DoRead Done) r) as K. cbn [exec] in K. destruct (read r) as [x r1].
    destruct x as [x|e| |]; cbn [after exec] in *; try reflexivity; destruct (K _ _ _ Tr B eq_refl); now apply IH.
  - pose proof (exec_down (DoReadAll n (fun x g => Done (x, g))) r) as K. cbn [exec] in K. destruct (read_all _ r) as [[x g] r1].
    destruct x as [x|e| |]; cbn [after exec] in *; try reflexivity; destruct (K _ _ _ Tr B eq_refl); now apply IH.
  - pose proof (exec_down (DoSkip n Done) r) as K. cbn [exec] in K. destruct (skip c n r) as [x r1].
    destruct x as [x|e| |]; cbn [after exec] in *; try reflexivity; destruct (K _ _ _ Tr B eq_refl); now apply IH.
  - pose proof (exec_down (DoSkip64 n Done) r) as K. cbn [exec] in K. destruct (skip_u64 c n r) as [x r1].
    destruct x as [x|e| |]; cbn [after exec] in *; try reflexivity; destruct (K _ _ _ Tr B eq_refl); now apply IH.
  - pose proof (exec_down (DoTag Done) r) as K. cbn [exec] in K. destruct (deser r) as [x r1].
    destruct x as [x|e| |]; cbn [after exec] in *; try reflexivity; destruct (K _ _ _ Tr B eq_refl); now apply IH.
  - unfold LimitedReader_new. rewrite (IHb (RLimited r n)); [|now apply there_limited|now right].
    destruct (exec c deser (compile U0 go' body) (RLimited r n)) as [x lr] eqn:E.
    pose proof (exec_kin _ _ _ Kd _ _ _ E) as K. pose proof K as K0. apply kin_limited in K as (r1 & n1 & -> & K).
    destruct x as [x|e| |]; try reflexivity.
    pose proof (exec_there _ _ _ Hc Sd Kd _ _ _ _ (there_limited _ _ n Tr) E) as T1.
    apply (exec_shrinks _ _ _ Hd) in E. destruct E as [_ E].
    apply IH; [exact (there_up _ _ _ _ Tr K0 T1)|exact (below_shrinks _ _ _ E B)].
  - rewrite !exec_seqp, (into_agree d go go' t r H Tr B).
    destruct (exec c deser (into_p U0 go' t) r) as [x r1] eqn:E. destruct (exec_down _ _ _ _ _ Tr B E) as [T1 B1].
    destruct x as [[x t']|e| |]; try reflexivity. now apply IH.
Qed.
Lemma below_le d d' r : (d <= d')%nat -> below d r -> below d' r.
Proof. intros L. induction r; cbn [below]; auto. intros [H|H]; [left; lia|auto]. Qed.
Lemma unroll_agree X : forall d d' m x q, there b (RLimited q m) -> below d (RLimited q m) -> below d' (RLimited q m) ->
  exec c deser (unroll U0 d X m x) (RLimited q m) = exec c deser (unroll U0 d' X m x) (RLimited q m).
Proof.
  assert (Z : forall r, ~ below 0 r) by (induction r; cbn [below]; try tauto; intros [H|H]; [lia|auto]).
  induction d as [|d IH]; intros d' m x q Tr B B'; [elim (Z _ B)|]. destruct d' as [|d']; [elim (Z _ B')|]. cbn [unroll].
  apply (compile_agree (Nat.min d d')); [|exact Tr|destruct (Nat.min_spec d d') as [[_ ->]|[_ ->]]; assumption].
  intros m1 x1 q1 T1 B1. apply IH; [exact T1| |]; (eapply below_le; [|exact B1]; lia).
Qed.
Lemma unrolled_once X n x r : there b (RLimited r n) ->
  exec c deser (unrolled U0 X n x) (RLimited r n) = exec c deser (compile U0 (unrolled U0 X) (X n x)) (RLimited r n).
Proof.
  intros Tr. unfold unrolled at 1. cbn [unroll]. apply (compile_agree (N.to_nat n)); [|exact Tr|left; lia].
  intros m1 x1 q1 T1 B1. apply unroll_agree; [exact T1|exact B1|left; lia].
Qed.
End Depth.

(** ** The objects stay as they are *)
Lemma in_place_bytes s r x s' r' : bytes_ok s -> rwf r -> in_place (s, r) = (x, (s', r')) -> bytes_ok s'.
Proof.
  intros Hs W. unfold in_place, into_slice. destruct (read_all (lenN s) r) as [[y g] r1] eqn:E.
  destruct (read_all_wf _ _ _ _ _ W E) as (_ & _ & _ & Hg).
  intros H. apply pair_inv in H as [_ H]. apply pair_inv in H as [<- _]. rewrite bytes_ok_app. split; [exact Hg|].
  now apply Forall_dropN.
Qed.

Lemma std_target d v n r x v' r' : leaf v -> holds_bytes v -> rwf r -> deserialize_value d v n r = (x, v', r') -> leaf v' /\ holds_bytes v'.
Proof.
  intros Hl Hb W E. split; [eapply deserialize_value_kind_leaf; eauto|].
  assert (K : forall S (m : method S unit) s (mk : S -> value), run m s mk r = (x, v', r') ->
            (forall s', holds_bytes (mk s')) -> holds_bytes v').
  { intros S m s mk. unfold run. destruct (m (s, r)) as [y [s1 r1]]. intros [= _ <- _] H. apply H. }
  assert (Kr : forall (mk : list N -> value) s m, run m s mk r = (x, v', r') -> bytes_ok s ->
            (forall y s' r1, m (s, r) = (y, (s', r1)) -> bytes_ok s') -> (forall s', bytes_ok s' -> holds_bytes (mk s')) -> holds_bytes v').
  { intros mk s m. unfold run. destruct (m (s, r)) as [y [s1 r1]]. intros [= _ <- _] Hs H Hm. eauto. }
  assert (Raw : forall k s q y s' r1, bytes_ok s -> rwf q -> raw_deserialize k (s, q) = (y, (s', r1)) -> bytes_ok s').
  { intros k s q y s' r1 Hs Wq. intros H. apply (in_place_bytes (resizeN k 0 s) q y s' r1); [now apply resizeN_bytes|exact Wq|exact H]. }
  destruct v; cbn [leaf holds_bytes deserialize_value] in *; try contradiction;
    try (eapply K; [exact E|intros; exact Logic.I]).
  - (* VBin128 *) eapply Kr; [exact E|exact Hb| |auto]. intros y s' r1. unfold bin128_deserialize, bind, check_size.
    destruct (_ =? _); [|intros [= _ <- _]; exact Hb]. intros H. eapply in_place_bytes; eauto.
  - eapply Kr; [exact E|exact Hb| |auto]. intros y s' r1. now apply Raw.
  - eapply Kr; [exact E|exact Hb| |auto]. intros y s' r1. now apply Raw.
  - eapply Kr; [exact E|exact Hb| |auto]. intros y s' r1. now apply Raw.
  - unfold run in E. destruct (bigdec_deserialize n ((scale, bs), r)) as [y [s1 r1]] eqn:E1. injection E as _ <- _. cbn [holds_bytes].
    unfold bigdec_deserialize in E1. unfold bind at 1 in E1. destruct (n <? 4); cbn [ret fail] in E1; [injection E1 as _ <- _; exact Hb|].
    unfold bind at 1, on_reader in E1. destruct (deserialize_sint W32 r) as [z r2] eqn:Ez.
    pose proof (safe_deserialize_sint W32 _ _ _ W Ez) as (_ & W2 & _).
    destruct z as [z|err| |]; try (injection E1 as _ <- _; exact Hb).
    unfold bind, modify, on_snd in E1. cbn [snd] in E1. destruct (raw_deserialize (n - 4) (bs, r2)) as [w [s2 r3]] eqn:Er.
    injection E1 as _ <- _. cbn [snd]. eapply Raw; eauto.
  - eapply K; [exact E|]. intros [[[? ?] ?] ?]. exact Logic.I.
Qed.

Lemma value_into_target {T} (U : user_impl T) d n t r x t' r' : target t -> rwf r -> o_value_into U d n t r = (x, t', r') -> target t'.
Proof.
  intros Ht W. unfold o_value_into, LimitedReader_new.
  destruct (o_deserialize_value U d t n (RLimited r n)) as [[y t1] lr] eqn:E. intros H. apply pair_inv in H as [H _].
  apply pair_inv in H as [_ <-].
  destruct t as [id v|x0|id l|id l|id l]; cbn [o_deserialize_value] in E; unfold o_run in E.
  - destruct (deserialize_value _ v n _) as [[z v'] q] eqn:Ev. injection E as _ <- _. destruct Ht as [Hl Hb].
    eapply (std_target _ v n (RLimited r n)); eauto.
  - destruct (u_deserialize_value U _ _ _) as [z [x1 q]]. injection E as _ <- _. exact Logic.I.
  - destruct (seq_deserialize _ _ _) as [z [x1 q]]. injection E as _ <- _. exact Logic.I.
  - destruct (arr_deserialize _ _ _) as [z [x1 q]]. injection E as _ <- _. exact Logic.I.
  - destruct (dict_deserialize _ _ _) as [z [x1 q]]. injection E as _ <- _. exact Logic.I.
Qed.
Lemma into_target {T} (U : user_impl T) e t r x t' r' : target t -> rwf r -> o_deserialize_into U e r t = (x, t', r') -> target t'.
Proof.
  intros Ht W. unfold o_deserialize_into. destruct (deserialize_ilint r) as [y r1] eqn:E1.
  destruct (safe_deserialize_ilint _ _ _ W E1) as (_ & W1 & L1). destruct y as [id|err| |]; try (intros [= _ <- _]; exact Ht).
  destruct (negb _); [intros [= _ <- _]; exact Ht|]. destruct (deserialize_tag_size id r1) as [y r2] eqn:E2.
  destruct (safe_tag_size _ _ _ _ W1 E2) as (_ & W2 & L2). destruct y as [n|err| |]; try (intros [= _ <- _]; exact Ht).
  now apply value_into_target.
Qed.

Lemma engine_ok_bytes e : engine_ok e -> engine_bytes e.
Proof. intros H id [i v] Hi E. destruct (H id (Tag i v) Hi E) as [_ Hv]. cbn [tag_val]. destruct v; cbn [holds_bytes wfv] in *; tauto. Qed.
Lemma create_target {T} (U : user_impl T) e id t : engine_bytes e -> id < two64 -> o_create U e id = Ok (Some t) -> target t.
Proof.
  intros He Hi. unfold o_create. destruct (u_create U id) as [[x|]|]; try discriminate; [intros [= <-]; exact Logic.I|].
  destruct (create_tag e id) as [[[i v]|]| | |] eqn:Ec; try discriminate. intros [= <-].
  pose proof (He id _ Hi Ec) as Hb. destruct v; cbn [emb target leaf]; auto; try exact (conj Logic.I Hb); exact Logic.I.
Qed.
Lemma deserialize_target {T} (U : user_impl T) e f r t r' : engine_bytes e -> rwf r -> o_deserialize_fuel U f e r = (Ok t, r') -> target t.
Proof.
  intros He W. destruct f as [|f]; [discriminate|]. cbn [o_deserialize_fuel]. unfold bind.
  destruct (deserialize_ilint r) as [y r1] eqn:E1. destruct (safe_deserialize_ilint _ _ _ W E1) as (_ & W1 & _).
  destruct y as [id|err| |]; try discriminate.
  assert (Hi : id < two64) by (destruct (sound_deserialize_ilint _ _ _ W E1) as (bs & Hr & _); apply (ilint_repr_bound _ _ Hr)).
  destruct (deserialize_tag_size id r1) as [y r2] eqn:E2. destruct (safe_tag_size _ _ _ _ W1 E2) as (_ & W2 & _).
  destruct y as [n|err| |]; try discriminate. destruct (o_create U e id) as [[t1|]|err| |] eqn:Ec; try discriminate.
  destruct (o_value_into U _ n t1 r2) as [[x t'] r3] eqn:Ev. destruct x; try discriminate. cbn [map_ok]. intros [= <- _].
  eapply value_into_target; eauto. eapply create_target; eauto.
Qed.

(** ** The compiled program makes the calls *)
Section Calls.
Context {T : Type} (c : cfg) (U0 : user_impl T) (P : script T) (e : engine) (f : nat).
Notation U := (scripted c U0 P).
Hypothesis Hc : 1 <= usize_max c.
Hypothesis He : engine_bytes e.
Lemma o_fuel_shrinks : Rshrink _ _ (o_deserialize_fuel U f e).
Proof. apply (co_deserialize_fuel _ _ closed_shrinks). intros d m. apply scripted_shrinks. Qed.
Lemma compile_exec D I A (p : iprog (otag T) A) :
  (forall r, there f r -> D r = o_deserialize_fuel U f e r) ->
  (forall r t, there f r -> target t -> I r t = o_deserialize_into U e r t) ->
  aims p -> forall r, there f r ->
  exec c (o_deserialize_fuel U f e) (compile U0 P p) r = iexec c D I p r.
Proof.
  intros HD HI.
  destruct (scripted_fuel c U0 P e Hc f) as [Sd Pd]. pose proof (scripted_fuel_kin c U0 P e f) as Kd.
  pose proof (fun A p r x r' => @exec_there (otag T) c f _ Hc Sd Kd A p r x r') as K.
  induction p as [A a|A|A k IH|A n k IH|A n k IH|A n k IH|A k IH|A C n body IHb k IH|A t k IH]; intros Ha r Tr;
    cbn [compile exec iexec aims] in *; try reflexivity.
  - specialize (K _ (DoRead Done) r). cbn [exec] in K. destruct (read r) as [x r1].
    destruct x as [x|err| |]; cbn [after exec] in *; try reflexivity; specialize (K _ _ Tr eq_refl); apply IH; auto.
  - specialize (K _ (DoReadAll n (fun x g => Done (x, g))) r). cbn [exec] in K. destruct (read_all _ r) as [[x g] r1].
    destruct x as [x|err| |]; cbn [after exec] in *; try reflexivity; specialize (K _ _ Tr eq_refl); apply IH; auto.
  - specialize (K _ (DoSkip n Done) r). cbn [exec] in K. destruct (skip c n r) as [x r1].
    destruct x as [x|err| |]; cbn [after exec] in *; try reflexivity; specialize (K _ _ Tr eq_refl); apply IH; auto.
  - specialize (K _ (DoSkip64 n Done) r). cbn [exec] in K. destruct (skip_u64 c n r) as [x r1].
    destruct x as [x|err| |]; cbn [after exec] in *; try reflexivity; specialize (K _ _ Tr eq_refl); apply IH; auto.
  - specialize (K _ (DoTag Done) r). cbn [exec] in K. rewrite (HD r Tr).
    destruct (o_deserialize_fuel U f e r) as [x r1] eqn:Er.
    destruct x as [x|err| |]; cbn [after exec] in *; try reflexivity; specialize (K _ _ Tr eq_refl); apply IH; auto; apply Ha; [|discriminate].
    intros t [= ->]. eapply deserialize_target; [exact He| |exact Er]. apply Tr.
  - destruct Ha as [Hb Ha]. unfold LimitedReader_new. specialize (IHb Hb (RLimited r n) (there_limited _ _ _ Tr)). rewrite <- IHb.
    destruct (exec c _ (compile U0 P body) (RLimited r n)) as [x lr] eqn:E.
    pose proof (exec_kin _ _ _ Kd _ _ _ E) as Kn. pose proof Kn as Kn0. apply kin_limited in Kn as (r1 & n1 & -> & Kn).
    destruct x as [x|err| |]; try reflexivity. apply IH; [apply Ha|].
    exact (there_up f _ _ _ _ Tr Kn0 (K _ _ _ _ _ (there_limited _ _ n Tr) E)).
  - destruct Ha as [Ht Ha]. rewrite exec_seqp, (HI r t Tr Ht). destruct Tr as (Lr & W & Lf).
    pose proof (into_factory c U0 P e Hc f t r Ht Lr W Lf) as E. rewrite E.
    destruct (o_deserialize_into U e r t) as [[x t'] r1] eqn:Ei. pose proof (into_target _ _ _ _ _ _ _ Ht W Ei) as Ht'.
    unfold tolds in *. destruct x as [x|err| |]; cbn [after] in *; try reflexivity;
      (apply IH; [now apply Ha|]; exact (K _ _ _ _ _ (conj Lr (conj W Lf)) E)).
Qed.
End Calls.

(** ** What is asked of the programs *)
Lemma strict_anyhow {I A} (p : prog I A) : strict p (fun _ => True).
Proof.
  induction p; cbn [strict]; auto; try (split; [auto|intros; apply ends_anyhow]).
  exists (fun _ => True). split; [assumption|]. split; [auto|]. intros; apply ends_anyhow.
Qed.
Lemma ends_strict {I A} (p : prog I A) : forall F, ends_in p F -> strict p F.
Proof.
  induction p as [A a|A|A k IH|A n k IH|A n k IH|A n k IH|A k IH|A C n body IHb k IH]; intros F H; cbn [strict ends_in] in *; auto;
    try (split; [intros; apply IH, H; exact Logic.I|intros; apply H; exact Logic.I]).
  exists (fun _ => True). split; [apply strict_anyhow|]. split; auto.
Qed.
Lemma ends_both {I A} (q : prog I A) : forall R G, ends_in q R -> ends_in q G -> ends_in q (fun a => R a /\ G a).
Proof. induction q as [A a|A|A k IH|A n k IH|A n k IH|A n k IH|A k IH|A C n body IHb k IH]; cbn [ends_in]; auto. Qed.
Lemma ends_seqp_in {I A B} (p : prog I A) (R G : A -> Prop) (f : A -> prog I B) F :
  ends_in p R -> ends_in p G -> (forall a, R a -> G a -> ends_in (f a) F) -> ends_in (seqp p f) F.
Proof. intros H1 H2 H3. apply (ends_seqp p (fun a => R a /\ G a)); [now apply ends_both|]. intros a [? ?]. auto. Qed.
Lemma strict_seqp_in {I A B} (p : prog I A) : forall (R G : A -> Prop) (f : A -> prog I B) F,
  strict p G -> ends_in p R -> (forall a, R a -> strict (f a) F) -> (forall a, R a -> G a -> ends_in (f a) F) -> strict (seqp p f) F.
Proof.
  induction p as [A a|A|A k IH|A n k IH|A n k IH|A n k IH|A k IH|A C n body IHb k IH]; intros R G f F Hp Hr Hf He; cbn [seqp strict ends_in] in *; auto.
  - destruct Hp as [H1 H2]. split; [intros x; apply (IH _ R G); auto; apply Hr; exact Logic.I|].
    intros e. apply (ends_seqp_in _ R G); auto. apply Hr; exact Logic.I.
  - destruct Hp as [H1 H2]. split; [intros x; apply (IH _ _ R G); auto; apply Hr; exact Logic.I|].
    intros e g. apply (ends_seqp_in _ R G); auto. apply Hr; exact Logic.I.
  - destruct Hp as [H1 H2]. split; [apply (IH _ R G); auto; apply Hr; exact Logic.I|].
    intros e. apply (ends_seqp_in _ R G); auto. apply Hr; exact Logic.I.
  - destruct Hp as [H1 H2]. split; [apply (IH _ R G); auto; apply Hr; exact Logic.I|].
    intros e. apply (ends_seqp_in _ R G); auto. apply Hr; exact Logic.I.
  - destruct Hp as [H1 H2]. split; [intros x; apply (IH _ R G); auto; apply Hr; exact Logic.I|].
    intros e. apply (ends_seqp_in _ R G); auto. apply Hr; exact Logic.I.
  - destruct Hp as (G1 & H1 & H2 & H3). exists G1. split; [exact H1|]. split; [intros x m; apply (IH _ _ R G); auto|].
    intros x m Hx. apply (ends_seqp_in _ R G); auto.
Qed.
Section Manners.
Context {T : Type} (U : user_impl T) (P : script T).
Lemma compile_ends A (p : iprog (otag T) A) : forall F, iends_in p F -> ends_in (compile U P p) F.
Proof.
  induction p as [A a|A|A k IH|A n k IH|A n k IH|A n k IH|A k IH|A C n body IHb k IH|A t k IH]; intros F H; cbn [compile ends_in iends_in] in *; auto.
  apply (ends_seqp _ (fun xs => returns (fst xs))); [|intros [x t'] Hx; now apply IH, H].
  apply into_ends.
Qed.
Lemma compile_calm A (p : iprog (otag T) A) : (forall n x, calm (P n x)) -> icalm p -> calm (compile U P p).
Proof.
  intros HP. induction p as [A a|A|A k IH|A n k IH|A n k IH|A n k IH|A k IH|A C n body IHb k IH|A t k IH]; intros H; cbn [compile calm icalm] in *; auto.
  - destruct H. split; auto.
  - apply (calm_seqp _ (fun xs => returns (fst xs))); [now apply into_calm|apply into_ends|].
    intros [x t'] Hx. apply IH; auto.
Qed.
Lemma compile_strict A (p : iprog (otag T) A) : (forall n x, strict (P n x) is_error) -> forall F, istrict p F -> strict (compile U P p) F.
Proof.
  intros HP. induction p as [A a|A|A k IH|A n k IH|A n k IH|A n k IH|A k IH|A C n body IHb k IH|A t k IH]; intros F H; cbn [compile strict istrict] in *; auto.
  - destruct H as [H1 H2]. split; auto. intros e. now apply compile_ends.
  - destruct H as [H1 H2]. split; auto. intros e got. now apply compile_ends.
  - destruct H as [H1 H2]. split; auto. intros e. now apply compile_ends.
  - destruct H as [H1 H2]. split; auto. intros e. now apply compile_ends.
  - destruct H as [H1 H2]. split; auto. intros e. now apply compile_ends.
  - destruct H as (G & H1 & H2 & H3). exists G. split; [auto|]. split; [auto|]. intros x m Hx. now apply compile_ends, H3.
  - destruct H as [H1 H2].
    apply (strict_seqp_in _ (fun xs => returns (fst xs)) (fun xs => failed (fst xs))); [now apply into_strict|apply into_ends| |].
    + intros [[[]|e| |] t'] Hx; try contradiction; [now apply IH|]. apply ends_strict, compile_ends, H2.
    + intros [[[]|e| |] t'] Hx Hf; try contradiction; [discriminate Hf|]. apply compile_ends, H2.
Qed.
End Manners.

Lemma unroll_calm {T} (U : user_impl T) X d : (forall n x, icalm (X n x)) -> forall n x, calm (unroll U d X n x).
Proof. intros H. induction d as [|d IH]; intros n x; [exact Logic.I|]. cbn [unroll]. now apply compile_calm. Qed.
Lemma unroll_strict {T} (U : user_impl T) X d : (forall n x, istrict (X n x) is_error) -> forall n x, strict (unroll U d X n x) is_error.
Proof. intros H. induction d as [|d IH]; intros n x; [exact Logic.I|]. cbn [unroll]. now apply compile_strict. Qed.
Lemma unroll_ends {T} (U : user_impl T) X d (F : N -> T -> option tag_error * T -> Prop) :
  (forall n x, iends_in (X n x) (F n x)) -> (forall n x, F n x (Some CorruptedData, x)) -> forall n x, ends_in (unroll U d X n x) (F n x).
Proof. intros H H0. destruct d as [|d]; intros n x; [apply H0|]. cbn [unroll]. now apply compile_ends. Qed.

(** ** The factory that runs them *)
Section Agree.
Context {I : Type} (b : nat) (d1 d2 : reader -> res tag_error I * reader).
Hypothesis Hsafe : rsafe True b d1.
Hypothesis Hprog : rprogress b d1.
Hypothesis Hagree : IntoFacts.agree b d1 d2.
Lemma items_agree_seq n : IntoFacts.magree b (seq_deserialize d1 n) (seq_deserialize d2 n).
Proof.
  apply IntoFacts.magree_limited. eapply IntoFacts.magree_bind; [apply (msafe_modify True)|apply IntoFacts.magree_refl|]. intros _.
  apply IntoFacts.magree_fuelled. intros f. eapply IntoFacts.magree_while; eauto.
Qed.
Lemma items_agree_arr n : IntoFacts.magree b (arr_deserialize d1 n) (arr_deserialize d2 n).
Proof.
  apply IntoFacts.magree_limited.
  eapply IntoFacts.magree_bind; [apply (msafe_on_reader True), safe_rsafe, safe_deserialize_ilint|apply IntoFacts.magree_refl|]. intros c.
  eapply IntoFacts.magree_bind; [apply (msafe_guard True)|apply IntoFacts.magree_refl|]. intros _.
  eapply IntoFacts.magree_bind; [apply (msafe_modify True)|apply IntoFacts.magree_refl|]. intros _.
  eapply IntoFacts.magree_bind; [apply (msafe_repeat_read_below True); eassumption|
    apply IntoFacts.magree_fuelled; intros f; eapply IntoFacts.magree_repeat; eauto|]. intros _. apply IntoFacts.magree_refl.
Qed.
Lemma items_agree_dict n : IntoFacts.magree b (dict_deserialize d1 n) (dict_deserialize d2 n).
Proof.
  assert (Se : rsafe True b (k <- deserialize_string_tag_from_value ;; t <- d1 ;; ret (k, t))).
  { apply rsafe_bind; [apply rsafe_string|]. intros k. apply rsafe_bind; [exact Hsafe|]. intros t. apply rsafe_ret. }
  assert (Ae : IntoFacts.agree b (k <- deserialize_string_tag_from_value ;; t <- d1 ;; ret (k, t))
                 (k <- deserialize_string_tag_from_value ;; t <- d2 ;; ret (k, t))).
  { intros r W L. unfold bind. destruct (deserialize_string_tag_from_value r) as [x r1] eqn:E.
    destruct (rsafe_string True b _ _ _ W L E) as (_ & W1 & L1). destruct x; auto. rewrite Hagree; [reflexivity|exact W1|lia]. }
  apply IntoFacts.magree_limited.
  eapply IntoFacts.magree_bind; [apply (msafe_on_reader True), safe_rsafe, safe_deserialize_ilint|apply IntoFacts.magree_refl|]. intros c.
  eapply IntoFacts.magree_bind; [apply (msafe_modify True)|apply IntoFacts.magree_refl|]. intros _.
  eapply IntoFacts.magree_bind; [apply (msafe_repeat_read_below True); [exact Se|]|
    apply IntoFacts.magree_fuelled; intros f; eapply IntoFacts.magree_repeat; [exact Se|exact Ae]|].
  - intros q a q' W0 L0 E. apply bind_inv_ok in E as (k & r1 & E1 & E).
    destruct (rsafe_string True b _ _ _ W0 L0 E1) as (_ & W1 & L1).
    apply bind_inv_ok in E as (t & r2 & E2 & E). injection E as <- <-.
    pose proof (Hprog _ _ _ W1 ltac:(lia) E2). lia.
  - intros _. apply IntoFacts.magree_refl.
Qed.
End Agree.
Section Unrolled.
Context {T : Type} (c : cfg) (U : user_impl T) (X : iscript T) (e : engine).
Notation V := (scripted c U (unrolled U X)).
Hypothesis Hc : 1 <= usize_max c.
Hypothesis Hx : forall n x, aims (X n x).
Hypothesis He : engine_bytes e.
Lemma i_fuel_unrolled f :
  (forall r, rwf r -> (left r < f)%nat -> fst (i_fuel c U X e f) r = o_deserialize V e r) /\
  (forall r t, leaf_tag t -> rwf r -> (left r < f)%nat -> snd (i_fuel c U X e f) r t = o_deserialize_into V e r t).
Proof.
  induction f as [|f [IHd IHi]]; [split; intros; lia|]. cbn [i_fuel fst snd].
  set (D := fst (i_fuel c U X e f)) in *. set (I := snd (i_fuel c U X e f)) in *.
  destruct (scripted_fuel c U (unrolled U X) e Hc f) as [Sd Pd].
  assert (Ag : IntoFacts.agree f (o_deserialize_fuel V f e) D).
  { intros r W L. rewrite IHd by assumption. apply fuel_enough; auto. }
  assert (Kv : forall n t r, leaf_tag t -> rwf r -> (left r < f)%nat ->
            o_value_into (called c U X D I) D n t r = o_value_into V (o_deserialize_fuel V f e) n t r).
  { intros n t r Ht W L. unfold o_value_into, LimitedReader_new.
    assert (Ev : o_deserialize_value (called c U X D I) D t n (RLimited r n) =
                 o_deserialize_value V (o_deserialize_fuel V f e) t n (RLimited r n)).
    { destruct t as [id v|x|id l|id l|id l]; cbn [o_deserialize_value]; [reflexivity| | | |]; unfold o_run.
      - cbn [u_deserialize_value called scripted irun].
        assert (Tr : there f (RLimited r n)) by (repeat split; auto).
        rewrite (unrolled_once c U f _ Hc Sd (scripted_fuel_kin c U (unrolled U X) e f) (o_fuel_shrinks c U (unrolled U X) e f) X n x r Tr).
        rewrite (compile_exec c U (unrolled U X) e f Hc He D I); [reflexivity| | |apply Hx|exact Tr].
        + intros q (Lq & Wq & Lf). symmetry. now apply Ag.
        + intros q t (Lq & Wq & Lf) Ht1. apply IHi; auto. now apply target_leaf.
      - rewrite (items_agree_seq f _ _ Sd Ag n l (RLimited r n) W L). reflexivity.
      - rewrite (items_agree_arr f _ _ Sd Pd Ag n l (RLimited r n) W L). reflexivity.
      - rewrite (items_agree_dict f _ _ Sd Pd Ag n l (RLimited r n) W L). reflexivity. }
    rewrite Ev. destruct (o_deserialize_value V _ t n _) as [[x t'] lr]. reflexivity. }
  split.
  - intros r W L. transitivity (o_deserialize_fuel V (Datatypes.S f) e r); [|now apply fuel_enough; auto].
    cbn [o_deserialize_fuel]. unfold step_with, bind. destruct (deserialize_ilint r) as [x r1] eqn:E1. destruct x as [id|err| |]; auto.
    destruct (safe_deserialize_ilint _ _ _ W E1) as (_ & W1 & _). pose proof (progress_ilint _ _ _ W E1) as P1.
    destruct (deserialize_tag_size id r1) as [x r2] eqn:E2. destruct x as [n|err| |]; auto.
    destruct (safe_tag_size _ _ _ _ W1 E2) as (_ & W2 & L2).
    change (o_create (called c U X D I) e id) with (o_create V e id).
    destruct (o_create V e id) as [[t|]|err| |] eqn:Ec; auto.
    rewrite Kv; [reflexivity|exact (created_leafy _ _ _ _ Ec)|exact W2|lia].
  - intros r t Ht W L. unfold into_with, o_deserialize_into.
    change (o_id (called c U X D I) t) with (o_id V t).
    destruct (deserialize_ilint r) as [x r1] eqn:E1. destruct x as [id|err| |]; auto.
    destruct (safe_deserialize_ilint _ _ _ W E1) as (_ & W1 & _). pose proof (progress_ilint _ _ _ W E1) as P1.
    destruct (negb _); [reflexivity|]. destruct (deserialize_tag_size id r1) as [x r2] eqn:E2. destruct x as [n|err| |]; auto.
    destruct (safe_tag_size _ _ _ _ W1 E2) as (_ & W2 & L2).
    rewrite Kv; [|exact Ht|exact W2|lia]. apply value_into_enough; auto; lia.
Qed.
End Unrolled.

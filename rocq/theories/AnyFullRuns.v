(** Proofs about AnyFull.v: the programs and the factory. *)
From Verif Require Import Base BaseFacts Types Spec SpecFacts IO IOSpec IOFacts Logic HistFacts ILInt ILIntFacts Data DataFacts Tags TagsFacts
  Factory FactoryFacts DecodeFacts DeserFacts IntoFacts ClosedFacts Open KinFacts OpenFacts Prog ProgFacts IntoProg IntoProgFacts IntoCallFacts
  OtherProg OtherProgFacts FullProg FullProgFacts Any AnyFacts AnyScan AnyProg AnyProgFacts AnyFull AnyFullFacts.

Section AnyFullRuns.
Context {U : Type} (M : reader_impl U) (HM : impl_ok M).
Context (st lax : Prop).

(** ** The objects stay as they are *)
Lemma a_in_place_bytes s r x s' (r' : areader U) : bytes_ok s ->
  (let '(x, vec', r') := a_into_slice M s r in (x, (vec', r'))) = (x, (s', r')) -> bytes_ok s'.
Proof.
  intros Hs. unfold a_into_slice. destruct (a_read_all M s r) as [[y g] r1] eqn:E.
  destruct (p_read_all M HM _ _ _ _ _ Hs E) as (_ & _ & Hg & _). intros [= _ <- _]. exact Hg.
Qed.
Lemma a_std_target d v n (r : areader U) x v' r' : leaf v -> holds_bytes v -> a_value M d v n r = (x, v', r') -> leaf v' /\ holds_bytes v'.
Proof.
  intros Hl Hb E.
  assert (K : forall S (m : @amethod U S unit) s (mk : S -> value), a_run m s mk r = (x, v', r') ->
            (forall s', leaf (mk s') /\ holds_bytes (mk s')) -> leaf v' /\ holds_bytes v').
  { intros S m s mk. unfold a_run. destruct (m (s, r)) as [y [s1 r1]]. intros [= _ <- _] H. apply H. }
  assert (Kr : forall (mk : list N -> value) s m, a_run m s mk r = (x, v', r') -> bytes_ok s ->
            (forall y s' r1, m (s, r) = (y, (s', r1)) -> bytes_ok s') -> (forall s', bytes_ok s' -> leaf (mk s') /\ holds_bytes (mk s')) -> leaf v' /\ holds_bytes v').
  { intros mk s m. unfold a_run. destruct (m (s, r)) as [y [s1 r1]]. intros [= _ <- _] Hs H Hm. eauto. }
  assert (Raw : forall k s q y s' r1, bytes_ok s -> a_raw M k (s, q) = (y, (s', r1)) -> bytes_ok s').
  { intros k s q y s' r1 Hs H. exact (a_in_place_bytes (resizeN k 0 s) q y s' r1 (resize_ok k s Hs) H). }
  destruct v; cbn [leaf holds_bytes a_value] in *; try contradiction;
    try (eapply K; [exact E|intros; exact (conj Logic.I Logic.I)]).
  - (* VBin128 *) eapply Kr; [exact E|exact Hb| |intros; split; [exact Logic.I|assumption]]. intros y s' r1. unfold a_bin128, bind, a_check_size.
    destruct (_ =? _); [|intros [= _ <- _]; exact Hb]. intros H. exact (a_in_place_bytes _ _ _ _ _ Hb H).
  - eapply Kr; [exact E|exact Hb| |intros; split; [exact Logic.I|assumption]]. intros y s' r1. now apply Raw.
  - eapply Kr; [exact E|exact Hb| |intros; split; [exact Logic.I|assumption]]. intros y s' r1. now apply Raw.
  - eapply Kr; [exact E|exact Hb| |intros; split; [exact Logic.I|assumption]]. intros y s' r1. now apply Raw.
  - unfold a_run in E. destruct (a_bigdec M n ((scale, bs), r)) as [y [s1 r1]] eqn:E1. injection E as _ <- _. cbn [leaf holds_bytes].
    split; [exact Logic.I|].
    unfold a_bigdec in E1. unfold bind at 1 in E1. destruct (n <? 4); cbn [ret fail] in E1; [injection E1 as _ <- _; exact Hb|].
    unfold bind at 1, a_on_reader in E1. destruct (a_sint M W32 r) as [z r2] eqn:Ez.
    destruct z as [z|err| |]; try (injection E1 as _ <- _; exact Hb).
    unfold bind, a_modify, a_on_snd in E1. cbn [snd] in E1. destruct (a_raw M (n - 4) (bs, r2)) as [w [s2 r3]] eqn:Er.
    injection E1 as _ <- _. cbn [snd]. eapply Raw; eauto.
  - eapply K; [exact E|]. intros [[[? ?] ?] ?]. exact (conj Logic.I Logic.I).
Qed.
Section Targets.
Context {T : Type} (D : user_impl T) (user : N -> @amethod U T unit) (deser : areader U -> res tag_error (otag T) * areader U) (e : engine).
Hypothesis He : engine_bytes e.
Notation into := (av_value_into D (av_value M user deser)).
Lemma a_value_into_target n t r x t' r' : target t -> into n t r = (x, t', r') -> target t'.
Proof.
  intros Ht. unfold av_value_into. destruct (av_value M user deser t n (ALimited r n)) as [[y t1] lr] eqn:E. intros H. apply pair_inv in H as [H _].
  apply pair_inv in H as [_ <-].
  destruct t as [id v|x0|id l|id l|id l]; cbn [av_value] in E; unfold ao_run in E.
  - destruct (a_value M _ v n _) as [[z v'] q] eqn:Ev. injection E as _ <- _. destruct Ht as [Hl Hb]. exact (a_std_target _ _ _ _ _ _ _ Hl Hb Ev).
  - destruct (user n _) as [z [x1 q]]. injection E as _ <- _. exact Logic.I.
  - destruct (a_seq _ _ _) as [z [x1 q]]. injection E as _ <- _. exact Logic.I.
  - destruct (a_arr _ _ _ _) as [z [x1 q]]. injection E as _ <- _. exact Logic.I.
  - destruct (a_dict _ _ _ _) as [z [x1 q]]. injection E as _ <- _. exact Logic.I.
Qed.
Lemma a_step_target r t r' : av_step M D into e r = (Ok t, r') -> target t.
Proof.
  unfold av_step, bind. destruct (a_ilint M r) as [[id|err| |] r1] eqn:E1; try discriminate.
  destruct (a_tag_size M id r1) as [[n|err| |] r2]; try discriminate.
  destruct (o_create D e id) as [[t0|]|err| |] eqn:Ec; try discriminate.
  destruct (into n t0 r2) as [[x t'] r3] eqn:Ev. destruct x; cbn [map_ok]; try discriminate. intros [= <- _].
  eapply a_value_into_target; [|exact Ev]. eapply create_target; eauto. exact (ilint_lt M HM _ _ _ E1).
Qed.
Lemma a_into_target r t x t' r' : target t -> av_into M D into r t = (x, t', r') -> target t'.
Proof.
  intros Ht. unfold av_into. destruct (a_ilint M r) as [[id|err| |] r1]; try (intros [= _ <- _]; exact Ht).
  destruct (negb _); [intros [= _ <- _]; exact Ht|]. destruct (a_tag_size M id r1) as [[n|err| |] r2]; try (intros [= _ <- _]; exact Ht).
  now apply a_value_into_target.
Qed.
End Targets.

(** ** Programs *)
Lemma ay_exec_ends {I A} c (deser : areader U -> res tag_error I * areader U) into od oi (p : yprog I A) :
  forall F r a r', yends_in p F -> ay_exec M c deser into od oi p r = (Ok a, r') -> F a.
Proof.
  Ltac go IH He := let H := fresh in intros H; apply a_after_inv in H as [(_ & H & _)|[(_ & H & _)|[? H]]]; try discriminate;
    eapply IH; [|exact H]; apply He, answered; assumption.
  induction p as [A a0|A|A k IH|A old k IH|A n k IH|A n k IH|A k IH|A B n body IHb k IH|A t k IH|A q k IH|A q t k IH];
    intros F r a r' He; cbn [ay_exec yends_in] in *.
  - intros [= <- _]. exact He.
  - discriminate.
  - destruct (a_read M r) as [x r1]. go IH He.
  - destruct (a_read_all M (u8s old) r) as [[x g] r1]. go IH He.
  - destruct (a_skip M n r) as [x r1]. go IH He.
  - destruct (a_skip_u64 M c n r) as [x r1]. go IH He.
  - destruct (deser r) as [x r1]. go IH He.
  - destruct (ay_exec M c deser into od oi body (ALimited r n)) as [[b|e| |] lr]; try discriminate. destruct lr; try discriminate. intros H. exact (IH _ _ F _ _ _ (He _ _) H).
  - destruct (into r t) as [[x t'] r1]. go IH He.
  - destruct (od q) as [x q']. go IH He.
  - destruct (oi q t) as [[x t'] q']. go IH He.
Qed.
(** The outcome of a program. *)
Definition xcon {A} (g : reader -> res tag_error A * reader) (S : (A -> Prop) -> Prop) (y : res tag_error A) (r r' : areader U) : Prop :=
  y <> Panic /\ (y = OutOfFuel -> lax) /\
  (returns y -> exists a, y = Ok a /\
    exists tr, pmoved M tr r r' /\ bytes_ok (pbytes tr) /\ (st -> forall F, S F -> F a \/ Forall pcall_ok tr) /\
      (forall rr rr', rwf rr -> mrun rr tr rr' -> g (flat r rr) = (y, flat r' rr'))).
Lemma x_then {E A B} lo (x : res E B) r r1 same (f : res E B -> areader U -> res tag_error A * areader U)
  (g gx : reader -> res tag_error A * reader) (S0 Sx : (A -> Prop) -> Prop) y r' :
  xend M st lax (Lo lo) x r r1 same ->
  a_after x f r1 = (y, r') ->
  (forall tr, returns x -> pmoved M tr r r1 -> (is_ok x = true -> lo <= lenN (pbytes tr)) -> f x r1 = (y, r') -> xcon gx Sx y r1 r') ->
  (forall rr rr', same rr rr' -> returns x -> g (flat r rr) = gx (flat r1 rr')) ->
  (returns x -> forall F, S0 F -> (is_ok x = true /\ Sx F) \/ (forall r a r', f x r = (Ok a, r') -> F a)) ->
  xcon g S0 y r r'.
Proof.
  intros (Np & Nf & Ht) E1 Hf Hg HS.
  apply a_after_inv in E1 as [(-> & _ & _)|[(-> & -> & ->)|[Rx E1]]]; [now elim Np|split; [discriminate|split; [auto|intros []]]|].
  pose proof (answered _ Rx) as R. destruct (Ht R) as (tr & Hm & Hb & Ho & Hq & Hz).
  destruct (Hf tr R Hm Hq E1) as (Np2 & Nf2 & Ht2). split; [exact Np2|]. split; [exact Nf2|]. intros Ry.
  destruct (Ht2 Ry) as (a & -> & tr2 & Hm2 & Hb2 & Ho2 & Hz2). exists a. split; [reflexivity|].
  exists (tr ++ tr2). split; [eapply pmoved_app; eauto|]. rewrite pbytes_app. split; [now apply Forall_app|]. split.
  - intros Hs F HF. destruct (HS R F HF) as [[Hok HSx]|He]; [|left; eauto].
    destruct (Ho2 Hs F HSx) as [|Ho3]; [now left|]. right. apply Forall_app. auto.
  - intros rr rr2 W Hr. apply mrun_split in Hr as (rr1 & Hr1 & Hr2). destruct (mrun_wf _ _ _ W Hr1) as [W1 _].
    rewrite (Hg _ _ (Hz _ _ W Hr1) R). exact (Hz2 _ _ W1 Hr2).
Qed.

Section Programs.
Context {T : Type} (c : cfg) (deser : areader U -> res tag_error (otag T) * areader U) (into : areader U -> otag T -> res tag_error unit * otag T * areader U).
Context (od : reader -> res tag_error (otag T) * reader) (oi : reader -> otag T -> res tag_error unit * otag T * reader).
(** [Pm m r]: what is known of the reader once [m] bytes have been got. *)
Context (Pm : nat -> areader U -> Prop).
Hypothesis Hc : 1 <= usize_max c.
Hypothesis HP : forall m k tr r r', Pm m r -> pmoved M tr r r' -> (k <= length (pbytes tr))%nat -> Pm (k + m) r'.
Hypothesis HD : forall m, deep (Pm m).
Hypothesis Gd : forall m r, Pm m r -> xrd M st lax (Lo 1) deser od r.
Hypothesis Gi : forall m t r, Pm m r -> target t -> xobj M st lax (Lo 1) (fun r => into r t) (fun r => oi r t) r.
Hypothesis Td : forall r t r', deser r = (Ok t, r') -> target t.
Hypothesis Ti : forall r t x t' r', target t -> into r t = (x, t', r') -> target t'.
Hypothesis Ko : keeps od oi.
Hypothesis Od : forall q x q', rwf q -> od q = (x, q') ->
  x <> Panic /\ (returns x -> (left q' <= left q)%nat) /\ (forall m r, Pm m r -> lax \/ (left q <= m)%nat -> x = OutOfFuel -> lax).
Hypothesis Oi : forall q t x t' q', rwf q -> target t -> oi q t = (x, t', q') ->
  x <> Panic /\ (returns x -> (left q' <= left q)%nat) /\ (forall m r, Pm m r -> lax \/ (left q <= m)%nat -> x = OutOfFuel -> lax).

Lemma Pm_same m tr r r' : Pm m r -> pmoved M tr r r' -> Pm m r'.
Proof. intros H Hm. apply (HP m 0 tr r r' H Hm). lia. Qed.
Lemma x_exec {A} (p : yprog (otag T) A) : ycalm p -> yaims p ->
  forall m r, (lax \/ yfrugal 0 p m) -> Pm m r -> lim r ->
  forall y r', ay_exec M c deser into od oi p r = (y, r') -> xcon (yexec c od oi p) (ystrict p) y r r'.
Proof.
  induction p as [A a0|A|A k IH|A old k IH|A n k IH|A n k IH|A k IH|A B n body IHb k IH|A t k IH|A q k IH|A q t k IH];
    intros Hp Ha m r Hf Pr L y r' E1; cbn [ay_exec ycalm yaims] in *.
  - apply pair_inv in E1 as [<- <-]. split; [discriminate|]. split; [discriminate|]. intros _. exists a0. split; [reflexivity|].
    exists []. split; [apply pmoved_refl|]. split; [constructor|]. split; [right; constructor|]. intros rr rr' W Hr. inversion Hr; subst. reflexivity.
  - contradiction.
  - destruct (a_read M r) as [x r1] eqn:Em.
    eapply (x_then 1 x r r1 _ _ _ (yexec c od oi (k x)) _ (ystrict (k x)) y r'); [exact (x_read M HM st lax r _ _ Em)|exact E1| | |].
    + intros tr R Hm Hl E2. apply (IH x (Hp x R) (Ha x) (if is_ok x then S m else m)) in E2; auto.
      * destruct Hf as [Hf|[Hf1 Hf2]]; [now left|right]. destruct x; try contradiction; cbn [is_ok]; auto.
      * destruct (is_ok x); [|exact (Pm_same _ _ _ _ Pr Hm)]. apply (HP m 1 tr r r1 Pr Hm). specialize (Hl eq_refl). unfold lenN in Hl. lia.
      * exact (pstable M _ _ _ _ (stable_lim M) L Hm).
    + cbv beta. intros rr rr' Hz R. cbn [yexec]. rewrite Hz. destruct x; try contradiction; reflexivity.
    + cbn [ystrict]. intros R F [H1 H2]. destruct x; try contradiction; [left; auto|right]. intros ? ? ?. apply ay_exec_ends, H2.
  - destruct (a_read_all M (u8s old) r) as [[x buff] r1] eqn:Em.
    destruct (p_read_all M HM _ _ _ _ _ (u8s_ok old) Em) as (R & Lb & _ & tr & Hm & Hb & Ho & Hl & Hz). rewrite lenN_u8s in *.
    eapply (x_then (lenN old) x r r1 _ (fun x => ay_exec M c deser into od oi (k x buff)) _ (yexec c od oi (k x buff)) _ (ystrict (k x buff)) y r'); [|exact E1| | |].
    + split; [intros ->; exact R|]. split; [intros ->; elim R|]. intros _. exists tr. do 2 (split; [assumption|]). split; [auto|]. split.
      * unfold Lo. intros Hx. rewrite Hx in Hl. lia.
      * intros rr rr' _ Hr. exact (Hz rr rr' Hr).
    + intros tr1 _ Hm1 Hl1 E2. apply (IH x buff (Hp x buff R) (Ha x buff) (if is_ok x then length old + m else m)%nat) in E2; auto.
      * destruct Hf as [Hf|[Hf1 Hf2]]; [now left|right]. destruct x as [[]|? | |]; try contradiction; cbn [is_ok]; auto. apply Hf1. unfold lenN in Lb. lia.
      * destruct (is_ok x); [|exact (Pm_same _ _ _ _ Pr Hm)]. apply (HP m (length old) tr1 r r1 Pr Hm1). specialize (Hl1 eq_refl). unfold lenN in Hl1. lia.
      * exact (pstable M _ _ _ _ (stable_lim M) L Hm).
    + cbv beta. intros rr rr' (got & Er & Hg) _. cbn [yexec]. rewrite Er. fold (filled old got) in Hg. subst buff. destruct x; try contradiction; reflexivity.
    + cbn [ystrict]. intros _ F [H1 H2]. destruct x as [[]|? | |]; try contradiction; [left; auto|right]. intros ? ? ?. apply ay_exec_ends, H2.
  - destruct (a_skip M n r) as [x r1] eqn:Em.
    eapply (x_then n x r r1 _ _ _ (yexec c od oi (k x)) _ (ystrict (k x)) y r'); [exact (x_skip M HM st lax c n r L _ _ Em)|exact E1| | |].
    + intros tr R Hm Hl E2. apply (IH x (Hp x R) (Ha x) (if is_ok x then N.to_nat n + m else m)%nat) in E2; auto.
      * destruct Hf as [Hf|[Hf1 Hf2]]; [now left|right]. destruct x as [[]|? | |]; try contradiction; cbn [is_ok]; auto.
      * destruct (is_ok x); [|exact (Pm_same _ _ _ _ Pr Hm)]. apply (HP m (N.to_nat n) tr r r1 Pr Hm). specialize (Hl eq_refl). unfold lenN in Hl. lia.
      * exact (pstable M _ _ _ _ (stable_lim M) L Hm).
    + cbv beta. intros rr rr' Hz R. cbn [yexec]. rewrite Hz. destruct x; try contradiction; reflexivity.
    + cbn [ystrict]. intros R F [H1 H2]. destruct x as [[]|? | |]; try contradiction; [left; auto|right]. intros ? ? ?. apply ay_exec_ends, H2.
  - destruct (a_skip_u64 M c n r) as [x r1] eqn:Em.
    eapply (x_then n x r r1 _ _ _ (yexec c od oi (k x)) _ (ystrict (k x)) y r'); [exact (x_skip_u64 M HM st lax c n r Hc L _ _ Em)|exact E1| | |].
    + intros tr R Hm Hl E2. apply (IH x (Hp x R) (Ha x) (if is_ok x then N.to_nat n + m else m)%nat) in E2; auto.
      * destruct Hf as [Hf|[Hf1 Hf2]]; [now left|right]. destruct x as [[]|? | |]; try contradiction; cbn [is_ok]; auto.
      * destruct (is_ok x); [|exact (Pm_same _ _ _ _ Pr Hm)]. apply (HP m (N.to_nat n) tr r r1 Pr Hm). specialize (Hl eq_refl). unfold lenN in Hl. lia.
      * exact (pstable M _ _ _ _ (stable_lim M) L Hm).
    + cbv beta. intros rr rr' Hz R. cbn [yexec]. rewrite Hz. destruct x; try contradiction; reflexivity.
    + cbn [ystrict]. intros R F [H1 H2]. destruct x as [[]|? | |]; try contradiction; [left; auto|right]. intros ? ? ?. apply ay_exec_ends, H2.
  - destruct (deser r) as [x r1] eqn:Em.
    eapply (x_then 1 x r r1 _ _ _ (yexec c od oi (k x)) _ (ystrict (k x)) y r'); [exact (Gd m r Pr _ _ Em)|exact E1| | |].
    + intros tr R Hm Hl E2. apply (IH x (Hp x R)) with (m := if is_ok x then S m else m) in E2; auto.
      * apply Ha. intros t ->. exact (Td _ _ _ Em).
      * destruct Hf as [Hf|[Hf1 Hf2]]; [now left|right]. destruct x; try contradiction; cbn [is_ok]; auto.
      * destruct (is_ok x); [|exact (Pm_same _ _ _ _ Pr Hm)]. apply (HP m 1 tr r r1 Pr Hm). specialize (Hl eq_refl). unfold lenN in Hl. lia.
      * exact (pstable M _ _ _ _ (stable_lim M) L Hm).
    + cbv beta. intros rr rr' Hz R. cbn [yexec]. rewrite Hz. destruct x; try contradiction; reflexivity.
    + cbn [ystrict]. intros R F [H1 H2]. destruct x; try contradiction; [left; auto|right]. intros ? ? ?. apply ay_exec_ends, H2.
  - destruct Hp as [Hp1 Hp2]. destruct Ha as [Ha1 Ha2].
    destruct (ay_exec M c deser into od oi body (ALimited r n)) as [x lr] eqn:Em.
    destruct (IHb Hp1 Ha1 m (ALimited r n) ltac:(destruct Hf as [Hf|[Hf1 Hf2]]; auto) (HD m _ _ Pr) Logic.I _ _ Em) as (Np & Nf & Ht).
    destruct x as [b|e| |].
    2:{ destruct (Ht Logic.I) as (b & H & _). discriminate. }
    2:{ now elim Np. }
    2:{ apply pair_inv in E1 as [<- _]. split; [discriminate|]. split; [auto|intros []]. }
    destruct (Ht Logic.I) as (b1 & Hb1 & tr & Hm & Hb & Ho & Hz). apply Ok_inv in Hb1 as <-.
    destruct lr as [|r1 n1]; [contradiction|]. destruct Hm as [Hm Hn].
    destruct (IH b n1 (Hp2 b n1) (Ha2 b n1) m r1 ltac:(destruct Hf as [Hf|[Hf1 Hf2]]; auto) (Pm_same _ _ _ _ Pr Hm)
                (pstable M _ _ _ _ (stable_lim M) L Hm) _ _ E1) as (Np2 & Nf2 & Ht2).
    split; [exact Np2|]. split; [exact Nf2|]. intros Ry. destruct (Ht2 Ry) as (a & -> & tr2 & Hm2 & Hb2 & Ho2 & Hz2).
    exists a. split; [reflexivity|]. exists (tr ++ tr2). split; [eapply pmoved_app; eauto|]. rewrite pbytes_app. split; [now apply Forall_app|]. split.
    + cbn [ystrict]. intros Hs F (F1 & H1 & H2 & H3). destruct (Ho Hs F1 H1) as [Hb1|Ho1]; [left; eapply ay_exec_ends; [exact (H3 b n1 Hb1)|exact E1]|].
      destruct (Ho2 Hs F (H2 b n1)) as [|Ho3]; [now left|]. right. apply Forall_app. auto.
    + intros rr rr2 W Hr. apply mrun_split in Hr as (rr1 & Hr1 & Hr2). destruct (mrun_wf _ _ _ W Hr1) as [W1 _].
      cbn [yexec]. unfold LimitedReader_new. specialize (Hz _ _ W Hr1). cbn [flat] in Hz. rewrite Hz. exact (Hz2 _ _ W1 Hr2).
  - destruct Ha as [Ha1 Ha2]. destruct (into r t) as [[x t'] r1] eqn:Em.
    eapply (x_then 1 x r r1 _ (fun x => ay_exec M c deser into od oi (k x t')) _ (yexec c od oi (k x t')) _ (ystrict (k x t')) y r'); [exact (Gi m t r Pr Ha1 _ _ _ Em)|exact E1| | |].
    + intros tr R Hm Hl E2. apply (IH x t' (Hp x t' R) (Ha2 x t' (Ti _ _ _ _ _ Ha1 Em))) with (m := if is_ok x then S m else m) in E2; auto.
      * destruct Hf as [Hf|[Hf1 Hf2]]; [now left|right]. destruct x as [[]|? | |]; try contradiction; cbn [is_ok]; auto.
      * destruct (is_ok x); [|exact (Pm_same _ _ _ _ Pr Hm)]. apply (HP m 1 tr r r1 Pr Hm). specialize (Hl eq_refl). unfold lenN in Hl. lia.
      * exact (pstable M _ _ _ _ (stable_lim M) L Hm).
    + cbv beta. intros rr rr' Hz R. cbn [yexec]. rewrite Hz. destruct x; try contradiction; reflexivity.
    + cbn [ystrict]. intros R F [H1 H2]. destruct x as [[]|? | |]; try contradiction; [left; auto|right]. intros ? ? ?. apply ay_exec_ends, H2.
  - destruct Ha as [Wq Ha2]. destruct (od q) as [x q'] eqn:Em. destruct (Od q x q' Wq Em) as (Np & Lq & Nf).
    assert (Hq : lax \/ (left q <= m)%nat) by (destruct Hf as [Hf|[Hf1 _]]; [now left|right; lia]).
    apply a_after_inv in E1 as [(-> & _ & _)|[(-> & -> & ->)|[Rx E1]]]; [now elim Np|split; [discriminate|split; [intros _; exact (Nf m r Pr Hq eq_refl)|intros []]]|].
    pose proof (answered _ Rx) as R. destruct Ko as [K1 _]. destruct (K1 q x q' Wq Em R) as [Wq' Tq].
    destruct (IH x q' (Hp x q' R) (Ha2 x q' Tq Wq') m r) with (y := y) (r' := r') as (Np2 & Nf2 & Ht2); auto.
    { destruct Hf as [Hf|[_ Hf2]]; [now left|right; auto]. }
    split; [exact Np2|]. split; [exact Nf2|]. intros Ry. destruct (Ht2 Ry) as (a & -> & tr2 & Hm2 & Hb2 & Ho2 & Hz2).
    exists a. split; [reflexivity|]. exists tr2. do 2 (split; [assumption|]). split.
    + cbn [ystrict]. intros Hs F HF. exact (Ho2 Hs F (HF x q' R)).
    + intros rr rr' W Hr. cbn [yexec]. rewrite Em. specialize (Hz2 _ _ W Hr). destruct x; try contradiction; exact Hz2.
  - destruct Ha as (Wq & Tt & Ha2). destruct (oi q t) as [[x t'] q'] eqn:Em. destruct (Oi q t x t' q' Wq Tt Em) as (Np & Lq & Nf).
    assert (Hq : lax \/ (left q <= m)%nat) by (destruct Hf as [Hf|[Hf1 _]]; [now left|right; lia]).
    apply a_after_inv in E1 as [(-> & _ & _)|[(-> & -> & ->)|[Rx E1]]]; [now elim Np|split; [discriminate|split; [intros _; exact (Nf m r Pr Hq eq_refl)|intros []]]|].
    pose proof (answered _ Rx) as R. destruct Ko as [_ K2]. destruct (K2 q t x t' q' Wq Tt Em R) as [Wq' Tq].
    destruct (IH x t' q' (Hp x t' q' R) (Ha2 x t' q' Tq Wq') m r) with (y := y) (r' := r') as (Np2 & Nf2 & Ht2); auto.
    { destruct Hf as [Hf|[_ Hf2]]; [now left|right; auto]. }
    split; [exact Np2|]. split; [exact Nf2|]. intros Ry. destruct (Ht2 Ry) as (a & -> & tr2 & Hm2 & Hb2 & Ho2 & Hz2).
    exists a. split; [reflexivity|]. exists tr2. do 2 (split; [assumption|]). split.
    + cbn [ystrict]. intros Hs F HF. exact (Ho2 Hs F (HF x t' q' R)).
    + intros rr rr' W Hr. cbn [yexec]. rewrite Em. specialize (Hz2 _ _ W Hr). destruct x; try contradiction; exact Hz2.
Qed.

(** ** The factory *)
Context (D : user_impl T) (Y : yscript T) (e : engine).
Hypothesis Hcalm : forall n x, ycalm (Y n x).
Hypothesis Haims : forall n x, yaims (Y n x).
Hypothesis Hfrugal : lax \/ forall n x, yfrugal 0 (Y n x) 0.
Hypothesis Hstrict : st -> forall n x, ystrict (Y n x) is_error.
Hypothesis Hcr : forall id, returns (o_create D e id).
Hypothesis He : engine_bytes e.
Notation user := (ay_user M c deser into od oi Y).
Notation V := (ycalled c D Y od oi).

Lemma x_user n x r : Pm 0 r -> lim r -> xmd M st lax (Lo 0) (user n) (u_deserialize_value V od n) (x, r).
Proof.
  intros Pr L y x' E1. cbn [ay_user] in E1. destruct (ay_exec M c deser into od oi (Y n x) r) as [z r1] eqn:Ee.
  destruct (x_exec (Y n x) (Hcalm n x) (Haims n x) 0 r ltac:(destruct Hfrugal; auto) Pr L _ _ Ee) as (Np & Nf & Ht).
  destruct z as [[o x1]|err| |].
  2:{ destruct (Ht Logic.I) as (a & Ha & _). discriminate. }
  2:{ now elim Np. }
  2:{ apply pair_inv in E1 as [<- _]. split; [discriminate|]. split; [auto|intros []]. }
  destruct (Ht Logic.I) as (a & Ha & tr & Hm & Hb & Ho & Hz). apply Ok_inv in Ha as <-.
  assert (Hx : y = match o with None => Ok tt | Some e => Err e end /\ x' = (x1, r1)) by (destruct o; apply pair_inv in E1 as [<- <-]; auto).
  destruct Hx as [-> ->]. split; [now destruct o|]. split; [now destruct o|]. intros _. exists tr. do 2 (split; [assumption|]). split.
  { intros Hs Hy. destruct (Ho Hs _ (Hstrict Hs n x)) as [He1|]; [|assumption]. destruct o; [discriminate|]. now elim He1. }
  split; [unfold Lo; lia|]. intros rr rr' W Hr. specialize (Hz rr rr' W Hr). unfold mfl, yrun. cbn [fst snd u_deserialize_value ycalled yrun].
  rewrite Hz. destruct o; reflexivity.
Qed.
Lemma x_orun {S0} Q (m : @amethod U S0 unit) m' s (mk : S0 -> otag T) r : xmd M st lax Q m m' (s, r) -> xobj M st lax Q (ao_run m s mk) (o_run m' s mk) r.
Proof. exact (x_run M st lax Q m m' s mk r). Qed.
Lemma Pm_stable : stable M (Pm 0).
Proof. intros tr r r' Pr Hm. destruct (amoved_pmoved M tr _ _ Hm) as (tr' & Hp & _). exact (Pm_same _ _ _ _ Pr Hp). Qed.
Lemma x_value t n r : Pm 0 r -> lim r -> target t -> xobj M st lax (Lo 0) (av_value M user deser t n) (o_deserialize_value V od t n) r.
Proof.
  intros Pr L Ht. destruct t as [id v|x|id l|id l|id l]; cbn [av_value o_deserialize_value].
  - destruct Ht as [Hl Hv]. intros y t r' E1. cbn [av_value] in E1. destruct (a_value M (fun r => (Panic, r)) v n r) as [[x v1] r1] eqn:Ev. injection E1 as <- <- <-.
    destruct (x_std M HM st lax _ untouchable_deserialize v n r Hl Hv _ _ _ Ev) as (Np & Nf & H). split; [exact Np|]. split; [exact Nf|]. intros R.
    destruct (H R) as (tr & Hm & Hb & Ho & Hq & Hz). exists tr. do 4 (split; [assumption|]). intros rr rr' W Hr.
    cbn [o_deserialize_value]. now rewrite (Hz _ _ W Hr).
  - apply x_orun. now apply x_user.
  - apply x_orun. apply (x_seq M st lax _ _ (Pm 0)); auto using Pm_stable. exact (Gd 0).
  - apply x_orun. apply (x_arr M HM st lax _ _ (Pm 0)); auto using Pm_stable. exact (Gd 0).
  - apply x_orun. apply (x_dict M HM st lax _ _ (Pm 0)); auto using Pm_stable. exact (Gd 0).
Qed.
Lemma x_value_into n t r : Pm 0 (ALimited r n) -> target t ->
  xobj M st lax (fun _ d => d <= n) (av_value_into D (av_value M user deser) n t) (o_value_into V od n t) r.
Proof.
  intros Pr Ht y v r' E1. unfold av_value_into in E1. destruct (av_value M user deser t n (ALimited r n)) as [[x t1] lr] eqn:Ev.
  destruct (x_value t n (ALimited r n) Pr Logic.I Ht _ _ _ Ev) as (Np & Nf & H).
  apply pair_inv in E1. destruct E1 as [E1 <-]. apply pair_inv in E1. destruct E1 as [Ey <-].
  assert (Hy : (y = Panic -> x = Panic) /\ (y = OutOfFuel -> x = OutOfFuel) /\ (returns y -> returns x) /\ (is_ok y = true -> is_ok x = true)).
  { subst y. destruct x; [|repeat split; auto..]. destruct (_ && _ && _); repeat split; auto; discriminate. }
  destruct Hy as (Hy1 & Hy2 & Hy3 & Hy4). split; [auto|]. split; [auto|]. intros R.
  destruct (H (Hy3 R)) as (tr & Hm & Hb & Ho & Hq & Hz). destruct lr as [|r1 a]; [contradiction|]. cbn [pmoved a_unlimit a_empty] in *. destruct Hm as [Hm Hn].
  exists tr. do 2 (split; [assumption|]). split; [auto|].
  split; [lia|]. intros rr rr' W Hr. specialize (Hz rr rr' W Hr). unfold o_value_into, LimitedReader_new. cbn [flat] in Hz. rewrite Hz.
  cbn [flat limit_empty unlimit]. rewrite <- Ey. replace (o_id V t1) with (o_id D t1) by now destruct t1. reflexivity.
Qed.
Notation value_into := (av_value_into D (av_value M user deser)).
Lemma x_step r : (forall n r2 tr, n <= 536870912 -> pmoved M tr r r2 -> 1 <= lenN (pbytes tr) -> Pm 0 (ALimited r2 n)) ->
  xrd M st lax PD (av_step M D value_into e) (step_with e V od) r.
Proof.
  intros H. unfold av_step, step_with. eapply xok_bind with (Q1 := fun b d => d <= 9 /\ Lo 1 b d) (Q2 := fun _ d => d <= 536870921).
  { apply x_ilint, HM. }
  2:{ unfold PD, Lo. split; [discriminate|lia]. }
  2:{ unfold PD, Lo. intros d1 b d2 [H1 H2] H3. specialize (H2 eq_refl). split; [lia|lia]. }
  intros id r1 tr1 Ei M1 Q1. unfold Lo in Q1.
  eapply xok_bind with (Q1 := fun _ d => d <= 9) (Q2 := fun _ d => d <= 536870912).
  { apply x_tag_size, HM. }
  2:{ intros. cbv beta in *. lia. }
  2:{ intros. cbv beta in *. lia. }
  intros n r2 tr2 En M2 _. pose proof (tag_size_le M _ _ _ _ En) as Hn.
  replace (o_create V e id) with (o_create D e id) by reflexivity.
  eapply xok_bind with (Q1 := fun _ d => d = 0) (Q2 := fun _ d => d <= 536870912).
  2:{ intros created r3 b3 Ec M3 _. apply pair_inv in Ec. destruct Ec as [Ec <-]. destruct created as [t|].
      2:{ eapply xok_weaken; [now apply x_pure|]. cbv beta. intros. lia. }
      pose proof (pmoved_app _ _ _ _ _ _ M1 M2) as M12.
      assert (Pr : Pm 0 (ALimited r2 n)).
      { apply (H n r2 _ Hn M12). rewrite pbytes_app, lenN_app. destruct Q1 as [_ Q1]. specialize (Q1 eq_refl). lia. }
      pose proof (x_value_into n t r2 Pr (create_target D e id t He (ilint_lt M HM _ _ _ Ei) Ec)) as X.
      intros y r' E1. destruct (value_into n t r2) as [[x t'] r3] eqn:Ev.
      destruct (X _ _ _ Ev) as (Np & Nf & Ht). apply pair_inv in E1. destruct E1 as [<- <-].
      split; [now destruct x|]. split; [destruct x; auto; discriminate|]. intros R. destruct (Ht ltac:(destruct x; exact R)) as (tr & Hm & Hb & Ho & Hq & Hz).
      assert (Hi : is_ok (map_ok (fun _ : unit => t') x) = is_ok x) by now destruct x.
      rewrite Hi. exists tr. do 3 (split; [assumption|]). split; [lia|].
      intros rr rr' W Hr. now rewrite (Hz rr rr' W Hr). }
  - apply x_pure, Hcr.
  - intros. cbv beta in *. lia.
  - intros. cbv beta in *. lia.
Qed.
Lemma x_into t r : (forall n r2 tr, n <= 536870912 -> pmoved M tr r r2 -> 1 <= lenN (pbytes tr) -> Pm 0 (ALimited r2 n)) -> target t ->
  xobj M st lax PD (fun r => av_into M D value_into r t) (fun r => IntoProg.into_with V od r t) r.
Proof.
  intros HPm Tt y v r' E1. unfold av_into in E1. destruct (a_ilint M r) as [x r1] eqn:Ei.
  destruct (x_ilint M HM st lax r _ _ Ei) as (Np & Nf & Ht).
  destruct x as [id|err| |]; [| |now elim Np|].
  2:{ injection E1 as <- <- <-. split; [discriminate|]. split; [discriminate|]. intros _. destruct (Ht Logic.I) as (tr & Hm & Hb & Ho & [Hq1 Hq2] & Hz).
      exists tr. do 3 (split; [assumption|]). split; [unfold PD, Lo; cbn [is_ok]; split; [discriminate|lia]|].
      intros rr rr' W Hr. unfold IntoProg.into_with. now rewrite (Hz rr rr' W Hr). }
  2:{ injection E1 as <- <- <-. split; [discriminate|]. split; [auto|intros []]. }
  destruct (Ht Logic.I) as (tr & Hm & Hb & Ho & [Hq1 Hq2] & Hz). specialize (Hq2 eq_refl). cbn [is_ok] in *.
  assert (Hid : o_id V t = o_id D t) by now destruct t.
  destruct (negb (id =? o_id D t)) eqn:Lid.
  { injection E1 as <- <- <-. split; [discriminate|]. split; [discriminate|]. intros _. exists tr. do 2 (split; [assumption|]). split; [discriminate|].
    split; [unfold PD, Lo; cbn [is_ok]; split; [discriminate|lia]|].
    intros rr rr' W Hr. unfold IntoProg.into_with. rewrite (Hz rr rr' W Hr), Hid, Lid. reflexivity. }
  destruct (a_tag_size M id r1) as [x r2] eqn:En.
  destruct (x_tag_size M HM st lax id r1 _ _ En) as (Np2 & Nf2 & Ht2).
  destruct x as [n|err| |]; [| |now elim Np2|].
  2:{ injection E1 as <- <- <-. split; [discriminate|]. split; [discriminate|]. intros _. destruct (Ht2 Logic.I) as (tr2 & Hm2 & Hb2 & Ho2 & Hq3 & Hz2).
      exists (tr ++ tr2). split; [eapply pmoved_app; eauto|]. rewrite pbytes_app, lenN_app. split; [now apply Forall_app|]. split; [discriminate|].
      split; [unfold PD, Lo; cbn [is_ok]; split; [discriminate|lia]|].
      intros rr rr' W Hr. apply mrun_split in Hr as (rr1 & Hr1 & Hr2). destruct (mrun_wf _ _ _ W Hr1) as [W1 _].
      unfold IntoProg.into_with. rewrite (Hz _ _ W Hr1), Hid, Lid, (Hz2 _ _ W1 Hr2). reflexivity. }
  2:{ injection E1 as <- <- <-. split; [discriminate|]. split; [auto|intros []]. }
  destruct (Ht2 Logic.I) as (tr2 & Hm2 & Hb2 & Ho2 & Hq3 & Hz2). cbn [is_ok] in *. pose proof (tag_size_le M _ _ _ _ En) as Hn.
  pose proof (pmoved_app _ _ _ _ _ _ Hm Hm2) as M12.
  assert (Pr : Pm 0 (ALimited r2 n)). { apply (HPm n r2 _ Hn M12). rewrite pbytes_app, lenN_app. lia. }
  destruct (x_value_into n t r2 Pr Tt _ _ _ E1) as (Np3 & Nf3 & Ht3). split; [exact Np3|]. split; [exact Nf3|]. intros R.
  destruct (Ht3 R) as (tr3 & Hm3 & Hb3 & Ho3 & Hq4 & Hz3).
  exists ((tr ++ tr2) ++ tr3). split; [eapply pmoved_app; eauto|]. rewrite !pbytes_app, !lenN_app. split; [repeat (apply Forall_app; split); auto|].
  split; [intros Hs Hy; repeat (apply Forall_app; split); auto|]. split; [unfold PD, Lo; lia|].
  intros rr rr' W Hr. apply mrun_split in Hr as (rr2 & Hr & Hr3). apply mrun_split in Hr as (rr1 & Hr1 & Hr2).
  destruct (mrun_wf _ _ _ W Hr1) as [W1 _]. destruct (mrun_wf _ _ _ W1 Hr2) as [W2 _].
  unfold IntoProg.into_with. rewrite (Hz _ _ W Hr1), Hid, Lid, (Hz2 _ _ W1 Hr2). exact (Hz3 _ _ W2 Hr3).
Qed.
End Programs.

(** ** Any depth *)
Context {T : Type} (c : cfg) (D : user_impl T) (Y : yscript T) (e : engine).
Hypothesis Hc : cfg_ok c.
Hypothesis Hcalm : forall n x, ycalm (Y n x).
Hypothesis Haims : forall n x, yaims (Y n x).
Hypothesis Hstrict : st -> forall n x, ystrict (Y n x) is_error.
Hypothesis Hcr : forall id, u_create D id <> Some None.
Hypothesis Htot : engine_total e.
Hypothesis He : engine_bytes e.

Lemma created_returns id : returns (o_create D e id).
Proof. exact (create_returns D e Htot Hcr id). Qed.
Lemma other_fine f q x q' : rwf q -> y_deserialize c D Y e f q = (x, q') -> x <> Panic /\ (returns x -> (left q' <= left q)%nat).
Proof.
  intros W E. destruct (capped_good c D Y e False ltac:(unfold cfg_ok in Hc; lia) (or_intror Hcalm) Haims He (ycreated_fine c D Y e Hcr Htot) f) as [G1 _].
  destruct (capped_le c D Y e True f) as [L1 _]. specialize (L1 q). unfold y_deserialize in E. rewrite E in L1. cbn [fst] in L1.
  destruct x as [t|err| |]; try (specialize (L1 Logic.I); destruct (G1 q _ _ W Logic.I L1) as (R & W' & L' & Q)); try contradiction.
  1,2: split; [discriminate|auto]. split; [discriminate|intros []].
Qed.
Lemma other_into_fine f q t x t' q' : rwf q -> target t -> y_deserialize_into c D Y e f q t = (x, t', q') -> x <> Panic /\ (returns x -> (left q' <= left q)%nat).
Proof.
  intros W Ht E. destruct (capped_good c D Y e False ltac:(unfold cfg_ok in Hc; lia) (or_intror Hcalm) Haims He (ycreated_fine c D Y e Hcr Htot) f) as [_ G2].
  destruct (capped_le c D Y e True f) as [_ L2]. specialize (L2 q t). unfold y_deserialize_into in E. rewrite E in L2. cbn [fst] in L2.
  destruct x as [u|err| |]; try (specialize (L2 Logic.I); destruct (G2 q t _ _ _ W Logic.I (target_leaf _ Ht) L2) as (R & W' & L' & Q)); try contradiction.
  1,2: split; [discriminate|auto]. split; [discriminate|intros []].
Qed.
Lemma ay_targets f : (forall r t r', ay_deserialize M c D Y e f r = (Ok t, r') -> target t) /\
  (forall r t x t' r', target t -> ay_deserialize_into M c D Y e f r t = (x, t', r') -> target t').
Proof.
  destruct f as [|f]; unfold ay_deserialize, ay_deserialize_into; cbn [ay_fuel fst snd].
  - split; [discriminate|]. intros r t x t' r' Ht [= _ <- _]. exact Ht.
  - split; [intros r t r'; now apply a_step_target|intros r t x t' r' Ht; now apply a_into_target].
Qed.
Lemma PD_Lo b d : PD b d -> Lo 1 b d. Proof. intros [H _]. exact H. Qed.
(** [Pf f m r]: what makes fuel [f] enough. *)
Lemma x_fuel_step f (Pm : nat -> areader U -> Prop) (Pr : areader U -> Prop) :
  (lax \/ forall n x, yfrugal 0 (Y n x) 0) ->
  (forall m k tr r r', Pm m r -> pmoved M tr r r' -> (k <= length (pbytes tr))%nat -> Pm (k + m)%nat r') ->
  (forall m, deep (Pm m)) ->
  (forall m r, Pm m r -> lax \/ (m < f)%nat) ->
  (forall m r, Pm m r -> xrd M st lax PD (ay_deserialize M c D Y e f) (y_deserialize c D Y e f) r /\
     forall t, target t -> xobj M st lax PD (fun r => ay_deserialize_into M c D Y e f r t) (fun r => y_deserialize_into c D Y e f r t) r) ->
  (forall r n r2 tr, Pr r -> n <= 536870912 -> pmoved M tr r r2 -> 1 <= lenN (pbytes tr) -> Pm 0%nat (ALimited r2 n)) ->
  forall r, Pr r ->
    xrd M st lax PD (ay_deserialize M c D Y e (S f)) (y_deserialize c D Y e (S f)) r /\
    forall t, target t -> xobj M st lax PD (fun r => ay_deserialize_into M c D Y e (S f) r t) (fun r => y_deserialize_into c D Y e (S f) r t) r.
Proof.
  intros Hf HP HD Hm G HS r Hr. assert (Hc' : 1 <= usize_max c) by (unfold cfg_ok in Hc; lia).
  assert (Of : forall m q r, Pm m r -> lax \/ (left q <= m)%nat -> rwf q ->
    (forall x q', y_deserialize c D Y e f q = (x, q') -> x = OutOfFuel -> lax) /\
    (forall t x t' q', target t -> y_deserialize_into c D Y e f q t = (x, t', q') -> x = OutOfFuel -> lax)).
  { intros m q r0 P0 Lq W. destruct Hf as [Hf|Hf]; [auto|]. destruct Lq as [Lq|Lq]; [auto|]. destruct (Hm m r0 P0) as [Hl|Hl]; [auto|].
    destruct (frugal_good c D Y e False Hc' (or_intror Hcalm) Haims He (ycreated_fine c D Y e Hcr Htot) f Hf) as [G1 G2]. assert (Lf : (left q < f)%nat) by lia. split.
    - intros x q' E ->. destruct (G1 q _ _ W Lf E) as (R & _). elim R.
    - intros t x t' q' Ht E ->. destruct (G2 q t _ _ _ W Lf (target_leaf _ Ht) E) as (R & _). elim R. }
  destruct (ay_targets f) as [Td Ti].
  assert (K := y_keeps c D Y e f Hc' Haims He).
  assert (Gd : forall m r, Pm m r -> xrd M st lax (Lo 1) (ay_deserialize M c D Y e f) (y_deserialize c D Y e f) r).
  { intros m r0 P0. eapply xok_weaken; [apply (G m r0 P0)|exact PD_Lo]. }
  assert (Gi : forall m t r, Pm m r -> target t -> xobj M st lax (Lo 1) (fun r => ay_deserialize_into M c D Y e f r t) (fun r => y_deserialize_into c D Y e f r t) r).
  { intros m t r0 P0 Ht y v r' E1. destruct (proj2 (G m r0 P0) t Ht _ _ _ E1) as (Np & Nf & H). split; [exact Np|]. split; [exact Nf|]. intros R.
    destruct (H R) as (tr & H1 & H2 & H3 & H4 & H5). exists tr. do 3 (split; [assumption|]). split; [now apply PD_Lo|assumption]. }
  assert (Od : forall q x q', rwf q -> y_deserialize c D Y e f q = (x, q') ->
    x <> Panic /\ (returns x -> (left q' <= left q)%nat) /\ (forall m r, Pm m r -> lax \/ (left q <= m)%nat -> x = OutOfFuel -> lax)).
  { intros q x q' W E. destruct (other_fine f q x q' W E) as [H1 H2]. split; [exact H1|]. split; [exact H2|]. intros m r0 P0 Lq.
    destruct (Of m q r0 P0 Lq W) as [H3 _]. exact (H3 x q' E). }
  assert (Oi : forall q t x t' q', rwf q -> target t -> y_deserialize_into c D Y e f q t = (x, t', q') ->
    x <> Panic /\ (returns x -> (left q' <= left q)%nat) /\ (forall m r, Pm m r -> lax \/ (left q <= m)%nat -> x = OutOfFuel -> lax)).
  { intros q t x t' q' W Ht E. destruct (other_into_fine f q t x t' q' W Ht E) as [H1 H2]. split; [exact H1|]. split; [exact H2|]. intros m r0 P0 Lq.
    destruct (Of m q r0 P0 Lq W) as [_ H3]. exact (H3 t x t' q' Ht E). }
  split.
  - apply (x_step c (ay_deserialize M c D Y e f) (ay_deserialize_into M c D Y e f) (y_deserialize c D Y e f) (y_deserialize_into c D Y e f) Pm); auto using created_returns.
    intros n r2 tr. now apply HS.
  - intros t Ht. apply (x_into c (ay_deserialize M c D Y e f) (ay_deserialize_into M c D Y e f) (y_deserialize c D Y e f) (y_deserialize_into c D Y e f) Pm) with (e := e); auto using created_returns.
    intros n r2 tr. now apply HS.
Qed.
Lemma x_any_depth f : lax -> forall r,
  xrd M st lax PD (ay_deserialize M c D Y e f) (y_deserialize c D Y e f) r /\
  forall t, target t -> xobj M st lax PD (fun r => ay_deserialize_into M c D Y e f r t) (fun r => y_deserialize_into c D Y e f r t) r.
Proof.
  intros Hl. induction f as [|f IH]; intros r.
  - split; [intros y r' [= <- <-]|intros t Ht y v r' [= <- <- <-]]; (split; [discriminate|]; split; [auto|intros []]).
  - apply (x_fuel_step f (fun _ _ => True) (fun _ => True)); auto. intros m k n. exact (fun H => H).
Qed.
Lemma x_user_any_depth f : lax -> forall n x r, lim r ->
  xmd M st lax (Lo 0) (ay_user M c (ay_deserialize M c D Y e f) (ay_deserialize_into M c D Y e f) (y_deserialize c D Y e f) (y_deserialize_into c D Y e f) Y n)
    (yrun c (y_deserialize c D Y e f) (y_deserialize_into c D Y e f) Y n) (x, r).
Proof.
  intros Hl n x r L. assert (Hc' : 1 <= usize_max c) by (unfold cfg_ok in Hc; lia). destruct (ay_targets f) as [Td Ti].
  apply (x_user c _ _ (y_deserialize c D Y e f) (y_deserialize_into c D Y e f) (fun _ _ => True)) with (D := D) (e := e); auto using created_returns.
  - intros m q t. exact (fun H => H).
  - intros m q _. eapply xok_weaken; [apply (x_any_depth f Hl q)|exact PD_Lo].
  - intros m t q _ Tt y v r' E1. destruct (proj2 (x_any_depth f Hl q) t Tt _ _ _ E1) as (Np & Nf & H). split; [exact Np|]. split; [exact Nf|]. intros R.
    destruct (H R) as (tr & H1 & H2 & H3 & H4 & H5). exists tr. do 3 (split; [assumption|]). split; [now apply PD_Lo|assumption].
  - now apply y_keeps.
  - intros q y q' W E. destruct (other_fine f q y q' W E) as [H1 H2]. auto.
  - intros q t y t' q' W Ht E. destruct (other_into_fine f q t y t' q' W Ht E) as [H1 H2]. auto.
Qed.
Lemma within_moved tr r : forall j r', pmoved M tr r r' -> within j r -> (length (pbytes tr) < j)%nat /\ within (j - length (pbytes tr)) r'.
Proof.
  induction r as [u|s IH a]; intros j [u'|s' a']; cbn [pmoved within]; try tauto.
  intros (H & L) [K0|K0]; [split; [|left]; unfold lenN in L; lia|]. destruct (IH _ _ H K0). auto.
Qed.
Lemma x_enough f : (forall n x, yfrugal 0 (Y n x) 0) -> forall r, within f r ->
  xrd M st lax PD (ay_deserialize M c D Y e f) (y_deserialize c D Y e f) r /\
  forall t, target t -> xobj M st lax PD (fun r => ay_deserialize_into M c D Y e f r t) (fun r => y_deserialize_into c D Y e f r t) r.
Proof.
  intros Hf. assert (Z : forall j (r : areader U), within j r -> (0 < j)%nat).
  { intros j r. induction r; cbn [within]; [tauto|]. intros [H|H]; [lia|auto]. }
  induction f as [|f IH]; intros r W; [apply Z in W; lia|].
  apply (x_fuel_step f (fun m r => exists j, within j r /\ (j + m <= f)%nat) (within (S f))); auto.
  - intros m k tr r0 r' (j & Wj & Lj) Hm Hk. destruct (within_moved tr r0 j r' Hm Wj) as [L1 W1].
    exists (j - length (pbytes tr))%nat. split; [exact W1|lia].
  - intros m r0 n (j & Wj & Lj). exists j. split; [now right|exact Lj].
  - intros m r0 (j & Wj & Lj). apply Z in Wj. right. lia.
  - intros m r0 (j & Wj & Lj). apply IH. eapply within_mono; [|exact Wj]. lia.
  - intros r0 n r2 tr W0 _ Hm L. destruct (within_moved tr r0 _ r2 Hm W0) as [L1 W1]. exists f. split; [right|lia].
    eapply within_mono; [|exact W1]. unfold lenN in L. lia.
Qed.
(** On a reader without a limit the size of the value bounds the depth. *)
Lemma x_enough_any f : (forall n x, yfrugal 0 (Y n x) 0) -> 536870913 < N.of_nat f -> forall r,
  xrd M st lax PD (ay_deserialize M c D Y e f) (y_deserialize c D Y e f) r /\
  forall t, target t -> xobj M st lax PD (fun r => ay_deserialize_into M c D Y e f r t) (fun r => y_deserialize_into c D Y e f r t) r.
Proof.
  intros Hf Lf r. destruct f as [|f]; [lia|].
  apply (x_fuel_step f (fun m r => exists j, within j r /\ (j + m <= f)%nat) (fun _ => True)); auto.
  - intros m k tr r0 r' (j & Wj & Lj) Hm Hk. destruct (within_moved tr r0 j r' Hm Wj) as [L1 W1].
    exists (j - length (pbytes tr))%nat. split; [exact W1|lia].
  - intros m r0 n (j & Wj & Lj). exists j. split; [now right|exact Lj].
  - intros m r0 (j & Wj & Lj). right. destruct j; [|lia]. exfalso. clear -Wj. induction r0; cbn [within] in Wj; [tauto|]. destruct Wj; [lia|auto].
  - intros m r0 (j & Wj & Lj). apply x_enough; [exact Hf|]. eapply within_mono; [|exact Wj]. lia.
  - intros r0 n r2 tr _ Hn Hm L. exists f. split; [left|lia]. lia.
Qed.

End AnyFullRuns.

(** ** Monotone in the depth *)
Section Deeper.
Context {U : Type} (M : reader_impl U) {T : Type} (c : cfg) (D : user_impl T) (Y : yscript T) (e : engine).
Definition ale {E A} (m1 m2 : areader U -> res E A * areader U) : Prop := forall r x r', m1 r = (x, r') -> x <> OutOfFuel -> m2 r = (x, r').
Definition mle' {S A} (m1 m2 : @amethod U S A) : Prop := forall s r x s', m1 (s, r) = (x, s') -> x <> OutOfFuel -> m2 (s, r) = (x, s').
Definition ole {V} (m1 m2 : V -> areader U -> res tag_error unit * V * areader U) : Prop :=
  forall v r x v' r', m1 v r = (x, v', r') -> x <> OutOfFuel -> m2 v r = (x, v', r').
Lemma mle_bind {S A B} (m1 m2 : @amethod U S A) (f1 f2 : A -> @amethod U S B) : mle' m1 m2 -> (forall a, mle' (f1 a) (f2 a)) -> mle' (bind m1 f1) (bind m2 f2).
Proof.
  intros H K s r x s' E N. unfold bind in *. destruct (m1 (s, r)) as [y [s1 r1]] eqn:E1.
  rewrite (H _ _ _ _ E1) by (intros ->; cbn in E; congruence). destruct y; auto. now apply K.
Qed.
Lemma mle_refl {S A} (m : @amethod U S A) : mle' m m. Proof. intros s r x s' E _. exact E. Qed.
Lemma mle_on {S A} (m1 m2 : areader U -> res tag_error A * areader U) : ale m1 m2 -> mle' (S := S) (a_on_reader m1) (a_on_reader m2).
Proof.
  intros H s r x s' E N. cbn [a_on_reader] in *. destruct (m1 r) as [y r1] eqn:E1. rewrite (H _ _ _ E1) by congruence. exact E.
Qed.
Lemma mle_limited {S A} n (m1 m2 : @amethod U S A) : mle' m1 m2 -> mle' (a_limited n m1) (a_limited n m2).
Proof.
  intros H s r x s' E N. unfold a_limited in *. destruct (m1 (s, ALimited r n)) as [y [s1 r1]] eqn:E1. rewrite (H _ _ _ _ E1) by congruence. exact E.
Qed.
Lemma mle_fuelled {S A} (f1 f2 : nat -> @amethod U S A) : (forall n, mle' (f1 n) (f2 n)) -> mle' (a_fuelled f1) (a_fuelled f2).
Proof. intros H s r. exact (H _ s r). Qed.
Lemma mle_while {S A} (m1 m2 : areader U -> res tag_error A * areader U) (store : A -> S -> S) : ale m1 m2 -> forall f, mle' (a_while f m1 store) (a_while f m2 store).
Proof.
  intros H. induction f as [|f IH]; intros s r x s' E N; cbn [a_while snd] in *; destruct (a_empty r); try exact E.
  revert E N. apply mle_bind; [now apply mle_on|]. intros a. apply mle_bind; [apply mle_refl|]. intros _. exact IH.
Qed.
Lemma mle_repeat {S A} (m1 m2 : areader U -> res tag_error A * areader U) (store : A -> S -> S) : ale m1 m2 -> forall f n, mle' (a_repeat f m1 store n) (a_repeat f m2 store n).
Proof.
  intros H. induction f as [|f IH]; intros n s r x s' E N; cbn [a_repeat] in *; destruct (n =? 0); try exact E.
  revert E N. apply mle_bind; [now apply mle_on|]. intros a. apply mle_bind; [apply mle_refl|]. intros _. apply IH.
Qed.
Lemma ale_refl {E A} (m : areader U -> res E A * areader U) : ale m m. Proof. intros r x r' E1 _. exact E1. Qed.
Lemma ale_bind {E A B} (m1 m2 : areader U -> res E A * areader U) (f1 f2 : A -> areader U -> res E B * areader U) :
  ale m1 m2 -> (forall a, ale (f1 a) (f2 a)) -> ale (bind m1 f1) (bind m2 f2).
Proof.
  intros H K r x r' E1 N. unfold bind in *. destruct (m1 r) as [y r1] eqn:E2.
  rewrite (H _ _ _ E2) by (intros ->; cbn in E1; congruence). destruct y; auto. now apply K.
Qed.
Lemma mle_seq {I} (d1 d2 : areader U -> res tag_error I * areader U) n : ale d1 d2 -> mle' (a_seq d1 n) (a_seq d2 n).
Proof.
  intros H. apply mle_limited, mle_bind; [apply mle_refl|]. intros _. apply mle_fuelled. intros f. now apply mle_while.
Qed.
Lemma mle_arr {I} (d1 d2 : areader U -> res tag_error I * areader U) n : ale d1 d2 -> mle' (a_arr M d1 n) (a_arr M d2 n).
Proof.
  intros H. apply mle_limited, mle_bind; [apply mle_refl|]. intros count. apply mle_bind; [apply mle_refl|]. intros _.
  apply mle_bind; [apply mle_refl|]. intros _. apply mle_bind; [|intros; apply mle_refl]. apply mle_fuelled. intros f. now apply mle_repeat.
Qed.
Lemma mle_dict {I} (d1 d2 : areader U -> res tag_error I * areader U) n : ale d1 d2 -> mle' (a_dict M d1 n) (a_dict M d2 n).
Proof.
  intros H. apply mle_limited, mle_bind; [apply mle_refl|]. intros count. apply mle_bind; [apply mle_refl|]. intros _.
  apply mle_bind; [|intros; apply mle_refl]. apply mle_fuelled. intros f. apply mle_repeat.
  apply ale_bind; [apply ale_refl|]. intros k. apply ale_bind; [exact H|]. intros; apply ale_refl.
Qed.
Lemma after_ale {E A B} (x : res E B) (f1 f2 : res E B -> areader U -> res tag_error A * areader U) r y r' :
  (forall x, ale (f1 x) (f2 x)) -> a_after x f1 r = (y, r') -> y <> OutOfFuel -> a_after x f2 r = (y, r').
Proof. intros H. destruct x; cbn [a_after]; auto; apply H. Qed.
Lemma ay_exec_ale {A} (d1 d2 : areader U -> res tag_error (otag T) * areader U) i1 i2 od1 od2 oi1 oi2 (p : yprog (otag T) A) :
  ale d1 d2 -> (forall t r x t' r', i1 r t = (x, t', r') -> x <> OutOfFuel -> i2 r t = (x, t', r')) ->
  rle True od1 od2 -> ile True oi1 oi2 -> ale (ay_exec M c d1 i1 od1 oi1 p) (ay_exec M c d2 i2 od2 oi2 p).
Proof.
  intros Hd Hi Hod Hoi.
  induction p as [A a0|A|A k IH|A old k IH|A n k IH|A n k IH|A k IH|A B n body IHb k IH|A t k IH|A q k IH|A q t k IH];
    intros r y r' E1 N; cbn [ay_exec] in *; try exact E1.
  - destruct (a_read M r) as [x r1]. revert E1 N. now apply after_ale.
  - destruct (a_read_all M (u8s old) r) as [[x b] r1]. revert E1 N. now apply after_ale.
  - destruct (a_skip M n r) as [x r1]. revert E1 N. now apply after_ale.
  - destruct (a_skip_u64 M c n r) as [x r1]. revert E1 N. now apply after_ale.
  - destruct (d1 r) as [x r1] eqn:E. rewrite (Hd _ _ _ E) by (intros ->; cbn in E1; congruence). revert E1 N. now apply after_ale.
  - destruct (ay_exec M c d1 i1 od1 oi1 body (ALimited r n)) as [x lr] eqn:E.
    rewrite (IHb _ _ _ E) by (intros ->; congruence). destruct x; auto. destruct lr; auto. now apply IH.
  - destruct (i1 r t) as [[x t'] r1] eqn:E. rewrite (Hi _ _ _ _ _ E) by (intros ->; cbn in E1; congruence). revert E1 N. now apply after_ale.
  - specialize (Hod q). destruct (od1 q) as [x q']. cbn [fst] in Hod. rewrite Hod by (destruct x; cbn in E1 |- *; auto; congruence).
    revert E1 N. now apply after_ale.
  - specialize (Hoi q t). destruct (oi1 q t) as [[x t'] q']. cbn [fst] in Hoi. rewrite Hoi by (destruct x; cbn in E1 |- *; auto; congruence).
    revert E1 N. now apply after_ale.
Qed.
Lemma av_value_le (u1 u2 : N -> @amethod U T unit) (d1 d2 : areader U -> res tag_error (otag T) * areader U) n :
  (forall n, mle' (u1 n) (u2 n)) -> ale d1 d2 -> ole (av_value_into D (av_value M u1 d1) n) (av_value_into D (av_value M u2 d2) n).
Proof.
  intros Hu Hd t r x t' r' E N. unfold av_value_into in *.
  destruct (av_value M u1 d1 t n (ALimited r n)) as [[y t1] lr] eqn:E1.
  assert (K : y <> OutOfFuel -> av_value M u2 d2 t n (ALimited r n) = (y, t1, lr)).
  { intros Ny. assert (R : forall S (m1 m2 : @amethod U S unit) s (mk : S -> otag T), mle' m1 m2 ->
      ao_run m1 s mk (ALimited r n) = (y, t1, lr) -> ao_run m2 s mk (ALimited r n) = (y, t1, lr)).
    { intros S m1 m2 s mk H. unfold ao_run. destruct (m1 (s, ALimited r n)) as [z [s1 r1]] eqn:Em. intros Ez.
      rewrite (H _ _ _ _ Em) by (intros ->; congruence). exact Ez. }
    destruct t as [id v|x0|id l|id l|id l]; cbn [av_value] in *; [exact E1|..]; (eapply R; [|exact E1]); [apply Hu|now apply mle_seq|now apply mle_arr|now apply mle_dict]. }
  rewrite K; [exact E|]. intros ->. congruence.
Qed.
Lemma ay_fuel_mono f : forall g, (f <= g)%nat ->
  ale (ay_deserialize M c D Y e f) (ay_deserialize M c D Y e g) /\
  (forall t r x t' r', ay_deserialize_into M c D Y e f r t = (x, t', r') -> x <> OutOfFuel -> ay_deserialize_into M c D Y e g r t = (x, t', r')).
Proof.
  unfold ay_deserialize, ay_deserialize_into. induction f as [|f IH]; intros g L.
  - split; [intros r x r' [= <- _] N; now elim N|intros t r x t' r' [= <- _ _] N; now elim N].
  - destruct g as [|g]; [lia|]. destruct (IH g ltac:(lia)) as [H1 H2]. cbn [ay_fuel fst snd].
    set (u1 := ay_user M c (fst (ay_fuel M c D Y e f)) (snd (ay_fuel M c D Y e f)) (y_deserialize c D Y e f) (y_deserialize_into c D Y e f) Y).
    set (u2 := ay_user M c (fst (ay_fuel M c D Y e g)) (snd (ay_fuel M c D Y e g)) (y_deserialize c D Y e g) (y_deserialize_into c D Y e g) Y).
    assert (Hu : forall n, mle' (u1 n) (u2 n)).
    { intros n s r x s' E N. unfold u1, u2, ay_user in *. destruct (y_mono c D e True Y f g ltac:(lia)) as [K1 K2].
      destruct (ay_exec M c (fst (ay_fuel M c D Y e f)) (snd (ay_fuel M c D Y e f)) (y_deserialize c D Y e f) (y_deserialize_into c D Y e f) (Y n s) r) as [y r1] eqn:Ee.
      rewrite (ay_exec_ale _ _ _ _ (y_deserialize c D Y e f) (y_deserialize c D Y e g) (y_deserialize_into c D Y e f) (y_deserialize_into c D Y e g) (Y n s) H1 H2 K1 K2 _ _ _ Ee) by (intros ->; congruence). exact E. }
    assert (Hv : forall n, ole (av_value_into D (av_value M u1 (fst (ay_fuel M c D Y e f))) n) (av_value_into D (av_value M u2 (fst (ay_fuel M c D Y e g))) n)).
    { intros n. now apply av_value_le. }
    split.
    + unfold av_step. apply ale_bind; [apply ale_refl|]. intros id. apply ale_bind; [apply ale_refl|]. intros n. apply ale_bind; [apply ale_refl|].
      intros [t|]; [|apply ale_refl]. intros r x r' E N. destruct (av_value_into D (av_value M u1 (fst (ay_fuel M c D Y e f))) n t r) as [[y t'] r1] eqn:Ev.
      rewrite (Hv n _ _ _ _ _ Ev) by (intros ->; cbn in E; congruence). exact E.
    + intros t r x t' r' E N. unfold av_into in *. destruct (a_ilint M r) as [[id|err| |] r1]; try exact E. destruct (negb _); [exact E|].
      destruct (a_tag_size M id r1) as [[n|err| |] r2]; try exact E. now apply (Hv n).
Qed.
End Deeper.

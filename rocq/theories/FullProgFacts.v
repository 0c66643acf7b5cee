(** Facts about the programs that make every call. *)
From Verif Require Import Base BaseFacts Types Spec SpecFacts IO IOSpec IOFacts Logic HistFacts ILInt ILIntFacts Data DataFacts Tags
  Factory FactoryFacts DecodeFacts DeserFacts EngineFacts ClosedFacts Open KinFacts OpenFacts POpen Prog ProgFacts IntoProg IntoProgFacts
  IntoCallFacts PIntoProg OtherProg OtherProgFacts FullProg.

(** ** What [i1] answers [i2] answers too *)
Definition ile (pan : Prop) {I} (i1 i2 : reader -> I -> res tag_error unit * I * reader) : Prop :=
  forall r t, okres pan (fst (fst (i1 r t))) -> i2 r t = i1 r t.
Lemma ile_refl pan {I} (i : reader -> I -> res tag_error unit * I * reader) : ile pan i i.
Proof. intros r t _. reflexivity. Qed.
Lemma ile_trans pan {I} (i1 i2 i3 : reader -> I -> res tag_error unit * I * reader) : ile pan i1 i2 -> ile pan i2 i3 -> ile pan i1 i3.
Proof. intros H K r t Q. rewrite <- (H r t Q) in Q |- *. now apply K. Qed.
(** The two methods of a factory together. *)
Definition ble (pan : Prop) {I} (b1 b2 : (reader -> res tag_error I * reader) * (reader -> I -> res tag_error unit * I * reader)) : Prop :=
  rle pan (fst b1) (fst b2) /\ ile pan (snd b1) (snd b2).
Lemma ble_trans pan {I} (b1 b2 b3 : (reader -> res tag_error I * reader) * (reader -> I -> res tag_error unit * I * reader)) :
  ble pan b1 b2 -> ble pan b2 b3 -> ble pan b1 b3.
Proof. intros [H1 H2] [K1 K2]. split; [eapply rle_trans|eapply ile_trans]; eauto. Qed.
Section Step.
Context (pan : Prop) {T : Type} (U1 U2 : user_impl T) (e : engine) (d1 d2 : reader -> res tag_error (otag T) * reader).
Hypothesis Hid : forall x, u_id U1 x = u_id U2 x.
Hypothesis Hcr : forall id, u_create U1 id = u_create U2 id.
Hypothesis Hd : rle pan d1 d2.
Hypothesis Hu : forall n, mle pan (u_deserialize_value U1 d1 n) (u_deserialize_value U2 d2 n).
Lemma value_into_le n t r : okres pan (fst (fst (o_value_into U1 d1 n t r))) -> o_value_into U2 d2 n t r = o_value_into U1 d1 n t r.
Proof.
  unfold o_value_into, LimitedReader_new. pose proof (o_value_le pan U1 U2 d1 d2 t n (RLimited r n) Hd (Hu n)) as K.
  destruct (o_deserialize_value U1 d1 t n (RLimited r n)) as [[x t'] lr]. cbn [fst] in *. intros Q.
  rewrite K by (destruct x; exact Q || exact I).
  replace (o_id U1 t') with (o_id U2 t') by (destruct t'; cbn [o_id]; auto). reflexivity.
Qed.
Lemma step_le : rle pan (step_with e U1 d1) (step_with e U2 d2).
Proof.
  unfold step_with. apply rle_bind; [apply rle_refl|]. intros id. apply rle_bind; [apply rle_refl|]. intros n.
  assert (Ec : o_create U2 e id = o_create U1 e id) by (unfold o_create; now rewrite Hcr).
  rewrite Ec. apply rle_bind; [apply rle_refl|]. intros [t|]; [|apply rle_refl]. intros r.
  pose proof (value_into_le n t r) as K. destruct (o_value_into U1 d1 n t r) as [[x t'] r']. cbn [fst] in *. intros Q.
  rewrite K by (destruct x; exact Q || exact I). reflexivity.
Qed.
Lemma into_le : ile pan (into_with U1 d1) (into_with U2 d2).
Proof.
  intros r t. unfold into_with. replace (o_id U2 t) with (o_id U1 t) by (destruct t; cbn [o_id]; auto).
  destruct (deserialize_ilint r) as [[id|err| |] r1]; try reflexivity. destruct (negb _); [reflexivity|].
  destruct (deserialize_tag_size id r1) as [[n|err| |] r2]; try reflexivity. apply value_into_le.
Qed.
End Step.

(** ** Programs *)
Lemma intoed_le pan {I B} (i1 i2 : reader -> I -> res tag_error unit * I * reader)
    (g1 g2 : I -> res tag_error unit -> reader -> res tag_error B * reader) :
  ile pan i1 i2 -> (forall t x, rle pan (g1 t x) (g2 t x)) -> forall r t,
  okres pan (fst (let '(x, t', r') := i1 r t in after x (g1 t') r')) ->
  (let '(x, t', r') := i2 r t in after x (g2 t') r') = (let '(x, t', r') := i1 r t in after x (g1 t') r').
Proof.
  intros H Hg r t. pose proof (H r t) as K. destruct (i1 r t) as [[x t'] r']. cbn [fst] in K. intros Q.
  assert (Qx : okres pan x) by (destruct x; cbn [after] in Q; exact Q || exact Logic.I).
  rewrite (K Qx). apply (after_le pan); auto.
Qed.
Lemma into_called_le pan {I B} (i1 i2 : reader -> I -> res tag_error unit * I * reader)
    (g1 g2 : I -> reader -> res tag_error unit -> reader -> res tag_error B * reader) :
  ile pan i1 i2 -> (forall t q x, rle pan (g1 t q x) (g2 t q x)) -> forall q t r,
  okres pan (fst (let '(x, t', q') := i1 q t in after x (g1 t' q') r)) ->
  (let '(x, t', q') := i2 q t in after x (g2 t' q') r) = (let '(x, t', q') := i1 q t in after x (g1 t' q') r).
Proof.
  intros H Hg q t r. pose proof (H q t) as K. destruct (i1 q t) as [[x t'] q']. cbn [fst] in K. intros Q.
  assert (Qx : okres pan x) by (destruct x; cbn [after] in Q; exact Q || exact Logic.I).
  rewrite (K Qx). apply (after_le pan); auto.
Qed.
Lemma yexec_le pan {I A} c d1 d2 i1 i2 (p : yprog I A) : rle pan d1 d2 -> ile pan i1 i2 -> rle pan (yexec c d1 i1 p) (yexec c d2 i2 p).
Proof.
  intros H Hi. induction p as [A a|A|A k IH|A old k IH|A n k IH|A n k IH|A k IH|A B n body IHb k IH|A t k IH|A q k IH|A q t k IH];
    intros r; cbn [yexec]; try reflexivity.
  - destruct (read r) as [x r1]. now apply after_le.
  - destruct (read_all (lenN old) r) as [[x g] r1]. apply after_le. auto.
  - destruct (skip c n r) as [x r1]. now apply after_le.
  - destruct (skip_u64 c n r) as [x r1]. now apply after_le.
  - apply (tagged_le pan d1 d2 _ _ H). auto.
  - apply limited_le; auto.
  - apply (intoed_le pan i1 i2 (fun t' x => yexec c d1 i1 (k x t')) (fun t' x => yexec c d2 i2 (k x t')) Hi). auto.
  - apply (called_le pan d1 d2 (fun q' x => yexec c d1 i1 (k x q')) (fun q' x => yexec c d2 i2 (k x q')) H). auto.
  - apply (into_called_le pan i1 i2 (fun t' q' x => yexec c d1 i1 (k x t' q')) (fun t' q' x => yexec c d2 i2 (k x t' q')) Hi). auto.
Qed.
Lemma iexec_le pan {I A} c d1 d2 i1 i2 (p : iprog I A) : rle pan d1 d2 -> ile pan i1 i2 -> rle pan (iexec c d1 i1 p) (iexec c d2 i2 p).
Proof.
  intros H Hi. induction p as [A a|A|A k IH|A old k IH|A n k IH|A n k IH|A k IH|A B n body IHb k IH|A t k IH];
    intros r; cbn [iexec]; try reflexivity.
  - destruct (read r) as [x r1]. now apply after_le.
  - destruct (read_all (lenN old) r) as [[x g] r1]. apply after_le. auto.
  - destruct (skip c n r) as [x r1]. now apply after_le.
  - destruct (skip_u64 c n r) as [x r1]. now apply after_le.
  - apply (tagged_le pan d1 d2 _ _ H). auto.
  - apply limited_le; auto.
  - apply (intoed_le pan i1 i2 (fun t' x => iexec c d1 i1 (k x t')) (fun t' x => iexec c d2 i2 (k x t')) Hi). auto.
Qed.
(** The program that has its answers filled in, from a factory that knows them. *)
Lemma ysettle_le pan {I A} c d1 d2 i1 i2 D DI (p : yprog I A) :
  rle pan d1 d2 -> ile pan i1 i2 -> rle pan d1 D -> ile pan i1 DI -> rle pan (yexec c d1 i1 p) (iexec c d2 i2 (ysettle D DI p)).
Proof.
  intros H Hi HD HDI. induction p as [A a|A|A k IH|A old k IH|A n k IH|A n k IH|A k IH|A B n body IHb k IH|A t k IH|A q k IH|A q t k IH];
    intros r; cbn [yexec ysettle iexec]; try reflexivity.
  - destruct (read r) as [x r1]. apply after_le. intros x0. apply IH.
  - destruct (read_all (lenN old) r) as [[x g] r1]. apply after_le. intros x0. apply IH.
  - destruct (skip c n r) as [x r1]. apply after_le. intros x0. apply IH.
  - destruct (skip_u64 c n r) as [x r1]. apply after_le. intros x0. apply IH.
  - apply (tagged_le pan d1 d2 _ _ H). intros x. apply IH.
  - apply limited_le; [apply IHb|]. intros b j. apply IH.
  - apply (intoed_le pan i1 i2 (fun t' x => yexec c d1 i1 (k x t')) (fun t' x => iexec c d2 i2 (ysettle D DI (k x t'))) Hi). auto.
  - pose proof (HD q) as K. destruct (d1 q) as [x q']. cbn [fst] in K. intros Q.
    assert (Qx : okres pan x) by (destruct x; cbn [after] in Q; exact Q || exact Logic.I).
    rewrite (K Qx). destruct x as [t|err| |]; cbn [after] in *; try (now apply IH); [reflexivity|contradiction].
  - pose proof (HDI q t) as K. destruct (i1 q t) as [[x t'] q']. cbn [fst] in K. intros Q.
    assert (Qx : okres pan x) by (destruct x; cbn [after] in Q; exact Q || exact Logic.I).
    rewrite (K Qx). destruct x as [u|err| |]; cbn [after] in *; try (now apply IH); [reflexivity|contradiction].
Qed.
Lemma yunsettle_le {I A} c d1 d2 i1 i2 D DI (p : yprog I A) :
  rle False d1 d2 -> ile False i1 i2 -> rle False D d2 -> ile False DI i2 -> rle False (iexec c d1 i1 (ysettle D DI p)) (yexec c d2 i2 p).
Proof.
  intros H Hi HD HDI. induction p as [A a|A|A k IH|A old k IH|A n k IH|A n k IH|A k IH|A B n body IHb k IH|A t k IH|A q k IH|A q t k IH];
    intros r; cbn [yexec ysettle iexec]; try reflexivity.
  - destruct (read r) as [x r1]. apply after_le. intros x0. apply IH.
  - destruct (read_all (lenN old) r) as [[x g] r1]. apply after_le. intros x0. apply IH.
  - destruct (skip c n r) as [x r1]. apply after_le. intros x0. apply IH.
  - destruct (skip_u64 c n r) as [x r1]. apply after_le. intros x0. apply IH.
  - apply (tagged_le False d1 d2 _ _ H). intros x. apply IH.
  - apply limited_le; [apply IHb|]. intros b j. apply IH.
  - apply (intoed_le False i1 i2 (fun t' x => iexec c d1 i1 (ysettle D DI (k x t'))) (fun t' x => yexec c d2 i2 (k x t')) Hi). auto.
  - pose proof (HD q) as K. destruct (D q) as [x q']. cbn [fst] in K. intros Q.
    destruct x as [t|err| |]; try contradiction; rewrite (K Logic.I); cbn [after]; now apply IH.
  - pose proof (HDI q t) as K. destruct (DI q t) as [[x t'] q']. cbn [fst] in K. intros Q.
    destruct x as [u|err| |]; try contradiction; rewrite (K Logic.I); cbn [after]; now apply IH.
Qed.
(** A method from the run of a program, as [irun] and [yrun] make it. *)
Lemma run_le pan {T} (m1 m2 : T -> reader -> res tag_error (option tag_error * T) * reader) :
  (forall x, rle pan (m1 x) (m2 x)) ->
  let go (m : T -> reader -> res tag_error (option tag_error * T) * reader) : method T unit := fun st =>
    let '(x, r) := st in
    match m x r with
    | (Ok (None, x'), r') => (Ok tt, (x', r'))
    | (Ok (Some e, x'), r') => (Err e, (x', r'))
    | (Err e, r') => (Err e, (x, r'))
    | (Panic, r') => (Panic, (x, r'))
    | (OutOfFuel, r') => (OutOfFuel, (x, r'))
    end in
  mle pan (go m1) (go m2).
Proof.
  intros H go s r. unfold go. pose proof (H s r) as K. destruct (m1 s r) as [y r1]. cbn [fst] in K. intros Q.
  rewrite K; [reflexivity|]. destruct y as [[[?|] ?]|?| |]; exact Q || exact I.
Qed.

(** ** Bounds on the depth *)
Section Depth.
Context {T : Type} (c : cfg) (U : user_impl T) (e : engine).
Lemma y_mono pan Y f : forall g, (f <= g)%nat -> ble pan (y_fuel c U Y e f) (y_fuel c U Y e g).
Proof.
  induction f as [|f IH]; intros g L; [split; [intros r []|intros r t []]|]. destruct g as [|g]; [lia|].
  destruct (IH g ltac:(lia)) as [H Hi].
  assert (Hu : forall n, mle pan (yrun c (fst (y_fuel c U Y e f)) (snd (y_fuel c U Y e f)) Y n) (yrun c (fst (y_fuel c U Y e g)) (snd (y_fuel c U Y e g)) Y n)).
  { intros n. apply (run_le pan (fun x => yexec c _ _ (Y n x)) (fun x => yexec c _ _ (Y n x))). intros x. now apply yexec_le. }
  cbn [y_fuel]. split; [apply step_le|apply into_le]; auto.
Qed.
Lemma i_mono pan X f : forall g, (f <= g)%nat -> ble pan (i_fuel c U X e f) (i_fuel c U X e g).
Proof.
  induction f as [|f IH]; intros g L; [split; [intros r []|intros r t []]|]. destruct g as [|g]; [lia|].
  destruct (IH g ltac:(lia)) as [H Hi].
  assert (Hu : forall n, mle pan (irun c (fst (i_fuel c U X e f)) (snd (i_fuel c U X e f)) X n) (irun c (fst (i_fuel c U X e g)) (snd (i_fuel c U X e g)) X n)).
  { intros n. apply (run_le pan (fun x => iexec c _ _ (X n x)) (fun x => iexec c _ _ (X n x))). intros x. now apply iexec_le. }
  cbn [i_fuel]. split; [apply step_le|apply into_le]; auto.
Qed.
Lemma y_settled pan Y D DI F : ble pan (y_fuel c U Y e F) (D, DI) -> forall f, (f <= S F)%nat ->
  ble pan (y_fuel c U Y e f) (i_fuel c U (ysettled D DI Y) e f).
Proof.
  intros HD. induction f as [|f IH]; intros L; [split; [intros r []|intros r t []]|].
  destruct (IH ltac:(lia)) as [H Hi]. destruct (ble_trans pan _ _ _ (y_mono pan Y f F ltac:(lia)) HD) as [Ha Hb]. cbn [fst snd] in Ha, Hb.
  assert (Hu : forall n, mle pan (yrun c (fst (y_fuel c U Y e f)) (snd (y_fuel c U Y e f)) Y n)
     (irun c (fst (i_fuel c U (ysettled D DI Y) e f)) (snd (i_fuel c U (ysettled D DI Y) e f)) (ysettled D DI Y) n)).
  { intros n. apply (run_le pan (fun x => yexec c _ _ (Y n x)) (fun x => iexec c _ _ (ysettled D DI Y n x))). intros x. now apply ysettle_le. }
  cbn [y_fuel i_fuel]. split; [apply step_le|apply into_le]; auto.
Qed.
Lemma y_unsettled Y F : forall f, ble False (i_fuel c U (ysettled (y_deserialize c U Y e F) (y_deserialize_into c U Y e F) Y) e f) (y_fuel c U Y e (f + F)).
Proof.
  set (X := ysettled _ _ Y). induction f as [|f [H Hi]]; [split; [intros r []|intros r t []]|]. cbn [Nat.add].
  destruct (y_mono False Y F (f + F)%nat ltac:(lia)) as [Ha Hb].
  assert (Hu : forall n, mle False (irun c (fst (i_fuel c U X e f)) (snd (i_fuel c U X e f)) X n)
     (yrun c (fst (y_fuel c U Y e (f + F))) (snd (y_fuel c U Y e (f + F))) Y n)).
  { intros n. apply (run_le False (fun x => iexec c _ _ (X n x)) (fun x => yexec c _ _ (Y n x))). intros x. now apply yunsettle_le. }
  cbn [y_fuel i_fuel]. split; [apply step_le|apply into_le]; auto.
Qed.
(** The bound of i_deserialize is deep enough for programs with no calls on other
    readers. *)
Lemma i_enough X f r : 1 <= usize_max c -> (forall n x, aims (X n x)) -> engine_bytes e -> rwf r ->
  (forall x r', fst (i_fuel c U X e f) r = (x, r') -> x <> OutOfFuel -> i_deserialize c U X e r = (x, r')) /\
  (forall t x t' r', leaf_tag t -> snd (i_fuel c U X e f) r t = (x, t', r') -> x <> OutOfFuel -> i_deserialize_into c U X e r t = (x, t', r')).
Proof.
  intros Hc Ha Hb W. unfold i_deserialize, i_deserialize_into.
  destruct (i_fuel_unrolled c U X e Hc Ha Hb (S (left r))) as [K1 K2].
  destruct (Nat.lt_ge_cases (left r) f) as [L|L].
  - destruct (i_fuel_unrolled c U X e Hc Ha Hb f) as [H1 H2]. split.
    + intros x r' E _. rewrite (H1 r W L) in E. rewrite K1; auto.
    + intros t x t' r' Ht E _. rewrite (H2 r t Ht W L) in E. rewrite K2; auto.
  - destruct (i_mono True X f (S (left r)) ltac:(lia)) as [H1 H2]. split.
    + intros x r' E N. rewrite <- E. apply H1. rewrite E. destruct x; cbn; auto.
    + intros t x t' r' Ht E N. rewrite <- E. apply H2. rewrite E. destruct x; cbn; auto.
Qed.
End Depth.

(** ** What is asked of the programs *)
Section Manners.
Context {T : Type} (D : reader -> res tag_error (otag T) * reader) (DI : reader -> otag T -> res tag_error unit * otag T * reader).
(** The answers leave the readers and the objects as they should be. *)
Definition keeps : Prop :=
  (forall q x q', rwf q -> D q = (x, q') -> returns x -> rwf q' /\ forall t, x = Ok t -> target t) /\
  (forall q t x t' q', rwf q -> target t -> DI q t = (x, t', q') -> returns x -> rwf q' /\ target t').
Lemma ysettle_aims A (p : yprog (otag T) A) : keeps -> yaims p -> aims (ysettle D DI p).
Proof.
  intros [HD HDI]. induction p as [A a|A|A k IH|A old k IH|A n k IH|A n k IH|A k IH|A B n body IHb k IH|A t k IH|A q k IH|A q t k IH];
    cbn [yaims ysettle aims]; auto.
  - intros [Hb Hk]. auto.
  - intros [Ht Hk]. auto.
  - intros [Wq Hk]. destruct (D q) as [x q'] eqn:E. pose proof (HD q x q' Wq E) as K.
    destruct x; try exact Logic.I; destruct (K Logic.I) as [W' Ht]; apply IH, Hk; auto.
  - intros (Wq & Ht & Hk). destruct (DI q t) as [[x t'] q'] eqn:E. pose proof (HDI q t x t' q' Wq Ht E) as K.
    destruct x; try exact Logic.I; destruct (K Logic.I) as [W' Ht']; apply IH, Hk; auto.
Qed.
Lemma ysettle_ends A (p : yprog (otag T) A) : forall F, yends_in p F -> iends_in (ysettle D DI p) F.
Proof.
  induction p as [A a|A|A k IH|A old k IH|A n k IH|A n k IH|A k IH|A B n body IHb k IH|A t k IH|A q k IH|A q t k IH];
    intros F; cbn [yends_in ysettle iends_in]; auto; intros H.
  - destruct (D q) as [x q']. destruct x; try exact Logic.I; apply IH, H; exact Logic.I.
  - destruct (DI q t) as [[x t'] q']. destruct x; try exact Logic.I; apply IH, H; exact Logic.I.
Qed.
Lemma ysettle_strict A (p : yprog (otag T) A) : forall F, ystrict p F -> istrict (ysettle D DI p) F.
Proof.
  induction p as [A a|A|A k IH|A old k IH|A n k IH|A n k IH|A k IH|A B n body IHb k IH|A t k IH|A q k IH|A q t k IH];
    intros F; cbn [ystrict ysettle istrict]; auto.
  - intros [H K]. split; auto using ysettle_ends.
  - intros [H K]. split; auto using ysettle_ends.
  - intros [H K]. split; auto using ysettle_ends.
  - intros [H K]. split; auto using ysettle_ends.
  - intros [H K]. split; auto using ysettle_ends.
  - intros (G & H & K & L). exists G. repeat split; auto using ysettle_ends.
  - intros [H K]. split; auto using ysettle_ends.
  - intros H. destruct (D q) as [x q']. destruct x; try exact Logic.I; apply IH, H; exact Logic.I.
  - intros H. destruct (DI q t) as [[x t'] q']. destruct x; try exact Logic.I; apply IH, H; exact Logic.I.
Qed.
End Manners.

(** ** Readers stay of a kind *)
Definition Ikin {I} (i : reader -> I -> res tag_error unit * I * reader) : Prop := forall r t x t' r', i r t = (x, t', r') -> kin r r'.
Lemma yexec_kin {I A} c d i (p : yprog I A) : Rkin _ _ d -> Ikin i -> Rkin _ _ (yexec c d i p).
Proof.
  intros Kd Ki.
  assert (Step : forall A E B (x : res E B) (go : res E B -> reader -> res tag_error A * reader) r r1 y r', kin r r1 ->
    (forall x, Rkin _ _ (go x)) -> after x go r1 = (y, r') -> kin r r').
  { intros A0 E B x go r r1 y r' K Hgo H. apply after_inv in H as [(_ & _ & ->)|[(_ & _ & ->)|[_ H]]]; auto.
    apply Hgo in H. eapply kin_trans; eauto. }
  induction p as [A a|A|A k IH|A old k IH|A n k IH|A n k IH|A k IH|A B n body IHb k IH|A t k IH|A q k IH|A q t k IH]; intros r y r'; cbn [yexec].
  - intros [= _ <-]. apply kin_refl.
  - intros [= _ <-]. apply kin_refl.
  - destruct (read r) as [x r1] eqn:E. apply kin_read in E. now apply Step.
  - destruct (read_all (lenN old) r) as [[x g] r1] eqn:E. apply kin_read_all in E. apply Step; auto.
  - destruct (skip c n r) as [x r1] eqn:E. apply kin_skip in E. now apply Step.
  - destruct (skip_u64 c n r) as [x r1] eqn:E. apply kin_skip_u64 in E. now apply Step.
  - destruct (d r) as [x r1] eqn:E. apply Kd in E. now apply Step.
  - unfold LimitedReader_new. destruct (yexec c d i body (RLimited r n)) as [x lr] eqn:E.
    apply IHb in E. apply kin_limited in E as (r1 & n1 & -> & K). cbn [unlimit].
    destruct x; try (intros [= _ <-]; exact K). intros H. apply IH in H. eapply kin_trans; eauto.
  - destruct (i r t) as [[x t'] r1] eqn:E. apply Ki in E. apply Step; auto.
  - destruct (d q) as [x q']. apply Step; [apply kin_refl|]. auto.
  - destruct (i q t) as [[x t'] q']. apply Step; [apply kin_refl|]. auto.
Qed.
Lemma yrun_kin {T} c d i (Y : yscript T) n : Rkin _ _ d -> Ikin i -> Mkin _ _ (yrun c d i Y n).
Proof.
  intros Kd Ki s r x s' r'. cbn [yrun]. destruct (yexec c d i (Y n s) r) as [y r1] eqn:E.
  apply (yexec_kin _ _ _ _ Kd Ki) in E. destruct y as [[[e|] x1]|e| |]; intros [= _ _ <-]; exact E.
Qed.
Section Kin.
Context {T : Type} (V : user_impl T) (e : engine) (d : reader -> res tag_error (otag T) * reader).
Hypothesis Kd : Rkin _ _ d.
Hypothesis Ku : forall d n, Rkin _ _ d -> Mkin _ _ (u_deserialize_value V d n).
Lemma value_into_kin n t r x t' r' : o_value_into V d n t r = (x, t', r') -> kin r r'.
Proof.
  intros E. apply (co_into _ _ closed_kin V Ku d Kd n t r (map_ok (fun _ => t') x) r'). now rewrite E.
Qed.
Lemma step_kin : Rkin _ _ (step_with e V d).
Proof.
  unfold step_with. apply (c_bind _ _ closed_kin); [apply (cl_ilint _ _ closed_kin)|]. intros id.
  apply (c_bind _ _ closed_kin); [apply (cl_tag_size _ _ closed_kin)|]. intros n r x r'. unfold bind.
  destruct (o_create V e id) as [[t|]| | |]; try (intros [= _ <-]; apply kin_refl).
  destruct (o_value_into V d n t r) as [[y t'] r1] eqn:E. intros [= _ <-]. eapply value_into_kin; eauto.
Qed.
Lemma into_with_kin : Ikin (into_with V d).
Proof.
  intros r t x t' r'. unfold into_with. destruct (deserialize_ilint r) as [y r1] eqn:E1.
  assert (K1 : kin r r1) by (eapply (cl_ilint _ _ closed_kin); exact E1).
  destruct y as [id|err| |]; try (intros [= _ _ <-]; exact K1). destruct (negb _); [intros [= _ _ <-]; exact K1|].
  destruct (deserialize_tag_size id r1) as [y r2] eqn:E2.
  assert (K2 : kin r1 r2) by (eapply (cl_tag_size _ _ closed_kin); exact E2). pose proof (kin_trans _ _ _ K1 K2) as K.
  destruct y as [n|err| |]; try (intros [= _ _ <-]; exact K). intros H. apply value_into_kin in H. eapply kin_trans; eauto.
Qed.
End Kin.

(** ** Safety *)
(** The methods of a factory, on readers with as much to read as [small] allows. *)
Section Good.
Context (pan : Prop) (small : nat -> Prop) {T : Type}.
Definition good_deser (d : reader -> res tag_error (otag T) * reader) : Prop :=
  forall r x r', rwf r -> small (left r) -> d r = (x, r') ->
    okres pan x /\ rwf r' /\ (left r' <= left r)%nat /\ (forall t, x = Ok t -> (left r' < left r)%nat /\ target t).
Definition good_into (i : reader -> otag T -> res tag_error unit * otag T * reader) : Prop :=
  forall r t x t' r', rwf r -> small (left r) -> leaf_tag t -> i r t = (x, t', r') ->
    okres pan x /\ rwf r' /\ (left r' <= left r)%nat /\ (target t -> target t') /\ (x = Ok tt -> (left r' < left r)%nat).
End Good.
Section Safety.
Context (pan : Prop) (small : nat -> Prop).
Hypothesis Down : forall n m, (m <= n)%nat -> small n -> small m.
Context {T : Type} (c : cfg) (d : reader -> res tag_error (otag T) * reader) (i : reader -> otag T -> res tag_error unit * otag T * reader).
Hypothesis Hc : 1 <= usize_max c.
Hypothesis Sd : good_deser pan small d.
Hypothesis Si : good_into pan small i.
Hypothesis Kd : Rkin _ _ d.
Hypothesis Ki : Ikin i.
(** Anything goes, or the program is frugal. *)
Definition thrifty {A} (p : yprog (otag T) A) (m : nat) : Prop := (forall n, small n) \/ yfrugal 0 p m.
Lemma yexec_safe {A} (p : yprog (otag T) A) : (pan \/ ycalm p) -> yaims p ->
  forall m r x r', thrifty p m -> limited_reader r -> rwf r -> small (left r + m) -> yexec c d i p r = (x, r') ->
    okres pan x /\ rwf r' /\ (left r' <= left r)%nat /\ (forall e, x <> Err e).
Proof.
  unfold thrifty.
  induction p as [A a|A|A k IH|A old k IH|A n k IH|A n k IH|A k IH|A B n body IHb k IH|A t k IH|A q k IH|A q t k IH];
    intros Hp Ha m r y r' Fr Lr W L; cbn [yexec yfrugal yaims ycalm] in *.
  - intros [= <- <-]. cbn. repeat split; auto. discriminate.
  - intros [= <- <-]. cbn. repeat split; auto; [tauto|discriminate].
  - destruct (read r) as [x r1] eqn:E. destruct (read_wf _ _ _ W E) as (R1 & W1 & L1 & _).
    pose proof (kin_limited_reader _ _ (kin_read _ _ _ E) Lr) as Lr1.
    destruct x as [a|e| |]; try contradiction; cbn [after]; intros H.
    + pose proof (delivers_left _ _ _ (read_ok _ _ _ E)) as Ld. cbn [length] in Ld.
      apply (IH (Ok a)) with (m := S m) in H as (R & W' & L' & Q); auto; [repeat split; auto; lia|destruct Hp; auto|destruct Fr as [|[]]; auto|].
      eapply Down; [|exact L]; lia.
    + apply (IH (Err e)) with (m := m) in H as (R & W' & L' & Q); auto; [repeat split; auto; lia|destruct Hp; auto|destruct Fr as [|[]]; auto|].
      eapply Down; [|exact L]; lia.
  - destruct (read_all (lenN old) r) as [[x g] r1] eqn:E. destruct (read_all_wf _ _ _ _ _ W E) as (R1 & W1 & L1 & _).
    pose proof (kin_limited_reader _ _ (kin_read_all _ _ _ _ _ E) Lr) as Lr1.
    destruct x as [[]|e| |]; try contradiction; cbn [after]; intros H.
    + destruct (read_all_ok _ _ _ _ E) as [Lg D]. pose proof (delivers_left _ _ _ D) as Ld. rewrite (filled_all _ _ Lg) in H.
      unfold lenN in Lg. assert (Lg' : length g = length old) by lia.
      apply (IH (Ok tt) g) with (m := (length old + m)%nat) in H as (R & W' & L' & Q); auto; [repeat split; auto; lia|destruct Hp; auto|destruct Fr as [|[]]; auto|].
      eapply Down; [|exact L]; lia.
    + apply (IH (Err e)) with (m := m) in H as (R & W' & L' & Q); auto; [repeat split; auto; lia|destruct Hp; auto|destruct Fr as [|[]]; auto|].
      eapply Down; [|exact L]; lia.
  - assert (Ns : no_seek r) by (destruct r; cbn in *; auto).
    destruct (skip c n r) as [x r1] eqn:E. destruct (skip_safe _ _ _ _ _ W Ns E) as (R1 & W1 & L1).
    pose proof (kin_limited_reader _ _ (kin_skip _ _ _ _ _ E) Lr) as Lr1.
    destruct x as [[]|e| |]; try contradiction; cbn [after]; intros H.
    + destruct (skip_sound _ _ _ _ W Ns E) as (g & Lg & D). pose proof (delivers_left _ _ _ D) as Ld. unfold lenN in Lg.
      apply (IH (Ok tt)) with (m := (N.to_nat n + m)%nat) in H as (R & W' & L' & Q); auto; [repeat split; auto; lia|destruct Hp; auto|destruct Fr as [|[]]; auto|].
      eapply Down; [|exact L]; lia.
    + apply (IH (Err e)) with (m := m) in H as (R & W' & L' & Q); auto; [repeat split; auto; lia|destruct Hp; auto|destruct Fr as [|[]]; auto|].
      eapply Down; [|exact L]; lia.
  - assert (Ns : no_seek r) by (destruct r; cbn in *; auto).
    destruct (skip_u64 c n r) as [x r1] eqn:E. destruct (skip_u64_safe _ _ _ _ _ Hc W Ns E) as (R1 & W1 & L1).
    pose proof (kin_limited_reader _ _ (kin_skip_u64 _ _ _ _ _ E) Lr) as Lr1.
    destruct x as [[]|e| |]; try contradiction; cbn [after]; intros H.
    + destruct (skip_u64_sound _ _ _ _ W Ns E) as (g & Lg & D). pose proof (delivers_left _ _ _ D) as Ld. unfold lenN in Lg.
      apply (IH (Ok tt)) with (m := (N.to_nat n + m)%nat) in H as (R & W' & L' & Q); auto; [repeat split; auto; lia|destruct Hp; auto|destruct Fr as [|[]]; auto|].
      eapply Down; [|exact L]; lia.
    + apply (IH (Err e)) with (m := m) in H as (R & W' & L' & Q); auto; [repeat split; auto; lia|destruct Hp; auto|destruct Fr as [|[]]; auto|].
      eapply Down; [|exact L]; lia.
  - destruct (d r) as [x r1] eqn:E. destruct (Sd _ _ _ W (Down _ _ (Nat.le_add_r _ _) L) E) as (R1 & W1 & L1 & Q1).
    pose proof (kin_limited_reader _ _ (Kd _ _ _ E) Lr) as Lr1.
    destruct x as [a|e| |]; cbn [after]; intros H; try contradiction;
      try (injection H as <- <-; repeat split; auto; discriminate).
    + destruct (Q1 a eq_refl) as [Ld Ht].
      apply (IH (Ok a)) with (m := S m) in H as (R & W' & L' & Q); auto; [repeat split; auto; lia|destruct Hp; auto| |destruct Fr as [|[]]; auto|].
      * apply Ha. intros t [= <-]. exact Ht.
      * eapply Down; [|exact L]; lia.
    + apply (IH (Err e)) with (m := m) in H as (R & W' & L' & Q); auto; [repeat split; auto; lia|destruct Hp; auto| |destruct Fr as [|[]]; auto|].
      * apply Ha. discriminate.
      * eapply Down; [|exact L]; lia.
  - destruct Ha as [Hab Ha]. unfold LimitedReader_new. destruct (yexec c d i body (RLimited r n)) as [x lr] eqn:E.
    pose proof (yexec_kin _ _ _ _ Kd Ki _ _ _ E) as K. apply kin_limited in K as (r1 & n1 & -> & K).
    apply IHb with (m := m) in E as (R1 & W1 & L1 & Q1); cbn; auto; [|destruct Hp as [|[]]; auto|destruct Fr as [|[]]; auto].
    cbn [rwf left] in *. pose proof (kin_limited_reader _ _ K Lr) as Lr1.
    destruct x as [a|e| |]; cbn [unlimit]; intros H; try (now elim (Q1 e)); try contradiction;
      try (injection H as <- <-; repeat split; auto; discriminate).
    apply IH with (m := m) in H as (R & W' & L' & Q); auto; [repeat split; auto; lia|destruct Hp as [|[]]; auto|destruct Fr as [|[]]; auto|].
    eapply Down; [|exact L]; lia.
  - destruct Ha as [Ht Ha]. destruct (i r t) as [[x t'] r1] eqn:E.
    destruct (Si _ _ _ _ _ W (Down _ _ (Nat.le_add_r _ _) L) (target_leaf _ Ht) E) as (R1 & W1 & L1 & Q1 & P1). specialize (Q1 Ht).
    pose proof (kin_limited_reader _ _ (Ki _ _ _ _ _ E) Lr) as Lr1.
    destruct x as [[]|e| |]; cbn [after]; intros H; try contradiction;
      try (injection H as <- <-; repeat split; auto; discriminate).
    + specialize (P1 eq_refl).
      apply (IH (Ok tt) t') with (m := S m) in H as (R & W' & L' & Q); auto; [repeat split; auto; lia|destruct Hp; auto|destruct Fr as [|[]]; auto|].
      eapply Down; [|exact L]; lia.
    + apply (IH (Err e) t') with (m := m) in H as (R & W' & L' & Q); auto; [repeat split; auto; lia|destruct Hp; auto|destruct Fr as [|[]]; auto|].
      eapply Down; [|exact L]; lia.
  - destruct Ha as [Wq Ha].
    assert (Lq : small (left q)).
    { destruct Fr as [F|[F _]]; [apply F|]. eapply Down; [|exact L]. lia. }
    destruct (d q) as [x q'] eqn:E. destruct (Sd _ _ _ Wq Lq E) as (R1 & W1 & L1 & Q1).
    assert (Go : returns x -> yexec c d i (k x q') r = (y, r') ->
      okres pan y /\ rwf r' /\ (left r' <= left r)%nat /\ (forall e, y <> Err e)).
    { intros R H. apply (IH x q') with (m := m) in H; auto; [destruct Hp; auto| |destruct Fr as [|[]]; auto].
      apply Ha; auto. intros t E1. now apply Q1. }
    destruct x as [a|e| |]; cbn [after]; try (apply Go; exact Logic.I); try contradiction.
    intros [= <- <-]. repeat split; auto; discriminate.
  - destruct Ha as (Wq & Ht & Ha).
    assert (Lq : small (left q)).
    { destruct Fr as [F|[F _]]; [apply F|]. eapply Down; [|exact L]. lia. }
    destruct (i q t) as [[x t'] q'] eqn:E. destruct (Si _ _ _ _ _ Wq Lq (target_leaf _ Ht) E) as (R1 & W1 & L1 & Q1 & P1). specialize (Q1 Ht).
    assert (Go : returns x -> yexec c d i (k x t' q') r = (y, r') ->
      okres pan y /\ rwf r' /\ (left r' <= left r)%nat /\ (forall e, y <> Err e)).
    { intros R H. apply (IH x t' q') with (m := m) in H; auto; [destruct Hp; auto|destruct Fr as [|[]]; auto]. }
    destruct x as [a|e| |]; cbn [after]; try (apply Go; exact Logic.I); try contradiction.
    intros [= <- <-]. repeat split; auto; discriminate.
Qed.

Context (U : user_impl T) (Y : yscript T) (e : engine).
Hypothesis Hp : pan \/ forall n x, ycalm (Y n x).
Hypothesis Ha : forall n x, yaims (Y n x).
Hypothesis Hf : (forall n, small n) \/ forall n x, yfrugal 0 (Y n x) 0.
Hypothesis Hcr : forall id, okres pan (o_create (ycalled c U Y d i) e id).
Hypothesis He : engine_bytes e.
Notation V := (ycalled c U Y d i).
(** The user types, with an error for readers that are too big. *)
Definition fenced (b : nat) : user_impl T := {|
  u_id := u_id U; u_size := u_size U; u_serialize := u_serialize U; u_to_bytes := u_to_bytes U;
  u_deserialize_value := fun _ n st => if (left (snd st) <? b)%nat then yrun c d i Y n st else (Err CorruptedData, st);
  u_create := u_create U |}.
Lemma fenced_behaves b : (forall n, (n < b)%nat -> small n) -> behaves pan (fenced b).
Proof.
  intros Hb. split.
  - intros deser n _ s r x s' r'. cbn [u_deserialize_value fenced snd]. destruct (_ <? _)%nat; [now apply yrun_kin|].
    intros [= _ _ <-]. apply kin_refl.
  - intros b' deser n x r m y x' r' _ _ _ W _. cbn [u_deserialize_value fenced snd left].
    destruct (Nat.ltb_spec (left r) b) as [L|L]; [|intros [= <- _ <-]; cbn; auto]. cbn [yrun].
    destruct (yexec c d i (Y n x) (RLimited r m)) as [z r1] eqn:E.
    apply yexec_safe with (m := O) in E as (R & W' & L' & Q); cbn [limited_reader left rwf]; auto.
    + destruct z as [[[err|] x1]|err| |]; intros H; injection H as <- <- <-; cbn; auto.
    + destruct Hp; auto.
    + destruct Hf; [left|right]; auto.
    + rewrite Nat.add_0_r. auto.
Qed.
Lemma value_into_good n t r x t' r' : leaf_tag t -> rwf r -> small (left r) -> o_value_into V d n t r = (x, t', r') ->
  okres pan x /\ rwf r' /\ (left r' <= left r)%nat.
Proof.
  intros Ht W L. unfold o_value_into, LimitedReader_new.
  assert (Hb : forall n, (n < S (left r))%nat -> small n) by (intros k Lk; eapply Down; [|exact L]; lia).
  replace (o_deserialize_value V d t n (RLimited r n)) with (o_deserialize_value (fenced (S (left r))) d t n (RLimited r n)).
  2:{ destruct t as [id v|u|id l|id l|id l]; cbn [o_deserialize_value]; try reflexivity. unfold o_run.
      cbn [u_deserialize_value fenced ycalled snd left]. destruct (Nat.ltb_spec (left r) (S (left r))); [reflexivity|lia]. }
  destruct (o_deserialize_value (fenced (S (left r))) d t n (RLimited r n)) as [[y t1] lr] eqn:E.
  destruct (o_deserialize_value_safe (fenced (S (left r))) e pan (fenced_behaves _ Hb) Hcr (S (left r)) d t n r n y t1 lr) as (R & W' & L');
    auto; try lia.
  - intros q z q' Wq Lq Eq. destruct (Sd _ _ _ Wq (Hb _ Lq) Eq) as (R1 & W1 & L1 & _). auto.
  - intros q z q' Wq Lq Eq. destruct (Sd _ _ _ Wq (Hb _ Lq) Eq) as (_ & _ & _ & Q1). now destruct (Q1 z eq_refl).
  - intros H. injection H as <- <- <-. rewrite left_unlimit. split; [|split; [now apply rwf_unlimit|lia]].
    destruct y; auto. destruct (_ && _)%bool; exact Logic.I.
Qed.
(** One more level. *)
Lemma step_good (larger : nat -> Prop) : (forall n m, (m < n)%nat -> larger n -> small m) ->
  good_deser pan larger (step_with e V d) /\ good_into pan larger (into_with V d).
Proof.
  intros Up. split.
  - intros r x r' W L. unfold step_with, bind. destruct (deserialize_ilint r) as [y r1] eqn:E1.
    destruct (safe_deserialize_ilint _ _ _ W E1) as (R1 & W1 & L1).
    destruct y as [id|err| |]; try contradiction; [|intros [= <- <-]; cbn; repeat split; auto; discriminate].
    pose proof (progress_ilint _ _ _ W E1) as Lt.
    assert (Hi : id < two64) by (destruct (sound_deserialize_ilint _ _ _ W E1) as (bs & Hr & _); apply (ilint_repr_bound _ _ Hr)).
    destruct (deserialize_tag_size id r1) as [y r2] eqn:E2. destruct (safe_tag_size _ _ _ _ W1 E2) as (R2 & W2 & L2).
    destruct y as [n|err| |]; try contradiction; [|intros [= <- <-]; cbn; repeat split; auto; try lia; discriminate].
    pose proof (Hcr id) as Hw. destruct (o_create V e id) as [[t|]|err| |] eqn:Ec; try contradiction;
      try (intros [= <- <-]; cbn; repeat split; auto; try lia; discriminate).
    destruct (o_value_into V d n t r2) as [[y t'] r3] eqn:E3.
    assert (L3 : small (left r2)) by (eapply Up; [|exact L]; lia).
    destruct (value_into_good n t r2 y t' r3 (created_leafy _ _ _ _ Ec) W2 L3 E3) as (R & W' & L').
    intros H. injection H as <- <-. repeat split; auto; try lia; [destruct y; auto|].
    destruct y; try discriminate. cbn [map_ok] in H. injection H as <-.
    eapply value_into_target; [|exact W2|exact E3]. eapply create_target; eauto.
  - intros r t x t' r' W L Ht. unfold into_with. destruct (deserialize_ilint r) as [y r1] eqn:E1.
    destruct (safe_deserialize_ilint _ _ _ W E1) as (R1 & W1 & L1).
    destruct y as [id|err| |]; try contradiction; [|intros [= <- <- <-]; cbn; repeat split; auto; discriminate].
    pose proof (progress_ilint _ _ _ W E1) as Lt.
    destruct (negb _); [intros [= <- <- <-]; cbn; repeat split; auto; discriminate|].
    destruct (deserialize_tag_size id r1) as [y r2] eqn:E2. destruct (safe_tag_size _ _ _ _ W1 E2) as (R2 & W2 & L2).
    destruct y as [n|err| |]; try contradiction; [|intros [= <- <- <-]; cbn; repeat split; auto; try lia; discriminate].
    assert (L3 : small (left r2)) by (eapply Up; [|exact L]; lia).
    intros E3. destruct (value_into_good n t r2 x t' r' Ht W2 L3 E3) as (R & W' & L').
    repeat split; auto; try lia. intros Htt. eapply value_into_target; [exact Htt|exact W2|exact E3].
Qed.
End Safety.

(** A factory that gives up, with an error, where the other one has no answer. *)
Section Capped.
Context {T : Type} (c : cfg) (U : user_impl T) (Y : yscript T) (e : engine).
Fixpoint y_capped (fuel : nat)
  : (reader -> res tag_error (otag T) * reader) * (reader -> otag T -> res tag_error unit * otag T * reader) :=
  match fuel with
  | O => (fun r => (Err CorruptedData, r), fun r t => (Err CorruptedData, t, r))
  | S f =>
      let both := y_capped f in
      let V := ycalled c U Y (fst both) (snd both) in
      (step_with e V (fst both), into_with V (fst both))
  end.
Lemma capped_le pan f : ble pan (y_fuel c U Y e f) (y_capped f).
Proof.
  induction f as [|f [H Hi]]; [split; [intros r []|intros r t []]|].
  assert (Hu : forall n, mle pan (yrun c (fst (y_fuel c U Y e f)) (snd (y_fuel c U Y e f)) Y n) (yrun c (fst (y_capped f)) (snd (y_capped f)) Y n)).
  { intros n. apply (run_le pan (fun x => yexec c _ _ (Y n x)) (fun x => yexec c _ _ (Y n x))). intros x. now apply yexec_le. }
  cbn [y_fuel y_capped]. split; [apply step_le|apply into_le]; auto.
Qed.
Lemma capped_kin f : Rkin _ _ (fst (y_capped f)) /\ Ikin (snd (y_capped f)).
Proof.
  induction f as [|f [IH1 IH2]]; [split; [intros r x r' [= _ <-]|intros r t x t' r' [= _ _ <-]]; apply kin_refl|].
  cbn [y_capped fst snd]. split; [apply step_kin|apply into_with_kin]; auto; intros d n _; now apply yrun_kin.
Qed.
Lemma y_kin f : Rkin _ _ (fst (y_fuel c U Y e f)) /\ Ikin (snd (y_fuel c U Y e f)).
Proof.
  induction f as [|f [IH1 IH2]]; [split; [intros r x r' [= _ <-]|intros r t x t' r' [= _ _ <-]]; apply kin_refl|].
  cbn [y_fuel fst snd]. split; [apply step_kin|apply into_with_kin]; auto; intros d n _; now apply yrun_kin.
Qed.
Context (pan : Prop).
Hypothesis Hc : 1 <= usize_max c.
Hypothesis Hp : pan \/ forall n x, ycalm (Y n x).
Hypothesis Ha : forall n x, yaims (Y n x).
Hypothesis He : engine_bytes e.
Hypothesis Hcr : forall d i id, okres pan (o_create (ycalled c U Y d i) e id).
Lemma capped_good f : good_deser pan (fun _ => True) (fst (y_capped f)) /\ good_into pan (fun _ => True) (snd (y_capped f)).
Proof.
  induction f as [|f [IH1 IH2]].
  - split; [intros r x r' W _ [= <- <-]|intros r t x t' r' W _ _ [= <- <- <-]]; cbn; repeat split; auto; discriminate.
  - destruct (capped_kin f) as [K1 K2]. cbn [y_capped fst snd].
    apply (step_good pan (fun _ => True)); auto.
Qed.
Lemma frugal_good f : (forall n x, yfrugal 0 (Y n x) 0) ->
  good_deser pan (fun n => (n < f)%nat) (fst (y_fuel c U Y e f)) /\ good_into pan (fun n => (n < f)%nat) (snd (y_fuel c U Y e f)).
Proof.
  intros Hf. induction f as [|f [IH1 IH2]]; [split; [intros r x r' W L|intros r t x t' r' W L]; lia|].
  destruct (y_kin f) as [K1 K2]. cbn [y_fuel fst snd].
  apply (step_good pan (fun n => (n < f)%nat)); auto; intros; lia.
Qed.
End Capped.
Lemma ycreated_okres {T} c (U : user_impl T) Y e d i id : okres True (o_create (ycalled c U Y d i) e id).
Proof. exact (created_okres c U (fun _ x => Done (None, x)) e id). Qed.
Lemma ycreated_fine {T} c (U : user_impl T) Y e : (forall id, u_create U id <> Some None) -> engine_total e ->
  forall d i id, okres False (o_create (ycalled c U Y d i) e id).
Proof.
  intros Hn Ht d i id. unfold o_create. cbn [u_create ycalled]. specialize (Hn id). destruct (u_create U id) as [[x|]|]; try exact Logic.I; [now elim Hn|].
  pose proof (Ht id) as R. destruct (create_tag e id) as [[t|]|err| |]; try contradiction; exact Logic.I.
Qed.
(** What a factory that answers leaves behind. *)
Lemma y_keeps {T} c (U : user_impl T) Y e f : 1 <= usize_max c -> (forall n x, yaims (Y n x)) -> engine_bytes e ->
  keeps (y_deserialize c U Y e f) (y_deserialize_into c U Y e f).
Proof.
  intros Hc Ha He.
  destruct (capped_good c U Y e True Hc (or_introl Logic.I) Ha He (ycreated_okres c U Y e) f) as [G1 G2].
  destruct (capped_le c U Y e False f) as [L1 L2]. split.
  - intros q x q' W E R. unfold y_deserialize in E. specialize (L1 q). rewrite E in L1. cbn [fst] in L1. specialize (L1 (returns_okres _ _ R)).
    destruct (G1 q x q' W Logic.I L1) as (_ & W' & _ & Q). split; [exact W'|]. intros t Et. now apply Q.
  - intros q t x t' q' W Ht E R. unfold y_deserialize_into in E. specialize (L2 q t). rewrite E in L2. cbn [fst] in L2. specialize (L2 (returns_okres _ _ R)).
    destruct (G2 q t x t' q' W Logic.I (target_leaf _ Ht) L2) as (_ & W' & _ & Q & _). auto.
Qed.

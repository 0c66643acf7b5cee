(** User readers, creators and tags that share state: C92. *)
From Verif Require Import Base BaseFacts Types Spec SpecFacts IO IOSpec IOFacts Logic HistFacts ILInt ILIntFacts Data DataFacts Tags TagsFacts
  Factory FactoryFacts DecodeFacts DeserFacts IntoFacts EngineFacts ClosedFacts Open KinFacts OpenFacts POpen Prog ProgFacts ProgWire
  IntoProg IntoProgFacts IntoCallFacts OtherProg FullProg Any AnyFacts PAny AnyScan AnyProg AnyProgFacts PProg PAnyProg PFull
  AnyFull AnyFullFacts AnyFullRuns WorldRead WorldReadFacts WorldReadSim WorldReadRuns WorldLog.

(** ** C92.  Deserialization with user types of tags, user creators and user readers
    that share state, so that each call may depend on, and change, everything the
    calls before it have left behind. *)
(** The limits hold all the same: with code that does not panic there is no panic, at
    whatever depth, and a call of a method of the factory lowers every LimitedReader
    around it by the same number of bytes, which is at most 18 + 512 MB and, after a
    success of deserialize, at least 1. *)
Theorem C92_confined : forall T W c (Z : reading_impl T W) e f M r,
  1 <= usize_max c -> engine_total e -> engine_bytes e -> impl_ok M -> reading_ok True Z ->
  (forall y r', w_deserialize c Z e f M r = (y, r') ->
     y <> Panic /\ (returns y -> exists d, lowered d r r' /\ d <= 18 + 512 * 1024 * 1024 /\ forall t, y = Ok t -> 1 <= d /\ target t)) /\
  (forall t y t' r', target t -> w_deserialize_into c Z e f M r t = (y, t', r') ->
     y <> Panic /\ (returns y -> target t' /\ exists d, lowered d r r' /\ d <= 18 + 512 * 1024 * 1024)).
Proof.
  intros T W c Z e f M r Hc Ht He HM HZ. destruct (fine_any c Z e Hc Ht He f M r HZ HM) as [H1 H2]. split.
  - intros y r' E. destruct (H1 _ _ E) as (Np & _ & K). split; [exact Np|]. intros R. destruct (K R) as (d & L & q & Hd). exists d.
    split; [exact L|]. split; [exact Hd|]. intros t Ey. destruct (q t Ey). auto.
  - intros t y t' r' Tt E. destruct (H2 t Tt _ _ _ E) as (Np & _ & K). split; [exact Np|]. intros R. destruct (K R) as (d & L & q & Hd). split; [exact q|]. now exists d.
Qed.
Print Assumptions C92_confined.

(** Programs that read from no other reader also end: no state can make the factory
    go deeper than the bytes let it. *)
Theorem C92_ends : forall T W c (Z : reading_impl T W) e f M r,
  1 <= usize_max c -> engine_total e -> engine_bytes e -> impl_ok M -> reading_ok False Z -> 536870913 < N.of_nat f ->
  returns (fst (w_deserialize c Z e f M r)) /\ forall t, target t -> returns (fst (fst (w_deserialize_into c Z e f M r t))).
Proof.
  intros T W c Z e f M r Hc Ht He HM HZ Lf. destruct (fine_enough c Z e Hc Ht He f M r HZ HM Lf) as [H1 H2]. split.
  - destruct (w_deserialize c Z e f M r) as [y r'] eqn:E. destruct (H1 _ _ E) as (Np & Nf & _). cbn [fst]. destruct y; cbn; auto.
  - intros t Tt. destruct (w_deserialize_into c Z e f M r t) as [[y t'] r'] eqn:E. destruct (H2 t Tt _ _ _ E) as (Np & Nf & _). cbn [fst]. destruct y; cbn; auto.
Qed.
Print Assumptions C92_ends.

(** The bound on the depth of the calls does not matter. *)
Theorem C92_determined : forall T W c (Z : reading_impl T W) e f g M r, (f <= g)%nat ->
  (forall y r', w_deserialize c Z e f M r = (y, r') -> y <> OutOfFuel -> w_deserialize c Z e g M r = (y, r')) /\
  (forall t y t' r', w_deserialize_into c Z e f M r t = (y, t', r') -> y <> OutOfFuel -> w_deserialize_into c Z e g M r t = (y, t', r')).
Proof. intros T W c Z e f g M r L. destruct (w_fuel_mono c Z e f g M L) as [H1 H2]. split; [apply H1|intros t; apply H2]. Qed.
Print Assumptions C92_determined.

(** What is accepted has taken exactly the bytes that its header announces, unless
    the object says it is an integer (ids 10 and 14), whatever its id was before. *)
Theorem C92_exact : forall T W c (Z : reading_impl T W) e f M r,
  1 <= usize_max c -> engine_total e -> engine_bytes e -> impl_ok M -> reading_ok True Z ->
  (forall t r', w_deserialize c Z e f M r = (Ok t, r') -> exists id n r1 r2 d,
     a_ilint M r = (Ok id, r1) /\ a_tag_size M id r1 = (Ok n, r2) /\ lowered d r2 r' /\ d <= n /\ (ordinary Z t -> d = n)) /\
  (forall t t' r', target t -> w_deserialize_into c Z e f M r t = (Ok tt, t', r') -> exists id n r1 r2 r3 d,
     a_ilint M r = (Ok id, r1) /\ w_id Z t r1 = (Ok id, r2) /\ a_tag_size M id r2 = (Ok n, r3) /\ lowered d r3 r' /\ d <= n /\ (ordinary Z t' -> d = n)).
Proof.
  intros T W c Z e f M r Hc Ht He HM HZ. destruct f as [|f]; [split; discriminate|]. unfold w_deserialize, w_deserialize_into. cbn [w_fuel fst snd].
  set (od := fun M' u => let '(x, r) := fst (w_fuel c Z e f M') (ABase u) in (x, a_state r)).
  set (oi := fun M' t u => let '(x, t', r) := snd (w_fuel c Z e f M') (ABase u) t in (x, t', a_state r)).
  assert (G : forall M' r, impl_ok M' -> fine c Z e True f M' r) by (intros; now apply fine_any).
  assert (God : forall M' u x u', True -> impl_ok M' -> od M' u = (x, u') -> x <> Panic /\ (forall t, x = Ok t -> target t)).
  { intros M' u x u' _ Hm Eo. unfold od in Eo. destruct (fst (w_fuel c Z e f M') (ABase u)) as [z r1] eqn:Ez. apply pair_inv in Eo as [<- _].
    destruct (proj1 (G M' (ABase u) Hm) _ _ Ez) as (Np & _ & K). split; [exact Np|]. intros t ->. destruct (K Logic.I) as (d & _ & [q _]). now destruct (q t eq_refl). }
  assert (Goi : forall M' t u x t' u', True -> impl_ok M' -> target t -> oi M' t u = (x, t', u') -> x <> Panic /\ (returns x -> target t')).
  { intros M' t u x t' u' _ Hm Tt Eo. unfold oi in Eo. destruct (snd (w_fuel c Z e f M') (ABase u) t) as [[z t1] r1] eqn:Ez.
    assert (x = z /\ t' = t1) as [-> ->] by (split; congruence).
    destruct (proj2 (G M' (ABase u) Hm) t Tt _ _ _ Ez) as (Np & _ & K). split; [exact Np|]. intros R. destruct (K R) as (d & _ & q & _). exact q. }
  assert (V : forall n t r, target t -> lob True (fun y t' d => target t' /\ d <= n /\ (y = Ok tt -> ordinary Z t' -> d = n))
    (w_value_into Z (av_value M (w_user c Z M (fst (w_fuel c Z e f M)) (snd (w_fuel c Z e f M)) od oi) (fst (w_fuel c Z e f M))) n t) r).
  { intros n t r0 Tt. apply (l_value_into True c Z Hc HZ M HM _ _ od oi (fun _ => True)); auto; try (intros ? ? ? ? ?; exact Logic.I); try (intros ? ? ?; exact Logic.I).
    - intros r1 _. exact (proj1 (G M r1 HM)).
    - intros r1 t1 _. exact (proj2 (G M r1 HM) t1). }
  split.
  - intros t r' E. unfold w_step in E. unfold bind at 1 in E. destruct (a_ilint M r) as [[id|err| |] r1] eqn:Ei; try discriminate.
    unfold bind at 1 in E. destruct (a_tag_size M id r1) as [[n|err| |] r2] eqn:En; try discriminate.
    unfold bind at 1 in E. destruct (w_create Z e id r2) as [[[t0|]|err| |] r3] eqn:Ec; try discriminate.
    destruct (l_create True Z e HZ Ht He id r2 (ilint_lt M HM _ _ _ Ei) _ _ Ec) as (_ & _ & K). destruct (K Logic.I) as (d0 & L0 & -> & T0).
    destruct (w_value_into Z _ n t0 r3) as [[x t'] r4] eqn:Ev. destruct (V n t0 r3 (T0 t0 eq_refl) _ _ _ Ev) as (_ & _ & K1).
    destruct x as [[]|err| |]; try discriminate. cbn [map_ok] in E. assert (t' = t /\ r4 = r') as [-> ->] by (split; congruence).
    destruct (K1 Logic.I) as (d & L & _ & Hd & Ho). exists id, n, r1, r2, (0 + d). split; [reflexivity|]. split; [exact En|].
    split; [eapply lowered_trans; eauto|]. rewrite N.add_0_l. auto.
  - intros t t' r' Tt E. unfold w_into in E. unfold bind at 1 in E. destruct (a_ilint M r) as [[id|err| |] r1] eqn:Ei; try discriminate.
    unfold bind in E. destruct (w_id Z t r1) as [[mine|err| |] r2] eqn:Em; try discriminate. destruct (N.eqb_spec id mine) as [->|]; [|discriminate]. cbn [negb] in E.
    destruct (a_tag_size M mine r2) as [[n|err| |] r3] eqn:En; try discriminate. destruct (V n t r3 Tt _ _ _ E) as (_ & _ & K).
    destruct (K Logic.I) as (d & L & _ & Hd & Ho). exists mine, n, r1, r2, r3, d. split; [reflexivity|]. split; [exact Em|]. split; [exact En|]. auto.
Qed.
Print Assumptions C92_exact.

(** State that does not show does not matter: if the code gives the same answers in
    related states, and leaves related states behind, then so do the methods of the
    factory. *)
Theorem C92_answers : forall T W1 W2 (R : W1 -> W2 -> Prop) c (Z1 : reading_impl T W1) (Z2 : reading_impl T W2) e f M1 M2,
  same_code R Z1 Z2 -> same_reader R M1 M2 ->
  (forall r1 r2, asim R r1 r2 -> exists y r1' r2', w_deserialize c Z1 e f M1 r1 = (y, r1') /\ w_deserialize c Z2 e f M2 r2 = (y, r2') /\ asim R r1' r2') /\
  (forall r1 r2 t, asim R r1 r2 -> exists y t' r1' r2',
     w_deserialize_into c Z1 e f M1 r1 t = (y, t', r1') /\ w_deserialize_into c Z2 e f M2 r2 t = (y, t', r2') /\ asim R r1' r2').
Proof.
  intros T W1 W2 R c Z1 Z2 e f M1 M2 HZ HM. destruct (s_fuel R c Z1 Z2 HZ e f M1 M2 HM) as [H1 H2]. split; [exact H1|].
  intros r1 r2 t H. destruct (H2 t r1 r2 H) as ([y t'] & r1' & r2' & K). exists y, t', r1', r2'. exact K.
Qed.
Print Assumptions C92_answers.

(** Code without state is that of AnyFull.v: what C87 says of it holds of these
    functions. *)
Theorem C92_stateless : forall T W (M : reader_impl W) c (D : user_impl T) (Y : yscript T) e f r, (forall n x, ydirect (Y n x)) ->
  w_deserialize c (without_state D Y) e f M r = ay_deserialize M c D Y e f r /\
  forall t, w_deserialize_into c (without_state D Y) e f M r t = ay_deserialize_into M c D Y e f r t.
Proof. intros T W M c D Y e f r HY. destruct (less M c D Y e HY f) as [H1 H2]. auto. Qed.
Print Assumptions C92_stateless.

(** *** The order of the calls *)
(** The code with a log gives the answers of the code. *)
Lemma logged_same_reader {T W} (M : reader_impl W) : same_reader (fun u v => u = fst v) M (logged_reader (T := T) M).
Proof.
  split; [|intros buff]; intros u [v l] ->; cbn.
  - destruct (u_read M v) as [x u']. eauto 8.
  - destruct (u_read_all M buff v) as [x u']. eauto 8.
Qed.
Lemma logged_same_prog {T I W A} (p : wprog I W A) : same_prog (fun u v => u = fst v) A p (logged_prog (T := T) p).
Proof.
  induction p as [A a|A|A B f k IH|A k IH|A old k IH|A n k IH|A n k IH|A k IH|A t k IH|A B n body IHb k IH|A M' k IH|A M' t k IH];
    cbn [logged_prog]; constructor; auto; try apply logged_same_reader.
  - intros u [v l] ->. cbn [fst]. now destruct (f v).
  - intros u [v l] ->. cbn [fst]. destruct (f v) as [b u']. apply IH.
Qed.
Lemma logged_same_code {T W} (Z : reading_impl T W) : same_code (fun u v => u = fst v) Z (logged Z).
Proof.
  constructor.
  - intros x u [v l] ->. cbn. destruct (z_id Z x v) as [a u']. eauto 8.
  - intros n x. apply logged_same_prog.
  - intros id. cbn [z_create logged]. destruct (z_create Z id) as [f|]; cbn [option_map]; auto. intros u [v l] ->. cbn. destruct (f v) as [a u']. eauto 8.
Qed.
(** Whatever the code does, short of panicking: deserialize reads the id and the size;
    then, if there is a creator of the user for the id, it is called, once; then comes
    the value; a user object is then asked for its id, twice unless it answers 10; and
    nothing else is called.  deserialize_into reads the id, asks a user object for
    its own, reads the size if they agree, and goes on in the same way.  Inside a
    value there are only calls of readers and of these two. *)
Theorem C92_calls : forall T W c (Z : reading_impl T W) e f M u,
  (forall y u', w_deserialize c Z e f M (ABase u) = (y, ABase u') -> returns y ->
     exists l, w_deserialize c (logged Z) e f (logged_reader M) (ABase (u, [])) = (y, ABase (u', l)) /\ calls_tag (made Z) (is_ok y) l) /\
  (forall t y t' u', w_deserialize_into c Z e f M (ABase u) t = (y, t', ABase u') -> returns y ->
     exists l, w_deserialize_into c (logged Z) e f (logged_reader M) (ABase (u, [])) t = (y, t', ABase (u', l)) /\ calls_into (made Z) (is_ok y) l).
Proof.
  intros T W c Z e f M u. destruct (C92_answers T W _ _ c Z (logged Z) e f M (logged_reader M) (logged_same_code Z) (logged_same_reader M)) as [S1 S2].
  destruct (log_calls c Z e f M (ABase (u, []))) as [L1 L2]. split.
  - intros y u' E R. destruct (S1 (ABase u) (ABase (u, [])) eq_refl) as (y' & r1 & r2 & E1 & E2 & K).
    assert (y' = y /\ r1 = ABase u') as [-> ->] by (split; congruence). destruct r2 as [[v l]|]; [|contradiction]. cbn [asim fst] in K. subst v.
    exists l. split; [exact E2|]. destruct (L1 _ _ E2 R) as (l' & El & Hl). cbn in El. subst l'. exact Hl.
  - intros t y t' u' E R. destruct (S2 (ABase u) (ABase (u, [])) t eq_refl) as (y' & t1 & r1 & r2 & E1 & E2 & K).
    assert (y' = y /\ t1 = t' /\ r1 = ABase u') as (-> & -> & ->) by (repeat split; congruence). destruct r2 as [[v l]|]; [|contradiction]. cbn [asim fst] in K. subst v.
    exists l. split; [exact E2|]. destruct (L2 t _ _ _ E2 R) as (l' & El & Hl). cbn in El. subst l'. exact Hl.
Qed.
Print Assumptions C92_calls.
(** In particular nothing but the reader is called first, no creator is called that is
    not there, and there are no more calls of creators than of readers. *)
Definition creations {T} (l : list (ev T)) : nat := length (filter (fun v => match v with VCreate _ => true | _ => false end) l).
Definition readings {T} (l : list (ev T)) : nat := length (filter (fun v => match v with VRead | VFill _ => true | _ => false end) l).
Definition Pl T (made : N -> Prop) (l : list (ev T)) : Prop :=
  (forall v l', l = v :: l' -> a_call v) /\ (forall id, In (VCreate id) l -> made id) /\ (creations l <= readings l)%nat.
Scheme calls_tag_m := Minimality for calls_tag Sort Prop
  with calls_into_m := Minimality for calls_into Sort Prop
  with calls_value_m := Minimality for calls_value Sort Prop.
Combined Scheme calls_ind from calls_tag_m, calls_into_m, calls_value_m.
Theorem C92_log : forall T (made : N -> Prop) b (l : list (ev T)), calls_tag made b l \/ calls_into made b l ->
  (forall v l', l = v :: l' -> a_call v) /\ (forall id, In (VCreate id) l -> made id) /\ (creations l <= readings l)%nat /\ (b = true -> l <> []).
Proof.
  intros T made.
  assert (Ca : forall h : list (ev T), Forall a_call h -> creations h = 0%nat /\ readings h = length h /\ forall id, ~ In (VCreate id) h).
  { induction 1 as [|v h Hv _ (A & B & C)]; [repeat split; auto|]. unfold creations, readings in *. destruct Hv; cbn; rewrite ?A, ?B; repeat split; auto;
      (intros id [K|K]; [discriminate|exact (C id K)]). }
  assert (Cp : forall l l' : list (ev T), creations (l ++ l') = (creations l + creations l')%nat) by (intros; unfold creations; now rewrite filter_app, app_length).
  assert (Rp : forall l l' : list (ev T), readings (l ++ l') = (readings l + readings l')%nat) by (intros; unfold readings; now rewrite filter_app, app_length).
  assert (Cc : forall v (l : list (ev T)), creations (v :: l) = (creations [v] + creations l)%nat) by (intros v l; apply (Cp [v] l)).
  assert (Rc : forall v (l : list (ev T)), readings (v :: l) = (readings [v] + readings l)%nat) by (intros v l; apply (Rp [v] l)).
  assert (Ae : forall (x : T) b i, at_end x b i -> creations i = 0%nat /\ forall id, ~ In (VCreate id) i).
  { intros x b i [[_ ->]|[[_ ->]|(p & q & -> & _)]]; (split; [reflexivity|]); intros id; cbn; intuition discriminate. }
  assert (Hd : forall n (h t : list (ev T)), from_1_to n h -> forall v l', h ++ t = v :: l' -> a_call v).
  { intros n h t [H L] v l' E. destruct h as [|v0 h]; cbn [length] in L; [lia|]. cbn [app] in E. inversion H; subst. congruence. }
  assert (G : (forall b l, calls_tag made b l -> Pl T made l) /\ (forall b l, calls_into made b l -> Pl T made l) /\ (forall l, calls_value made l -> Pl T made l)).
  { apply calls_ind; unfold Pl.
    - intros h [H _]. destruct (Ca h H) as (C0 & C1 & C2). repeat split; [intros v l' ->; now inversion H|intros id K; elim (C2 id K)|lia].
    - intros h v b H _ (_ & V2 & V3). destruct (Ca h (proj1 H)) as (C0 & C1 & C2). repeat split; [now apply (Hd 4%nat)| |rewrite Cp, Rp; lia].
      intros id K. apply in_app_or in K as [K|K]; [elim (C2 id K)|auto].
    - intros h id v b H Hm _ (_ & V2 & V3). destruct (Ca h (proj1 H)) as (C0 & C1 & C2). destruct H as [Hh Hl].
      repeat split; [now apply (Hd 4%nat)| |rewrite Cp, Rp, (Cc (VCreate id)), (Rc (VCreate id)); cbn [creations readings filter length]; change (creations [VCreate id]) with 1%nat; lia].
      intros id' K. apply in_app_or in K as [K|[K|K]]; [elim (C2 id' K)|congruence|auto].
    - intros h id v x i b H Hm _ (_ & V2 & V3) Hi. destruct (Ca h (proj1 H)) as (C0 & C1 & C2). destruct (Ae x b i Hi) as [A0 A1]. destruct H as [Hh Hl].
      repeat split; [now apply (Hd 4%nat)| |rewrite Cp, Rp, (Cc (VCreate id)), (Rc (VCreate id)), Cp, Rp; change (creations [VCreate id]) with 1%nat; lia].
      intros id' K. apply in_app_or in K as [K|[K|K]]; [elim (C2 id' K)|congruence|]. apply in_app_or in K as [K|K]; [auto|elim (A1 id' K)].
    - intros h [H _]. destruct (Ca h H) as (C0 & C1 & C2). repeat split; [intros v l' ->; now inversion H|intros id K; elim (C2 id K)|lia].
    - intros h v b H _ (_ & V2 & V3). destruct (Ca h (proj1 H)) as (C0 & C1 & C2). repeat split; [now apply (Hd 4%nat)| |rewrite Cp, Rp; lia].
      intros id K. apply in_app_or in K as [K|K]; [elim (C2 id K)|auto].
    - intros h x a h2 H [H2 _]. destruct (Ca h (proj1 H)) as (C0 & C1 & C2), (Ca h2 H2) as (D0 & D1 & D2).
      repeat split; [now apply (Hd 2%nat)| |rewrite Cp, Rp, (Cc (VId x a)); change (creations [VId x a]) with 0%nat; lia].
      intros id K. apply in_app_or in K as [K|[K|K]]; [elim (C2 id K)|discriminate|elim (D2 id K)].
    - intros h x a h2 v x' b i H [H2 _] _ (_ & V2 & V3) Hi. destruct (Ca h (proj1 H)) as (C0 & C1 & C2), (Ca h2 H2) as (D0 & D1 & D2), (Ae x' b i Hi) as [A0 A1].
      repeat split; [now apply (Hd 2%nat)| |rewrite Cp, Rp, (Cc (VId x a)), (Rc (VId x a)), Cp, Cp, Rp, Rp; change (creations [VId x a]) with 0%nat; lia].
      intros id K. apply in_app_or in K as [K|[K|K]]; [elim (C2 id K)|discriminate|].
      apply in_app_or in K as [K|K]; [elim (D2 id K)|]. apply in_app_or in K as [K|K]; [auto|elim (A1 id K)].
    - repeat split; [discriminate|intros id []|apply le_n].
    - intros v l Hv _ (_ & V2 & V3). repeat split; [congruence| |rewrite (Cc v), (Rc v); destruct (Ca [v]) as (C0 & C1 & _); [now constructor|]; lia].
      intros id [K|K]; [subst v; inversion Hv|auto].
    - intros b l l' _ (L1 & L2 & L3) _ (V1 & V2 & V3). repeat split; [|intros id K; apply in_app_or in K as [K|K]; auto|rewrite Cp, Rp; lia].
      intros v l0 E. destruct l as [|v0 l]; [eapply V1; exact E|cbn [app] in E; apply (L1 v l); congruence].
    - intros b l l' _ (L1 & L2 & L3) _ (V1 & V2 & V3). repeat split; [|intros id K; apply in_app_or in K as [K|K]; auto|rewrite Cp, Rp; lia].
      intros v l0 E. destruct l as [|v0 l]; [eapply V1; exact E|cbn [app] in E; apply (L1 v l); congruence]. }
  destruct G as (G1 & G2 & _). intros b l H. assert (K : Pl T made l) by (destruct H; eauto). destruct K as (K1 & K2 & K3).
  repeat split; auto. intros -> ->. assert (N1 : forall n (h t : list (ev T)), from_1_to n h -> h ++ t <> []) by (intros n [|v h] t [_ L]; cbn [length] in L; [lia|discriminate]).
  destruct H as [H|H]; inversion H; subst; eapply N1; eassumption.
Qed.
Print Assumptions C92_log.

(** *** Concrete cases *)
(** The state: the bytes that are left, and a number that every call of the reader and
    of the creator raises. *)
Notation tape := (list N * N)%type.
Definition meter : reader_impl tape := {|
  u_read '(bs, k) := let '(x, bs') := u_read queue bs in (x, (bs', k + 1));
  u_read_all buff '(bs, k) := let '(x, b, bs') := u_read_all queue buff bs in (x, b, (bs', k + 1)) |}.
Lemma meter_ok : impl_ok meter.
Proof.
  destruct queue_ok as [H1 H2]. constructor.
  - intros [bs k] x u' E. cbn [meter u_read] in E. destruct (u_read queue bs) as [y bs'] eqn:Eq. assert (y = x) as <- by congruence. exact (H1 _ _ _ Eq).
  - intros buff [bs k] x buff' u' E. cbn [meter u_read_all] in E. destruct (u_read_all queue buff bs) as [[y b] bs'] eqn:Eq.
    assert (y = x /\ b = buff') as [<- <-] by (split; congruence). exact (H2 _ _ _ _ _ Eq).
Qed.
(** The user type: a number.  Its creator, for id 100, hands out the number of the
    state; its value is read byte by byte, and every byte is added to the number of the
    state; the object keeps the sum. *)
Definition add_up : forall n : nat, N -> wprog (otag N) tape (option tag_error * N) :=
  fix go n x := match n with
    | O => WDone (None, x)
    | Datatypes.S n' => WRead (fun y => match y with
        | Ok b => WAct (fun u => (tt, (fst u, snd u + b))) (fun _ => go n' (x + b))
        | _ => WDone (Some (TagIO EndOfData), x) end)
    end.
Definition serial : reading_impl N tape := {|
  z_id x u := (Some 100, u);
  z_value n x := add_up (N.to_nat n) x;
  z_create id := if id =? 100 then Some (fun u => (Some (OUser (snd u)), (fst u, snd u + 1))) else None |}.
Lemma add_up_calm others n x : wcalm others (add_up n x).
Proof. revert x. induction n as [|n IH]; intros x; cbn [add_up wcalm]; auto. intros [b|e| |]; cbn [wcalm]; auto. Qed.
Lemma serial_ok others : reading_ok others serial.
Proof.
  constructor.
  - discriminate.
  - intros n x. apply add_up_calm.
  - intros id f u E. cbn [serial z_create] in E. destruct (id =? 100); [|discriminate]. assert (E1 : f = fun u => (Some (OUser (snd u)), (fst u, snd u + 1))) by congruence.
    subst f. do 2 eexists. split; [reflexivity|exact Logic.I].
Qed.
Notation std := (create_std_engine true).
Example C92_confined_instance : forall f r y r', w_deserialize c64 serial std f meter r = (y, r') -> y <> Panic /\ (returns y -> exists d, lowered d r r' /\ d <= 536870930).
Proof.
  intros f r y r' E. destruct (C92_confined N tape c64 serial std f meter r) as [H _]; auto using std_engine_total, engine_ok_bytes, std_engine_ok, meter_ok, serial_ok; [vm_compute; discriminate|].
  destruct (H y r' E) as [Np K]. split; [exact Np|]. intros R. destruct (K R) as (d & L & Hd & _). eauto.
Qed.
Example C92_ends_instance : forall r, returns (fst (w_deserialize c64 serial std (N.to_nat 536870914) meter r)).
Proof.
  intros r. apply (C92_ends N tape c64 serial std); auto using std_engine_total, engine_ok_bytes, std_engine_ok, meter_ok, serial_ok; [vm_compute; discriminate|].
  rewrite N2Nat.id. reflexivity.
Qed.
(** A sequence of two of these tags, inside a LimitedReader: the objects get different
    numbers, and the limit has gone down by 9. *)
Definition two : list N := [22; 7; 100; 2; 5; 6; 100; 1; 7].
Example C92_exact_instance :
  w_deserialize c64 serial std 3 meter (ALimited (ABase (two ++ [9], 0)) 20) =
    (Ok (OSeq 22 [OUser 15; OUser 27]), ALimited (ABase ([9], 29)) 11).
Proof. vm_compute. reflexivity. Qed.
Example C92_determined_instance : forall g, w_deserialize c64 serial std (3 + g) meter (ALimited (ABase (two ++ [9], 0)) 20) =
  (Ok (OSeq 22 [OUser 15; OUser 27]), ALimited (ABase ([9], 29)) 11).
Proof. intros g. apply (proj1 (C92_determined N tape c64 serial std 3 (3 + g) meter (ALimited (ABase (two ++ [9], 0)) 20) ltac:(lia))); [exact C92_exact_instance|discriminate]. Qed.
(** The same bytes, read again, give another object. *)
Theorem C92_twice_refuted : exists (M : reader_impl tape) (Z : reading_impl N tape) bs k t1 t2 r, impl_ok M /\ reading_ok False Z /\
  w_deserialize c64 Z std 3 M (ABase (bs ++ bs, 0)) = (Ok t1, ABase (bs, k)) /\ w_deserialize c64 Z std 3 M (ABase (bs, k)) = (Ok t2, r) /\ t1 <> t2.
Proof.
  exists meter, serial, two, 29, (OSeq 22 [OUser 15; OUser 27]), (OSeq 22 [OUser 44; OUser 56]), (ABase ([], 58)).
  split; [exact meter_ok|]. split; [apply serial_ok|]. split; [vm_compute; reflexivity|]. split; [vm_compute; reflexivity|discriminate].
Qed.
Print Assumptions C92_twice_refuted.
(** An object whose id changes: it answers 100 while there are bytes to read its size
    from, and 10 after that.  The 3 bytes of its value are left where they are, although
    it is accepted and although it had id 100 when it was compared. *)
Definition fickle : reading_impl N tape := {|
  z_id x u := (Some (if snd u <? 100 then 100 else 10), (fst u, snd u + 100));
  z_value n x := WDone (None, x);
  z_create id := None |}.
Lemma fickle_ok others : reading_ok others fickle.
Proof. constructor; [discriminate|intros n x; exact Logic.I|discriminate]. Qed.
Theorem C92_size_refuted : exists (M : reader_impl tape) (Z : reading_impl N tape) r t t' r' id n r1 r2 r3, impl_ok M /\ reading_ok False Z /\ target t /\
  w_deserialize_into c64 Z std 1 M r t = (Ok tt, t', r') /\
  a_ilint M r = (Ok id, r1) /\ w_id Z t r1 = (Ok id, r2) /\ a_tag_size M id r2 = (Ok n, r3) /\ id = 100 /\ n = 3 /\ ~ lowered 3 r3 r' /\ lowered 0 r3 r'.
Proof.
  exists meter, fickle, (ALimited (ABase ([100; 3; 1; 2; 3], 0)) 9), (OUser 5). do 7 eexists. split; [exact meter_ok|]. split; [apply fickle_ok|]. split; [exact Logic.I|].
  split; [vm_compute; reflexivity|]. split; [vm_compute; reflexivity|]. split; [vm_compute; reflexivity|]. split; [vm_compute; reflexivity|].
  split; [reflexivity|]. split; [reflexivity|]. split; [intros K; vm_compute in K; intuition discriminate|vm_compute; intuition auto].
Qed.
Print Assumptions C92_size_refuted.
(** Objects that do not take their number from the state: whatever the number in the
    state, they are the same. *)
Definition quiet : reading_impl N tape := {|
  z_id := z_id serial; z_value := z_value serial;
  z_create id := if id =? 100 then Some (fun u => (Some (OUser 0), (fst u, snd u + 1))) else None |}.
Lemma add_up_same n x : same_prog (fun u v : tape => fst u = fst v) _ (add_up n x) (add_up n x).
Proof.
  revert x. induction n as [|n IH]; intros x; cbn [add_up]; constructor. intros [b|e| |]; constructor; [|intros u1 u2 _; apply IH].
  intros u1 u2 H. exact H.
Qed.
Lemma quiet_same : same_code (fun u v : tape => fst u = fst v) quiet quiet.
Proof.
  constructor.
  - intros x u1 u2 H. do 3 eexists. split; [reflexivity|]. split; [reflexivity|exact H].
  - intros n x. apply add_up_same.
  - intros id. cbn [quiet z_create]. destruct (id =? 100); [|exact Logic.I]. intros u1 u2 H. do 3 eexists. split; [reflexivity|]. split; [reflexivity|exact H].
Qed.
Lemma meter_same : same_reader (fun u v : tape => fst u = fst v) meter meter.
Proof.
  split; [|intros buff]; intros [u1 k1] [u2 k2] H; cbn [fst] in H; subst u2; cbn [meter u_read u_read_all].
  - destruct (u_read queue u1) as [y u']. do 3 eexists. split; [reflexivity|]. split; reflexivity.
  - destruct (u_read_all queue buff u1) as [[y b] u']. do 3 eexists. split; [reflexivity|]. split; reflexivity.
Qed.
Example C92_answers_instance : forall f bs k k', fst (w_deserialize c64 quiet std f meter (ABase (bs, k))) = fst (w_deserialize c64 quiet std f meter (ABase (bs, k'))).
Proof.
  intros f bs k k'. destruct (C92_answers N _ _ _ c64 quiet quiet std f meter meter quiet_same meter_same) as [H _].
  destruct (H (ABase (bs, k)) (ABase (bs, k')) eq_refl) as (y & r1 & r2 & -> & -> & _). reflexivity.
Qed.
(** A program without state, with the readers of this file. *)
Definition bag_user : user_impl (list N) := {|
  u_id _ := 100; u_size x := lenN x; u_serialize x w := (Err UnableToSerialize, w); u_to_bytes x := Ok x;
  u_deserialize_value _ _ st := (Err CorruptedData, st); u_create id := if id =? 100 then Some (Some []) else None |}.
Definition bag : yscript (list N) := fun n _ =>
  YReadAll (repeat 0 (N.to_nat n)) (fun x b => match x with Ok _ => YDone (None, b) | Err e => YDone (Some (TagIO e), []) | _ => YAbort end).
Example C92_stateless_instance :
  (forall f r, w_deserialize c64 (without_state bag_user bag) std f meter r = ay_deserialize meter c64 bag_user bag std f r) /\
  ay_deserialize meter c64 bag_user bag std 3 (ABase (two, 0)) = (Ok (OSeq 22 [OUser [5; 6]; OUser [7]]), ABase ([], 8)).
Proof.
  split; [|vm_compute; reflexivity]. intros f r. apply (C92_stateless _ _ meter c64 bag_user bag std f r). intros n x. cbn. intros [y|e| |] b; exact Logic.I.
Qed.
(** The log of the sequence: its header, and for each of the objects the header, the
    creator, the bytes, and the two questions for the id. *)
Example C92_calls_instance : exists l,
  w_deserialize c64 (logged serial) std 3 (logged_reader meter) (ABase ((two, 0), [])) = (Ok (OSeq 22 [OUser 15; OUser 27]), ABase (([], 29), l)) /\
  l = [VRead; VRead; VRead; VRead; VCreate 100; VRead; VRead; VId 15 (Some 100); VId 15 (Some 100);
       VRead; VRead; VCreate 100; VRead; VId 27 (Some 100); VId 27 (Some 100)] /\
  calls_tag (made serial) true l /\ creations l = 2%nat /\ readings l = 9%nat.
Proof.
  destruct (C92_calls N tape c64 serial std 3 meter (two, 0)) as [H _].
  destruct (H (Ok (OSeq 22 [OUser 15; OUser 27])) ([], 29)) as (l & E & K); [vm_compute; reflexivity|exact Logic.I|].
  exists l. split; [exact E|]. vm_compute in E. match type of E with _ = (_, ABase (_, l)) => idtac end.
  assert (El : l = [VRead; VRead; VRead; VRead; VCreate 100; VRead; VRead; VId 15 (Some 100); VId 15 (Some 100);
       VRead; VRead; VCreate 100; VRead; VId 27 (Some 100); VId 27 (Some 100)]) by congruence.
  split; [exact El|]. split; [exact K|]. subst l. split; reflexivity.
Qed.
Example C92_log_instance : exists l : list (ev N), calls_tag (made serial) true l /\ (creations l = 2)%nat /\ forall id, In (VCreate id) l -> id = 100.
Proof.
  destruct C92_calls_instance as (l & _ & _ & K & Hc & _). exists l. split; [exact K|]. split; [exact Hc|]. intros id Hi.
  apply (C92_log N (made serial) true l (or_introl K)) in Hi. unfold made in Hi. cbn [serial z_create] in Hi. destruct (N.eqb_spec id 100); [assumption|now elim Hi].
Qed.

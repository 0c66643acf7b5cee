(** Proofs about AnyFull.v. *)
From Verif Require Import Base BaseFacts Types Spec SpecFacts IO IOSpec IOFacts Logic HistFacts ILInt ILIntFacts Data DataFacts Tags TagsFacts
  Factory FactoryFacts DecodeFacts DeserFacts IntoFacts ClosedFacts Open KinFacts OpenFacts Prog ProgFacts IntoProg IntoProgFacts IntoCallFacts
  OtherProg OtherProgFacts FullProg FullProgFacts Any AnyFacts AnyScan AnyProg AnyProgFacts AnyFull.

(** ** Runs on readers of IO.v *)
Lemma mrun_wf r tr r' : rwf r -> mrun r tr r' -> rwf r' /\ (left r' + length (pbytes tr) <= left r)%nat.
Proof.
  intros W H. revert W. induction H as [r|r x r1 tr r2 E _ IH|r buff x got r1 tr r2 E _ IH]; intros W.
  - cbn. split; [exact W|lia].
  - destruct (read_wf _ _ _ W E) as (_ & W1 & L1 & _). destruct (IH W1) as [W2 L2]. split; [exact W2|].
    change (pbytes (PRead x :: tr)) with (pcall_bytes (PRead x) ++ pbytes tr). rewrite app_length.
    destruct x as [err|b]; cbn [of_sum pcall_bytes length] in *; [lia|].
    apply read_ok, delivers_left in E. cbn [length] in E. lia.
  - destruct (read_all_wf _ _ _ _ _ W E) as (_ & W1 & L1 & _). destruct (IH W1) as [W2 L2]. split; [exact W2|].
    match goal with |- context [PFill ?a ?b ?d :: tr] => change (pbytes (PFill a b d :: tr)) with (pcall_bytes (PFill a b d) ++ pbytes tr) end.
    rewrite app_length. destruct x as [err|[]]; cbn [of_sum pcall_bytes length] in *; [lia|].
    destruct (read_all_ok _ _ _ _ E) as [Lg D]. rewrite dropN_all, app_nil_r by lia. apply delivers_left in D. lia.
Qed.
Lemma flat_rwf {U} (r : areader U) rr : rwf rr -> rwf (flat r rr).
Proof. induction r; cbn; auto. Qed.
Lemma flat_left {U} (r : areader U) rr : left (flat r rr) = left rr.
Proof. induction r; cbn; auto. Qed.

Section AnyFullFacts.
Context {U : Type} (M : reader_impl U) (HM : impl_ok M).
(** If [st] holds, a success has had no failing call; unless [lax] holds, the fuel
    is enough. *)
Context (st lax : Prop).

(** The outcome of [f] at [x]: no panic; if it ends, then after a run whose bytes
    satisfy [Q], and [g] does exactly the same on any reader that gives the answers
    of the run. *)
Definition xend {E A} (Q : bool -> N -> Prop) (y : res E A) (r r' : areader U) (same : reader -> reader -> Prop) : Prop :=
  y <> Panic /\ (y = OutOfFuel -> lax) /\
  (returns y -> exists tr, pmoved M tr r r' /\ bytes_ok (pbytes tr) /\ (st -> is_ok y = true -> Forall pcall_ok tr) /\
     Q (is_ok y) (lenN (pbytes tr)) /\ (forall rr rr', rwf rr -> mrun rr tr rr' -> same rr rr')).
Definition xok {X Y E A} (pr : X -> areader U) (fl : X -> reader -> Y)
  (Q : bool -> N -> Prop) (f : X -> res E A * X) (g : Y -> res E A * Y) (x : X) : Prop :=
  forall y x', f x = (y, x') -> xend Q y (pr x) (pr x') (fun rr rr' => g (fl x rr) = (y, fl x' rr')).
Definition xrd {E A} := @xok (areader U) reader E A (fun r => r) flat.
Definition xmd {S A} := @xok (S * areader U) (S * reader) tag_error A snd mfl.

Lemma xok_bind {X Y E A B} pr fl (Q1 Q2 Q : bool -> N -> Prop) (m : X -> res E A * X) (n : Y -> res E A * Y)
  (f : A -> X -> res E B * X) (g : A -> Y -> res E B * Y) x :
  xok pr fl Q1 m n x ->
  (forall a x' tr, m x = (Ok a, x') -> pmoved M tr (pr x) (pr x') -> Q1 true (lenN (pbytes tr)) -> xok pr fl Q2 (f a) (g a) x') ->
  (forall d, Q1 false d -> Q false d) ->
  (forall d1 b d2, Q1 true d1 -> Q2 b d2 -> Q b (d1 + d2)) ->
  xok pr fl Q (bind m f) (bind n g) x.
Proof.
  intros G F Qf Qs y x' E1. unfold bind in E1. destruct (m x) as [a x1] eqn:Em.
  destruct (G _ _ Em) as (Np & Nf & Ht).
  destruct a as [a|e| |]; cbn [is_ok] in *.
  - destruct (Ht Logic.I) as (tr & Hm & Hb & Ho & Hq & Hz).
    destruct (F a x1 tr eq_refl Hm Hq _ _ E1) as (Np2 & Nf2 & Ht2). split; [exact Np2|]. split; [exact Nf2|]. intros R.
    destruct (Ht2 R) as (tr2 & Hm2 & Hb2 & Ho2 & Hq2 & Hz2).
    exists (tr ++ tr2). split; [eapply pmoved_app; eauto|]. rewrite pbytes_app, lenN_app.
    split; [now apply Forall_app|]. split; [intros Hs Hy; apply Forall_app; auto|]. split; [eauto|].
    intros rr rr2 W Hr. apply mrun_split in Hr. destruct Hr as (rr1 & Hr1 & Hr2). destruct (mrun_wf _ _ _ W Hr1) as [W1 _]. unfold bind.
    rewrite (Hz _ _ W Hr1). exact (Hz2 _ _ W1 Hr2).
  - injection E1 as <- <-. split; [discriminate|]. split; [discriminate|]. intros _. destruct (Ht Logic.I) as (tr & Hm & Hb & Ho & Hq & Hz).
    exists tr. split; [exact Hm|]. split; [exact Hb|]. split; [discriminate|]. split; [auto|]. intros rr rr' W Hr. unfold bind.
    now rewrite (Hz _ _ W Hr).
  - now elim Np.
  - injection E1 as <- <-. split; [discriminate|]. split; [auto|intros []].
Qed.
Lemma xok_weaken {X Y E A} pr fl (Q1 Q : bool -> N -> Prop) (f : X -> res E A * X) (g : Y -> res E A * Y) x :
  xok pr fl Q1 f g x -> (forall b d, Q1 b d -> Q b d) -> xok pr fl Q f g x.
Proof.
  intros G W y x' E1. destruct (G y x' E1) as (Np & Nf & Ht). split; [exact Np|]. split; [exact Nf|]. intros R.
  destruct (Ht R) as (tr & Hm & Hb & Ho & Hq & Hz). exists tr. auto 10.
Qed.
Lemma xbind {X Y E A B} pr fl lo1 lo2 lo (m : X -> res E A * X) (n : Y -> res E A * Y)
  (f : A -> X -> res E B * X) (g : A -> Y -> res E B * Y) x :
  xok pr fl (Lo lo1) m n x ->
  (forall a x' tr, m x = (Ok a, x') -> pmoved M tr (pr x) (pr x') -> lo1 <= lenN (pbytes tr) -> xok pr fl (Lo lo2) (f a) (g a) x') ->
  lo <= lo1 + lo2 -> xok pr fl (Lo lo) (bind m f) (bind n g) x.
Proof.
  intros G F L. eapply xok_bind; [exact G| | |].
  - intros a x' tr E1 Hm Hq. exact (F _ _ _ E1 Hm (Hq eq_refl)).
  - unfold Lo. discriminate.
  - unfold Lo. intros d1 b d2 H1 H2 ->. specialize (H1 eq_refl). specialize (H2 eq_refl). lia.
Qed.
(** The functions on readers of AnyFacts.v. *)
Lemma x_old {E A} `{FromIO E} (Q : bool -> N -> N -> Prop) (Q' : bool -> N -> Prop) (f : areader U -> res E A * areader U) (g : reader -> res E A * reader) r :
  rgood M Q f g r -> (forall q x q', rwf q -> g q = (x, q') -> returns x) -> (forall b c d, Q b c d -> Q' b d) -> xrd Q' f g r.
Proof.
  intros G Sf W y x' E1. destruct (G y x' E1) as (R & tr & Hm & Hb & Ho & Hq & Hz).
  split; [intros ->; exact R|]. split; [intros ->; elim R|]. intros _.
  destruct (amoved_pmoved M tr _ _ Hm) as (tr' & Hp & <-). exists tr'. rewrite bytes_forget in *.
  split; [exact Hp|]. split; [exact Hb|]. split.
  { intros _ Hy. destruct y; try discriminate. now apply clean_forget. }
  split; [eauto|]. intros rr rr' Wr Hr. specialize (Hz rr rr' (mrun_rrun _ _ _ Hr)). destruct (g (flat r rr)) as [z w] eqn:Eg.
  destruct Hz as [->|(-> & -> & _)]; [|reflexivity]. elim (Sf _ _ _ (flat_rwf r rr Wr) Eg).
Qed.
Lemma x_pure {X Y E A} (pr : X -> areader U) (fl : X -> reader -> Y) (y : res E A) x : returns y -> xok pr fl (fun _ d => d = 0) (fun s => (y, s)) (fun s => (y, s)) x.
Proof.
  intros R y' x' E1. apply pair_inv in E1 as [<- <-]. split; [intros ->; exact R|]. split; [intros ->; elim R|]. intros _.
  exists []. split; [apply pmoved_refl|]. split; [constructor|]. split; [constructor|]. split; [reflexivity|].
  intros rr rr' _ Hr. now inversion Hr; subst.
Qed.
Lemma x_pure0 {X Y E A} (pr : X -> areader U) (fl : X -> reader -> Y) (y : res E A) x : returns y -> xok pr fl (Lo 0) (fun s => (y, s)) (fun s => (y, s)) x.
Proof. intros R. eapply xok_weaken; [now apply x_pure|]. unfold Lo. lia. Qed.
Lemma safe_returns {E A} (g : reader -> res E A * reader) : safe g -> forall q x q', rwf q -> g q = (x, q') -> returns x.
Proof. intros S q x q' W E1. now destruct (S _ _ _ W E1). Qed.
Lemma x_ilint r : xrd (fun b d => d <= 9 /\ Lo 1 b d) (a_ilint M) deserialize_ilint r.
Proof. eapply x_old; [now apply ilint_good|apply safe_returns, safe_deserialize_ilint|]. unfold KI, Lo. intros [] k d; lia. Qed.
Lemma x_tag_size id r : xrd (fun _ d => d <= 9) (a_tag_size M id) (deserialize_tag_size id) r.
Proof. eapply x_old; [now apply tag_size_good|apply safe_returns, safe_tag_size|]. unfold KT. intros [] k d; lia. Qed.
Lemma x_uint w r : xrd (Lo 0) (a_uint M w) (deserialize_uint w) r.
Proof. eapply x_old; [now apply uint_good|apply safe_returns, safe_deserialize_uint|]. unfold Lo. lia. Qed.
Lemma x_sint w r : xrd (Lo 0) (a_sint M w) (deserialize_sint w) r.
Proof. eapply x_old; [now apply sint_good|apply safe_returns, safe_deserialize_sint|]. unfold Lo. lia. Qed.
Lemma x_f32 r : xrd (Lo 0) (a_f32 M) deserialize_f32 r.
Proof. eapply x_old; [now apply f32_good|apply safe_returns, safe_f32|]. unfold Lo. lia. Qed.
Lemma x_f64 r : xrd (Lo 0) (a_f64 M) deserialize_f64 r.
Proof. eapply x_old; [now apply f64_good|apply safe_returns, safe_f64|]. unfold Lo. lia. Qed.
Lemma x_silint r : xrd (Lo 0) (a_silint M) deserialize_signed_ilint r.
Proof. eapply x_old; [now apply silint_good|apply safe_returns, safe_deserialize_signed_ilint|]. unfold Lo. lia. Qed.
Lemma x_bytes n r : xrd (Lo 0) (a_bytes M n) (deserialize_bytes n) r.
Proof. eapply x_old; [now apply bytes_good|apply safe_returns, safe_deserialize_bytes|]. unfold Lo. lia. Qed.
Lemma x_string r : xrd (Lo 2) (a_string_tag M) deserialize_string_tag_from_value r.
Proof.
  eapply x_old; [now apply string_good| |intros b c d; apply K_Lo]. intros q x q' W E1.
  pose proof (rsafe_string False (S (left q)) q x q' W (Nat.lt_succ_diag_r _) E1) as (R & _). destruct x; auto.
Qed.
Lemma x_read r : xrd (Lo 1) (a_read M) read r.
Proof. eapply x_old; [now apply read_good|apply safe_returns, safe_read|]. unfold Lo. intros b c d Hq ->. lia. Qed.

(** ** Methods *)
Lemma x_on_reader {S A} Q (m : areader U -> res tag_error A * areader U) n (x : S * areader U) :
  xrd Q m n (snd x) -> xmd Q (a_on_reader m) (on_reader n) x.
Proof.
  destruct x as [s r]. cbn [snd]. intros G y [s' r'] E1. cbn [a_on_reader] in E1. destruct (m r) as [a r1] eqn:Em.
  destruct (G _ _ Em) as (Np & Nf & Ht). injection E1 as <- <- <-. split; [exact Np|]. split; [exact Nf|]. intros R.
  destruct (Ht R) as (tr & Hm & Hb & Ho & Hq & Hz). exists tr. do 4 (split; [assumption|]). intros rr rr' W Hr.
  unfold mfl, on_reader. cbn [fst snd]. now rewrite (Hz _ _ W Hr).
Qed.
Lemma x_modify {S} (f : S -> S) (x : S * areader U) : xmd (Lo 0) (a_modify f) (modify f) x.
Proof.
  destruct x as [s r]. intros y [s' r'] E1. cbn [a_modify] in E1. injection E1 as <- <- <-. split; [discriminate|]. split; [discriminate|]. intros _.
  exists []. split; [apply pmoved_refl|]. split; [constructor|]. split; [constructor|]. split; [unfold Lo; lia|].
  intros rr rr' _ Hr. now inversion Hr; subst.
Qed.
Lemma x_guard {S} (b : bool) e (x : S * areader U) : xmd (Lo 0) (if b then fail e else ret tt) (if b then fail e else ret tt) x.
Proof. destruct b; now apply x_pure0. Qed.
Lemma x_check {S} a n (x : S * areader U) : xmd (Lo 0) (a_check_size a n) (check_size a n) x.
Proof. unfold a_check_size, check_size. destruct (a =? n); now apply x_pure0. Qed.
Lemma x_fail {S A} e (x : S * areader U) : @xmd S A (Lo 0) (fail e) (fail e) x.
Proof. now apply x_pure0. Qed.
Lemma x_ensure_empty {S} e (x : S * areader U) : lim (snd x) -> xmd (Lo 0) (a_ensure_empty e) (limited_reader_ensure_empty e) x.
Proof.
  destruct x as [s [u|src a]]; cbn [snd lim]; intros L; [contradiction|]. intros y x' E1. unfold a_ensure_empty in E1. apply pair_inv in E1 as [<- <-].
  cbn [snd a_empty]. split; [destruct (a =? 0); discriminate|]. split; [destruct (a =? 0); discriminate|]. intros _.
  exists []. split; [apply pmoved_refl|]. split; [constructor|]. split; [constructor|]. split; [unfold Lo; lia|].
  intros rr rr' _ Hr. now inversion Hr; subst.
Qed.
Lemma x_set {A} Q (m : areader U -> res tag_error A * areader U) n (x : A * areader U) :
  xrd Q m n (snd x) -> xmd (Lo 0) (a_set_from m) (set_from n) x.
Proof.
  intros G. eapply (xbind _ _ 0 0); [apply x_on_reader; eapply xok_weaken; [exact G|unfold Lo; lia]| |lia]. intros. apply x_modify.
Qed.
Lemma x_any {X Y E A} pr fl lo n (f : X -> res E A * X) (g : Y -> res E A * Y) x :
  xok pr fl (fun b d => Lo lo b d /\ d <= n) f g x -> xok pr fl (Lo lo) f g x.
Proof. intros G. eapply xok_weaken; [exact G|]. cbv beta. tauto. Qed.
Lemma x_limited {S A} Q n (m : @amethod U S A) (m' : method S A) s (r : areader U) :
  xmd Q m m' (s, ALimited r n) -> xmd (fun b d => Q b d /\ d <= n) (a_limited n m) (limited n m') (s, r).
Proof.
  intros G y [s' r'] E1. unfold a_limited in E1. destruct (m (s, ALimited r n)) as [a [s1 r1]] eqn:Em.
  destruct (G _ _ Em) as (Np & Nf & Ht).
  assert (y = a /\ s' = s1 /\ r' = a_unlimit r1) as (-> & -> & ->) by (repeat split; congruence).
  split; [exact Np|]. split; [exact Nf|]. intros R. destruct (Ht R) as (tr & Hm & Hb & Ho & Hq & Hz).
  cbn [snd] in *. destruct r1 as [|r1 n1]; [contradiction|]. cbn [pmoved a_unlimit] in *. destruct Hm as [Hm Hn].
  exists tr. do 3 (split; [assumption|]). split; [split; [assumption|lia]|]. intros rr rr' W Hr. specialize (Hz rr rr' W Hr).
  unfold mfl, limited, LimitedReader_new in *. cbn [fst snd flat] in *. now rewrite Hz.
Qed.
Lemma x_while {S A} (P : areader U -> Prop) (m : areader U -> res tag_error A * areader U) (n : reader -> res tag_error A * reader) (store : A -> S -> S) :
  stable M P -> (forall r, P r -> xrd (Lo 1) m n r) ->
  forall fuel s src a, (N.to_nat a < fuel)%nat -> P (ALimited src a) ->
  forall y x', a_while fuel m store (s, ALimited src a) = (y, x') ->
    xend (Lo 0) y (ALimited src a) (snd x') (fun rr rr' => forall fuel', (left rr < fuel')%nat ->
      while_read fuel' n store (mfl (s, ALimited src a) rr) = (y, mfl x' rr')).
Proof.
  intros HP G. induction fuel as [|f IH]; intros s src a L Pr y x' E1; [lia|]. cbn [a_while snd a_empty] in E1.
  destruct (a =? 0) eqn:La.
  - apply pair_inv in E1. destruct E1 as [<- <-]. split; [discriminate|]. split; [discriminate|]. intros _. exists []. split; [apply pmoved_refl|].
    split; [constructor|]. split; [constructor|]. split; [unfold Lo; lia|].
    intros rr rr' _ Hr [|f'] Lf; inversion Hr; subst; cbn [while_read mfl fst snd flat limit_empty]; rewrite La; reflexivity.
  - unfold bind in E1. cbn [a_on_reader] in E1. destruct (m (ALimited src a)) as [xa r1] eqn:Em.
    destruct (G _ Pr _ _ Em) as (Np & Nf & Ht).
    assert (Le : forall rr, limit_empty (flat (ALimited src a) rr) = false) by (intros; exact La).
    destruct xa as [xa|e| |]; cbn [is_ok] in *.
    + destruct (Ht Logic.I) as (tr & Hm & Hb & Ho & Hq & Hz).
      cbn [a_modify] in E1. specialize (Hq eq_refl). destruct r1 as [|src1 a1]; [contradiction|].
      pose proof (pstable M P _ _ _ HP Pr Hm) as Pr1. assert (La1 : (N.to_nat a1 < f)%nat) by (destruct Hm as [_ Hm]; lia).
      destruct (IH _ _ _ La1 Pr1 _ _ E1) as (Np2 & Nf2 & Ht2). split; [exact Np2|]. split; [exact Nf2|]. intros R.
      destruct (Ht2 R) as (tr2 & Hm2 & Hb2 & Ho2 & Hq2 & Hz2).
      exists (tr ++ tr2). split; [exact (pmoved_app _ _ _ _ _ _ Hm Hm2)|].
      rewrite pbytes_app. split; [now apply Forall_app|]. split; [intros Hs Hy; apply Forall_app; auto|]. split; [unfold Lo; lia|].
      intros rr rr2 W Hr fuel' Lf. apply mrun_split in Hr. destruct Hr as (rr1 & Hr1 & Hr2). destruct (mrun_wf _ _ _ W Hr1) as [W1 L1].
      destruct fuel' as [|f']; [lia|]. cbn [while_read mfl fst snd]. rewrite Le.
      unfold bind, on_reader, mfl. cbn [fst snd]. rewrite (Hz _ _ W Hr1). cbn [modify].
      apply (Hz2 _ _ W1 Hr2). unfold lenN in Hq. lia.
    + apply pair_inv in E1. destruct E1 as [<- <-]. split; [discriminate|]. split; [discriminate|]. intros _.
      destruct (Ht Logic.I) as (tr & Hm & Hb & Ho & Hq & Hz). exists tr. split; [exact Hm|]. split; [exact Hb|].
      split; [discriminate|]. split; [unfold Lo; lia|]. intros rr rr' W Hr fuel' Lf.
      destruct fuel' as [|f']; [lia|]. cbn [while_read mfl fst snd]. rewrite Le.
      unfold bind, on_reader, mfl. cbn [fst snd]. now rewrite (Hz _ _ W Hr).
    + now elim Np.
    + apply pair_inv in E1. destruct E1 as [<- <-]. split; [discriminate|]. split; [auto|intros []].
Qed.
Lemma x_repeat {S A} (P : areader U -> Prop) (m : areader U -> res tag_error A * areader U) (n : reader -> res tag_error A * reader) (store : A -> S -> S) :
  stable M P -> (forall r, P r -> xrd (Lo 1) m n r) ->
  forall fuel s src a count, (N.to_nat a < fuel)%nat -> P (ALimited src a) ->
  forall y x', a_repeat fuel m store count (s, ALimited src a) = (y, x') ->
    xend (Lo 0) y (ALimited src a) (snd x') (fun rr rr' => forall fuel', (left rr < fuel')%nat ->
      repeat_read fuel' n store count (mfl (s, ALimited src a) rr) = (y, mfl x' rr')).
Proof.
  intros HP G. induction fuel as [|f IH]; intros s src a count L Pr y x' E1; [lia|]. cbn [a_repeat] in E1.
  destruct (count =? 0) eqn:La.
  - apply pair_inv in E1. destruct E1 as [<- <-]. split; [discriminate|]. split; [discriminate|]. intros _. exists []. split; [apply pmoved_refl|].
    split; [constructor|]. split; [constructor|]. split; [unfold Lo; lia|].
    intros rr rr' _ Hr [|f'] Lf; inversion Hr; subst; cbn [repeat_read]; rewrite La; reflexivity.
  - unfold bind in E1. cbn [a_on_reader] in E1. destruct (m (ALimited src a)) as [xa r1] eqn:Em.
    destruct (G _ Pr _ _ Em) as (Np & Nf & Ht).
    destruct xa as [xa|e| |]; cbn [is_ok] in *.
    + destruct (Ht Logic.I) as (tr & Hm & Hb & Ho & Hq & Hz).
      cbn [a_modify] in E1. specialize (Hq eq_refl). destruct r1 as [|src1 a1]; [contradiction|].
      pose proof (pstable M P _ _ _ HP Pr Hm) as Pr1. assert (La1 : (N.to_nat a1 < f)%nat) by (destruct Hm as [_ Hm]; lia).
      destruct (IH _ _ _ _ La1 Pr1 _ _ E1) as (Np2 & Nf2 & Ht2). split; [exact Np2|]. split; [exact Nf2|]. intros R.
      destruct (Ht2 R) as (tr2 & Hm2 & Hb2 & Ho2 & Hq2 & Hz2).
      exists (tr ++ tr2). split; [exact (pmoved_app _ _ _ _ _ _ Hm Hm2)|].
      rewrite pbytes_app. split; [now apply Forall_app|]. split; [intros Hs Hy; apply Forall_app; auto|]. split; [unfold Lo; lia|].
      intros rr rr2 W Hr fuel' Lf. apply mrun_split in Hr. destruct Hr as (rr1 & Hr1 & Hr2). destruct (mrun_wf _ _ _ W Hr1) as [W1 L1].
      destruct fuel' as [|f']; [lia|]. cbn [repeat_read]. rewrite La.
      unfold bind, on_reader, mfl. cbn [fst snd]. rewrite (Hz _ _ W Hr1). cbn [modify].
      apply (Hz2 _ _ W1 Hr2). unfold lenN in Hq. lia.
    + apply pair_inv in E1. destruct E1 as [<- <-]. split; [discriminate|]. split; [discriminate|]. intros _.
      destruct (Ht Logic.I) as (tr & Hm & Hb & Ho & Hq & Hz). exists tr. split; [exact Hm|]. split; [exact Hb|].
      split; [discriminate|]. split; [unfold Lo; lia|]. intros rr rr' W Hr fuel' Lf.
      destruct fuel' as [|f']; [lia|]. cbn [repeat_read]. rewrite La.
      unfold bind, on_reader, mfl. cbn [fst snd]. now rewrite (Hz _ _ W Hr).
    + now elim Np.
    + apply pair_inv in E1. destruct E1 as [<- <-]. split; [discriminate|]. split; [auto|intros []].
Qed.
Lemma x_while_fuelled {S A} P (m : areader U -> res tag_error A * areader U) (n : reader -> res tag_error A * reader) (store : A -> S -> S) x :
  stable M P -> (forall r, P r -> xrd (Lo 1) m n r) -> P (snd x) -> lim (snd x) ->
  xmd (Lo 0) (a_fuelled (fun f => a_while f m store)) (fuelled (fun f => while_read f n store)) x.
Proof.
  destruct x as [s [u|src a]]; cbn [snd lim]; intros HP G Pr L; [contradiction|]. intros y x' E1. unfold a_fuelled in E1. cbn [snd room] in E1.
  destruct (x_while P m n store HP G _ _ _ _ (Nat.lt_succ_diag_r _) Pr _ _ E1) as (Np & Nf & Ht).
  split; [exact Np|]. split; [exact Nf|]. intros R. destruct (Ht R) as (tr & Hm & Hb & Ho & Hq & Hz).
  exists tr. do 4 (split; [assumption|]). intros rr rr' W Hr. apply (Hz rr rr' W Hr). cbn [mfl snd]. rewrite flat_left. lia.
Qed.
Lemma x_repeat_fuelled {S A} P (m : areader U -> res tag_error A * areader U) (n : reader -> res tag_error A * reader) (store : A -> S -> S) count x :
  stable M P -> (forall r, P r -> xrd (Lo 1) m n r) -> P (snd x) -> lim (snd x) ->
  xmd (Lo 0) (a_fuelled (fun f => a_repeat f m store count)) (fuelled (fun f => repeat_read f n store count)) x.
Proof.
  destruct x as [s [u|src a]]; cbn [snd lim]; intros HP G Pr L; [contradiction|]. intros y x' E1. unfold a_fuelled in E1. cbn [snd room] in E1.
  destruct (x_repeat P m n store HP G _ _ _ _ count (Nat.lt_succ_diag_r _) Pr _ _ E1) as (Np & Nf & Ht).
  split; [exact Np|]. split; [exact Nf|]. intros R. destruct (Ht R) as (tr & Hm & Hb & Ho & Hq & Hz).
  exists tr. do 4 (split; [assumption|]). intros rr rr' W Hr. apply (Hz rr rr' W Hr). cbn [mfl snd]. rewrite flat_left. lia.
Qed.
Lemma x_m_ilint {S} (x : S * areader U) : xmd (Lo 1) (a_on_reader (a_ilint M)) (on_reader deserialize_ilint) x.
Proof. apply x_on_reader. eapply xok_weaken; [apply x_ilint|]. cbv beta. tauto. Qed.

(** ** The values *)
Definition xobj {V} (Q : bool -> N -> Prop) (f : areader U -> res tag_error unit * V * areader U)
  (g : reader -> res tag_error unit * V * reader) (r : areader U) : Prop :=
  forall y v r', f r = (y, v, r') -> xend Q y r r' (fun rr rr' => g (flat r rr) = (y, v, flat r' rr')).
Lemma x_run {S V} Q (m : @amethod U S unit) (m' : method S unit) s (mk : S -> V) r : xmd Q m m' (s, r) ->
  xobj Q (fun r => let '(x, (s', r')) := m (s, r) in (x, mk s', r')) (fun r => let '(x, (s', r')) := m' (s, r) in (x, mk s', r')) r.
Proof.
  intros G y v r' E1. destruct (m (s, r)) as [x [s1 r1]] eqn:Em.
  destruct (G _ _ Em) as (Np & Nf & Ht). injection E1 as <- <- <-. cbn [snd] in *.
  split; [exact Np|]. split; [exact Nf|]. intros R. destruct (Ht R) as (tr & Hm & Hb & Ho & Hq & Hz).
  exists tr. do 4 (split; [assumption|]). intros rr rr' W Hr. specialize (Hz rr rr' W Hr). unfold mfl in Hz. cbn [fst snd] in Hz. now rewrite Hz.
Qed.
Lemma x_vrun {S} Q (m : @amethod U S unit) (m' : method S unit) s mk r : xmd Q m m' (s, r) -> xobj Q (a_run m s mk) (run m' s mk) r.
Proof. exact (x_run Q m m' s mk r). Qed.
Lemma x_in_place vec r : bytes_ok vec ->
  xmd (Lo 0) (fun '(vec, r) => let '(x, vec', r') := a_into_slice M vec r in (x, (vec', r'))) in_place (vec, r).
Proof.
  intros Hv y [v' r'] E1. unfold a_into_slice in E1. destruct (a_read_all M vec r) as [[x b'] r1] eqn:Er.
  destruct (p_read_all M HM _ _ _ _ _ Hv Er) as (R & L & B & tr & Hm & Hb & Ho & Hq & Hz).
  assert (y = map_err TagIO x /\ v' = b' /\ r' = r1) as (-> & -> & ->) by (repeat split; congruence).
  assert (Hi : is_ok (map_err TagIO x) = is_ok x) by now destruct x.
  split; [destruct x; try contradiction; discriminate|]. split; [destruct x; try contradiction; discriminate|]. intros _.
  exists tr. split; [exact Hm|]. split; [exact Hb|]. split; [intros _; rewrite Hi; exact Ho|]. split; [unfold Lo; lia|].
  intros rr rr' W Hr. destruct (Hz rr rr' Hr) as (got & Ef & ->). unfold mfl, in_place, into_slice. cbn [fst snd]. now rewrite Ef.
Qed.
Lemma x_raw n vec r : bytes_ok vec -> xmd (Lo 0) (a_raw M n) (raw_deserialize n) (vec, r).
Proof. intros Hv. exact (x_in_place (resizeN n 0 vec) r (resize_ok n vec Hv)). Qed.
Lemma x_bigdec n z vec r : bytes_ok vec -> xmd (Lo 0) (a_bigdec M n) (bigdec_deserialize n) ((z, vec), r).
Proof.
  intros Hv. unfold a_bigdec, bigdec_deserialize. eapply (xbind _ _ 0 0); [apply x_guard| |lia]. intros u1 x1 d1 E1 _ _.
  assert (x1 = ((z, vec), r)) as -> by (destruct (n <? 4); unfold fail, ret in E1; congruence).
  eapply (xbind _ _ 0 0); [apply x_on_reader, x_sint| |lia]. intros sc x2 d2 E2 _ _.
  assert (exists r2, x2 = ((z, vec), r2)) as (r2 & ->).
  { unfold a_on_reader in E2. destruct (a_sint M W32 r). exists a. congruence. }
  eapply (xbind _ _ 0 0); [apply x_modify| |lia]. intros u3 x3 d3 E3 _ _.
  assert (x3 = ((sc, vec), r2)) as -> by (cbn in E3; congruence).
  pose proof (x_raw (n - 4) vec r2 Hv) as G. intros y [[sc' v'] r'] E4. unfold a_on_snd in E4.
  destruct (a_raw M (n - 4) (vec, r2)) as [a [v1 r1]] eqn:Er. destruct (G _ _ Er) as (Np & Nf & Ht).
  assert (y = a /\ sc' = sc /\ v' = v1 /\ r' = r1) as (-> & -> & -> & ->) by (repeat split; congruence).
  split; [exact Np|]. split; [exact Nf|]. intros R. destruct (Ht R) as (tr & Hm & Hb & Ho & Hq & Hz).
  exists tr. do 4 (split; [assumption|]). intros rr rr' W Hr. specialize (Hz rr rr' W Hr). unfold mfl, on_snd in *. cbn [fst snd] in *. now rewrite Hz.
Qed.
Lemma stable_true : stable M (fun _ => True). Proof. intros ? ? ? _ _. exact Logic.I. Qed.
Lemma x_utf8 tmp (x : list N * areader U) :
  xmd (Lo 0) (if from_utf8 tmp then a_modify (fun _ => tmp) else fail CorruptedData)
           (if from_utf8 tmp then modify (fun _ => tmp) else fail CorruptedData) x.
Proof. destruct (from_utf8 tmp); [apply x_modify|apply x_fail]. Qed.
Ltac after0 := intros; eapply (xbind _ _ 0 0); [| |lia].
Lemma x_ilintarray n s r : xmd (Lo 0) (a_ilintarray M n) (ilintarray_deserialize n) (s, r).
Proof.
  eapply x_any. apply x_limited. eapply (xbind _ _ _ 0); [apply x_m_ilint| |lia]. intros count x1 b1 _ M1 _.
  pose proof (pstable M _ _ _ _ (stable_lim M) (lim_limited r n) M1) as L1.
  after0; [apply x_guard|]. intros _ x2 b2 _ M2 _. pose proof (pstable M _ _ _ _ (stable_lim M) L1 M2) as L2.
  after0; [apply x_modify|]. intros _ x3 b3 _ M3 _. pose proof (pstable M _ _ _ _ (stable_lim M) L2 M3) as L3.
  after0; [eapply (x_repeat_fuelled (fun _ => True)); auto using stable_true|].
  - intros r1 _. eapply xok_weaken; [apply x_ilint|]. cbv beta. tauto.
  - intros ? ? ? _ M9 _. apply x_ensure_empty. exact (pstable M _ _ _ _ (stable_lim M) L3 M9).
Qed.
Lemma x_range n s r : xmd (Lo 0) (a_range M n) (range_deserialize n) (s, r).
Proof.
  eapply x_any. apply x_limited. eapply (xbind _ _ _ 0); [apply x_m_ilint| |lia]. intros count x1 b1 _ M1 _.
  pose proof (pstable M _ _ _ _ (stable_lim M) (lim_limited r n) M1) as L1.
  after0; [apply x_modify|]. intros _ x2 b2 _ M2 _. pose proof (pstable M _ _ _ _ (stable_lim M) L1 M2) as L2.
  after0; [apply x_on_reader, x_uint|]. intros v x3 b3 _ M3 _. pose proof (pstable M _ _ _ _ (stable_lim M) L2 M3) as L3.
  after0; [apply x_modify|]. intros _ x4 b4 _ M4 _. apply x_ensure_empty. exact (pstable M _ _ _ _ (stable_lim M) L3 M4).
Qed.
Lemma x_version n x : xmd (Lo 0) (a_version M n) (version_deserialize n) x.
Proof.
  after0; [apply x_check|]. do 3 (intros; after0; [apply x_on_reader, x_sint|]; intros; after0; [apply x_modify|]).
  intros; after0; [apply x_on_reader, x_sint|]; intros. apply x_modify.
Qed.
Lemma x_strdict n s r : xmd (Lo 0) (a_strdict M n) (strdict_deserialize n) (s, r).
Proof.
  eapply x_any. apply x_limited. eapply (xbind _ _ _ 0); [apply x_m_ilint| |lia]. intros count x1 b1 _ M1 _.
  pose proof (pstable M _ _ _ _ (stable_lim M) (lim_limited r n) M1) as L1.
  after0; [apply x_modify|]. intros _ x3 b3 _ M3 _. pose proof (pstable M _ _ _ _ (stable_lim M) L1 M3) as L3.
  after0; [eapply (x_repeat_fuelled (fun _ => True)); auto using stable_true|].
  - intros r1 _. eapply (xbind _ _ 2 0); [apply x_string| |lia]. intros k r2 b4 _ M4 _.
    eapply (xbind _ _ 2 0); [apply x_string| |lia]. intros. now apply x_pure0.
  - intros ? ? ? _ M9 _. apply x_ensure_empty. exact (pstable M _ _ _ _ (stable_lim M) L3 M9).
Qed.
(** The types that hold no tags; also what a failure leaves in the object. *)
Lemma x_std d d' v n r : leaf v -> holds_bytes v -> xobj (Lo 0) (a_value M d v n) (deserialize_value d' v n) r.
Proof.
  intros Hl Hb. destruct v; cbn [leaf holds_bytes] in *; try contradiction; cbn [a_value deserialize_value]; apply x_vrun.
  - apply x_check.
  - after0; [apply x_check|]. intros. after0; [apply x_on_reader, x_uint|]. intros z0 ? ? _ _ _. destruct (z0 =? 0); [apply x_modify|].
    destruct (z0 =? 1); [apply x_modify|apply x_fail].
  - after0; [apply x_check|]. intros. eapply x_set, x_uint.
  - after0; [apply x_check|]. intros. eapply x_set, x_sint.
  - after0; [apply x_check|]. intros. eapply x_set, x_f32.
  - after0; [apply x_check|]. intros. eapply x_set, x_f64.
  - after0; [apply x_check|]. intros ? x' ? E1 _ _. assert (x' = (bs, r)) as -> by (unfold a_check_size in E1; destruct (n =? 16); unfold ret, fail in E1; congruence).
    now apply x_in_place.
  - eapply x_set, x_ilint.
  - eapply x_set, x_silint.
  - now apply x_raw.
  - now apply x_raw.
  - after0; [apply x_on_reader, x_bytes|]. intros. apply x_utf8.
  - now apply x_raw.
  - now apply x_bigdec.
  - apply x_ilintarray.
  - apply x_range.
  - apply x_version.
  - apply x_ilintarray.
  - apply x_strdict.
Qed.

(** The types that hold tags. *)
Section Values.
Context {T : Type} (deser : areader U -> res tag_error T * areader U) (deser' : reader -> res tag_error T * reader) (P : areader U -> Prop).
Hypothesis HP : stable M P.
Hypothesis HD : deep P.
Hypothesis G : forall r, P r -> xrd (Lo 1) deser deser' r.
Lemma x_seq n s r : P r -> xmd (Lo 0) (a_seq deser n) (seq_deserialize deser' n) (s, r).
Proof.
  intros Pr. eapply x_any. apply x_limited. after0; [apply x_modify|].
  intros _ x1 b1 _ M1 _. pose proof (pstable M _ _ _ _ (stable_lim M) (lim_limited r n) M1) as L1. pose proof (pstable M _ _ _ _ HP (HD r n Pr) M1) as P1.
  eapply x_while_fuelled; eauto.
Qed.
Lemma x_arr n s r : P r -> xmd (Lo 0) (a_arr M deser n) (arr_deserialize deser' n) (s, r).
Proof.
  intros Pr. eapply x_any. apply x_limited. eapply (xbind _ _ _ 0); [apply x_m_ilint| |lia]. intros count x1 b1 _ M1 _.
  pose proof (pstable M _ _ _ _ (stable_lim M) (lim_limited r n) M1) as L1. pose proof (pstable M _ _ _ _ HP (HD r n Pr) M1) as P1.
  after0; [apply x_guard|]. intros _ x2 b2 _ M2 _. pose proof (pstable M _ _ _ _ (stable_lim M) L1 M2) as L2. pose proof (pstable M _ _ _ _ HP P1 M2) as P2.
  after0; [apply x_modify|]. intros _ x3 b3 _ M3 _. pose proof (pstable M _ _ _ _ (stable_lim M) L2 M3) as L3. pose proof (pstable M _ _ _ _ HP P2 M3) as P3.
  after0; [eapply x_repeat_fuelled; eauto|]. intros ? ? ? _ M9 _. apply x_ensure_empty. exact (pstable M _ _ _ _ (stable_lim M) L3 M9).
Qed.
Lemma x_dict n s r : P r -> xmd (Lo 0) (a_dict M deser n) (dict_deserialize deser' n) (s, r).
Proof.
  intros Pr. eapply x_any. apply x_limited. eapply (xbind _ _ _ 0); [apply x_m_ilint| |lia]. intros count x1 b1 _ M1 _.
  pose proof (pstable M _ _ _ _ (stable_lim M) (lim_limited r n) M1) as L1. pose proof (pstable M _ _ _ _ HP (HD r n Pr) M1) as P1.
  after0; [apply x_modify|]. intros _ x3 b3 _ M3 _. pose proof (pstable M _ _ _ _ (stable_lim M) L1 M3) as L3. pose proof (pstable M _ _ _ _ HP P1 M3) as P3.
  after0; [eapply (x_repeat_fuelled P); eauto|].
  - intros r1 Pr1. eapply (xbind _ _ 2 1); [apply x_string| |lia].
    intros k r2 b4 _ M4 _. eapply (xbind _ _ 1 0); [apply G; exact (pstable M _ _ _ _ HP Pr1 M4)| |lia]. intros. now apply x_pure0.
  - intros ? ? ? _ M9 _. apply x_ensure_empty. exact (pstable M _ _ _ _ (stable_lim M) L3 M9).
Qed.
End Values.

(** ** The calls of a program *)
Lemma x_chunks fuel : forall buff n r, lenN buff = 512 -> bytes_ok buff -> n = 0 \/ n / 512 < N.of_nat fuel ->
  forall y r', skip_chunks (a_read_all M) fuel buff n r = (y, r') ->
    xend (Lo n) y r r' (fun rr rr' => forall f, (left rr < f)%nat -> skip_loop f n (flat r rr) = (y, flat r' rr')).
Proof.
  induction fuel as [|fuel IH]; intros buff n r Lb Hb Hf y r' E1; cbn [skip_chunks] in E1; destruct (N.eqb_spec n 0) as [->|Hn].
  1,3: apply pair_inv in E1; destruct E1 as [<- <-]; split; [discriminate|]; split; [discriminate|]; intros _; exists []; split; [apply pmoved_refl|];
    split; [constructor|]; split; [constructor|]; split; [unfold Lo; lia|]; intros rr rr' _ Hr [|f] Lf; inversion Hr; subst; reflexivity.
  { destruct Hf; [contradiction|]. lia. }
  cbv zeta in E1. rewrite Lb in E1. destruct Hf as [Hf|Hf]; [contradiction|]. apply div_next in Hf; [|lia|assumption].
  set (k := N.min n 512) in *. assert (Hk : lenN (takeN k buff) = k) by (rewrite lenN_takeN; lia).
  destruct (a_read_all M (takeN k buff) r) as [[x b1] r1] eqn:Er.
  destruct (p_read_all M HM _ _ _ _ _ (Forall_takeN _ _ _ Hb) Er) as (R & L1 & B1 & tr & Hm & Hbt & Ho & Hl & Hz). rewrite Hk in *.
  destruct x as [[]|e| |]; try contradiction; cbn [is_ok] in *.
  - assert (Lb1 : lenN (b1 ++ dropN k buff) = 512) by (rewrite lenN_app, lenN_dropN; lia).
    assert (Bb1 : bytes_ok (b1 ++ dropN k buff)) by (apply Forall_app; split; [exact B1|now apply Forall_dropN]).
    destruct (IH _ _ _ Lb1 Bb1 Hf _ _ E1) as (Np & Nf & Ht). split; [exact Np|]. split; [exact Nf|]. intros Ry.
    destruct (Ht Ry) as (tr2 & Hm2 & Hb2 & Ho2 & Hq2 & Hz2).
    exists (tr ++ tr2). split; [eapply pmoved_app; eauto|]. rewrite pbytes_app, lenN_app. split; [now apply Forall_app|].
    split; [intros; apply Forall_app; auto|]. split; [unfold Lo in *; intros Hy; specialize (Hq2 Hy); lia|].
    intros rr rr2 W Hr [|f] Lf; [lia|]. cbn [skip_loop]. destruct (N.eqb_spec n 0); [contradiction|].
    apply mrun_split in Hr as (rr1 & Hr1 & Hr2). destruct (mrun_wf _ _ _ W Hr1) as [W1 Lw]. cbv zeta. fold k.
    destruct (Hz _ _ Hr1) as (got & -> & _). apply (Hz2 _ _ W1 Hr2). unfold lenN in Hl. lia.
  - apply pair_inv in E1. destruct E1 as [<- <-]. split; [discriminate|]. split; [discriminate|]. intros _. exists tr. do 2 (split; [assumption|]).
    split; [discriminate|]. split; [discriminate|].
    intros rr rr2 W Hr [|f] Lf; [lia|]. cbn [skip_loop]. destruct (N.eqb_spec n 0); [contradiction|].
    cbv zeta. fold k. destruct (Hz _ _ Hr) as (got & -> & _). reflexivity.
Qed.
Lemma x_skip c n r : lim r -> xrd (Lo n) (a_skip M n) (skip c n) r.
Proof.
  intros L y r' E1.
  assert (Hf : n = 0 \/ n / 512 < N.of_nat (S (N.to_nat (n / 512)))) by (right; rewrite Nat2N.inj_succ, N2Nat.id; apply N.lt_succ_diag_r).
  destruct (x_chunks _ _ _ _ (lenN_repeatN _ _) (repeatN_ok _) Hf _ _ E1) as (Np & Nf & Ht).
  split; [exact Np|]. split; [exact Nf|]. intros R. destruct (Ht R) as (tr & Hm & Hb & Ho & Hq & Hz).
  exists tr. do 4 (split; [assumption|]). intros rr rr' W Hr. destruct r as [|s a]; [contradiction|].
  apply (Hz _ _ W Hr). rewrite flat_left. lia.
Qed.
Lemma x_skip_u64 c n r : 1 <= usize_max c -> lim r -> xrd (Lo n) (a_skip_u64 M c n) (skip_u64 c n) r.
Proof.
  intros Hc L.
  assert (G : forall y r', a_skip_u64 M c n r = (y, r') ->
    xend (Lo n) y r r' (fun rr rr' => forall f, (left rr < f)%nat -> skip_u64_loop c f n (flat r rr) = (y, flat r' rr'))).
  { unfold a_skip_u64, default_skip_u64. set (fuel := S (N.to_nat (n / usize_max c))).
    assert (Hf : n = 0 \/ n / usize_max c < N.of_nat fuel).
    { right. unfold fuel. rewrite Nat2N.inj_succ, N2Nat.id. apply N.lt_succ_diag_r. }
    clearbody fuel.
    revert n r L Hf. induction fuel as [|fuel IH]; intros n r L Hf y r' E1; cbn [skip_pieces] in E1; destruct (N.eqb_spec n 0) as [->|Hn].
    1,3: apply pair_inv in E1; destruct E1 as [<- <-]; split; [discriminate|]; split; [discriminate|]; intros _; exists []; split; [apply pmoved_refl|];
      split; [constructor|]; split; [constructor|]; split; [unfold Lo; lia|]; intros rr rr' _ Hr [|f] Lf; inversion Hr; subst; reflexivity.
    { destruct Hf as [Hf|Hf]; [contradiction|]. now apply N.nlt_0_r in Hf. }
    cbv zeta in E1. destruct Hf as [Hf|Hf]; [contradiction|]. apply div_next in Hf; [|lia|assumption].
    set (k := N.min n (usize_max c)) in *.
    destruct (a_skip M k r) as [x r1] eqn:Er.
    destruct (x_skip c k r L _ _ Er) as (Np & Nf & Ht). destruct x as [[]|e| |]; cbn [is_ok] in *.
    - destruct (Ht Logic.I) as (tr & Hm & Hbt & Ho & Hl & Hz). specialize (Hl eq_refl).
      destruct (IH _ _ (pstable M _ _ _ _ (stable_lim M) L Hm) Hf _ _ E1) as (Np2 & Nf2 & Ht2). split; [exact Np2|]. split; [exact Nf2|]. intros Ry.
      destruct (Ht2 Ry) as (tr2 & Hm2 & Hb2 & Ho2 & Hq2 & Hz2).
      exists (tr ++ tr2). split; [eapply pmoved_app; eauto|]. rewrite pbytes_app, lenN_app. split; [now apply Forall_app|].
      split; [intros; apply Forall_app; auto|]. split; [unfold Lo in *; intros Hy; specialize (Hq2 Hy); lia|].
      intros rr rr2 W Hr [|f] Lf; [lia|]. cbn [skip_u64_loop]. destruct (N.eqb_spec n 0); [contradiction|].
      apply mrun_split in Hr as (rr1 & Hr1 & Hr2). destruct (mrun_wf _ _ _ W Hr1) as [W1 Lw]. cbv zeta. fold k.
      rewrite (Hz _ _ W Hr1). apply (Hz2 _ _ W1 Hr2). unfold lenN in Hl. lia.
    - apply pair_inv in E1. destruct E1 as [<- <-]. split; [discriminate|]. split; [discriminate|]. intros _.
      destruct (Ht Logic.I) as (tr & Hm & Hbt & Ho & Hl & Hz). exists tr. do 2 (split; [assumption|]).
      split; [discriminate|]. split; [discriminate|].
      intros rr rr2 W Hr [|f] Lf; [lia|]. cbn [skip_u64_loop]. destruct (N.eqb_spec n 0); [contradiction|].
      cbv zeta. fold k. now rewrite (Hz _ _ W Hr).
    - now elim Np.
    - apply pair_inv in E1. destruct E1 as [<- <-]. split; [discriminate|]. split; [auto|intros []]. }
  intros y r' E1. destruct (G _ _ E1) as (Np & Nf & Ht).
  split; [exact Np|]. split; [exact Nf|]. intros R. destruct (Ht R) as (tr & Hm & Hb & Ho & Hq & Hz).
  exists tr. do 4 (split; [assumption|]). intros rr rr' W Hr. destruct r as [|s a]; [contradiction|].
  apply (Hz _ _ W Hr). rewrite flat_left. lia.
Qed.
End AnyFullFacts.

(** Proofs about AnyProg.v. *)
From Verif Require Import Base BaseFacts Types Spec SpecFacts IO IOSpec IOFacts Logic HistFacts ILInt ILIntFacts Data DataFacts Tags TagsFacts
  Factory FactoryFacts DecodeFacts DeserFacts IntoFacts ClosedFacts Open KinFacts OpenFacts Prog ProgFacts Any AnyFacts AnyScan AnyProg.

(** Calls of methods of a reader with all the answers: an error or a byte; an
    error or success, and the contents of the buffer before and after. *)
Inductive pcall := PRead (x : io_error + N) | PFill (buff : list N) (x : io_error + unit) (after : list N).
Definition pcall_bytes (c : pcall) : list N :=
  match c with PRead (inr b) => [b] | PFill _ (inr _) bs => bs | _ => [] end.
Definition pcall_ok (c : pcall) : Prop :=
  match c with PRead (inr _) | PFill _ (inr _) _ => True | _ => False end.
(** What the successful calls of a run have handed out. *)
Definition pbytes (tr : list pcall) : list N := flat_map pcall_bytes tr.
Definition of_sum {E A} (x : E + A) : res E A := match x with inl e => Err e | inr a => Ok a end.
(** Runs of calls on an object of the implementation [M], and on a reader of IO.v. *)
Inductive prun {U} (M : reader_impl U) : U -> list pcall -> U -> Prop :=
| prun_nil u : prun M u [] u
| prun_read u x u1 tr u2 : u_read M u = (of_sum x, u1) -> prun M u1 tr u2 -> prun M u (PRead x :: tr) u2
| prun_fill u buff x bs u1 tr u2 : u_read_all M buff u = (of_sum x, bs, u1) -> prun M u1 tr u2 ->
    prun M u (PFill buff x bs :: tr) u2.
Inductive mrun : reader -> list pcall -> reader -> Prop :=
| mrun_nil r : mrun r [] r
| mrun_read r x r1 tr r2 : read r = (of_sum x, r1) -> mrun r1 tr r2 -> mrun r (PRead x :: tr) r2
| mrun_fill r buff x got r1 tr r2 : read_all (lenN buff) r = (of_sum x, got, r1) -> mrun r1 tr r2 ->
    mrun r (PFill buff x (got ++ dropN (lenN got) buff) :: tr) r2.

Definition forget (c : pcall) : call :=
  match c with
  | PRead x => CRead x
  | PFill buff (inr _) bs => CFill (lenN buff) (inr bs)
  | PFill buff (inl e) _ => CFill (lenN buff) (inl e)
  end.
Lemma bytes_forget tr : bytes_of (map forget tr) = pbytes tr.
Proof.
  induction tr as [|c tr IH]; [reflexivity|]. unfold bytes_of, pbytes in *. cbn [map flat_map]. rewrite IH. f_equal.
  destruct c as [[|]|? [|] ?]; reflexivity.
Qed.
Lemma clean_forget tr : clean (map forget tr) <-> Forall pcall_ok tr.
Proof.
  unfold clean. rewrite Forall_map. split; apply Forall_impl; intros [[|]|? [|] ?]; cbn; auto.
Qed.
Lemma pbytes_app a b : pbytes (a ++ b) = pbytes a ++ pbytes b.
Proof. apply flat_map_app. Qed.
Lemma prun_app {U} (M : reader_impl U) u tr u1 tr2 u2 : prun M u tr u1 -> prun M u1 tr2 u2 -> prun M u (tr ++ tr2) u2.
Proof. induction 1; intros K; cbn [app]; [exact K|econstructor; eauto..]. Qed.
Lemma mrun_split tr : forall tr2 r r2, mrun r (tr ++ tr2) r2 -> exists r1, mrun r tr r1 /\ mrun r1 tr2 r2.
Proof.
  induction tr as [|c tr IH]; intros tr2 r r2 H; cbn [app] in H; [exists r; split; [constructor|exact H]|].
  inversion H; subst; match goal with K : mrun _ (tr ++ tr2) _ |- _ => destruct (IH _ _ _ K) as (q & A & B) end;
    exists q; (split; [econstructor; eauto|exact B]).
Qed.
Lemma urun_prun {U} (M : reader_impl U) u tr u' : urun M u tr u' -> exists tr', prun M u tr' u' /\ map forget tr' = tr.
Proof.
  induction 1 as [u|u b u1 tr u2 E _ (tr' & H & <-)|u e u1 tr u2 E _ (tr' & H & <-)|u buff bs u1 tr u2 E _ (tr' & H & <-)|u buff e bs u1 tr u2 E _ (tr' & H & <-)].
  - exists []. split; [constructor|reflexivity].
  - exists (PRead (inr b) :: tr'). split; [econstructor; eauto|reflexivity].
  - exists (PRead (inl e) :: tr'). split; [econstructor; eauto|reflexivity].
  - exists (PFill buff (inr tt) bs :: tr'). split; [econstructor; eauto|reflexivity].
  - exists (PFill buff (inl e) bs :: tr'). split; [econstructor; eauto|reflexivity].
Qed.
Lemma prun_urun {U} (M : reader_impl U) u tr u' : prun M u tr u' -> urun M u (map forget tr) u'.
Proof.
  induction 1 as [u|u x u1 tr u2 E _ IH|u buff x bs u1 tr u2 E _ IH]; cbn [map forget]; [constructor| |].
  - destruct x; [eapply urun_read_err|eapply urun_read]; eauto.
  - destruct x as [e|[]]; [eapply urun_fill_err|eapply urun_fill]; eauto.
Qed.
Lemma mrun_rrun r tr r' : mrun r tr r' -> rrun r (map forget tr) r'.
Proof.
  induction 1 as [r|r x r1 tr r2 E _ IH|r buff x got r1 tr r2 E _ IH]; cbn [map forget]; [constructor| |].
  - destruct x; [eapply rrun_read_err|eapply rrun_read]; eauto.
  - destruct x as [e|[]]; [eapply rrun_fill_err; eauto|].
    cbn [of_sum] in E. pose proof (proj1 (read_all_ok _ _ _ _ E)) as L. rewrite L, dropN_all, app_nil_r by lia.
    eapply rrun_fill; eauto.
Qed.

(** A run of the object inside LimitedReaders, which count the bytes. *)
Fixpoint pmoved {U} (M : reader_impl U) (tr : list pcall) (r r' : areader U) : Prop :=
  match r, r' with
  | ABase u, ABase u' => prun M u tr u'
  | ALimited s a, ALimited s' a' => pmoved M tr s s' /\ a' + lenN (pbytes tr) = a
  | _, _ => False
  end.
Lemma amoved_pmoved {U} (M : reader_impl U) tr r : forall r', amoved M tr r r' -> exists tr', pmoved M tr' r r' /\ map forget tr' = tr.
Proof.
  induction r as [u|s IH a]; intros [u'|s' a']; cbn [amoved pmoved]; try tauto; [apply urun_prun|].
  intros (H & L). destruct (IH _ H) as (tr' & Hp & <-). exists tr'. rewrite bytes_forget in L. auto.
Qed.
Lemma pmoved_amoved {U} (M : reader_impl U) tr r : forall r', pmoved M tr r r' -> amoved M (map forget tr) r r'.
Proof.
  induction r as [u|s IH a]; intros [u'|s' a']; cbn [amoved pmoved]; try tauto; [apply prun_urun|].
  intros (H & L). rewrite bytes_forget. auto.
Qed.
Lemma pmoved_app {U} (M : reader_impl U) r : forall tr r1 tr2 r2,
  pmoved M tr r r1 -> pmoved M tr2 r1 r2 -> pmoved M (tr ++ tr2) r r2.
Proof.
  induction r as [u|s IH a]; intros tr [u1|s1 a1] tr2 [u2|s2 a2]; cbn [pmoved]; try tauto.
  - apply prun_app.
  - intros (H & A) (K & B). split; [eapply IH; eauto|]. rewrite pbytes_app, lenN_app. lia.
Qed.
Lemma pmoved_refl {U} (M : reader_impl U) r : pmoved M [] r r.
Proof. induction r; cbn [pmoved]; [constructor|split; [assumption|]]. cbn. lia. Qed.

Section AnyProgFacts.
Context {U : Type} (M : reader_impl U) (HM : impl_ok M).
(** If [st] holds, a success has had no failing call. *)
Context (st : Prop).
(** The counterparts come with a parameter (their fuel). *)
Context {J : Type}.

(** The outcome of [f] at [x]: it ends, after a run whose bytes satisfy [Q], and
    [g] does the same on any reader that gives the answers of the run. *)
Definition pgood {X Y E A} (pr : X -> areader U) (pr' : Y -> reader) (fl : X -> reader -> Y)
  (Q : bool -> N -> Prop) (f : X -> res E A * X) (g : J -> Y -> res E A * Y) (x : X) : Prop :=
  forall y x', f x = (y, x') ->
    returns y /\
    exists tr, pmoved M tr (pr x) (pr x') /\ bytes_ok (pbytes tr) /\ (st -> is_ok y = true -> Forall pcall_ok tr) /\
      Q (is_ok y) (lenN (pbytes tr)) /\
      (forall j rr rr', mrun rr tr rr' -> let '(z, w) := g j (fl x rr) in
        z = OutOfFuel \/ (z = y /\ pr' w = flat (pr x') rr' /\ (is_ok y = true -> w = fl x' rr'))).
Definition prd {E A} := @pgood (areader U) reader E A (fun r => r) (fun r => r) flat.
Definition pmd {S A} := @pgood (S * areader U) (S * reader) tag_error A snd snd mfl.

(** The functions that make no use of user types. *)
Lemma pgood_old {X Y E A} `{FromIO E} pr pr' fl (Q : bool -> N -> N -> Prop) (Q' : bool -> N -> Prop) (f : X -> res E A * X) (g : Y -> res E A * Y) x :
  agood M pr pr' fl Q f g x -> (forall b c d, Q b c d -> Q' b d) -> pgood pr pr' fl Q' f (fun _ => g) x.
Proof.
  intros G W y x' E1. destruct (G y x' E1) as (R & tr & Hm & Hb & Ho & Hq & Hz). split; [exact R|].
  destruct (amoved_pmoved M tr _ _ Hm) as (tr' & Hp & <-). exists tr'. rewrite bytes_forget in *.
  split; [exact Hp|]. split; [exact Hb|]. split.
  { intros _ Hy. destruct y; try discriminate. now apply clean_forget. }
  split; [eauto|]. intros _ rr rr' Hr. apply Hz. now apply mrun_rrun.
Qed.
Lemma pgood_bind {X Y E A B} pr pr' fl (Q1 Q2 Q : bool -> N -> Prop) (m : X -> res E A * X) (n : J -> Y -> res E A * Y)
  (f : A -> X -> res E B * X) (g : J -> A -> Y -> res E B * Y) x :
  pgood pr pr' fl Q1 m n x ->
  (forall a x' tr, m x = (Ok a, x') -> pmoved M tr (pr x) (pr x') -> Q1 true (lenN (pbytes tr)) -> pgood pr pr' fl Q2 (f a) (fun j => g j a) x') ->
  (forall d, Q1 false d -> Q false d) ->
  (forall d1 b d2, Q1 true d1 -> Q2 b d2 -> Q b (d1 + d2)) ->
  pgood pr pr' fl Q (bind m f) (fun j => bind (n j) (g j)) x.
Proof.
  intros G F Qf Qs y x' E1. unfold bind in E1. destruct (m x) as [a x1] eqn:Em.
  destruct (G _ _ Em) as (R & tr & Hm & Hb & Ho & Hq & Hz).
  destruct a as [a|e| |]; cbn [is_ok] in *; try contradiction.
  - destruct (F a x1 tr eq_refl Hm Hq _ _ E1) as (R2 & tr2 & Hm2 & Hb2 & Ho2 & Hq2 & Hz2).
    split; [exact R2|]. exists (tr ++ tr2). split; [eapply pmoved_app; eauto|]. rewrite pbytes_app, lenN_app.
    split; [now apply Forall_app|]. split; [intros Hs Hy; apply Forall_app; auto|]. split; [eauto|].
    intros j rr rr2 Hr. apply mrun_split in Hr. destruct Hr as (rr1 & Hr1 & Hr2). unfold bind.
    specialize (Hz j _ _ Hr1). specialize (Hz2 j _ _ Hr2). destruct (n j (fl x rr)) as [z w].
    destruct Hz as [->|(-> & _ & Hw)]; [now left|]. rewrite (Hw eq_refl). exact Hz2.
  - injection E1 as <- <-. split; [exact I|]. exists tr. split; [exact Hm|]. split; [exact Hb|].
    split; [discriminate|]. split; [auto|]. intros j rr rr' Hr. specialize (Hz j rr rr' Hr). unfold bind.
    destruct (n j (fl x rr)) as [z w]. destruct Hz as [->|(-> & Hw & _)]; [now left|].
    right. split; [reflexivity|]. split; [exact Hw|discriminate].
Qed.
Lemma pgood_weaken {X Y E A} pr pr' fl (Q1 Q : bool -> N -> Prop) (f : X -> res E A * X) (g : J -> Y -> res E A * Y) x :
  pgood pr pr' fl Q1 f g x -> (forall b d, Q1 b d -> Q b d) -> pgood pr pr' fl Q f g x.
Proof.
  intros G W y x' E1. destruct (G y x' E1) as (R & tr & Hm & Hb & Ho & Hq & Hz).
  split; [exact R|]. exists tr. auto 10.
Qed.
(** Bounds: a success has handed out at least [lo] bytes. *)
Definition Lo (lo : N) (b : bool) (d : N) : Prop := b = true -> lo <= d.
Lemma pbind {X Y E A B} pr pr' fl lo1 lo2 lo (m : X -> res E A * X) (n : J -> Y -> res E A * Y)
  (f : A -> X -> res E B * X) (g : J -> A -> Y -> res E B * Y) x :
  pgood pr pr' fl (Lo lo1) m n x ->
  (forall a x' tr, m x = (Ok a, x') -> pmoved M tr (pr x) (pr x') -> lo1 <= lenN (pbytes tr) -> pgood pr pr' fl (Lo lo2) (f a) (fun j => g j a) x') ->
  lo <= lo1 + lo2 -> pgood pr pr' fl (Lo lo) (bind m f) (fun j => bind (n j) (g j)) x.
Proof.
  intros G F L. eapply pgood_bind; [exact G| | |].
  - intros a x' tr E1 Hm Hq. exact (F _ _ _ E1 Hm (Hq eq_refl)).
  - unfold Lo. discriminate.
  - unfold Lo. intros d1 b d2 H1 H2 ->. specialize (H1 eq_refl). specialize (H2 eq_refl). lia.
Qed.
Lemma K_Lo k lo b c d : K k lo b c d -> Lo lo b d.
Proof. unfold K, Lo. intros H ->. lia. Qed.
Lemma K0_Lo b c d : K0 b c d -> Lo 0 b d.
Proof. unfold K0, Lo. intros. lia. Qed.
Lemma pstable P tr r r' : stable M P -> P r -> pmoved M tr r r' -> P r'.
Proof. intros HP Pr Hm. eapply HP; [exact Pr|]. now apply pmoved_amoved with (tr := tr). Qed.

(** ** Containers *)
Lemma p_limited {S A} Q n (m : @amethod U S A) (m' : J -> method S A) s (r : areader U) :
  pmd Q m m' (s, ALimited r n) -> pmd (fun b d => Q b d /\ d <= n) (a_limited n m) (fun j => limited n (m' j)) (s, r).
Proof.
  intros G y [s' r'] E1. unfold a_limited in E1. destruct (m (s, ALimited r n)) as [a [s1 r1]] eqn:Em.
  destruct (G _ _ Em) as (R & tr & Hm & Hb & Ho & Hq & Hz).
  assert (y = a /\ s' = s1 /\ r' = a_unlimit r1) as (-> & -> & ->) by (repeat split; congruence).
  cbn [snd] in *. destruct r1 as [|r1 n1]; [contradiction|]. cbn [pmoved a_unlimit] in *. destruct Hm as [Hm Hn].
  split; [exact R|]. exists tr. do 3 (split; [assumption|]). split; [split; [assumption|lia]|]. intros j rr rr' Hr. specialize (Hz j rr rr' Hr).
  unfold mfl, limited, LimitedReader_new in *. cbn [fst snd flat] in *.
  destruct (m' j (s, RLimited (flat r rr) n)) as [z [sw w]].
  destruct Hz as [->|(-> & Hw & Hs)]; [now left|]. right. split; [reflexivity|]. cbn [snd flat] in Hw. subst w. cbn [unlimit snd]. split; [reflexivity|].
  intros Hok. specialize (Hs Hok). congruence.
Qed.
Lemma p_while {S A} (P : areader U -> Prop) (m : areader U -> res tag_error A * areader U) (n : J -> reader -> res tag_error A * reader) (store : A -> S -> S) :
  stable M P -> (forall r, P r -> prd (Lo 1) m n r) ->
  forall fuel s src a, (N.to_nat a < fuel)%nat -> P (ALimited src a) ->
  forall y x', a_while fuel m store (s, ALimited src a) = (y, x') ->
    returns y /\ exists tr, pmoved M tr (ALimited src a) (snd x') /\ bytes_ok (pbytes tr) /\ (st -> is_ok y = true -> Forall pcall_ok tr) /\
      (forall j rr rr' fuel', mrun rr tr rr' -> let '(z, w) := while_read fuel' (n j) store (mfl (s, ALimited src a) rr) in
        z = OutOfFuel \/ (z = y /\ snd w = flat (snd x') rr' /\ (is_ok y = true -> w = mfl x' rr'))).
Proof.
  intros HP G. induction fuel as [|f IH]; intros s src a L Pr y x' E1; [lia|]. cbn [a_while snd a_empty] in E1.
  destruct (a =? 0) eqn:La.
  - apply pair_inv in E1. destruct E1 as [<- <-]. split; [exact I|]. exists []. split; [apply pmoved_refl|].
    split; [constructor|]. split; [constructor|].
    intros j rr rr' [|f'] Hr; inversion Hr; subst; cbn [while_read mfl fst snd flat limit_empty]; rewrite La; right; auto.
  - unfold bind in E1. cbn [a_on_reader] in E1. destruct (m (ALimited src a)) as [xa r1] eqn:Em.
    destruct (G _ Pr _ _ Em) as (R & tr & Hm & Hb & Ho & Hq & Hz).
    destruct xa as [xa|e| |]; cbn [is_ok] in *; try contradiction.
    + cbn [a_modify] in E1. specialize (Hq eq_refl). destruct r1 as [|src1 a1]; [contradiction|].
      pose proof (pstable P _ _ _ HP Pr Hm) as Pr1. assert (La1 : (N.to_nat a1 < f)%nat) by (destruct Hm as [_ Hm]; lia).
      destruct (IH _ _ _ La1 Pr1 _ _ E1) as (R2 & tr2 & Hm2 & Hb2 & Ho2 & Hz2).
      split; [exact R2|]. exists (tr ++ tr2). split; [exact (pmoved_app _ _ _ _ _ _ Hm Hm2)|].
      rewrite pbytes_app. split; [now apply Forall_app|]. split; [intros Hs Hy; apply Forall_app; auto|].
      intros j rr rr2 fuel' Hr. apply mrun_split in Hr. destruct Hr as (rr1 & Hr1 & Hr2).
      specialize (Hz j _ _ Hr1). cbn beta in *.
      assert (Le : limit_empty (flat (ALimited src a) rr) = false) by exact La.
      destruct fuel' as [|f']; cbn [while_read mfl fst snd]; rewrite Le; [cbn beta iota; now left|].
      unfold bind, on_reader, mfl. cbn [fst snd]. destruct (n j (flat (ALimited src a) rr)) as [z w].
      destruct Hz as [->|(-> & _ & Hw)]; [cbn beta iota; now left|]. rewrite (Hw eq_refl). cbn [modify].
      exact (Hz2 j _ _ f' Hr2).
    + apply pair_inv in E1. destruct E1 as [<- <-]. split; [exact I|]. exists tr. split; [exact Hm|]. split; [exact Hb|].
      split; [discriminate|]. intros j rr rr' fuel' Hr. specialize (Hz j rr rr' Hr). cbn beta in *.
      assert (Le : limit_empty (flat (ALimited src a) rr) = false) by exact La.
      destruct fuel' as [|f']; cbn [while_read mfl fst snd]; rewrite Le; [cbn beta iota; now left|].
      unfold bind, on_reader, mfl. cbn [fst snd]. destruct (n j (flat (ALimited src a) rr)) as [z w].
      destruct Hz as [->|(-> & Hw & _)]; [cbn beta iota; now left|]. right. split; [reflexivity|]. split; [exact Hw|discriminate].
Qed.
Lemma p_repeat {S A} (P : areader U -> Prop) (m : areader U -> res tag_error A * areader U) (n : J -> reader -> res tag_error A * reader) (store : A -> S -> S) :
  stable M P -> (forall r, P r -> prd (Lo 1) m n r) ->
  forall fuel s src a count, (N.to_nat a < fuel)%nat -> P (ALimited src a) ->
  forall y x', a_repeat fuel m store count (s, ALimited src a) = (y, x') ->
    returns y /\ exists tr, pmoved M tr (ALimited src a) (snd x') /\ bytes_ok (pbytes tr) /\ (st -> is_ok y = true -> Forall pcall_ok tr) /\
      (forall j rr rr' fuel', mrun rr tr rr' -> let '(z, w) := repeat_read fuel' (n j) store count (mfl (s, ALimited src a) rr) in
        z = OutOfFuel \/ (z = y /\ snd w = flat (snd x') rr' /\ (is_ok y = true -> w = mfl x' rr'))).
Proof.
  intros HP G. induction fuel as [|f IH]; intros s src a count L Pr y x' E1; [lia|]. cbn [a_repeat] in E1.
  destruct (count =? 0) eqn:La.
  - apply pair_inv in E1. destruct E1 as [<- <-]. split; [exact I|]. exists []. split; [apply pmoved_refl|].
    split; [constructor|]. split; [constructor|].
    intros j rr rr' [|f'] Hr; inversion Hr; subst; cbn [repeat_read]; rewrite La; right; auto.
  - unfold bind in E1. cbn [a_on_reader] in E1. destruct (m (ALimited src a)) as [xa r1] eqn:Em.
    destruct (G _ Pr _ _ Em) as (R & tr & Hm & Hb & Ho & Hq & Hz).
    destruct xa as [xa|e| |]; cbn [is_ok] in *; try contradiction.
    + cbn [a_modify] in E1. specialize (Hq eq_refl). destruct r1 as [|src1 a1]; [contradiction|].
      pose proof (pstable P _ _ _ HP Pr Hm) as Pr1. assert (La1 : (N.to_nat a1 < f)%nat) by (destruct Hm as [_ Hm]; lia).
      destruct (IH _ _ _ _ La1 Pr1 _ _ E1) as (R2 & tr2 & Hm2 & Hb2 & Ho2 & Hz2).
      split; [exact R2|]. exists (tr ++ tr2). split; [exact (pmoved_app _ _ _ _ _ _ Hm Hm2)|].
      rewrite pbytes_app. split; [now apply Forall_app|]. split; [intros Hs Hy; apply Forall_app; auto|].
      intros j rr rr2 fuel' Hr. apply mrun_split in Hr. destruct Hr as (rr1 & Hr1 & Hr2).
      specialize (Hz j _ _ Hr1). cbn beta in *.
      destruct fuel' as [|f']; cbn [repeat_read]; rewrite La; [cbn beta iota; now left|].
      unfold bind, on_reader, mfl in *. cbn [fst snd] in *. destruct (n j (flat (ALimited src a) rr)) as [z w].
      destruct Hz as [->|(-> & _ & Hw)]; [cbn beta iota; now left|]. rewrite (Hw eq_refl). cbn [modify].
      exact (Hz2 j _ _ f' Hr2).
    + apply pair_inv in E1. destruct E1 as [<- <-]. split; [exact I|]. exists tr. split; [exact Hm|]. split; [exact Hb|].
      split; [discriminate|]. intros j rr rr' fuel' Hr. specialize (Hz j rr rr' Hr). cbn beta in *.
      destruct fuel' as [|f']; cbn [repeat_read]; rewrite La; [cbn beta iota; now left|].
      unfold bind, on_reader, mfl. cbn [fst snd]. destruct (n j (flat (ALimited src a) rr)) as [z w].
      destruct Hz as [->|(-> & Hw & _)]; [cbn beta iota; now left|]. right. split; [reflexivity|]. split; [exact Hw|discriminate].
Qed.
Lemma p_while_fuelled {S A} P (m : areader U -> res tag_error A * areader U) (n : J -> reader -> res tag_error A * reader) (store : A -> S -> S) x :
  stable M P -> (forall r, P r -> prd (Lo 1) m n r) -> P (snd x) -> lim (snd x) ->
  pmd (Lo 0) (a_fuelled (fun f => a_while f m store)) (fun j => fuelled (fun f => while_read f (n j) store)) x.
Proof.
  destruct x as [s [u|src a]]; cbn [snd lim]; intros HP G Pr L; [contradiction|]. intros y x' E1. unfold a_fuelled in E1. cbn [snd room] in E1.
  destruct (p_while P m n store HP G _ _ _ _ (Nat.lt_succ_diag_r _) Pr _ _ E1) as (R & tr & Hm & Hb & Ho & Hz).
  split; [exact R|]. exists tr. do 3 (split; [assumption|]). split; [unfold Lo; lia|]. intros j rr rr' Hr. exact (Hz j rr rr' _ Hr).
Qed.
Lemma p_repeat_fuelled {S A} P (m : areader U -> res tag_error A * areader U) (n : J -> reader -> res tag_error A * reader) (store : A -> S -> S) count x :
  stable M P -> (forall r, P r -> prd (Lo 1) m n r) -> P (snd x) -> lim (snd x) ->
  pmd (Lo 0) (a_fuelled (fun f => a_repeat f m store count)) (fun j => fuelled (fun f => repeat_read f (n j) store count)) x.
Proof.
  destruct x as [s [u|src a]]; cbn [snd lim]; intros HP G Pr L; [contradiction|]. intros y x' E1. unfold a_fuelled in E1. cbn [snd room] in E1.
  destruct (p_repeat P m n store HP G _ _ _ _ count (Nat.lt_succ_diag_r _) Pr _ _ E1) as (R & tr & Hm & Hb & Ho & Hz).
  split; [exact R|]. exists tr. do 3 (split; [assumption|]). split; [unfold Lo; lia|]. intros j rr rr' Hr. exact (Hz j rr rr' _ Hr).
Qed.
Lemma p_any {X Y E A} pr pr' fl lo n (f : X -> res E A * X) (g : J -> Y -> res E A * Y) x :
  pgood pr pr' fl (fun b d => Lo lo b d /\ d <= n) f g x -> pgood pr pr' fl (Lo lo) f g x.
Proof. intros G. eapply pgood_weaken; [exact G|]. cbv beta. tauto. Qed.
Lemma p_ilint {S} (x : S * areader U) : pmd (Lo 1) (a_on_reader (a_ilint M)) (fun _ => on_reader deserialize_ilint) x.
Proof. eapply pgood_old; [now apply m_ilint|]. intros b c d. apply K_Lo. Qed.
Lemma p_guard {S} (b : bool) e (x : S * areader U) : pmd (Lo 0) (if b then fail e else ret tt) (fun _ => if b then fail e else ret tt) x.
Proof. eapply pgood_old; [apply m_guard|exact K0_Lo]. Qed.
Lemma p_modify {S} (f : S -> S) (x : S * areader U) : pmd (Lo 0) (a_modify f) (fun _ => modify f) x.
Proof. eapply pgood_old; [apply modify_good|exact K0_Lo]. Qed.
Lemma p_ensure_empty {S} e (x : S * areader U) : lim (snd x) -> pmd (Lo 0) (a_ensure_empty e) (fun _ => limited_reader_ensure_empty e) x.
Proof. intros L. eapply pgood_old; [now apply ensure_empty_good|exact K0_Lo]. Qed.

Section Values.
Context {I : Type} (deser : areader U -> res tag_error I * areader U) (deser' : J -> reader -> res tag_error I * reader).
Context (P : areader U -> Prop) (HP : stable M P) (HD : deep P) (G : forall r, P r -> prd (Lo 1) deser deser' r).

Lemma p_seq n s r : P r -> pmd (Lo 0) (a_seq deser n) (fun j => seq_deserialize (deser' j) n) (s, r).
Proof.
  intros Pr. eapply p_any. apply p_limited. eapply pbind; [apply p_modify| |]. 2:{ instantiate (1 := 0). lia. }
  intros _ x1 b1 _ M1 _. pose proof (pstable _ _ _ _ (stable_lim M) (lim_limited r n) M1) as L1. pose proof (pstable _ _ _ _ HP (HD r n Pr) M1) as P1.
  eapply p_while_fuelled; eauto.
Qed.
Lemma p_arr n s r : P r -> pmd (Lo 0) (a_arr M deser n) (fun j => arr_deserialize (deser' j) n) (s, r).
Proof.
  intros Pr. eapply p_any. apply p_limited. eapply (pbind _ _ _ _ 0); [apply p_ilint| |lia]. intros count x1 b1 _ M1 _.
  pose proof (pstable _ _ _ _ (stable_lim M) (lim_limited r n) M1) as L1. pose proof (pstable _ _ _ _ HP (HD r n Pr) M1) as P1.
  eapply (pbind _ _ _ _ 0); [apply p_guard| |lia]. intros _ x2 b2 _ M2 _. pose proof (pstable _ _ _ _ (stable_lim M) L1 M2) as L2. pose proof (pstable _ _ _ _ HP P1 M2) as P2.
  eapply (pbind _ _ _ _ 0); [apply p_modify| |lia]. intros _ x3 b3 _ M3 _. pose proof (pstable _ _ _ _ (stable_lim M) L2 M3) as L3. pose proof (pstable _ _ _ _ HP P2 M3) as P3.
  eapply (pbind _ _ _ _ 0); [eapply p_repeat_fuelled; eauto| |lia]. intros ? ? ? _ M9 _. apply p_ensure_empty. exact (pstable _ _ _ _ (stable_lim M) L3 M9).
Qed.
Lemma p_dict n s r : P r -> pmd (Lo 0) (a_dict M deser n) (fun j => dict_deserialize (deser' j) n) (s, r).
Proof.
  intros Pr. eapply p_any. apply p_limited. eapply (pbind _ _ _ _ 0); [apply p_ilint| |lia]. intros count x1 b1 _ M1 _.
  pose proof (pstable _ _ _ _ (stable_lim M) (lim_limited r n) M1) as L1. pose proof (pstable _ _ _ _ HP (HD r n Pr) M1) as P1.
  eapply (pbind _ _ _ _ 0); [apply p_modify| |lia]. intros _ x3 b3 _ M3 _. pose proof (pstable _ _ _ _ (stable_lim M) L1 M3) as L3. pose proof (pstable _ _ _ _ HP P1 M3) as P3.
  eapply (pbind _ _ _ _ 0); [eapply (p_repeat_fuelled P); eauto| |lia].
  - intros r1 Pr1. eapply (pbind _ _ _ 2 1).
    + eapply pgood_old; [now apply string_good|]. intros b c d. apply K_Lo.
    + intros k r2 b4 _ M4 _. eapply (pbind _ _ _ 1 0).
      * apply G. exact (pstable _ _ _ _ HP Pr1 M4).
      * intros. eapply pgood_old; [now apply rpure|exact K0_Lo].
      * lia.
    + lia.
  - intros ? ? ? _ M9 _. apply p_ensure_empty. exact (pstable _ _ _ _ (stable_lim M) L3 M9).
Qed.
End Values.

(** ** The calls of a program *)
Lemma p_read r : prd (Lo 0) (a_read M) (fun _ => read) r.
Proof. eapply pgood_old; [now apply read_good|]. unfold Lo. intros. lia. Qed.
Lemma p_read_all r : forall buff x buff' r', bytes_ok buff -> a_read_all M buff r = (x, buff', r') ->
  returns x /\ lenN buff' = lenN buff /\ bytes_ok buff' /\
  exists tr, pmoved M tr r r' /\ bytes_ok (pbytes tr) /\ (is_ok x = true -> Forall pcall_ok tr) /\
    lenN (pbytes tr) = (if is_ok x then lenN buff else 0) /\
    (forall rr rr', mrun rr tr rr' -> exists got, read_all (lenN buff) (flat r rr) = (x, got, flat r' rr') /\
       buff' = got ++ dropN (lenN got) buff).
Proof.
  induction r as [u|s IH a]; intros buff x buff' r' Hbuff E1; cbn [a_read_all] in E1.
  - destruct (u_read_all M buff u) as [[y b'] u'] eqn:Eu. injection E1 as <- <- <-.
    destruct (io_read_all _ HM _ _ _ _ _ Eu) as (R & L & B). split; [exact R|]. split; [exact L|]. split; [auto|].
    assert (Hx : exists s, y = of_sum s) by (destruct y; try contradiction; [now exists (inr a)|now exists (inl e)]).
    destruct Hx as [s ->]. exists [PFill buff s b']. split; [cbn; econstructor; [exact Eu|constructor]|].
    split; [destruct s; cbn; rewrite ?app_nil_r; auto; constructor|].
    split; [destruct s; cbn; [discriminate|repeat constructor]|].
    split; [destruct s; cbn [pbytes flat_map pcall_bytes is_ok of_sum]; rewrite ?app_nil_r; auto|].
    intros rr rr' Hr. inversion Hr as [| |? ? ? got r1 ? ? E2 H2]; subst. inversion H2; subst. exists got. split; [exact E2|reflexivity].
  - destruct (a <? lenN buff) eqn:L.
    + injection E1 as <- <- <-. split; [exact Logic.I|]. split; [reflexivity|]. split; [exact Hbuff|]. exists []. split; [apply pmoved_refl|].
      split; [constructor|]. split; [discriminate|]. split; [reflexivity|].
      intros rr rr' Hr. inversion Hr; subst. exists []. cbn [flat read_all]. rewrite L. split; [reflexivity|]. cbn [app]. now rewrite dropN_0.
    + destruct (a_read_all M buff s) as [[y b'] s'] eqn:Es. injection E1 as <- <- <-.
      destruct (IH _ _ _ _ Hbuff Es) as (R & Lb & Bb & tr & Hm & Hb & Ho & Hl & Hz). split; [exact R|]. split; [exact Lb|]. split; [exact Bb|].
      exists tr. split; [cbn [pmoved]; split; [exact Hm|]; destruct y; cbn [is_ok] in *; try contradiction; lia|].
      split; [exact Hb|]. split; [exact Ho|]. split; [exact Hl|].
      intros rr rr' Hr. destruct (Hz rr rr' Hr) as (got & Er & Hg). exists got. split; [|exact Hg]. cbn [flat read_all]. rewrite L, Er. reflexivity.
Qed.
Lemma div_next k n f : k <> 0 -> n <> 0 -> n / k < N.of_nat (S f) -> n - N.min n k = 0 \/ (n - N.min n k) / k < N.of_nat f.
Proof.
  intros H H0 L. destruct (N.le_gt_cases k n).
  - right. rewrite N.min_r by assumption. replace n with ((n - k) + 1 * k) in L by lia. rewrite N.div_add in L by assumption. lia.
  - left. lia.
Qed.
(** Functions whose counterparts are loops with any fuel. *)
Definition ploop {E A} (m : areader U -> res E A * areader U) (g : nat -> reader -> res E A * reader) (r : areader U) : Prop :=
  forall y r', m r = (y, r') ->
    returns y /\
    exists tr, pmoved M tr r r' /\ bytes_ok (pbytes tr) /\ (is_ok y = true -> Forall pcall_ok tr) /\
      (forall f rr rr', mrun rr tr rr' -> let '(z, w) := g f (flat r rr) in z = OutOfFuel \/ (z = y /\ w = flat r' rr')).
Lemma ploop_fuel {E A} m (g : nat -> reader -> res E A * reader) (g' : reader -> res E A * reader) F r :
  ploop m g r -> (forall rr, g' (flat r rr) = g (F (flat r rr)) (flat r rr)) -> prd (Lo 0) m (fun _ => g') r.
Proof.
  intros G Hg y r' E1. destruct (G _ _ E1) as (R & tr & Hm & Hb & Ho & Hz). split; [exact R|]. exists tr.
  do 2 (split; [assumption|]). split; [auto|]. split; [unfold Lo; lia|]. intros _ rr rr' Hr. rewrite Hg. specialize (Hz (F (flat r rr)) rr rr' Hr).
  destruct (g _ _) as [z w]. destruct Hz as [->|[-> ->]]; auto.
Qed.
Lemma p_chunks fuel : forall buff n r, lenN buff = 512 -> bytes_ok buff -> n = 0 \/ n / 512 < N.of_nat fuel ->
  ploop (skip_chunks (a_read_all M) fuel buff n) (fun f => skip_loop f n) r.
Proof.
  induction fuel as [|fuel IH]; intros buff n r Lb Hb Hf y r' E1; cbn [skip_chunks] in E1; destruct (N.eqb_spec n 0) as [->|Hn].
  1,3: apply pair_inv in E1; destruct E1 as [<- <-]; split; [exact Logic.I|]; exists []; split; [apply pmoved_refl|];
    split; [constructor|]; split; [constructor|]; intros [|f] rr rr' Hr; inversion Hr; subst; cbn [skip_loop]; right; auto.
  { destruct Hf; [contradiction|]. lia. }
  cbv zeta in E1. rewrite Lb in E1. destruct Hf as [Hf|Hf]; [contradiction|]. apply div_next in Hf; [|lia|assumption].
  set (k := N.min n 512) in *. assert (Hk : lenN (takeN k buff) = k) by (rewrite lenN_takeN; lia).
  destruct (a_read_all M (takeN k buff) r) as [[x b1] r1] eqn:Er.
  destruct (p_read_all _ _ _ _ _ (Forall_takeN _ _ _ Hb) Er) as (R & L1 & B1 & tr & Hm & Hbt & Ho & _ & Hz). rewrite Hk in *.
  destruct x as [[]|e| |]; try contradiction.
  - assert (Lb1 : lenN (b1 ++ dropN k buff) = 512) by (rewrite lenN_app, lenN_dropN; lia).
    assert (Bb1 : bytes_ok (b1 ++ dropN k buff)) by (apply Forall_app; split; [exact B1|now apply Forall_dropN]).
    destruct (IH _ _ _ Lb1 Bb1 Hf _ _ E1) as (R2 & tr2 & Hm2 & Hb2 & Ho2 & Hz2). split; [exact R2|].
    exists (tr ++ tr2). split; [eapply pmoved_app; eauto|]. rewrite pbytes_app. split; [now apply Forall_app|].
    split; [intros; apply Forall_app; auto|]. intros [|f] rr rr2 Hr; cbn [skip_loop]; (destruct (N.eqb_spec n 0); [contradiction|]); [now left|].
    apply mrun_split in Hr as (rr1 & Hr1 & Hr2). cbv zeta. fold k. destruct (Hz _ _ Hr1) as (got & -> & _). exact (Hz2 f _ _ Hr2).
  - apply pair_inv in E1. destruct E1 as [<- <-]. split; [exact Logic.I|]. exists tr. do 2 (split; [assumption|]). split; [discriminate|].
    intros [|f] rr rr2 Hr; cbn [skip_loop]; (destruct (N.eqb_spec n 0); [contradiction|]); [now left|].
    cbv zeta. fold k. destruct (Hz _ _ Hr) as (got & -> & _). right. auto.
Qed.
Lemma ploop_skip c n r : lim r -> ploop (a_skip M n) (fun _ => skip c n) r.
Proof.
  intros L y r' E1.
  assert (G : ploop (a_skip M n) (fun f => skip_loop f n) r).
  { unfold a_skip, default_skip. apply p_chunks; [apply lenN_repeatN|apply repeatN_ok|].
    right. rewrite Nat2N.inj_succ, N2Nat.id. apply N.lt_succ_diag_r. }
  destruct (G _ _ E1) as (R & tr & Hm & Hb & Ho & Hz). split; [exact R|]. exists tr. do 3 (split; [assumption|]).
  intros _ rr rr' Hr. destruct r as [|s a]; [contradiction|]. exact (Hz (S (left (flat (ALimited s a) rr))) rr rr' Hr).
Qed.
Lemma p_skip c n r : lim r -> prd (Lo 0) (a_skip M n) (fun _ => skip c n) r.
Proof. intros L. eapply (ploop_fuel _ _ _ (fun _ => O)); [now apply (ploop_skip c)|]. reflexivity. Qed.
Lemma p_skip_u64 c n r : 1 <= usize_max c -> lim r -> prd (Lo 0) (a_skip_u64 M c n) (fun _ => skip_u64 c n) r.
Proof.
  intros Hc L. eapply (ploop_fuel _ (fun f => skip_u64_loop c f n) _ (fun q => S (left q))).
  2:{ intros rr. destruct r; [contradiction|]. reflexivity. }
  unfold a_skip_u64, default_skip_u64. set (fuel := S (N.to_nat (n / usize_max c))).
  assert (Hf : n = 0 \/ n / usize_max c < N.of_nat fuel).
  { right. unfold fuel. rewrite Nat2N.inj_succ, N2Nat.id. apply N.lt_succ_diag_r. }
  clearbody fuel.
  revert n r L Hf. induction fuel as [|fuel IH]; intros n r L Hf y r' E1; cbn [skip_pieces] in E1; destruct (N.eqb_spec n 0) as [->|Hn].
  1,3: apply pair_inv in E1; destruct E1 as [<- <-]; split; [exact Logic.I|]; exists []; split; [apply pmoved_refl|];
    split; [constructor|]; split; [constructor|]; intros [|f] rr rr' Hr; inversion Hr; subst; cbn [skip_u64_loop]; right; auto.
  { destruct Hf as [Hf|Hf]; [contradiction|]. now apply N.nlt_0_r in Hf. }
  cbv zeta in E1. destruct Hf as [Hf|Hf]; [contradiction|]. apply div_next in Hf; [|lia|assumption].
  set (k := N.min n (usize_max c)) in *.
  destruct (a_skip M k r) as [x r1] eqn:Er.
  destruct (ploop_skip c k r L _ _ Er) as (R & tr & Hm & Hbt & Ho & Hz).
  destruct x as [[]|e| |]; try contradiction.
  - destruct (IH _ _ (pstable _ _ _ _ (stable_lim M) L Hm) Hf _ _ E1) as (R2 & tr2 & Hm2 & Hb2 & Ho2 & Hz2). split; [exact R2|].
    exists (tr ++ tr2). split; [eapply pmoved_app; eauto|]. rewrite pbytes_app. split; [now apply Forall_app|].
    split; [intros; apply Forall_app; auto|]. intros [|f] rr rr2 Hr; cbn [skip_u64_loop]; (destruct (N.eqb_spec n 0); [contradiction|]); [now left|].
    apply mrun_split in Hr as (rr1 & Hr1 & Hr2). cbv zeta. fold k. specialize (Hz O _ _ Hr1). destruct (skip c k (flat r rr)) as [z w].
    destruct Hz as [->|[-> ->]]; [now left|]. exact (Hz2 f _ _ Hr2).
  - apply pair_inv in E1. destruct E1 as [<- <-]. split; [exact Logic.I|]. exists tr. do 2 (split; [assumption|]). split; [discriminate|].
    intros [|f] rr rr2 Hr; cbn [skip_u64_loop]; (destruct (N.eqb_spec n 0); [contradiction|]); [now left|].
    cbv zeta. fold k. specialize (Hz O _ _ Hr). destruct (skip c k (flat r rr)) as [z w]. destruct Hz as [->|[-> ->]]; auto.
Qed.

(** ** Programs *)
Lemma a_after_inv {E A B} (x : res E A) (go : res E A -> areader U -> res tag_error B * areader U) r y r' :
  a_after x go r = (y, r') ->
  (x = Panic /\ y = Panic /\ r' = r) \/ (x = OutOfFuel /\ y = OutOfFuel /\ r' = r) \/
  ((exists a, x = Ok a) \/ (exists e, x = Err e)) /\ go x r = (y, r').
Proof. destruct x; cbn [a_after]; intros H; try injection H as <- <-; eauto 7. Qed.
Lemma a_exec_ends {I A} c (deser : areader U -> res tag_error I * areader U) (p : prog I A) :
  forall F r a r', ends_in p F -> a_exec M c deser p r = (Ok a, r') -> F a.
Proof.
  induction p as [A a0|A|A k IH|A n k IH|A n k IH|A n k IH|A k IH|A B n body IHb k IH]; intros F r a r' He; cbn [a_exec ends_in] in *.
  - intros [= <- _]. exact He.
  - discriminate.
  - destruct (a_read M r) as [x r1]. intros H. apply a_after_inv in H as [(_ & H & _)|[(_ & H & _)|[Rx H]]]; try discriminate. exact (IH _ F _ _ _ (He _ (answered _ Rx)) H).
  - destruct (a_read_all M (u8s n) r) as [[x g] r1]. intros H. apply a_after_inv in H as [(_ & H & _)|[(_ & H & _)|[Rx H]]]; try discriminate. exact (IH _ _ F _ _ _ (He _ _ (answered _ Rx)) H).
  - destruct (a_skip M n r) as [x r1]. intros H. apply a_after_inv in H as [(_ & H & _)|[(_ & H & _)|[Rx H]]]; try discriminate. exact (IH _ F _ _ _ (He _ (answered _ Rx)) H).
  - destruct (a_skip_u64 M c n r) as [x r1]. intros H. apply a_after_inv in H as [(_ & H & _)|[(_ & H & _)|[Rx H]]]; try discriminate. exact (IH _ F _ _ _ (He _ (answered _ Rx)) H).
  - destruct (deser r) as [x r1]. intros H. apply a_after_inv in H as [(_ & H & _)|[(_ & H & _)|[Rx H]]]; try discriminate. exact (IH _ F _ _ _ (He _ (answered _ Rx)) H).
  - destruct (a_exec M c deser body (ALimited r n)) as [[b|e| |] lr]; try discriminate. destruct lr; try discriminate. intros H. exact (IH _ _ F _ _ _ (He _ _) H).
Qed.
(** The outcome of a program: it ends with an answer; if it propagates failures,
    then its answer is in [F] or there were none. *)
Definition egood {A} (f : areader U -> res tag_error A * areader U) (g : J -> reader -> res tag_error A * reader)
  (S : (A -> Prop) -> Prop) (r : areader U) : Prop :=
  forall y r', f r = (y, r') -> exists a, y = Ok a /\
    exists tr, pmoved M tr r r' /\ bytes_ok (pbytes tr) /\ (st -> forall F, S F -> F a \/ Forall pcall_ok tr) /\
      (forall j rr rr', mrun rr tr rr' -> let '(z, w) := g j (flat r rr) in z = OutOfFuel \/ (z = y /\ w = flat r' rr')).
Lemma e_step {E A B} (P : areader U -> Prop) (m : areader U -> res E B * areader U) (n : J -> reader -> res E B * reader)
  (f : res E B -> areader U -> res tag_error A * areader U) (g : J -> res E B -> reader -> res tag_error A * reader) (S : res E B -> (A -> Prop) -> Prop)
  (S0 : (A -> Prop) -> Prop) lo r :
  stable M P -> P r -> lim r -> prd (Lo lo) m n r ->
  (forall x r, returns x -> P r -> lim r -> egood (f x) (fun j => g j x) (S x) r) ->
  (forall F, S0 F -> (forall b, S (Ok b) F) /\ forall e r a r', f (Err e) r = (Ok a, r') -> F a) ->
  egood (fun r => let '(x, r') := m r in a_after x f r') (fun j r => let '(x, r') := n j r in after x (g j) r') S0 r.
Proof.
  intros HP Pr L G Hf HS y r' E1. cbn beta in E1. destruct (m r) as [x r1] eqn:Em.
  destruct (G _ _ Em) as (R & tr & Hm & Hb & Ho & _ & Hz).
  apply a_after_inv in E1 as [(-> & _ & _)|[(-> & _ & _)|[Rx E1]]]; try contradiction.
  destruct (Hf x r1 (answered _ Rx) (pstable _ _ _ _ HP Pr Hm) (pstable _ _ _ _ (stable_lim M) L Hm) _ _ E1)
    as (a & -> & tr2 & Hm2 & Hb2 & Ho2 & Hz2).
  exists a. split; [reflexivity|]. exists (tr ++ tr2). split; [eapply pmoved_app; eauto|]. rewrite pbytes_app. split; [now apply Forall_app|]. split.
  - intros Hs F HF. destruct (HS F HF) as [Hok Herr]. destruct Rx as [[b ->]|[e ->]]; [|left; eauto].
    destruct (Ho2 Hs F (Hok b)) as [|Ho3]; [now left|]. right. apply Forall_app. auto.
  - intros j rr rr2 Hr. apply mrun_split in Hr as (rr1 & Hr1 & Hr2). specialize (Hz j _ _ Hr1). specialize (Hz2 j _ _ Hr2).
    destruct (n j (flat r rr)) as [z w]. destruct Hz as [->|(-> & -> & _)]; [now left|].
    destruct Rx as [[b ->]|[e ->]]; exact Hz2.
Qed.
Lemma p_exec {I A} c (deser : areader U -> res tag_error I * areader U) deser' P (p : prog I A) :
  1 <= usize_max c -> stable M P -> deep P -> (forall r, P r -> prd (Lo 1) deser deser' r) -> calm p ->
  forall r, P r -> lim r -> egood (a_exec M c deser p) (fun j => exec c (deser' j) p) (strict p) r.
Proof.
  intros Hc HP HD G. induction p as [A a0|A|A k IH|A n k IH|A n k IH|A n k IH|A k IH|A B n body IHb k IH]; intros Hp r Pr L; cbn [a_exec exec strict calm] in *.
  - intros y r' E1. apply pair_inv in E1 as [<- <-]. exists a0. split; [reflexivity|]. exists []. split; [apply pmoved_refl|].
    split; [constructor|]. split; [right; constructor|]. intros _ rr rr' Hr. inversion Hr; subst. auto.
  - contradiction.
  - apply (e_step P _ (fun _ => read) _ (fun j x => exec c (deser' j) (k x)) (fun x => strict (k x)) _ 0); auto; [apply p_read|].
    intros F [H1 H2]. split; [exact H1|]. intros e q a q'. apply a_exec_ends, H2.
  - intros y r' E1. destruct (a_read_all M (u8s n) r) as [[x buff] r1] eqn:Em.
    destruct (p_read_all _ _ _ _ _ (u8s_ok n) Em) as (R & _ & _ & tr & Hm & Hb & Ho & _ & Hz). rewrite lenN_u8s in Hz.
    apply a_after_inv in E1 as [(-> & _ & _)|[(-> & _ & _)|[Rx E1]]]; try contradiction.
    destruct (IH x buff (Hp x buff (answered _ Rx)) r1 (pstable _ _ _ _ HP Pr Hm) (pstable _ _ _ _ (stable_lim M) L Hm) _ _ E1)
      as (a & -> & tr2 & Hm2 & Hb2 & Ho2 & Hz2).
    exists a. split; [reflexivity|]. exists (tr ++ tr2). split; [eapply pmoved_app; eauto|]. rewrite pbytes_app. split; [now apply Forall_app|]. split.
    + intros Hs F [H1 H2]. destruct Rx as [[[] ->]|[e ->]]; [|left; exact (a_exec_ends c deser _ F _ _ _ (H2 e buff) E1)].
      destruct (Ho2 Hs F (H1 buff)) as [|Ho3]; [now left|]. right. apply Forall_app. auto.
    + intros j rr rr2 Hr. apply mrun_split in Hr as (rr1 & Hr1 & Hr2). destruct (Hz _ _ Hr1) as (got & Er & Hg). specialize (Hz2 j _ _ Hr2).
      fold (filled n got) in Hg. subst buff. rewrite Er.
      destruct Rx as [[b ->]|[e ->]]; exact Hz2.
  - apply (e_step P _ (fun _ => skip c n) _ (fun j x => exec c (deser' j) (k x)) (fun x => strict (k x)) _ 0); auto; [now apply p_skip|].
    intros F [H1 H2]. split; [intros []; exact H1|]. intros e q a q'. apply a_exec_ends, H2.
  - apply (e_step P _ (fun _ => skip_u64 c n) _ (fun j x => exec c (deser' j) (k x)) (fun x => strict (k x)) _ 0); auto; [now apply p_skip_u64|].
    intros F [H1 H2]. split; [intros []; exact H1|]. intros e q a q'. apply a_exec_ends, H2.
  - apply (e_step P _ deser' _ (fun j x => exec c (deser' j) (k x)) (fun x => strict (k x)) _ 1); auto.
    intros F [H1 H2]. split; [exact H1|]. intros e q a q'. apply a_exec_ends, H2.
  - intros y r' E1. destruct Hp as [Hp1 Hp2]. destruct (a_exec M c deser body (ALimited r n)) as [x lr] eqn:Em.
    destruct (IHb Hp1 (ALimited r n) (HD _ _ Pr) Logic.I _ _ Em) as (b & -> & tr & Hm & Hb & Ho & Hz).
    destruct lr as [|r1 n1]; [contradiction|]. destruct Hm as [Hm Hn].
    destruct (IH b n1 (Hp2 b n1) r1 (pstable _ _ _ _ HP Pr Hm) (pstable _ _ _ _ (stable_lim M) L Hm) _ _ E1)
      as (a & -> & tr2 & Hm2 & Hb2 & Ho2 & Hz2).
    exists a. split; [reflexivity|]. exists (tr ++ tr2). split; [eapply pmoved_app; eauto|]. rewrite pbytes_app. split; [now apply Forall_app|]. split.
    + intros Hs F (F1 & H1 & H2 & H3). destruct (Ho Hs F1 H1) as [Hb1|Ho1]; [left; exact (a_exec_ends c deser _ F _ _ _ (H3 b n1 Hb1) E1)|].
      destruct (Ho2 Hs F (H2 b n1)) as [|Ho3]; [now left|]. right. apply Forall_app. auto.
    + intros j rr rr2 Hr. apply mrun_split in Hr as (rr1 & Hr1 & Hr2). specialize (Hz j _ _ Hr1). specialize (Hz2 j _ _ Hr2).
      unfold LimitedReader_new. cbn [flat] in Hz. destruct (exec c (deser' j) body (RLimited (flat r rr) n)) as [z w].
      destruct Hz as [->|[-> ->]]; [now left|]. exact Hz2.
Qed.

(** ** The factory *)
Context {T : Type} (c : cfg) (D : user_impl T) (S : script T).
Hypothesis Hc : cfg_ok c.
Hypothesis Hcalm : forall n x, calm (S n x).
Hypothesis Hstrict : st -> forall n x, strict (S n x) is_error.
Notation O := (scripted c D S).

Lemma p_user deser deser' P n x r : stable M P -> deep P -> (forall r, P r -> prd (Lo 1) deser deser' r) -> P r -> lim r ->
  pmd (Lo 0) (ao_user M c S deser n) (fun j => u_deserialize_value O (deser' j) n) (x, r).
Proof.
  intros HP HD G Pr L y x' E1. cbn [ao_user] in E1. destruct (a_exec M c deser (S n x) r) as [z r1] eqn:Ee.
  assert (Hc1 : 1 <= usize_max c) by (unfold cfg_ok in Hc; lia).
  destruct (p_exec c deser deser' P (S n x) Hc1 HP HD G (Hcalm n x) r Pr L _ _ Ee) as ([o x1] & -> & tr & Hm & Hb & Ho & Hz).
  assert (Hx : y = match o with None => Ok tt | Some e => Err e end /\ x' = (x1, r1)) by (destruct o; apply pair_inv in E1 as [<- <-]; auto).
  destruct Hx as [-> ->]. split; [now destruct o|]. exists tr. do 2 (split; [assumption|]). split.
  { intros Hs Hy. destruct (Ho Hs _ (Hstrict Hs n x)) as [He|]; [|assumption]. destruct o; [discriminate|]. now elim He. }
  split; [unfold Lo; lia|]. intros j rr rr' Hr. specialize (Hz j rr rr' Hr). unfold mfl. cbn [fst snd u_deserialize_value scripted].
  destruct (exec c (deser' j) (S n x) (flat r rr)) as [z w]. destruct Hz as [->|[-> ->]]; [now left|].
  destruct o; right; cbn; auto.
Qed.
(** As [pgood], for functions returning the object too. *)
Definition pobj {V} (Q : bool -> N -> Prop) (f : areader U -> res tag_error unit * V * areader U)
  (g : J -> reader -> res tag_error unit * V * reader) (r : areader U) : Prop :=
  forall y v r', f r = (y, v, r') ->
    returns y /\
    exists tr, pmoved M tr r r' /\ bytes_ok (pbytes tr) /\ (st -> is_ok y = true -> Forall pcall_ok tr) /\
      Q (is_ok y) (lenN (pbytes tr)) /\
      (forall j rr rr', mrun rr tr rr' -> let '(z, v', w) := g j (flat r rr) in
        z = OutOfFuel \/ (z = y /\ w = flat r' rr' /\ (is_ok y = true -> v' = v))).
Lemma p_run {S0} Q (m : @amethod U S0 unit) m' s (mk : S0 -> otag T) r : pmd Q m m' (s, r) -> pobj Q (ao_run m s mk) (fun j => o_run (m' j) s mk) r.
Proof.
  intros G y v r' E1. unfold ao_run in E1. destruct (m (s, r)) as [x [s1 r1]] eqn:Em.
  destruct (G _ _ Em) as (R & tr & Hm & Hb & Ho & Hq & Hz). injection E1 as <- <- <-. cbn [snd] in *.
  split; [exact R|]. exists tr. do 4 (split; [assumption|]). intros j rr rr' Hr. specialize (Hz j rr rr' Hr). unfold o_run, mfl in *. cbn [fst snd] in *.
  destruct (m' j (s, flat r rr)) as [z [sw w]]. destruct Hz as [->|(-> & Hw & Hs)]; [now left|].
  right. cbn [snd] in Hw. split; [reflexivity|]. split; [exact Hw|]. intros Hok. specialize (Hs Hok). congruence.
Qed.
(** The objects that can be read into. *)
Definition fit (t : otag T) : Prop := match t with OStd _ v => leaf v /\ vbytes v | _ => True end.
Lemma a_value_leaf d1 d2 v n (r : areader U) : leaf v -> a_value M d1 v n r = a_value M d2 v n r.
Proof. destruct v; cbn [leaf]; intros H; try contradiction; reflexivity. Qed.
Lemma p_value deser deser' P t n r : stable M P -> deep P -> (forall r, P r -> prd (Lo 1) deser deser' r) -> P r -> lim r -> fit t ->
  pobj (Lo 0) (ao_value M c S deser t n) (fun j => o_deserialize_value O (deser' j) t n) r.
Proof.
  intros HP HD G Pr L Ht. destruct t as [id v|x|id l|id l|id l]; unfold ao_value; cbn [av_value o_deserialize_value].
  - destruct Ht as [Hl Hv]. intros y t r' E1.
    cbn [av_value] in E1. rewrite (a_value_leaf _ (fun r => (Err CorruptedData, r)) v n r Hl) in E1.
    destruct (a_value M (fun r => (Err CorruptedData, r)) v n r) as [[x v1] r1] eqn:Ev.
    assert (Ga : vgood M (K 1 0) (a_value M (fun r => (Err CorruptedData, r)) v n) (deserialize_value (fun r => (Err CorruptedData, r)) v n) r).
    { apply (value_good M HM _ _ (fun _ => True)); auto; [intros ? ? ? _ _; exact Logic.I|intros ? ? _; exact Logic.I|].
      intros q _ y0 q' E0. destruct (rpure M (Err CorruptedData) q Logic.I y0 q' E0) as (R & tr & Hm & Hb & Ho & [Hk Hd] & Hz).
      split; [exact R|]. exists tr. do 3 (split; [assumption|]). split; [|exact Hz]. apply pair_inv in E0 as [<- _]. cbn [is_ok]. unfold K. lia. }
    destruct (Ga _ _ _ Ev) as (R & tr & Hm & Hb & Ho & Hq & Hz). injection E1 as <- <- <-. split; [exact R|].
    destruct (amoved_pmoved M tr _ _ Hm) as (tr' & Hp & <-). exists tr'. rewrite bytes_forget in *.
    split; [exact Hp|]. split; [exact Hb|]. split; [intros _ Hy; destruct x; try discriminate; now apply clean_forget|].
    split; [unfold Lo; lia|]. intros j rr rr' Hr. specialize (Hz rr rr' (mrun_rrun _ _ _ Hr)).
    cbn [o_deserialize_value]. rewrite (deserialize_value_leaf _ (fun r => (Err CorruptedData, r))) by exact Hl.
    destruct (deserialize_value _ v n (flat r rr)) as [[z v2] w]. destruct Hz as [->|(-> & -> & Hs)]; [now left|]. right.
    split; [reflexivity|]. split; [reflexivity|]. intros Hok. now rewrite (Hs Hok).
  - apply p_run. now apply (p_user _ _ P).
  - apply p_run. now apply (p_seq _ _ P).
  - apply p_run. now apply (p_arr _ _ P).
  - apply p_run. now apply (p_dict _ _ P).
Qed.
Lemma p_value_into deser deser' P n t r : stable M P -> deep P -> (forall r, P r -> prd (Lo 1) deser deser' r) ->
  P (ALimited r n) -> fit t ->
  pobj (fun _ d => d <= n) (ao_value_into M c D S deser n t) (fun j => o_value_into O (deser' j) n t) r.
Proof.
  intros HP HD G Pr Ht y v r' E1. unfold ao_value_into, av_value_into in E1. destruct (ao_value M c S deser t n (ALimited r n)) as [[x t1] lr] eqn:Ev.
  destruct (p_value deser deser' P t n (ALimited r n) HP HD G Pr Logic.I Ht _ _ _ Ev) as (R & tr & Hm & Hb & Ho & Hq & Hz).
  destruct lr as [|r1 a]; [contradiction|]. cbn [pmoved a_unlimit a_empty] in *. destruct Hm as [Hm Hn].
  apply pair_inv in E1. destruct E1 as [E1 <-]. apply pair_inv in E1. destruct E1 as [Ey <-].
  assert (Hy : returns y /\ (is_ok y = true -> is_ok x = true)).
  { subst y. destruct x; try contradiction; [|split; [exact Logic.I|discriminate]]. destruct (_ && _ && _); split; cbn; auto. }
  destruct Hy as (Ry & Hyx). split; [exact Ry|]. exists tr. do 2 (split; [assumption|]). split; [auto|].
  split; [lia|]. intros j rr rr' Hr. specialize (Hz j rr rr' Hr). unfold o_value_into, LimitedReader_new. cbn [flat] in Hz.
  destruct (o_deserialize_value O (deser' j) t n (RLimited (flat r rr) n)) as [[z t2] w].
  destruct Hz as [->|(-> & -> & Hs)]; [now left|]. right. cbn [flat limit_empty unlimit].
  destruct x as [[]|e| |]; try contradiction.
  - cbn [is_ok] in Hs. rewrite (Hs eq_refl). rewrite <- Ey. replace (o_id O t1) with (o_id D t1) by now destruct t1. auto.
  - subst y. split; [reflexivity|]. split; [reflexivity|discriminate].
Qed.

Context (e : engine) (He : engine_ok e) (Htot : engine_total e) (Hcr : forall id, u_create D id <> Some None).
Lemma create_fit id t : id < two64 -> o_create D e id = Ok (Some t) -> fit t.
Proof.
  intros Hid. unfold o_create. destruct (u_create D id) as [[x|]|]; try discriminate; [intros [= <-]; exact Logic.I|].
  destruct (create_tag e id) as [[t1|]| | |] eqn:Ec; try discriminate. intros [= <-]. pose proof (He id t1 Hid Ec) as W.
  destruct t1 as [i v]. pose proof (wf_vbytes _ W) as V. cbn [tag_val] in V. destruct v; cbn [emb fit leaf]; auto.
Qed.
Lemma create_returns id : returns (o_create D e id).
Proof.
  unfold o_create. destruct (u_create D id) as [[x|]|] eqn:E; [exact Logic.I|now elim (Hcr id)|].
  pose proof (Htot id) as R. destruct (create_tag e id); auto.
Qed.
Definition PD (b : bool) (d : N) : Prop := Lo 1 b d /\ d <= 536870930.
Lemma p_step deser deser' r :
  (forall n r2 tr, pmoved M tr r r2 -> 1 <= lenN (pbytes tr) -> exists P, stable M P /\ deep P /\ P (ALimited r2 n) /\
     forall r, P r -> prd (Lo 1) (deser n) deser' r) ->
  prd PD (ao_step M c D S deser e)
    (fun j =>
     id <- deserialize_ilint ;;
     n <- deserialize_tag_size id ;;
     created <- (fun r => (o_create O e id, r)) ;;
     match created with
     | None => fail UnknownTag
     | Some t => fun r =>
         let '(x, t', r') := o_value_into O (deser' j) n t r in
         (map_ok (fun _ => t') x, r')
     end) r.
Proof.
  intros H. unfold ao_step, av_step. eapply pgood_bind with (Q1 := fun b d => d <= 9 /\ Lo 1 b d) (Q2 := fun _ d => d <= 536870921).
  { eapply pgood_old; [now apply ilint_good|]. unfold KI, Lo. intros [] k d; lia. }
  2:{ unfold PD, Lo. split; [discriminate|lia]. }
  2:{ unfold PD, Lo. intros d1 b d2 [H1 H2] H3. specialize (H2 eq_refl). split; [lia|lia]. }
  intros id r1 tr1 Ei M1 Q1. unfold Lo in Q1.
  eapply pgood_bind with (Q1 := fun _ d => d <= 9) (Q2 := fun _ d => d <= 536870912).
  { eapply pgood_old; [now apply tag_size_good|]. unfold KT. intros [] k d; lia. }
  2:{ intros. cbv beta in *. lia. }
  2:{ intros. cbv beta in *. lia. }
  intros n r2 tr2 En M2 _. pose proof (tag_size_le M _ _ _ _ En) as Hn.
  eapply pgood_bind with (Q1 := fun _ d => d = 0) (Q2 := fun _ d => d <= 536870912).
  2:{ intros created r3 b3 Ec M3 _. apply pair_inv in Ec. destruct Ec as [Ec <-]. destruct created as [t|].
      2:{ eapply pgood_old; [now apply rpure|]. unfold K0. intros. lia. }
      pose proof (pmoved_app _ _ _ _ _ _ M1 M2) as M12.
      destruct (H n r2 _ M12) as (P & HP & HD & Pr & G).
      { rewrite pbytes_app, lenN_app. destruct Q1 as [_ Q1]. specialize (Q1 eq_refl). lia. }
      pose proof (p_value_into (deser n) deser' P n t r2 HP HD G Pr (create_fit id t (ilint_lt M HM _ _ _ Ei) Ec)) as V.
      intros y r' E1. destruct (ao_value_into M c D S (deser n) n t r2) as [[x t'] r3] eqn:Ev.
      destruct (V _ _ _ Ev) as (R & tr & Hm & Hb & Ho & Hq & Hz). apply pair_inv in E1. destruct E1 as [<- <-].
      assert (Hi : is_ok (map_ok (fun _ : unit => t') x) = is_ok x) by now destruct x.
      split; [now destruct x|]. rewrite Hi. exists tr. do 3 (split; [assumption|]). split; [lia|].
      intros j rr rr' Hr. specialize (Hz j rr rr' Hr). destruct (o_value_into O (deser' j) n t (flat r2 rr)) as [[z t2] w].
      destruct Hz as [->|(-> & -> & Hs)]; [now left|]. right. split; [|auto]. destruct x; cbn [map_ok is_ok] in *; try reflexivity.
      now rewrite (Hs eq_refl). }
  - eapply pgood_old; [apply rpure, create_returns|]. unfold K0. tauto.
  - intros. cbv beta in *. lia.
  - intros. cbv beta in *. lia.
Qed.
Lemma pmoved_within tr r f r' : pmoved M tr r r' -> within (f + length (pbytes tr)) r -> within f r'.
Proof. intros Hm. rewrite <- bytes_forget. apply moved_within with (M := M). now apply pmoved_amoved. Qed.
Lemma p_fuel f : forall (F : J -> nat) r, within f r -> prd PD (ao_fuel M c D S f e) (fun j => o_deserialize_fuel O (F j) e) r.
Proof.
  induction f as [|f IH]; intros F r W.
  - exfalso. induction r; cbn in W; [tauto|]. destruct W as [W|W]; [lia|auto].
  - intros y x' E1. cbn [ao_fuel] in E1.
    assert (G : forall r, within f r -> prd (Lo 1) (ao_fuel M c D S f e) (fun j => o_deserialize_fuel O (pred (F j)) e) r).
    { intros r3 W3. eapply pgood_weaken; [apply IH; exact W3|]. unfold PD. tauto. }
    destruct (fun H => p_step (fun _ => ao_fuel M c D S f e) (fun j => o_deserialize_fuel O (pred (F j)) e) r H _ _ E1) as (R & tr & Hm & Hb & Ho & Hq & Hz).
    { intros n r2 tr Hm L. exists (within f). split; [apply stable_within|]. split; [apply deep_within|]. split; [|exact G].
      right. eapply pmoved_within; [exact Hm|]. eapply within_mono; [|exact W]. unfold lenN in L. lia. }
    split; [exact R|]. exists tr. do 4 (split; [assumption|]). intros j rr rr' Hr. specialize (Hz j rr rr' Hr). cbv beta in *.
    destruct (F j) as [|f']; [now left|]. exact Hz.
Qed.
Lemma p_deserialize (F : J -> nat) r : prd PD (ao_deserialize M c D S e) (fun j => o_deserialize_fuel O (Datatypes.S (F j)) e) r.
Proof.
  unfold ao_deserialize. cbn [o_deserialize_fuel].
  apply (p_step (fun n => ao_fuel M c D S (Datatypes.S (N.to_nat n)) e) (fun j => o_deserialize_fuel O (F j) e) r).
  intros n r2 tr Hm L. exists (within (Datatypes.S (N.to_nat n))). split; [apply stable_within|]. split; [apply deep_within|]. split.
  - left. lia.
  - intros r3 W3. eapply pgood_weaken; [apply p_fuel; exact W3|]. unfold PD. tauto.
Qed.
End AnyProgFacts.

(** [deserialize_into]. *)
Lemma p_into {U} (M : reader_impl U) (HM : impl_ok M) (st : Prop) {T} c (D : user_impl T) (S : script T) e (t : otag T) r :
  cfg_ok c -> (forall n x, calm (S n x)) -> (st -> forall n x, strict (S n x) is_error) ->
  engine_ok e -> engine_total e -> (forall id, u_create D id <> Some None) -> fit t ->
  pobj M st (J := nat) PD (fun r => ao_deserialize_into M c D S e r t) (fun _ r => o_deserialize_into (scripted c D S) e r t) r.
Proof.
  intros Hc Hcalm Hst He Htot Hcr Ht y v r' E1. unfold ao_deserialize_into, av_into in E1. destruct (a_ilint M r) as [x r1] eqn:Ei.
  assert (Gi : prd M st (J := nat) (fun b d => d <= 9 /\ Lo 1 b d) (a_ilint M) (fun _ => deserialize_ilint) r).
  { eapply pgood_old; [now apply ilint_good|]. unfold KI, Lo. intros [] k d; lia. }
  destruct (Gi _ _ Ei) as (R & tr & Hm & Hb & Ho & [Hq1 Hq2] & Hz).
  destruct x as [id|err| |]; cbn [is_ok] in *; try contradiction.
  2:{ injection E1 as <- <- <-. split; [exact I|]. exists tr. do 3 (split; [assumption|]). split; [unfold PD, Lo; cbn [is_ok]; lia|].
      intros j rr rr' Hr. specialize (Hz j rr rr' Hr). unfold o_deserialize_into. destruct (deserialize_ilint (flat r rr)) as [z w].
      destruct Hz as [->|(-> & -> & _)]; [now left|]. right. split; [reflexivity|]. split; [reflexivity|discriminate]. }
  specialize (Hq2 eq_refl). assert (Hid : o_id (scripted c D S) t = o_id D t) by now destruct t.
  destruct (negb (id =? o_id D t)) eqn:Lid.
  { injection E1 as <- <- <-. split; [exact I|]. exists tr. do 2 (split; [assumption|]). split; [discriminate|].
    split; [unfold PD, Lo; cbn [is_ok]; lia|]. intros j rr rr' Hr. specialize (Hz j rr rr' Hr). unfold o_deserialize_into.
    destruct (deserialize_ilint (flat r rr)) as [z w]. destruct Hz as [->|(-> & -> & _)]; [now left|]. rewrite Hid, Lid. right.
    split; [reflexivity|]. split; [reflexivity|discriminate]. }
  destruct (a_tag_size M id r1) as [x r2] eqn:En.
  assert (Gn : prd M st (J := nat) (fun _ d => d <= 9) (a_tag_size M id) (fun _ => deserialize_tag_size id) r1).
  { eapply pgood_old; [now apply tag_size_good|]. unfold KT. intros [] k d; lia. }
  destruct (Gn _ _ En) as (R2 & tr2 & Hm2 & Hb2 & Ho2 & Hq3 & Hz2).
  pose proof (pmoved_app _ _ _ _ _ _ Hm Hm2) as Hm12.
  destruct x as [n|err| |]; cbn [is_ok] in *; try contradiction.
  2:{ injection E1 as <- <- <-. split; [exact I|]. exists (tr ++ tr2). split; [exact Hm12|]. rewrite pbytes_app, !lenN_app.
      split; [now apply Forall_app|]. split; [discriminate|]. split; [unfold PD, Lo in *; cbn [is_ok]; lia|].
      intros j rr rr' Hr. apply mrun_split in Hr. destruct Hr as (rr1 & Hr1 & Hr2). specialize (Hz j _ _ Hr1). specialize (Hz2 j _ _ Hr2).
      unfold o_deserialize_into. destruct (deserialize_ilint (flat r rr)) as [z w]. destruct Hz as [->|(-> & -> & _)]; [now left|]. rewrite Hid, Lid.
      destruct (deserialize_tag_size id (flat r1 rr1)) as [z w]. destruct Hz2 as [->|(-> & -> & _)]; [now left|]. right.
      split; [reflexivity|]. split; [reflexivity|discriminate]. }
  pose proof (tag_size_le _ _ _ _ _ En) as Hn.
  assert (Hg : forall r3, within (Datatypes.S (N.to_nat n)) r3 -> prd M st (J := nat) (Lo 1) (ao_fuel M c D S (Datatypes.S (N.to_nat n)) e)
      (fun f => o_deserialize_fuel (scripted c D S) f e) r3).
  { intros r3 W3. eapply pgood_weaken; [now apply p_fuel with (F := fun f => f)|]. unfold PD. tauto. }
  assert (Hw : within (Datatypes.S (N.to_nat n)) (ALimited r2 n)) by (left; lia).
  destruct (p_value_into M HM st (J := nat) c D S Hc Hcalm Hst _ _ _ n t r2 (stable_within M _) (deep_within _) Hg Hw Ht _ _ _ E1)
    as (R3 & tr3 & Hm3 & Hb3 & Ho3 & Hq4 & Hz3).
  split; [exact R3|]. exists ((tr ++ tr2) ++ tr3). split; [exact (pmoved_app _ _ _ _ _ _ Hm12 Hm3)|].
  rewrite !pbytes_app, !lenN_app. split; [repeat (apply Forall_app; split); assumption|].
  split; [intros Hs Hy; repeat (apply Forall_app; split); auto|]. split; [unfold PD, Lo in *; lia|].
  intros j rr rr' Hr. apply mrun_split in Hr. destruct Hr as (rr2 & Hr12 & Hr3). apply mrun_split in Hr12. destruct Hr12 as (rr1 & Hr1 & Hr2).
  specialize (Hz j _ _ Hr1). specialize (Hz2 j _ _ Hr2).
  unfold o_deserialize_into. destruct (deserialize_ilint (flat r rr)) as [z w]. destruct Hz as [->|(-> & -> & _)]; [now left|]. rewrite Hid, Lid.
  destruct (deserialize_tag_size id (flat r1 rr1)) as [z w]. destruct Hz2 as [->|(-> & -> & _)]; [now left|].
  exact (Hz3 (Datatypes.S (left (flat r2 rr2))) _ _ Hr3).
Qed.

(** ** Readers of IO.v that give the same answers *)
Lemma clean_replay {U} (M : reader_impl U) (HM : impl_ok M) u tr u' rest : prun M u tr u' -> Forall pcall_ok tr ->
  mrun (RCustom (map inr (pbytes tr) ++ rest)) tr (RCustom rest).
Proof.
  induction 1 as [u|u x u1 tr u2 E H IH|u buff x bs u1 tr u2 E H IH]; intros Hc; [constructor|..]; inversion Hc as [|? ? H1 H2]; subst.
  - destruct x as [e|b]; [contradiction|]. cbn [pbytes flat_map pcall_bytes app map]. econstructor; [reflexivity|]. exact (IH H2).
  - destruct x as [e|[]]; [contradiction|]. destruct (io_read_all _ HM _ _ _ _ _ E) as (_ & L & _).
    cbn [pbytes flat_map pcall_bytes]. rewrite map_app, <- app_assoc.
    assert (Hl : bs = bs ++ dropN (lenN bs) buff) by (rewrite dropN_all, app_nil_r by lia; reflexivity).
    rewrite Hl at 2. eapply mrun_fill; [|exact (IH H2)]. cbn [read_all of_sum]. fold (pbytes tr).
    replace (N.to_nat (N.min (lenN buff) (lenN (map inr bs ++ (map inr (pbytes tr) ++ rest)) + 1))) with (length bs).
    + now rewrite custom_all_map.
    + rewrite lenN_app, lenN_map. unfold lenN in *. lia.
Qed.
(** [R] is a simulation of the implementation by readers of IO.v: same results and
    same contents of the buffer. *)
Record same_buffers {U} (M : reader_impl U) (R : U -> reader -> Prop) : Prop := SameBuffers {
  sb_read : forall u rr x u', R u rr -> u_read M u = (x, u') -> exists rr', read rr = (x, rr') /\ R u' rr';
  sb_read_all : forall u rr buff x buff' u', R u rr -> u_read_all M buff u = (x, buff', u') ->
    exists got rr', read_all (lenN buff) rr = (x, got, rr') /\ buff' = got ++ dropN (lenN got) buff /\ R u' rr' }.
Lemma same_buffers_run {U} (M : reader_impl U) R u tr u' rr : same_buffers M R -> prun M u tr u' -> R u rr -> exists rr', mrun rr tr rr' /\ R u' rr'.
Proof.
  intros [S1 S2] H. revert rr. induction H as [u|u x u1 tr u2 E H IH|u buff x bs u1 tr u2 E H IH]; intros rr Hr.
  - exists rr. split; [constructor|exact Hr].
  - destruct (S1 _ _ _ _ Hr E) as (r1 & E1 & H1). destruct (IH _ H1) as (r2 & H2 & H3). exists r2. split; [econstructor; eauto|exact H3].
  - destruct (S2 _ _ _ _ _ _ Hr E) as (got & r1 & E1 & -> & H1). destruct (IH _ H1) as (r2 & H2 & H3).
    exists r2. split; [econstructor; eauto|exact H3].
Qed.
Lemma reader_as_impl_buffers : same_buffers reader_as_impl same_reader.
Proof.
  constructor.
  - exact (sa_read _ _ reader_as_impl_same).
  - intros [r W] rr buff x buff' u' H E. unfold same_reader in H. cbn [proj1_sig] in H. subst rr. cbn [reader_as_impl u_read_all] in E. apply pair_inv in E. destruct E as [E <-].
    apply pair_inv in E. destruct E as [<- <-]. exists (snd (fst (read_all (lenN buff) r))), (snd (read_all (lenN buff) r)).
    split; [now destruct (read_all (lenN buff) r) as [[? ?] ?]|]. split; reflexivity.
Qed.

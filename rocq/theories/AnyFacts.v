(** Facts about the reading code over any implementation of [Reader]. *)
From Verif Require Import Base BaseFacts Types Spec IO IOSpec IOFacts Logic ILInt ILIntFacts Data Tags TagsFacts Factory DataFacts FactoryFacts DecodeFacts DeserFacts IntoFacts Any.

(** What a [u8] and a [&mut [u8]] allow: bytes, and a buffer of the same length. *)
Record impl_ok {U} (M : reader_impl U) : Prop := ImplOk {
  io_read : forall u x u', u_read M u = (x, u') -> returns x /\ (forall b, x = Ok b -> byte_ok b);
  io_read_all : forall buff u x buff' u', u_read_all M buff u = (x, buff', u') ->
    returns x /\ lenN buff' = lenN buff /\ (bytes_ok buff -> bytes_ok buff') }.
(** Calls of methods of a reader with their answers: an error, or what the call
    handed out. *)
Inductive call := CRead (x : io_error + N) | CFill (n : N) (x : io_error + list N).
Definition call_bytes (c : call) : list N :=
  match c with CRead (inr b) => [b] | CFill _ (inr bs) => bs | _ => [] end.
Definition call_ok (c : call) : Prop :=
  match c with CRead (inr _) | CFill _ (inr _) => True | _ => False end.
Definition bytes_of (tr : list call) : list N := flat_map call_bytes tr.
(** Runs of calls on an object of the implementation [M], and on a reader of IO.v. *)
Inductive urun {U} (M : reader_impl U) : U -> list call -> U -> Prop :=
| urun_nil u : urun M u [] u
| urun_read u b u1 tr u2 : u_read M u = (Ok b, u1) -> urun M u1 tr u2 -> urun M u (CRead (inr b) :: tr) u2
| urun_read_err u e u1 tr u2 : u_read M u = (Err e, u1) -> urun M u1 tr u2 -> urun M u (CRead (inl e) :: tr) u2
| urun_fill u buff bs u1 tr u2 : u_read_all M buff u = (Ok tt, bs, u1) -> urun M u1 tr u2 ->
    urun M u (CFill (lenN buff) (inr bs) :: tr) u2
| urun_fill_err u buff e bs u1 tr u2 : u_read_all M buff u = (Err e, bs, u1) -> urun M u1 tr u2 ->
    urun M u (CFill (lenN buff) (inl e) :: tr) u2.
Inductive rrun : reader -> list call -> reader -> Prop :=
| rrun_nil r : rrun r [] r
| rrun_read r b r1 tr r2 : read r = (Ok b, r1) -> rrun r1 tr r2 -> rrun r (CRead (inr b) :: tr) r2
| rrun_read_err r e r1 tr r2 : read r = (Err e, r1) -> rrun r1 tr r2 -> rrun r (CRead (inl e) :: tr) r2
| rrun_fill r n bs r1 tr r2 : read_all n r = (Ok tt, bs, r1) -> rrun r1 tr r2 -> rrun r (CFill n (inr bs) :: tr) r2
| rrun_fill_err r n e bs r1 tr r2 : read_all n r = (Err e, bs, r1) -> rrun r1 tr r2 -> rrun r (CFill n (inl e) :: tr) r2.
Definition failure (c : call) : option io_error :=
  match c with CRead (inl i) | CFill _ (inl i) => Some i | _ => None end.
(** How the errors of a reader appear in the results. *)
Class FromIO (E : Type) := from_io : io_error -> E.
Global Instance From_io : FromIO io_error := fun i => i.
Global Instance From_ilint : FromIO ilint_error := ILIntIO.
Global Instance From_tag : FromIO tag_error := TagIO.
(** No failing call before a success; at most one before a failure, the last call,
    and then the failure is its error. *)
Definition clean (tr : list call) : Prop := Forall call_ok tr.
Definition ends {E A} `{FromIO E} (y : res E A) (tr : list call) : Prop :=
  match y with
  | Err x => clean tr \/ exists tr0 c i, tr = tr0 ++ [c] /\ clean tr0 /\ failure c = Some i /\ x = from_io i
  | _ => clean tr
  end.
(** A run of the object inside LimitedReaders, which count the bytes. *)
Fixpoint amoved {U} (M : reader_impl U) (tr : list call) (r r' : areader U) : Prop :=
  match r, r' with
  | ABase u, ABase u' => urun M u tr u'
  | ALimited s a, ALimited s' a' => amoved M tr s s' /\ a' + lenN (bytes_of tr) = a
  | _, _ => False
  end.

Lemma bytes_of_app a b : bytes_of (a ++ b) = bytes_of a ++ bytes_of b.
Proof. apply flat_map_app. Qed.
Lemma urun_app {U} (M : reader_impl U) u tr u1 tr2 u2 : urun M u tr u1 -> urun M u1 tr2 u2 -> urun M u (tr ++ tr2) u2.
Proof. induction 1; intros K; cbn [app]; [exact K|econstructor; eauto..]. Qed.
Lemma rrun_split tr : forall tr2 r r2, rrun r (tr ++ tr2) r2 -> exists r1, rrun r tr r1 /\ rrun r1 tr2 r2.
Proof.
  induction tr as [|c tr IH]; intros tr2 r r2 H; cbn [app] in H; [exists r; split; [constructor|exact H]|].
  inversion H; subst; match goal with K : rrun _ (tr ++ tr2) _ |- _ => destruct (IH _ _ _ K) as (q & A & B) end;
    exists q; (split; [econstructor; eauto|exact B]).
Qed.
Lemma moved_app {U} (M : reader_impl U) r : forall tr r1 tr2 r2,
  amoved M tr r r1 -> amoved M tr2 r1 r2 -> amoved M (tr ++ tr2) r r2.
Proof.
  induction r as [u|s IH a]; intros tr [u1|s1 a1] tr2 [u2|s2 a2]; cbn [amoved]; try tauto.
  - apply urun_app.
  - intros (H & A) (K & B). split; [eapply IH; eauto|]. rewrite bytes_of_app, lenN_app. lia.
Qed.
Lemma moved_refl {U} (M : reader_impl U) r : amoved M [] r r.
Proof. induction r; cbn [amoved]; [constructor|split; [assumption|]]. cbn. lia. Qed.
Lemma ends_app {E A} `{FromIO E} (y : res E A) tr tr2 : clean tr -> ends y tr2 -> ends y (tr ++ tr2).
Proof.
  intros C. destruct y; cbn [ends]; try (intros D; now apply Forall_app).
  intros [D|(t & c & i & -> & D & F)]; [left; now apply Forall_app|]. right. exists (tr ++ t), c, i.
  split; [apply app_assoc|]. split; [now apply Forall_app|exact F].
Qed.
Lemma ends_clean {E A} `{FromIO E} (y : res E A) tr : clean tr -> ends y tr.
Proof. destruct y; cbn [ends]; auto. Qed.
Lemma ends_nil {E A} `{FromIO E} (y : res E A) : ends y [].
Proof. apply ends_clean. constructor. Qed.
Lemma ends_map_ok {E A B} `{FromIO E} (f : A -> B) (y : res E A) tr : ends y tr -> ends (map_ok f y) tr.
Proof. destruct y; auto. Qed.
Lemma ends_map_err {E E' A} `{FromIO E} `{FromIO E'} (h : E -> E') (y : res E A) tr : (forall i, h (from_io i) = from_io i) ->
  ends y tr -> ends (map_err h y) tr.
Proof.
  intros Hh. destruct y; cbn [ends map_err]; auto. intros [D|(t & c & i & D1 & D2 & D3 & ->)]; [now left|].
  right. exists t, c, i. rewrite Hh. auto.
Qed.

(** The reader of IO.v with the same LimitedReaders over [rr]. *)
Fixpoint flat {U} (r : areader U) (rr : reader) : reader :=
  match r with
  | ABase _ => rr
  | ALimited s a => RLimited (flat s rr) a
  end.

Section AnyFacts.
Context {U : Type} (M : reader_impl U) (HM : impl_ok M).

(** The outcome of [f] at [x]: it ends, after a run whose cost satisfies [Q], and
    [g] does the same on any reader that gives the answers of the run. *)
Definition agood {X Y E A} `{FromIO E} (pr : X -> areader U) (pr' : Y -> reader) (fl : X -> reader -> Y)
  (Q : bool -> N -> N -> Prop) (f : X -> res E A * X) (g : Y -> res E A * Y) (x : X) : Prop :=
  forall y x', f x = (y, x') ->
    returns y /\
    exists tr, amoved M tr (pr x) (pr x') /\ bytes_ok (bytes_of tr) /\ ends y tr /\ Q (is_ok y) (lenN tr) (lenN (bytes_of tr)) /\
      (forall rr rr', rrun rr tr rr' -> let '(z, w) := g (fl x rr) in
        z = OutOfFuel \/ (z = y /\ pr' w = flat (pr x') rr' /\ (is_ok y = true -> w = fl x' rr'))).

Lemma good_bind {X Y E A B} `{FromIO E} pr pr' fl (Q1 Q2 Q : bool -> N -> N -> Prop) (m : X -> res E A * X) (n : Y -> res E A * Y)
  (f : A -> X -> res E B * X) (g : A -> Y -> res E B * Y) x :
  agood pr pr' fl Q1 m n x ->
  (forall a x' tr, m x = (Ok a, x') -> amoved M tr (pr x) (pr x') -> Q1 true (lenN tr) (lenN (bytes_of tr)) -> agood pr pr' fl Q2 (f a) (g a) x') ->
  (forall c d, Q1 false c d -> Q false c d) ->
  (forall c1 d1 b c2 d2, Q1 true c1 d1 -> Q2 b c2 d2 -> Q b (c1 + c2) (d1 + d2)) ->
  agood pr pr' fl Q (bind m f) (bind n g) x.
Proof.
  intros G F Qf Qs y x' E1. unfold bind in E1. destruct (m x) as [a x1] eqn:Em.
  destruct (G _ _ Em) as (R & tr & Hm & Hb & Ho & Hq & Hz).
  destruct a as [a|e| |]; cbn [is_ok] in *; try contradiction.
  - destruct (F a x1 tr eq_refl Hm Hq _ _ E1) as (R2 & tr2 & Hm2 & Hb2 & Ho2 & Hq2 & Hz2).
    split; [exact R2|]. exists (tr ++ tr2). split; [eapply moved_app; eauto|]. rewrite bytes_of_app, !lenN_app.
    split; [now apply Forall_app|]. split; [now apply ends_app|]. split; [eauto|].
    intros rr rr2 Hr. apply rrun_split in Hr. destruct Hr as (rr1 & Hr1 & Hr2). unfold bind.
    specialize (Hz _ _ Hr1). specialize (Hz2 _ _ Hr2). destruct (n (fl x rr)) as [z w].
    destruct Hz as [->|(-> & _ & Hw)]; [now left|]. rewrite (Hw eq_refl). exact Hz2.
  - injection E1 as <- <-. split; [exact I|]. exists tr. split; [exact Hm|]. split; [exact Hb|].
    split; [exact Ho|]. split; [auto|]. intros rr rr' Hr. specialize (Hz rr rr' Hr). unfold bind.
    destruct (n (fl x rr)) as [z w]. destruct Hz as [->|(-> & Hw & _)]; [now left|].
    right. split; [reflexivity|]. split; [exact Hw|discriminate].
Qed.
Lemma good_weaken {X Y E A} `{FromIO E} pr pr' fl (Q1 Q : bool -> N -> N -> Prop) (f : X -> res E A * X) (g : Y -> res E A * Y) x :
  agood pr pr' fl Q1 f g x -> (forall b c d, Q1 b c d -> Q b c d) -> agood pr pr' fl Q f g x.
Proof.
  intros G W y x' E1. destruct (G y x' E1) as (R & tr & Hm & Hb & Ho & Hq & Hz).
  split; [exact R|]. exists tr. auto 10.
Qed.
Lemma good_lift {X Y E E' A} `{FromIO E} `{FromIO E'} pr pr' fl Q (h : E -> E') (f : X -> res E A * X) (g : Y -> res E A * Y) x :
  (forall i, h (from_io i) = from_io i) -> agood pr pr' fl Q f g x -> agood pr pr' fl Q (lift_err h f) (lift_err h g) x.
Proof.
  intros Hh G y x' E1. unfold lift_err in E1. destruct (f x) as [a x1] eqn:Ef.
  destruct (G _ _ Ef) as (R & tr & Hm & Hb & Ho & Hq & Hz). apply pair_inv in E1. destruct E1 as [<- <-].
  split; [now destruct a|]. exists tr. split; [exact Hm|]. split; [exact Hb|].
  assert (Hi : is_ok (map_err h a) = is_ok a) by now destruct a. rewrite Hi.
  split; [now apply ends_map_err|]. split; [exact Hq|]. intros rr rr' Hr. specialize (Hz rr rr' Hr). unfold lift_err.
  destruct (g (fl x rr)) as [z w]. destruct Hz as [->|(-> & Hw)]; [now left|].
  right. split; [reflexivity|exact Hw].
Qed.

(** Costs: [K k lo] allows twice the bytes plus [k] calls, plus one for a failure. *)
Definition K (k : Z) (lo : N) (b : bool) (c d : N) : Prop :=
  if b then lo <= d /\ (Z.of_N c <= 2 * Z.of_N d + k)%Z else (Z.of_N c <= 2 * Z.of_N d + 1)%Z.
(** Steps that make no calls. *)
Definition K0 (b : bool) (c d : N) : Prop := c = 0 /\ d = 0.

Definition rgood {E A} `{FromIO E} := @agood (areader U) reader E A _ (fun r => r) (fun r => r) flat.
Definition mfl {S} (x : S * areader U) (rr : reader) : S * reader := (fst x, flat (snd x) rr).
Definition mgood {S A} := @agood (S * areader U) (S * reader) tag_error A _ snd snd mfl.

Ltac kk := try solve [unfold K, K0; intros; repeat match goal with |- context [if ?b then _ else _] => destruct b end; lia].

Lemma good_pure {X Y E A} `{FromIO E} pr pr' fl (y : res E A) (x : X) : returns y ->
  (forall l, pr' (fl x l : Y) = flat (pr x) l) ->
  agood pr pr' fl K0 (fun s => (y, s)) (fun s => (y, s)) x.
Proof.
  intros R P y' x' E1. apply pair_inv in E1. destruct E1 as [<- <-]. split; [exact R|].
  exists []. split; [apply moved_refl|]. split; [constructor|]. split; [apply ends_nil|]. split; [split; reflexivity|].
  intros rr rr' Hr. inversion Hr; subst. right. auto.
Qed.

(** ** Reading *)
Lemma read_good r : rgood (fun b c d => if b then c = 1 /\ d = 1 else c <= 1 /\ d = 0) (a_read M) read r.
Proof.
  induction r as [u|s IH a]; intros y r' E1; cbn [a_read] in E1.
  - destruct (u_read M u) as [x u'] eqn:Eu. apply pair_inv in E1. destruct E1 as [<- <-].
    destruct (io_read _ HM _ _ _ Eu) as (R & B). split; [exact R|]. destruct x as [b|e| |]; try contradiction.
    + exists [CRead (inr b)]. split; [cbn; econstructor; [exact Eu|constructor]|].
      split; [constructor; [auto|constructor]|]. split; [repeat constructor|]. split; [split; reflexivity|].
      intros rr rr' Hr. inversion Hr as [|? ? r1 ? ? E2 H2| | |]; subst. inversion H2; subst. cbn [flat]. rewrite E2. right. auto.
    + exists [CRead (inl e)]. split; [cbn; eapply urun_read_err; [exact Eu|constructor]|].
      split; [constructor|]. split; [right; exists [], (CRead (inl e)), e; split; [reflexivity|]; split; [constructor|]; split; reflexivity|]. split; [split; [cbn; lia|reflexivity]|].
      intros rr rr' Hr. inversion Hr as [| |? ? r1 ? ? E2 H2| |]; subst. inversion H2; subst. cbn [flat]. rewrite E2. right.
      split; [reflexivity|]. split; [reflexivity|discriminate].
  - destruct (a <? 1) eqn:L.
    + apply pair_inv in E1. destruct E1 as [<- <-]. split; [exact I|]. exists []. split; [apply moved_refl|].
      split; [constructor|]. split; [apply ends_nil|]. split; [split; [cbn; lia|reflexivity]|].
      intros rr rr' Hr. inversion Hr; subst. cbn [flat read]. rewrite L. right. split; [reflexivity|]. split; [reflexivity|discriminate].
    + destruct (a_read M s) as [x s'] eqn:Es. apply pair_inv in E1. destruct E1 as [<- <-].
      destruct (IH _ _ Es) as (R & tr & Hm & Hb & Ho & Hq & Hz). split; [exact R|].
      exists tr. split; [cbn [amoved]; split; [exact Hm|]; destruct x; cbn [is_ok] in *; try contradiction; lia|].
      split; [exact Hb|]. split; [exact Ho|]. split; [exact Hq|].
      intros rr rr' Hr. specialize (Hz rr rr' Hr). cbn [flat read]. rewrite L. destruct (read (flat s rr)) as [z w].
      destruct Hz as [->|(-> & -> & _)]; [now left|]. right. split; [reflexivity|]. split; reflexivity.
Qed.

(** [read_all], returning the buffer. *)
Lemma read_all_good r : forall buff x buff' r', bytes_ok buff -> a_read_all M buff r = (x, buff', r') ->
  returns x /\ lenN buff' = lenN buff /\
  exists tr, amoved M tr r r' /\ bytes_ok (bytes_of tr) /\ ends x tr /\
    (if is_ok x then lenN tr = 1 /\ lenN (bytes_of tr) = lenN buff else lenN tr <= 1 /\ lenN (bytes_of tr) = 0) /\
    (forall rr rr', rrun rr tr rr' -> exists got, read_all (lenN buff) (flat r rr) = (x, got, flat r' rr') /\
       (is_ok x = true -> got = buff')).
Proof.
  induction r as [u|s IH a]; intros buff x buff' r' Hbuff E1; cbn [a_read_all] in E1.
  - destruct (u_read_all M buff u) as [[y b'] u'] eqn:Eu. injection E1 as <- <- <-.
    destruct (io_read_all _ HM _ _ _ _ _ Eu) as (R & L & B). split; [exact R|]. split; [exact L|].
    destruct y as [[]|e| |]; try contradiction.
    + exists [CFill (lenN buff) (inr b')]. split; [cbn; econstructor; [exact Eu|constructor]|].
      cbn [bytes_of flat_map call_bytes is_ok]. rewrite app_nil_r.
      split; [auto|]. split; [repeat constructor|]. split; [split; [reflexivity|exact L]|].
      intros rr rr' Hr. inversion Hr as [| | |? ? ? r1 ? ? E2 H2|]; subst. inversion H2; subst. exists b'. split; [exact E2|reflexivity].
    + exists [CFill (lenN buff) (inl e)]. split; [cbn; eapply urun_fill_err; [exact Eu|constructor]|].
      split; [constructor|]. split; [right; exists [], (CFill (lenN buff) (inl e)), e; split; [reflexivity|]; split; [constructor|]; split; reflexivity|]. split; [split; [cbn; lia|reflexivity]|].
      intros rr rr' Hr. inversion Hr as [| | | |? ? ? got r1 ? ? E2 H2]; subst. inversion H2; subst. exists got. split; [exact E2|discriminate].
  - destruct (a <? lenN buff) eqn:L.
    + injection E1 as <- <- <-. split; [exact I|]. split; [reflexivity|]. exists []. split; [apply moved_refl|].
      split; [constructor|]. split; [apply ends_nil|]. split; [split; [cbn; lia|reflexivity]|].
      intros rr rr' Hr. inversion Hr; subst. exists []. cbn [flat read_all]. rewrite L. split; [reflexivity|discriminate].
    + destruct (a_read_all M buff s) as [[y b'] s'] eqn:Es. injection E1 as <- <- <-.
      destruct (IH _ _ _ _ Hbuff Es) as (R & Lb & tr & Hm & Hb & Ho & Hq & Hz). split; [exact R|]. split; [exact Lb|].
      exists tr. split; [cbn [amoved]; split; [exact Hm|]; destruct y; cbn [is_ok] in *; try contradiction; lia|].
      split; [exact Hb|]. split; [exact Ho|]. split; [exact Hq|].
      intros rr rr' Hr. destruct (Hz rr rr' Hr) as (got & Er & Hg). exists got. split; [|exact Hg]. cbn [flat read_all]. rewrite L, Er. reflexivity.
Qed.
Definition Kf (n : N) (b : bool) (c d : N) : Prop := if b then c = 1 /\ d = n else c <= 1 /\ d = 0.
Lemma repeatN_ok n : bytes_ok (repeatN 0 n).
Proof. unfold repeatN, bytes_ok. apply Forall_forall. intros x H. apply repeat_spec in H. subst. now unfold byte_ok. Qed.
Lemma fetch_good n r : rgood (Kf n) (a_fetch M n) (fetch n) r.
Proof.
  intros y r' E1. unfold a_fetch in E1. destruct (a_read_all M (repeatN 0 n) r) as [[x b'] r1] eqn:Er.
  apply pair_inv in E1. destruct E1 as [<- <-].
  destruct (read_all_good _ _ _ _ _ (repeatN_ok n) Er) as (R & L & tr & Hm & Hb & Ho & Hq & Hz).
  rewrite lenN_repeatN in *. split; [now destruct x|]. assert (Hi : is_ok (map_ok (fun _ : unit => b') x) = is_ok x) by now destruct x.
  rewrite Hi. exists tr. split; [exact Hm|]. split; [exact Hb|]. split; [now apply ends_map_ok|]. split; [exact Hq|].
  intros rr rr' Hr. destruct (Hz rr rr' Hr) as (got & Ef & Hg). unfold fetch. rewrite Ef. right.
  destruct x; cbn [is_ok map_ok] in *; try contradiction; [rewrite (Hg eq_refl)|]; split; [reflexivity| |reflexivity|]; split; reflexivity.
Qed.

Lemma a_read_byte r : forall b r', a_read M r = (Ok b, r') -> byte_ok b.
Proof.
  induction r as [u|s IH a]; intros b r' E1; cbn [a_read] in E1.
  - destruct (u_read M u) as [x u'] eqn:Eu. apply pair_inv in E1. destruct E1 as [-> _].
    now apply (io_read _ HM _ _ _ Eu).
  - destruct (a <? 1); [discriminate|]. destruct (a_read M s) as [x s'] eqn:Es. apply pair_inv in E1.
    destruct E1 as [-> _]. eauto.
Qed.
Lemma rpure {E A} `{FromIO E} (y : res E A) (r : areader U) : returns y -> @rgood E A _ K0 (fun s => (y, s)) (fun s => (y, s)) r.
Proof. intros Hy. now apply good_pure. Qed.
Lemma mpure {S A} (y : res tag_error A) (x : S * areader U) : returns y -> @mgood S A K0 (fun s => (y, s)) (fun s => (y, s)) x.
Proof. intros Hy. now apply good_pure. Qed.
Definition Kr (b : bool) (c d : N) : Prop := b = true /\ c = 0 /\ d = 0.
Lemma rret {E A} `{FromIO E} (a : A) (r : areader U) : @rgood E A _ Kr (ret a) (ret a) r.
Proof.
  intros y x' E1. apply pair_inv in E1. destruct E1 as [<- <-]. split; [exact I|].
  exists []. split; [apply moved_refl|]. split; [constructor|]. split; [apply ends_nil|]. split; [repeat split|].
  intros rr rr' Hr. inversion Hr; subst. right. auto.
Qed.
Lemma decode_body_returns body : returns (decode_body body).
Proof. unfold decode_body. destruct (_ || _); [exact I|]. cbv zeta. destruct (_ <? _); exact I. Qed.

(** An ILInt: at most nine bytes, no more calls than bytes (one more if the last
    fails). *)
Definition KI (b : bool) (c d : N) : Prop := d <= 9 /\ if b then 1 <= d /\ c <= d else c <= d + 1.
Lemma decode_good r : rgood KI (a_decode M) decode r.
Proof.
  unfold a_decode, decode. eapply good_bind with (Q2 := fun (b : bool) (c d : N) => d <= 8 /\ if b then c <= d else c <= d + 1).
  - apply good_lift; [reflexivity|]. apply read_good.
  - intros h r1 tr E1 _ _. cbv zeta.
    assert (Hh : byte_ok h).
    { unfold lift_err in E1. destruct (a_read M r) as [x r2] eqn:Er. apply pair_inv in E1. destruct E1 as [Ex _].
      destruct x; cbn in Ex; try discriminate. apply (a_read_byte r _ r2). congruence. }
    unfold byte_ok in Hh. destruct (decoded_size h =? 1) eqn:L.
    + eapply good_weaken; [apply rpure; exact I|]. unfold K0. intros [] c' d [-> ->]; lia.
    + assert (Hs : decoded_size h <= 9 /\ 2 <= decoded_size h).
      { unfold decoded_size, ILINT_BASE in *. destruct (h <? 248) eqn:L'; [discriminate|]. lia. }
      eapply good_bind with (Q1 := Kf (decoded_size h - 1)) (Q2 := K0).
      * apply good_lift; [reflexivity|]. apply fetch_good.
      * intros body r2 tr2 _ _ _. apply rpure, decode_body_returns.
      * unfold Kf. intros; lia.
      * unfold Kf, K0. intros c1 d1 [] c2 d2 [] []; subst; lia.
  - cbv beta. unfold KI. intros; lia.
  - cbv beta. unfold KI. intros c1 d1 [] c2 d2 [] []; subst; lia.
Qed.
Lemma ilint_good r : rgood KI (a_ilint M) deserialize_ilint r.
Proof. apply good_lift; [reflexivity|]. apply good_lift; [reflexivity|]. apply decode_good. Qed.
Lemma silint_good r : rgood KI (a_silint M) deserialize_signed_ilint r.
Proof.
  apply good_lift; [reflexivity|]. apply good_lift; [reflexivity|]. unfold a_signed_decode, signed_decode. eapply good_bind with (Q1 := KI) (Q2 := K0).
  - apply decode_good.
  - intros. now apply rpure.
  - auto.
  - unfold KI, K0. intros c1 d1 [] c2 d2 H [-> ->]; rewrite !N.add_0_r; lia.
Qed.
Lemma KI_K b c d : KI b c d -> K (-1) 1 b c d.
Proof. unfold KI, K. destruct b; lia. Qed.

Lemma uint_good w r : rgood (Kf (N.of_nat (wbytes w))) (a_uint M w) (deserialize_uint w) r.
Proof.
  apply good_lift; [reflexivity|]. unfold read_uint. destruct w.
  - eapply good_weaken; [apply read_good|]. cbv beta. unfold Kf. intros [] c d; cbn [wbytes]; lia.
  - eapply good_bind with (Q2 := Kr); [apply fetch_good|intros; apply rret| |]; unfold Kf, Kr; cbn [wbytes]; intros; [lia|]; destruct b; lia.
  - eapply good_bind with (Q2 := Kr); [apply fetch_good|intros; apply rret| |]; unfold Kf, Kr; cbn [wbytes]; intros; [lia|]; destruct b; lia.
  - eapply good_bind with (Q2 := Kr); [apply fetch_good|intros; apply rret| |]; unfold Kf, Kr; cbn [wbytes]; intros; [lia|]; destruct b; lia.
Qed.
Lemma sint_good w r : rgood (Kf (N.of_nat (wbytes w))) (a_sint M w) (deserialize_sint w) r.
Proof.
  apply good_lift; [reflexivity|]. unfold read_sint. destruct w.
  - eapply good_bind with (Q2 := Kr); [apply read_good|intros; apply rret| |]; unfold Kf, Kr; cbn [wbytes]; intros; [lia|]; destruct b; lia.
  - eapply good_bind with (Q2 := Kr); [apply fetch_good|intros; apply rret| |]; unfold Kf, Kr; cbn [wbytes]; intros; [lia|]; destruct b; lia.
  - eapply good_bind with (Q2 := Kr); [apply fetch_good|intros; apply rret| |]; unfold Kf, Kr; cbn [wbytes]; intros; [lia|]; destruct b; lia.
  - eapply good_bind with (Q2 := Kr); [apply fetch_good|intros; apply rret| |]; unfold Kf, Kr; cbn [wbytes]; intros; [lia|]; destruct b; lia.
Qed.
Lemma Kf_K n b c d : 1 <= n -> Kf n b c d -> K (-1) 1 b c d.
Proof. unfold Kf, K. destruct b; lia. Qed.
Lemma f32_good r : rgood (Kf 4) (a_f32 M) deserialize_f32 r.
Proof.
  unfold a_f32, deserialize_f32, read_f32. intros y r' E1. destruct (uint_good W32 r y r' E1) as (R & tr & Hm & Hb & Ho & Hq & Hz).
  split; [exact R|]. exists tr. do 4 (split; [assumption|]). intros rr rr' Hr. specialize (Hz rr rr' Hr).
  unfold deserialize_uint, lift_err, bind, ret in *. destruct (read_uint W32 (flat r rr)) as [[] w]; exact Hz.
Qed.
Lemma f64_good r : rgood (Kf 8) (a_f64 M) deserialize_f64 r.
Proof.
  unfold a_f64, deserialize_f64, read_f64. intros y r' E1. destruct (uint_good W64 r y r' E1) as (R & tr & Hm & Hb & Ho & Hq & Hz).
  split; [exact R|]. exists tr. do 4 (split; [assumption|]). intros rr rr' Hr. specialize (Hz rr rr' Hr).
  unfold deserialize_uint, lift_err, bind, ret in *. destruct (read_uint W64 (flat r rr)) as [[] w]; exact Hz.
Qed.
Lemma bytes_good n r : rgood (Kf n) (a_bytes M n) (deserialize_bytes n) r.
Proof. apply good_lift; [reflexivity|]. apply fetch_good. Qed.

(** ** Methods *)
Lemma on_reader_good {S A} Q (m : areader U -> res tag_error A * areader U) n (x : S * areader U) :
  rgood Q m n (snd x) -> mgood Q (a_on_reader m) (on_reader n) x.
Proof.
  destruct x as [s r]. intros G y [s' r'] E1. cbn [a_on_reader snd] in *. destruct (m r) as [a r1] eqn:Em.
  destruct (G _ _ Em) as (R & tr & Hm & Hb & Ho & Hq & Hz). assert (y = a /\ s' = s /\ r' = r1) as (-> & -> & ->) by (repeat split; congruence).
  split; [exact R|]. exists tr. do 4 (split; [assumption|]). intros rr rr' Hr. specialize (Hz rr rr' Hr). unfold mfl, on_reader. cbn [fst snd].
  destruct (n (flat r rr)) as [z w]. destruct Hz as [->|(-> & -> & _)]; [now left|]. right. auto.
Qed.
Lemma modify_good {S} (f : S -> S) (x : S * areader U) : mgood K0 (a_modify f) (modify f) x.
Proof.
  destruct x as [s r]. intros y x' E1. apply pair_inv in E1. destruct E1 as [<- <-]. split; [exact I|].
  exists []. split; [apply moved_refl|]. split; [constructor|]. split; [apply ends_nil|]. split; [split; reflexivity|].
  intros rr rr' Hr. inversion Hr; subst. right. auto.
Qed.
Definition lim (r : areader U) : Prop := match r with ALimited _ _ => True | ABase _ => False end.
Lemma ensure_empty_good {S} e (x : S * areader U) : lim (snd x) -> mgood K0 (a_ensure_empty e) (limited_reader_ensure_empty e) x.
Proof.
  destruct x as [s r]. intros Hl y x' E1. apply pair_inv in E1. destruct E1 as [<- <-]. split; [now destruct (a_empty _)|].
  exists []. split; [apply moved_refl|]. split; [constructor|]. split; [apply ends_nil|]. split; [split; reflexivity|].
  intros rr rr' Hr. inversion Hr; subst. right. unfold limited_reader_ensure_empty. cbn [mfl fst snd].
  split; [now destruct r|]. split; reflexivity.
Qed.
Lemma limited_good {S A} Q n (m : amethod S A) (m' : method S A) s (r : areader U) :
  mgood Q m m' (s, ALimited r n) -> mgood (fun b c d => Q b c d /\ d <= n) (a_limited n m) (limited n m') (s, r).
Proof.
  intros G y [s' r'] E1. unfold a_limited in E1. destruct (m (s, ALimited r n)) as [a [s1 r1]] eqn:Em.
  destruct (G _ _ Em) as (R & tr & Hm & Hb & Ho & Hq & Hz).
  assert (y = a /\ s' = s1 /\ r' = a_unlimit r1) as (-> & -> & ->) by (repeat split; congruence).
  cbn [snd] in *. destruct r1 as [|r1 n1]; [contradiction|]. cbn [amoved a_unlimit] in *. destruct Hm as [Hm Hn].
  split; [exact R|]. exists tr. do 3 (split; [assumption|]). split; [split; [assumption|lia]|]. intros rr rr' Hr. specialize (Hz rr rr' Hr).
  unfold mfl, limited, LimitedReader_new in *. cbn [fst snd flat] in *.
  destruct (m' (s, RLimited (flat r rr) n)) as [z [sw w]].
  destruct Hz as [->|(-> & Hw & Hs)]; [now left|]. right. split; [reflexivity|]. cbn [snd flat] in Hw. subst w. cbn [unlimit snd]. split; [reflexivity|].
  intros Hok. specialize (Hs Hok). congruence.
Qed.

(** Conditions on readers that runs keep. *)
Definition stable (P : areader U -> Prop) : Prop := forall tr r r', P r -> amoved M tr r r' -> P r'.

Lemma while_good {S A} (P : areader U -> Prop) (m : areader U -> res tag_error A * areader U) n (store : A -> S -> S) :
  stable P -> (forall r, P r -> rgood (K 0 1) m n r) ->
  forall fuel s src a, (N.to_nat a < fuel)%nat -> P (ALimited src a) ->
  forall y x', a_while fuel m store (s, ALimited src a) = (y, x') ->
    returns y /\ exists tr, amoved M tr (ALimited src a) (snd x') /\ bytes_ok (bytes_of tr) /\ ends y tr /\
      K 0 0 (is_ok y) (lenN tr) (lenN (bytes_of tr)) /\
      (forall rr rr' fuel', rrun rr tr rr' -> let '(z, w) := while_read fuel' n store (mfl (s, ALimited src a) rr) in
        z = OutOfFuel \/ (z = y /\ snd w = flat (snd x') rr' /\ (is_ok y = true -> w = mfl x' rr'))).
Proof.
  intros HP G. induction fuel as [|f IH]; intros s src a L Pr y x' E1; [lia|]. cbn [a_while snd a_empty] in E1.
  destruct (a =? 0) eqn:La.
  - apply pair_inv in E1. destruct E1 as [<- <-]. split; [exact I|]. exists []. split; [apply moved_refl|].
    split; [constructor|]. split; [apply ends_nil|]. split; [cbn; lia|].
    intros rr rr' [|f'] Hr; inversion Hr; subst; cbn [while_read mfl fst snd flat limit_empty]; rewrite La; right; auto.
  - unfold bind in E1. cbn [a_on_reader] in E1. destruct (m (ALimited src a)) as [xa r1] eqn:Em.
    destruct (G _ Pr _ _ Em) as (R & tr & Hm & Hb & Ho & Hq & Hz).
    destruct xa as [xa|e| |]; cbn [is_ok] in *; try contradiction.
    + cbn [a_modify] in E1. unfold K in Hq. destruct r1 as [|src1 a1]; [contradiction|].
      pose proof (HP _ _ _ Pr Hm) as Pr1. assert (La1 : (N.to_nat a1 < f)%nat) by (destruct Hm as [_ Hm]; lia).
      destruct (IH _ _ _ La1 Pr1 _ _ E1) as (R2 & tr2 & Hm2 & Hb2 & Ho2 & Hq2 & Hz2).
      split; [exact R2|]. exists (tr ++ tr2). split; [exact (moved_app _ _ _ _ _ _ Hm Hm2)|].
      rewrite bytes_of_app, !lenN_app. split; [now apply Forall_app|]. split; [now apply ends_app|].
      split; [unfold K in *; destruct (is_ok y); lia|].
      intros rr rr2 fuel' Hr. apply rrun_split in Hr. destruct Hr as (rr1 & Hr1 & Hr2).
      specialize (Hz _ _ Hr1). cbn beta in *.
      assert (Le : limit_empty (flat (ALimited src a) rr) = false) by exact La.
      destruct fuel' as [|f']; cbn [while_read mfl fst snd]; rewrite Le; [cbn beta iota; now left|].
      unfold bind, on_reader, mfl. cbn [fst snd]. destruct (n (flat (ALimited src a) rr)) as [z w].
      destruct Hz as [->|(-> & _ & Hw)]; [cbn beta iota; now left|]. rewrite (Hw eq_refl). cbn [modify].
      exact (Hz2 _ _ f' Hr2).
    + apply pair_inv in E1. destruct E1 as [<- <-]. split; [exact I|]. exists tr. split; [exact Hm|]. split; [exact Hb|].
      split; [exact Ho|]. split; [exact Hq|]. intros rr rr' fuel' Hr. specialize (Hz rr rr' Hr). cbn beta in *.
      assert (Le : limit_empty (flat (ALimited src a) rr) = false) by exact La.
      destruct fuel' as [|f']; cbn [while_read mfl fst snd]; rewrite Le; [cbn beta iota; now left|].
      unfold bind, on_reader, mfl. cbn [fst snd]. destruct (n (flat (ALimited src a) rr)) as [z w].
      destruct Hz as [->|(-> & Hw & _)]; [cbn beta iota; now left|]. right. split; [reflexivity|]. split; [exact Hw|discriminate].
Qed.
Lemma repeat_good {S A} (P : areader U -> Prop) (m : areader U -> res tag_error A * areader U) n (store : A -> S -> S) :
  stable P -> (forall r, P r -> rgood (K 0 1) m n r) ->
  forall fuel s src a count, (N.to_nat a < fuel)%nat -> P (ALimited src a) ->
  forall y x', a_repeat fuel m store count (s, ALimited src a) = (y, x') ->
    returns y /\ exists tr, amoved M tr (ALimited src a) (snd x') /\ bytes_ok (bytes_of tr) /\ ends y tr /\
      K 0 0 (is_ok y) (lenN tr) (lenN (bytes_of tr)) /\
      (forall rr rr' fuel', rrun rr tr rr' -> let '(z, w) := repeat_read fuel' n store count (mfl (s, ALimited src a) rr) in
        z = OutOfFuel \/ (z = y /\ snd w = flat (snd x') rr' /\ (is_ok y = true -> w = mfl x' rr'))).
Proof.
  intros HP G. induction fuel as [|f IH]; intros s src a count L Pr y x' E1; [lia|]. cbn [a_repeat] in E1.
  destruct (count =? 0) eqn:La.
  - apply pair_inv in E1. destruct E1 as [<- <-]. split; [exact I|]. exists []. split; [apply moved_refl|].
    split; [constructor|]. split; [apply ends_nil|]. split; [cbn; lia|].
    intros rr rr' [|f'] Hr; inversion Hr; subst; cbn [repeat_read]; rewrite La; right; auto.
  - unfold bind in E1. cbn [a_on_reader] in E1. destruct (m (ALimited src a)) as [xa r1] eqn:Em.
    destruct (G _ Pr _ _ Em) as (R & tr & Hm & Hb & Ho & Hq & Hz).
    destruct xa as [xa|e| |]; cbn [is_ok] in *; try contradiction.
    + cbn [a_modify] in E1. unfold K in Hq. destruct r1 as [|src1 a1]; [contradiction|].
      pose proof (HP _ _ _ Pr Hm) as Pr1. assert (La1 : (N.to_nat a1 < f)%nat) by (destruct Hm as [_ Hm]; lia).
      destruct (IH _ _ _ _ La1 Pr1 _ _ E1) as (R2 & tr2 & Hm2 & Hb2 & Ho2 & Hq2 & Hz2).
      split; [exact R2|]. exists (tr ++ tr2). split; [exact (moved_app _ _ _ _ _ _ Hm Hm2)|].
      rewrite bytes_of_app, !lenN_app. split; [now apply Forall_app|]. split; [now apply ends_app|].
      split; [unfold K in *; destruct (is_ok y); lia|].
      intros rr rr2 fuel' Hr. apply rrun_split in Hr. destruct Hr as (rr1 & Hr1 & Hr2).
      specialize (Hz _ _ Hr1). cbn beta in *.
      destruct fuel' as [|f']; cbn [repeat_read]; rewrite La; [cbn beta iota; now left|].
      unfold bind, on_reader, mfl in *. cbn [fst snd] in *. destruct (n (flat (ALimited src a) rr)) as [z w].
      destruct Hz as [->|(-> & _ & Hw)]; [cbn beta iota; now left|]. rewrite (Hw eq_refl). cbn [modify].
      exact (Hz2 _ _ f' Hr2).
    + apply pair_inv in E1. destruct E1 as [<- <-]. split; [exact I|]. exists tr. split; [exact Hm|]. split; [exact Hb|].
      split; [exact Ho|]. split; [exact Hq|]. intros rr rr' fuel' Hr. specialize (Hz rr rr' Hr). cbn beta in *.
      destruct fuel' as [|f']; cbn [repeat_read]; rewrite La; [cbn beta iota; now left|].
      unfold bind, on_reader, mfl. cbn [fst snd]. destruct (n (flat (ALimited src a) rr)) as [z w].
      destruct Hz as [->|(-> & Hw & _)]; [cbn beta iota; now left|]. right. split; [reflexivity|]. split; [exact Hw|discriminate].
Qed.
Lemma stable_lim : stable lim.
Proof. intros tr [|] [|]; cbn; tauto. Qed.
Lemma lim_limited r n : lim (ALimited r n). Proof. exact I. Qed.
Lemma while_fuelled {S A} P (m : areader U -> res tag_error A * areader U) n (store : A -> S -> S) x :
  stable P -> (forall r, P r -> rgood (K 0 1) m n r) -> P (snd x) -> lim (snd x) ->
  mgood (K 0 0) (a_fuelled (fun f => a_while f m store)) (fuelled (fun f => while_read f n store)) x.
Proof.
  destruct x as [s [u|src a]]; cbn [snd lim]; intros HP G Pr L; [contradiction|]. intros y x' E1. unfold a_fuelled in E1. cbn [snd room] in E1.
  destruct (while_good P m n store HP G _ _ _ _ (Nat.lt_succ_diag_r _) Pr _ _ E1) as (R & tr & Hm & Hb & Ho & Hq & Hz).
  split; [exact R|]. exists tr. do 4 (split; [assumption|]). intros rr rr' Hr. exact (Hz rr rr' _ Hr).
Qed.
Lemma repeat_fuelled {S A} P (m : areader U -> res tag_error A * areader U) n (store : A -> S -> S) count x :
  stable P -> (forall r, P r -> rgood (K 0 1) m n r) -> P (snd x) -> lim (snd x) ->
  mgood (K 0 0) (a_fuelled (fun f => a_repeat f m store count)) (fuelled (fun f => repeat_read f n store count)) x.
Proof.
  destruct x as [s [u|src a]]; cbn [snd lim]; intros HP G Pr L; [contradiction|]. intros y x' E1. unfold a_fuelled in E1. cbn [snd room] in E1.
  destruct (repeat_good P m n store HP G _ _ _ _ count (Nat.lt_succ_diag_r _) Pr _ _ E1) as (R & tr & Hm & Hb & Ho & Hq & Hz).
  split; [exact R|]. exists tr. do 4 (split; [assumption|]). intros rr rr' Hr. exact (Hz rr rr' _ Hr).
Qed.

Section KBind.
Context {X Y E A B : Type} `{FromIO E} (pr : X -> areader U) (pr' : Y -> reader) (fl : X -> reader -> Y).
Lemma kbind k1 lo1 k2 lo2 k lo (m : X -> res E A * X) n (f : A -> X -> res E B * X) g x :
  agood pr pr' fl (K k1 lo1) m n x ->
  (forall a x' tr, m x = (Ok a, x') -> amoved M tr (pr x) (pr x') -> lo1 <= lenN (bytes_of tr) -> agood pr pr' fl (K k2 lo2) (f a) (g a) x') ->
  (k1 <= 0)%Z -> (k1 + k2 <= k)%Z -> lo <= lo1 + lo2 -> agood pr pr' fl (K k lo) (bind m f) (bind n g) x.
Proof.
  intros G F H1 H2 H3. eapply good_bind; [exact G| | |].
  - intros a x' tr E1 Hm Hq. eapply F; eauto. unfold K in Hq. lia.
  - unfold K. auto.
  - unfold K. intros c1 d1 [] c2 d2; lia.
Qed.
Lemma kbind0 k lo (m : X -> res E A * X) n (f : A -> X -> res E B * X) g x :
  agood pr pr' fl K0 m n x ->
  (forall a x' tr, m x = (Ok a, x') -> amoved M tr (pr x) (pr x') -> agood pr pr' fl (K k lo) (f a) (g a) x') ->
  agood pr pr' fl (K k lo) (bind m f) (bind n g) x.
Proof.
  intros G F. eapply good_bind; [exact G| | |].
  - intros a x' tr E1 Hm Hq. eapply F; eauto.
  - unfold K, K0. lia.
  - unfold K, K0. intros c1 d1 [] c2 d2; lia.
Qed.
(** After the last calls. *)
Lemma kend k lo k1 (m : X -> res E A * X) n (f : A -> X -> res E B * X) g x :
  agood pr pr' fl (K k lo) m n x ->
  (forall a x' tr, m x = (Ok a, x') -> amoved M tr (pr x) (pr x') -> agood pr pr' fl K0 (f a) (g a) x') -> (k <= 1)%Z -> (k <= k1)%Z ->
  agood pr pr' fl (K k1 lo) (bind m f) (bind n g) x.
Proof.
  intros G F H1 H2. eapply good_bind; [exact G| | |].
  - intros a x' tr E1 Hm Hq. eapply F; eauto.
  - unfold K. auto.
  - unfold K, K0. intros c1 d1 [] c2 d2; lia.
Qed.
End KBind.

Lemma K_weaken {X Y E A} `{FromIO E} pr pr' fl k lo k1 lo1 (f : X -> res E A * X) (g : Y -> res E A * Y) x :
  agood pr pr' fl (K k lo) f g x -> (k <= k1)%Z -> lo1 <= lo -> agood pr pr' fl (K k1 lo1) f g x.
Proof. intros G H1 H2. eapply good_weaken; [exact G|]. unfold K. intros [] c d; lia. Qed.
Lemma K0_K {X Y E A} `{FromIO E} pr pr' fl k (f : X -> res E A * X) (g : Y -> res E A * Y) x :
  agood pr pr' fl K0 f g x -> (0 <= k)%Z -> agood pr pr' fl (K k 0) f g x.
Proof. intros G H1. eapply good_weaken; [exact G|]. unfold K, K0. intros [] c d; lia. Qed.

(** Shorthands on methods. *)
Lemma m_ilint {S} (x : S * areader U) : mgood (K (-1) 1) (a_on_reader (a_ilint M)) (on_reader deserialize_ilint) x.
Proof. apply on_reader_good. eapply good_weaken; [apply ilint_good|exact KI_K]. Qed.
Lemma m_uint {S} w (x : S * areader U) : mgood (K (-1) 1) (a_on_reader (a_uint M w)) (on_reader (deserialize_uint w)) x.
Proof. apply on_reader_good. eapply good_weaken; [apply uint_good|]. intros. eapply Kf_K; eauto. destruct w; cbn [wbytes]; lia. Qed.
Lemma m_sint {S} w (x : S * areader U) : mgood (K (-1) 1) (a_on_reader (a_sint M w)) (on_reader (deserialize_sint w)) x.
Proof. apply on_reader_good. eapply good_weaken; [apply sint_good|]. intros. eapply Kf_K; eauto. destruct w; cbn [wbytes]; lia. Qed.
Lemma m_bytes {S} n (x : S * areader U) : mgood (K 1 0) (a_on_reader (a_bytes M n)) (on_reader (deserialize_bytes n)) x.
Proof. apply on_reader_good. eapply good_weaken; [apply bytes_good|]. unfold Kf, K. intros [] c d; lia. Qed.
Lemma m_ret {S A} (a : A) (x : S * areader U) : mgood K0 (ret a) (ret a) x.
Proof. now apply mpure. Qed.
Lemma m_fail {S A} e (x : S * areader U) : @mgood S A K0 (fail e) (fail e) x.
Proof. now apply mpure. Qed.
Lemma m_guard {S} (b : bool) e (x : S * areader U) :
  mgood K0 (if b then fail e else ret tt) (if b then fail e else ret tt) x.
Proof. destruct b; [apply m_fail|apply m_ret]. Qed.
Lemma m_check {S} a n (x : S * areader U) : mgood K0 (a_check_size a n) (check_size a n) x.
Proof. unfold a_check_size, check_size. destruct (a =? n); [apply m_ret|apply m_fail]. Qed.
Lemma m_set {A} Q (m : areader U -> res tag_error A * areader U) n (x : A * areader U) :
  rgood Q m n (snd x) -> (forall b c d, Q b c d -> K (-1) 1 b c d) -> mgood (K (-1) 1) (a_set_from m) (set_from n) x.
Proof.
  intros G H. eapply kend; [apply on_reader_good; eapply good_weaken; [exact G|exact H]| |lia|lia].
  intros. apply modify_good.
Qed.
Lemma m_utf8 tmp (x : list N * areader U) :
  mgood K0 (if from_utf8 tmp then a_modify (fun _ => tmp) else fail CorruptedData)
           (if from_utf8 tmp then modify (fun _ => tmp) else fail CorruptedData) x.
Proof. destruct (from_utf8 tmp); [apply modify_good|apply m_fail]. Qed.
Lemma size_returns n : returns (tag_size_to_usize n).
Proof. unfold tag_size_to_usize. destruct (_ <? _); exact I. Qed.

Lemma string_into_good x : mgood (K (-1) 2) (a_string_tag_into M) deserialize_string_tag_from_value_into x.
Proof.
  unfold a_string_tag_into, deserialize_string_tag_from_value_into.
  eapply (kbind _ _ _ (-1) 1 0 1); [apply m_ilint| |lia|lia|lia]. intros id x1 _ _ _ _.
  eapply kbind0; [apply m_guard|]. intros _ x2 _ _ _.
  eapply (kbind _ _ _ (-1) 1 1 0); [apply m_ilint| |lia|lia|lia]. intros len x3 _ _ _ _.
  eapply kbind0; [apply mpure, size_returns|]. intros n x4 _ _ _.
  eapply kend; [apply m_bytes| |lia|lia]. intros tmp x5 _ _ _. apply m_utf8.
Qed.
Lemma string_good r : rgood (K (-1) 2) (a_string_tag M) deserialize_string_tag_from_value r.
Proof.
  intros y r' E1. unfold a_string_tag in E1. destruct (a_string_tag_into M ([], r)) as [x [s r1]] eqn:Es.
  destruct (string_into_good _ _ _ Es) as (R & tr & Hm & Hb & Ho & Hq & Hz). cbn [snd] in *.
  apply pair_inv in E1. destruct E1 as [Ey <-].
  assert (Hy : returns y /\ is_ok y = is_ok x /\ ends y tr) by (subst y; destruct x; split; try contradiction; auto). destruct Hy as (Ry & Hy & Hoy).
  split; [exact Ry|]. exists tr. rewrite Hy. do 4 (split; [assumption|]). intros rr rr' Hr. specialize (Hz rr rr' Hr).
  unfold deserialize_string_tag_from_value, mfl in *. cbn [fst snd] in *.
  destruct (deserialize_string_tag_from_value_into ([], flat r rr)) as [z [sw w]].
  destruct Hz as [->|(-> & Hw & Hs)]; [now left|]. right. cbn [snd] in Hw. split; [|auto].
  subst y. destruct x as [a|a| |]; try reflexivity. specialize (Hs eq_refl). congruence.
Qed.

(** Reading in place. *)
Lemma in_place_good vec r : bytes_ok vec ->
  mgood (K 1 0) (fun '(vec, r) => let '(x, vec', r') := a_into_slice M vec r in (x, (vec', r'))) in_place (vec, r).
Proof.
  intros Hv y [v' r'] E1. unfold a_into_slice in E1. destruct (a_read_all M vec r) as [[x b'] r1] eqn:Er.
  destruct (read_all_good _ _ _ _ _ Hv Er) as (R & L & tr & Hm & Hb & Ho & Hq & Hz).
  assert (y = map_err TagIO x /\ v' = b' /\ r' = r1) as (-> & -> & ->) by (repeat split; congruence).
  assert (Hi : is_ok (map_err TagIO x) = is_ok x) by now destruct x.
  split; [now destruct x|]. rewrite Hi. exists tr. split; [exact Hm|]. split; [exact Hb|]. split; [now apply ends_map_err|].
  split; [unfold K; destruct (is_ok x); lia|]. intros rr rr' Hr. destruct (Hz rr rr' Hr) as (got & Ef & Hg).
  unfold mfl, in_place, into_slice. cbn [fst snd]. rewrite Ef. right. split; [reflexivity|]. split; [reflexivity|].
  intros Hok. rewrite (Hg Hok), dropN_all by lia. now rewrite app_nil_r.
Qed.
Lemma resize_ok n vec : bytes_ok vec -> bytes_ok (resizeN n 0 vec).
Proof.
  intros H. unfold resizeN. destruct (n <=? lenN vec).
  - unfold bytes_ok in *. rewrite <- (takeN_dropN n vec) in H. now apply Forall_app in H.
  - apply Forall_app. split; [exact H|apply repeatN_ok].
Qed.
Lemma raw_good n vec r : bytes_ok vec -> mgood (K 1 0) (a_raw M n) (raw_deserialize n) (vec, r).
Proof.
  intros Hv. pose proof (in_place_good (resizeN n 0 vec) r (resize_ok n vec Hv)) as G. exact G.
Qed.
Lemma bigdec_good n z vec r : bytes_ok vec -> mgood (K 1 0) (a_bigdec M n) (bigdec_deserialize n) ((z, vec), r).
Proof.
  intros Hv. unfold a_bigdec, bigdec_deserialize. eapply kbind0; [apply m_guard|]. intros u1 x1 d1 E1 _.
  assert (x1 = ((z, vec), r)) as -> by (destruct (n <? 4); unfold fail, ret in E1; congruence).
  eapply (kbind _ _ _ (-1) 1 1 0); [apply m_sint| |lia|lia|lia]. intros sc x2 d2 E2 _ _.
  assert (exists r2, x2 = ((z, vec), r2)) as (r2 & ->).
  { unfold a_on_reader in E2. destruct (a_sint M W32 r). exists a. congruence. }
  eapply kbind0; [apply modify_good|]. intros u3 x3 d3 E3 _.
  assert (x3 = ((sc, vec), r2)) as -> by (cbn in E3; congruence).
  pose proof (raw_good (n - 4) vec r2 Hv) as G. intros y [[sc' v'] r'] E4. unfold a_on_snd in E4.
  destruct (a_raw M (n - 4) (vec, r2)) as [a [v1 r1]] eqn:Er. destruct (G _ _ Er) as (R & tr & Hm & Hb & Ho & Hq & Hz).
  assert (y = a /\ sc' = sc /\ v' = v1 /\ r' = r1) as (-> & -> & -> & ->) by (repeat split; congruence).
  split; [exact R|]. exists tr. do 4 (split; [assumption|]). intros rr rr' Hr. specialize (Hz rr rr' Hr). unfold mfl, on_snd in *. cbn [fst snd] in *.
  destruct (raw_deserialize (n - 4) (vec, flat r2 rr)) as [z1 [w1 w]].
  destruct Hz as [->|(-> & Hw & Hs)]; [now left|]. right. split; [reflexivity|]. split; [exact Hw|]. intros Hok. specialize (Hs Hok). congruence.
Qed.

(** ** The values *)
Definition deep (P : areader U -> Prop) : Prop := forall r n, P r -> P (ALimited r n).
Lemma K_and {X Y E A} `{FromIO E} pr pr' fl k lo n (f : X -> res E A * X) (g : Y -> res E A * Y) x :
  agood pr pr' fl (fun b c d => K k lo b c d /\ d <= n) f g x -> agood pr pr' fl (K k lo) f g x.
Proof. intros G. eapply good_weaken; [exact G|]. cbv beta; intros b c d HK; apply HK. Qed.

Lemma ilintarray_good n s r : mgood (K 0 0) (a_ilintarray M n) (ilintarray_deserialize n) (s, r).
Proof.
  eapply K_and. apply limited_good. eapply (kbind _ _ _ (-1) 1 0 0); [apply m_ilint| |lia|lia|lia]. intros count x1 b1 _ M1 _.
  pose proof (stable_lim _ _ _ (lim_limited r n) M1) as L1.
  eapply kbind0; [apply m_guard|]. intros _ x2 b2 _ M2. pose proof (stable_lim _ _ _ L1 M2) as L2.
  eapply kbind0; [apply modify_good|]. intros _ x3 b3 _ M3. pose proof (stable_lim _ _ _ L2 M3) as L3.
  eapply kend; [eapply (repeat_fuelled (fun _ => True))| |lia|lia]; auto.
  - intros ? ? ? ? ?; exact Logic.I.
  - intros r1 _. eapply K_weaken; [eapply good_weaken; [apply ilint_good|exact KI_K]|lia|lia].
  - intros ? ? ? _ M9. apply ensure_empty_good. exact (stable_lim _ _ _ L3 M9).
Qed.
Lemma range_good n s r : mgood (K 0 0) (a_range M n) (range_deserialize n) (s, r).
Proof.
  eapply K_and. apply limited_good. eapply (kbind _ _ _ (-1) 1 0 0); [apply m_ilint| |lia|lia|lia]. intros count x1 b1 _ M1 _.
  eapply kbind0; [apply modify_good|]. intros _ x2 b2 _ M2.
  eapply (kbind _ _ _ (-1) 1 0 0); [apply m_uint| |lia|lia|lia]. intros v x3 b3 _ M3 _.
  apply K0_K; [|lia]. eapply good_bind with (Q1 := K0) (Q2 := K0); [apply modify_good|intros ? x4 ? _ M4 _; apply ensure_empty_good|auto|].
  { pose proof (stable_lim _ _ _ (lim_limited r n) M1) as L1. pose proof (stable_lim _ _ _ L1 M2) as L2.
    pose proof (stable_lim _ _ _ L2 M3) as L3. exact (stable_lim _ _ _ L3 M4). }
  unfold K0. lia.
Qed.
Lemma version_good n x : mgood (K 0 0) (a_version M n) (version_deserialize n) x.
Proof.
  eapply kbind0; [apply m_check|]. intros _ x1 _ _ _.
  do 3 (eapply (kbind _ _ _ (-1) 1 0 0); [apply m_sint| |lia|lia|lia]; intros; eapply kbind0; [apply modify_good|]; intros).
  eapply (kbind _ _ _ (-1) 1 0 0); [apply m_sint| |lia|lia|lia]; intros. apply K0_K; [apply modify_good|lia].
Qed.
Lemma strdict_good n s r : mgood (K 0 0) (a_strdict M n) (strdict_deserialize n) (s, r).
Proof.
  eapply K_and. apply limited_good. eapply (kbind _ _ _ (-1) 1 0 0); [apply m_ilint| |lia|lia|lia]. intros count x1 b1 _ M1 _.
  pose proof (stable_lim _ _ _ (lim_limited r n) M1) as L1.
  eapply kbind0; [apply modify_good|]. intros _ x3 b3 _ M3. pose proof (stable_lim _ _ _ L1 M3) as L3.
  eapply kend; [eapply (repeat_fuelled (fun _ => True)); auto| |lia|lia].
  - intros ? ? ? ? ?; exact Logic.I.
  - intros r1 _. eapply (kbind _ _ _ (-1) 2 0 1); [apply string_good| |lia|lia|lia]. intros k r2 b4 _ M4 _.
    eapply kend; [apply (K_weaken _ _ _ (-1) 2 0 1); [apply string_good|lia|lia]| |lia|lia]. intros. now apply rpure.
  - intros ? ? ? _ M9. apply ensure_empty_good. exact (stable_lim _ _ _ L3 M9).
Qed.
Lemma bool_good n x : mgood (K 0 0) (a_bool M n) (bool_deserialize n) x.
Proof.
  eapply kbind0; [apply m_check|]. intros _ x1 _ _ _. eapply (kbind _ _ _ (-1) 1 0 0); [apply m_uint| |lia|lia|lia]. intros v x2 _ _ _ _.
  apply K0_K; [|lia]. destruct (v =? 0); [apply modify_good|]. destruct (v =? 1); [apply modify_good|apply m_fail].
Qed.
Lemma string_value_good n x : mgood (K 1 0) (a_string M n) (string_deserialize n) x.
Proof. eapply kend; [apply m_bytes| |lia|lia]. intros. apply m_utf8. Qed.

Section Values.
Context {I : Type} (deser : areader U -> res tag_error I * areader U) (deser' : reader -> res tag_error I * reader).
Context (P : areader U -> Prop) (HP : stable P) (HD : deep P) (G : forall r, P r -> rgood (K 0 1) deser deser' r).

Lemma seq_good n s r : P r -> mgood (K 0 0) (a_seq deser n) (seq_deserialize deser' n) (s, r).
Proof.
  intros Pr. eapply K_and. apply limited_good. eapply kbind0; [apply modify_good|]. intros _ x1 b1 _ M1.
  pose proof (stable_lim _ _ _ (lim_limited r n) M1) as L1. pose proof (HP _ _ _ (HD r n Pr) M1) as P1.
  eapply while_fuelled; eauto.
Qed.
Lemma arr_good n s r : P r -> mgood (K 0 0) (a_arr M deser n) (arr_deserialize deser' n) (s, r).
Proof.
  intros Pr. eapply K_and. apply limited_good. eapply (kbind _ _ _ (-1) 1 0 0); [apply m_ilint| |lia|lia|lia]. intros count x1 b1 _ M1 _.
  pose proof (stable_lim _ _ _ (lim_limited r n) M1) as L1. pose proof (HP _ _ _ (HD r n Pr) M1) as P1.
  eapply kbind0; [apply m_guard|]. intros _ x2 b2 _ M2. pose proof (stable_lim _ _ _ L1 M2) as L2. pose proof (HP _ _ _ P1 M2) as P2.
  eapply kbind0; [apply modify_good|]. intros _ x3 b3 _ M3. pose proof (stable_lim _ _ _ L2 M3) as L3. pose proof (HP _ _ _ P2 M3) as P3.
  eapply kend; [eapply repeat_fuelled; eauto| |lia|lia]. intros ? ? ? _ M9. apply ensure_empty_good. exact (stable_lim _ _ _ L3 M9).
Qed.
Lemma dict_good n s r : P r -> mgood (K 0 0) (a_dict M deser n) (dict_deserialize deser' n) (s, r).
Proof.
  intros Pr. eapply K_and. apply limited_good. eapply (kbind _ _ _ (-1) 1 0 0); [apply m_ilint| |lia|lia|lia]. intros count x1 b1 _ M1 _.
  pose proof (stable_lim _ _ _ (lim_limited r n) M1) as L1. pose proof (HP _ _ _ (HD r n Pr) M1) as P1.
  eapply kbind0; [apply modify_good|]. intros _ x3 b3 _ M3. pose proof (stable_lim _ _ _ L1 M3) as L3. pose proof (HP _ _ _ P1 M3) as P3.
  eapply kend; [eapply (repeat_fuelled P); eauto| |lia|lia].
  - intros r1 Pr1. eapply (kbind _ _ _ (-1) 2 0 1); [apply string_good| |lia|lia|lia]. intros k r2 b4 _ M4 _.
    eapply kend; [apply G; eapply HP; eauto| |lia|lia]. intros. now apply rpure.
  - intros ? ? ? _ M9. apply ensure_empty_good. exact (stable_lim _ _ _ L3 M9).
Qed.
End Values.

Definition vbytes (v : value) : Prop :=
  match v with
  | VBin128 bs | VRaw bs | VBytes bs | VBigInt bs | VBigDec _ bs => bytes_ok bs
  | _ => True
  end.
(** As [agood], for functions returning the object too. *)
Definition vgood {V} (Q : bool -> N -> N -> Prop) (f : areader U -> res tag_error unit * V * areader U)
  (g : reader -> res tag_error unit * V * reader) (r : areader U) : Prop :=
  forall y v r', f r = (y, v, r') ->
    returns y /\
    exists tr, amoved M tr r r' /\ bytes_ok (bytes_of tr) /\ ends y tr /\ Q (is_ok y) (lenN tr) (lenN (bytes_of tr)) /\
      (forall rr rr', rrun rr tr rr' -> let '(z, v', w) := g (flat r rr) in
        z = OutOfFuel \/ (z = y /\ w = flat r' rr' /\ (is_ok y = true -> v' = v))).
Lemma run_good {S} Q (m : amethod S unit) m' s mk r : mgood Q m m' (s, r) -> vgood Q (a_run m s mk) (run m' s mk) r.
Proof.
  intros G y v r' E1. unfold a_run in E1. destruct (m (s, r)) as [x [s1 r1]] eqn:Em.
  destruct (G _ _ Em) as (R & tr & Hm & Hb & Ho & Hq & Hz). cbn [snd] in *.
  assert (y = x /\ v = mk s1 /\ r' = r1) as (-> & -> & ->) by (repeat split; congruence).
  split; [exact R|]. exists tr. do 4 (split; [assumption|]). intros rr rr' Hr. specialize (Hz rr rr' Hr). unfold run, mfl in *. cbn [fst snd] in *.
  destruct (m' (s, flat r rr)) as [z [sw w]]. destruct Hz as [->|(-> & Hw & Hs)]; [now left|].
  right. cbn [snd] in Hw. split; [reflexivity|]. split; [exact Hw|]. intros Hok. specialize (Hs Hok). congruence.
Qed.
Lemma value_good deser deser' P v n r : stable P -> deep P -> (forall r, P r -> rgood (K 0 1) deser deser' r) -> P r -> vbytes v ->
  vgood (K 1 0) (a_value M deser v n) (deserialize_value deser' v n) r.
Proof.
  intros HP HD G Pr Hv.
  assert (W0 : forall S (m : amethod S unit) m' x, mgood (K 0 0) m m' x -> mgood (K 1 0) m m' x).
  { intros S m m' x H. apply (K_weaken _ _ _ 0 0 1 0); [exact H|lia|lia]. }
  assert (W1 : forall A (m : areader U -> res tag_error A * areader U) m' k x, 1 <= k -> rgood (Kf k) m m' (snd x) ->
             mgood (K 1 0) (a_set_from m) (set_from m') x).
  { intros A m m' k x H1 H. apply (K_weaken _ _ _ (-1) 1 1 0); [|lia|lia]. eapply m_set; [exact H|]. intros; eapply Kf_K; eauto. }
  assert (W2 : forall A (m : areader U -> res tag_error A * areader U) m' x, rgood KI m m' (snd x) ->
             mgood (K 1 0) (a_set_from m) (set_from m') x).
  { intros A m m' x H. apply (K_weaken _ _ _ (-1) 1 1 0); [|lia|lia]. eapply m_set; [exact H|exact KI_K]. }
  destruct v; cbn [vbytes] in Hv; apply run_good.
  - apply K0_K; [apply m_check|lia].
  - apply W0, bool_good.
  - eapply kbind0; [apply m_check|]; intros. apply (W1 _ _ _ (N.of_nat (wbytes w))); [destruct w; cbn [wbytes]; lia|apply uint_good].
  - eapply kbind0; [apply m_check|]; intros. apply (W1 _ _ _ (N.of_nat (wbytes w))); [destruct w; cbn [wbytes]; lia|apply sint_good].
  - eapply kbind0; [apply m_check|]; intros. apply (W1 _ _ _ 4); [lia|apply f32_good].
  - eapply kbind0; [apply m_check|]; intros. apply (W1 _ _ _ 8); [lia|apply f64_good].
  - eapply kbind0; [apply m_check|]. intros u1 x1 b E1 _.
    assert (x1 = (bs, r)) as -> by (unfold a_check_size in E1; destruct (n =? 16); unfold ret, fail in E1; congruence).
    now apply in_place_good.
  - apply W2, ilint_good.
  - apply W2, silint_good.
  - now apply raw_good.
  - now apply raw_good.
  - apply string_value_good.
  - now apply raw_good.
  - now apply bigdec_good.
  - apply W0, ilintarray_good.
  - apply W0. now apply (seq_good deser deser' P).
  - apply W0. now apply (arr_good deser deser' P).
  - apply W0, range_good.
  - apply W0, version_good.
  - apply W0, ilintarray_good.
  - apply W0. now apply (dict_good deser deser' P).
  - apply W0, strdict_good.
Qed.

(** ** The factory *)
Definition KT (b : bool) (c d : N) : Prop := d <= 9 /\ if b then c <= d else c <= d + 1.
Lemma tag_size_good id r : rgood KT (a_tag_size M id) (deserialize_tag_size id) r.
Proof.
  unfold a_tag_size, deserialize_tag_size. eapply good_bind with (Q1 := KT) (Q2 := K0).
  - destruct (is_implicit_tag id).
    + eapply good_weaken; [now apply rpure|]. unfold K0, KT. intros [] c d; lia.
    + eapply good_weaken; [apply ilint_good|]. unfold KI, KT. intros [] c d; lia.
  - intros. apply rpure, size_returns.
  - auto.
  - unfold KT, K0. intros c1 d1 [] c2 d2; lia.
Qed.
Lemma tag_size_le id r n r' : a_tag_size M id r = (Ok n, r') -> n <= 536870912.
Proof.
  unfold a_tag_size, bind. destruct ((if is_implicit_tag id then _ else _) r) as [[x|e| |] r1]; try discriminate.
  unfold tag_size_to_usize, MAX_TAG_SIZE. destruct (_ <? x) eqn:L; [discriminate|]. intros [= <- <-]. lia.
Qed.
Lemma ilint_lt r v r' : a_ilint M r = (Ok v, r') -> v < two64.
Proof.
  unfold a_ilint, lift_err, a_decode, bind, lift_err. destruct (a_read M r) as [[h|e| |] r1] eqn:Er; cbn [map_err]; try discriminate.
  cbv zeta. destruct (decoded_size h =? 1) eqn:L.
  - intros H. assert (v = h) as -> by (cbn in H; congruence). pose proof (a_read_byte _ _ _ Er) as B. unfold byte_ok in B. unfold two64. lia.
  - destruct (a_fetch M (decoded_size h - 1) r1) as [[body|e| |] r2]; cbn [map_err]; try discriminate.
    unfold decode_body. destruct (_ || _); [discriminate|]. cbv zeta. destruct (_ <? _) eqn:Lv; [discriminate|]. cbn [map_err].
    intros H. apply pair_inv in H. destruct H as [H _]. apply Ok_inv in H. unfold two64, ILINT_BASE in *. lia.
Qed.

Lemma value_into_good deser deser' P n t r : stable P -> deep P -> (forall r, P r -> rgood (K 0 1) deser deser' r) ->
  P (ALimited r n) -> vbytes (tag_val t) ->
  vgood (fun b c d => K 1 0 b c d /\ d <= n) (a_value_into M deser n t) (deserialize_tag_value_into deser' n t) r.
Proof.
  intros HP HD G Pr Hv y v r' E1. unfold a_value_into in E1. destruct (a_value M deser (tag_val t) n (ALimited r n)) as [[x v1] lr] eqn:Ev.
  destruct (value_good deser deser' P (tag_val t) n (ALimited r n) HP HD G Pr Hv _ _ _ Ev) as (R & tr & Hm & Hb & Ho & Hq & Hz).
  destruct lr as [|r1 a]; [contradiction|]. cbn [amoved a_unlimit a_empty tag_id] in *. destruct Hm as [Hm Hn].
  apply pair_inv in E1. destruct E1 as [E1 <-]. apply pair_inv in E1. destruct E1 as [Ey <-].
  assert (Hy : returns y /\ (is_ok y = true -> is_ok x = true) /\ K 1 0 (is_ok y) (lenN tr) (lenN (bytes_of tr)) /\ ends y tr).
  { subst y. destruct x; try contradiction; [|split; [exact I|]; split; [discriminate|split; [exact Hq|exact Ho]]].
    destruct (_ && _ && _); split; try exact I; split; try discriminate; auto. cbn [is_ok] in *. unfold K in *.
    split; [lia|now apply ends_clean]. }
  destruct Hy as (Ry & Hyx & Hk & He). split; [exact Ry|]. exists tr. split; [exact Hm|]. split; [exact Hb|]. split; [exact He|].
  split; [split; [exact Hk|lia]|]. intros rr rr' Hr. specialize (Hz rr rr' Hr). unfold deserialize_tag_value_into, LimitedReader_new. cbn [flat] in Hz.
  destruct (deserialize_value deser' (tag_val t) n (RLimited (flat r rr) n)) as [[z v2] w].
  cbn [tag_id]. destruct Hz as [->|(-> & -> & Hs)]; [now left|]. right. cbn [flat limit_empty unlimit].
  split; [now rewrite Ey|]. split; [reflexivity|]. intros Hok. now rewrite (Hs (Hyx Hok)).
Qed.

Context (e : engine) (He : engine_ok e) (Ht : engine_total e).
Lemma wf_vbytes t : wf t -> vbytes (tag_val t).
Proof. destruct t as [id v]. intros [_ H]. destruct v; cbn in *; tauto. Qed.

(** A tag: at most 18 bytes of header and 512 MB of value. *)
Definition KD (b : bool) (c d : N) : Prop := K 0 1 b c d /\ d <= 536870930.
Lemma step_good deser deser' r :
  (forall n r2 tr, amoved M tr r r2 -> 1 <= lenN (bytes_of tr) -> exists P, stable P /\ deep P /\ P (ALimited r2 n) /\
     forall r, P r -> rgood (K 0 1) (deser n) deser' r) ->
  rgood KD (a_deserialize_step M deser e)
    (tag_id <- deserialize_ilint ;;
     tag_size <- deserialize_tag_size tag_id ;;
     created <- (fun r => (create_tag e tag_id, r)) ;;
     match created with
     | None => fail UnknownTag
     | Some t => fun r =>
         let '(x, t', r') := deserialize_tag_value_into deser' tag_size t r in
         (map_ok (fun _ => t') x, r')
     end) r.
Proof.
  intros H. unfold a_deserialize_step. eapply good_bind with (Q1 := KI) (Q2 := fun b c d => K 1 0 b c d /\ d <= 536870921); [apply ilint_good| | |].
  2:{ unfold KI, KD, K. lia. }
  2:{ unfold KI, KD, K. intros c1 d1 [] c2 d2; lia. }
  intros id r1 b1 Ei M1 Q1. unfold KI in Q1.
  eapply good_bind with (Q1 := KT) (Q2 := fun b c d => K 1 0 b c d /\ d <= 536870912); [apply tag_size_good| | |].
  2:{ unfold KT, K. lia. }
  2:{ unfold KT, K. intros c1' d1 [] c2 d2; lia. }
  intros n r2 b2 En M2 _. pose proof (tag_size_le _ _ _ _ En) as Hn.
  eapply good_bind with (Q1 := K0) (Q2 := fun b c d => K 1 0 b c d /\ d <= 536870912).
  2:{ intros created r3 b3 Ec M3 _. apply pair_inv in Ec. destruct Ec as [Ec <-]. destruct created as [t|].
      2:{ eapply good_weaken; [now apply rpure|]. unfold K0, K. intros [] c d; lia. }
      pose proof (moved_app _ _ _ _ _ _ M1 M2) as M12.
      destruct (H n r2 _ M12) as (P & HP & HD & Pr & G); [rewrite bytes_of_app, lenN_app; lia|].
      pose proof (value_into_good (deser n) deser' P n t r2 HP HD G Pr (wf_vbytes t (He id t (ilint_lt _ _ _ Ei) Ec))) as V.
      intros y r' E1. destruct (a_value_into M (deser n) n t r2) as [[x t'] r3] eqn:Ev.
      destruct (V _ _ _ Ev) as (R & tr & Hm & Hb & Ho & Hq & Hz). apply pair_inv in E1. destruct E1 as [<- <-].
      assert (Hi : is_ok (map_ok (fun _ : unit => t') x) = is_ok x) by now destruct x.
      split; [now destruct x|]. rewrite Hi. exists tr. do 2 (split; [assumption|]). split; [now apply ends_map_ok|]. split; [split; [tauto|lia]|].
      intros rr rr' Hr. specialize (Hz rr rr' Hr). destruct (deserialize_tag_value_into deser' n t (flat r2 rr)) as [[z t2] w].
      destruct Hz as [->|(-> & -> & Hs)]; [now left|]. right. split; [|auto]. destruct x; cbn [map_ok is_ok] in *; try reflexivity.
      now rewrite (Hs eq_refl). }
  - apply rpure, Ht.
  - unfold K0, K. lia.
  - unfold K0, K. intros c1' d1 [] c3 d2; lia.
Qed.

(** Some LimitedReader lets fewer than [f] bytes through. *)
Fixpoint within (f : nat) (r : areader U) : Prop :=
  match r with
  | ABase _ => False
  | ALimited s a => (N.to_nat a < f)%nat \/ within f s
  end.
Lemma moved_within tr r : forall f r', amoved M tr r r' -> within (f + length (bytes_of tr)) r -> within f r'.
Proof.
  induction r as [u|s IH a]; intros f [u'|s' a']; cbn [amoved within]; try tauto.
  intros (H & L) [K0|K0]; [left; unfold lenN in L; lia|right; eauto].
Qed.
Lemma within_mono f f' r : (f <= f')%nat -> within f r -> within f' r.
Proof. intros L. induction r; cbn; [tauto|]. intros [H|H]; [left; lia|right; auto]. Qed.
Lemma stable_within f : stable (within f).
Proof. intros tr r r' W Hm. eapply moved_within; [exact Hm|]. eapply within_mono; [|exact W]. lia. Qed.
Lemma deep_within f : deep (within f).
Proof. intros r n W. now right. Qed.
Lemma good_oof {X Y E A} `{FromIO E} pr pr' fl Q (f : X -> res E A * X) (g g' : Y -> res E A * Y) x :
  agood pr pr' fl Q f g x -> (forall w, fst (g' w) = OutOfFuel) -> agood pr pr' fl Q f g' x.
Proof.
  intros G Hg y x' E1. destruct (G y x' E1) as (R & tr & Hm & Hb & Ho & Hq & Hz).
  split; [exact R|]. exists tr. do 4 (split; [assumption|]). intros rr rr' _. specialize (Hg (fl x rr)).
  destruct (g' _) as [z w]. now left.
Qed.
Lemma fuel_good f : forall f' r, within f r -> rgood KD (a_deserialize_fuel M f e) (deserialize_fuel f' e) r.
Proof.
  induction f as [|f IH]; intros f' r W.
  - exfalso. induction r; cbn in W; [tauto|]. destruct W as [W|W]; [lia|auto].
  - assert (Hs : forall f', rgood KD (a_deserialize_fuel M (S f) e) (deserialize_fuel (S f') e) r).
    { clear f'. intros f'. cbn [a_deserialize_fuel deserialize_fuel]. apply (step_good (fun _ => a_deserialize_fuel M f e) (deserialize_fuel f' e) r).
      intros n r2 tr Hm L. exists (within f). split; [apply stable_within|]. split; [apply deep_within|]. split.
      - right. eapply moved_within; [exact Hm|]. eapply within_mono; [|exact W]. unfold lenN in L. lia.
      - intros r3 W3. eapply good_weaken; [apply IH; exact W3|]. unfold KD. tauto. }
    destruct f' as [|f']; [|apply Hs]. eapply good_oof; [apply (Hs O)|]. reflexivity.
Qed.
Lemma deserialize_good f' r : rgood KD (a_deserialize M e) (deserialize_fuel (S f') e) r.
Proof.
  unfold a_deserialize. cbn [deserialize_fuel].
  apply (step_good (fun n => a_deserialize_fuel M (S (N.to_nat n)) e) (deserialize_fuel f' e) r).
  intros n r2 tr Hm L. exists (within (S (N.to_nat n))). split; [apply stable_within|]. split; [apply deep_within|]. split.
  - left. lia.
  - intros r3 W3. eapply good_weaken; [apply fuel_good; exact W3|]. unfold KD. tauto.
Qed.

(** [deserialize_into], with the fuel of the nested calls given. *)
Definition into_with (f : nat) (e : engine) (t : tag) (r : reader) : res tag_error unit * tag * reader :=
  match deserialize_ilint r with
  | (Ok id, r1) =>
      if negb (id =? tag_id t) then (Err UnexpectedTagType, t, r1)
      else match deserialize_tag_size id r1 with
           | (Ok n, r2) => deserialize_tag_value_into (deserialize_fuel f e) n t r2
           | (Err err, r2) => (Err err, t, r2)
           | (Panic, r2) => (Panic, t, r2)
           | (OutOfFuel, r2) => (OutOfFuel, t, r2)
           end
  | (Err err, r1) => (Err err, t, r1)
  | (Panic, r1) => (Panic, t, r1)
  | (OutOfFuel, r1) => (OutOfFuel, t, r1)
  end.
Lemma into_good f t r : vbytes (tag_val t) -> vgood KD (fun r => a_deserialize_into M e r t) (into_with f e t) r.
Proof.
  intros Hv y v r' E1. unfold a_deserialize_into in E1. destruct (a_ilint M r) as [x r1] eqn:Ei.
  destruct (ilint_good _ _ _ Ei) as (R & tr & Hm & Hb & Ho & Hq & Hz). unfold KI in Hq.
  destruct x as [id|err| |]; cbn [is_ok] in *; try contradiction.
  2:{ injection E1 as <- <- <-. split; [exact I|]. exists tr. do 3 (split; [assumption|]). split; [unfold KD, K; cbn [is_ok]; lia|].
      intros rr rr' Hr. specialize (Hz rr rr' Hr). unfold into_with. destruct (deserialize_ilint (flat r rr)) as [z w].
      destruct Hz as [->|(-> & -> & _)]; [now left|]. right. split; [reflexivity|]. split; [reflexivity|discriminate]. }
  destruct (negb (id =? tag_id t)) eqn:Lid.
  { injection E1 as <- <- <-. split; [exact I|]. exists tr. do 2 (split; [assumption|]). split; [now apply ends_clean|].
    split; [unfold KD, K; cbn [is_ok]; lia|]. intros rr rr' Hr. specialize (Hz rr rr' Hr). unfold into_with.
    destruct (deserialize_ilint (flat r rr)) as [z w]. destruct Hz as [->|(-> & -> & _)]; [now left|]. rewrite Lid. right.
    split; [reflexivity|]. split; [reflexivity|discriminate]. }
  destruct (a_tag_size M id r1) as [x r2] eqn:En.
  destruct (tag_size_good _ _ _ _ En) as (R2 & tr2 & Hm2 & Hb2 & Ho2 & Hq2 & Hz2). unfold KT in Hq2.
  pose proof (moved_app _ _ _ _ _ _ Hm Hm2) as Hm12.
  destruct x as [n|err| |]; cbn [is_ok] in *; try contradiction.
  2:{ injection E1 as <- <- <-. split; [exact I|]. exists (tr ++ tr2). split; [exact Hm12|]. rewrite bytes_of_app, !lenN_app.
      split; [now apply Forall_app|]. split; [now apply ends_app|]. split; [unfold KD, K in *; cbn [is_ok]; lia|].
      intros rr rr' Hr. apply rrun_split in Hr. destruct Hr as (rr1 & Hr1 & Hr2). specialize (Hz _ _ Hr1). specialize (Hz2 _ _ Hr2).
      unfold into_with. destruct (deserialize_ilint (flat r rr)) as [z w]. destruct Hz as [->|(-> & -> & _)]; [now left|]. rewrite Lid.
      destruct (deserialize_tag_size id (flat r1 rr1)) as [z w]. destruct Hz2 as [->|(-> & -> & _)]; [now left|]. right.
      split; [reflexivity|]. split; [reflexivity|discriminate]. }
  pose proof (tag_size_le _ _ _ _ En) as Hn.
  assert (Hg : forall r3, within (S (N.to_nat n)) r3 -> rgood (K 0 1) (a_deserialize_fuel M (S (N.to_nat n)) e) (deserialize_fuel f e) r3).
  { intros r3 W3. eapply good_weaken; [apply fuel_good; exact W3|]. unfold KD. tauto. }
  assert (Hw : within (S (N.to_nat n)) (ALimited r2 n)) by (left; lia).
  destruct (value_into_good _ _ _ n t r2 (stable_within _) (deep_within _) Hg Hw Hv _ _ _ E1) as (R3 & tr3 & Hm3 & Hb3 & Ho3 & Hq3 & Hz3).
  split; [exact R3|]. exists ((tr ++ tr2) ++ tr3). split; [exact (moved_app _ _ _ _ _ _ Hm12 Hm3)|].
  rewrite !bytes_of_app, !lenN_app. split; [repeat (apply Forall_app; split); assumption|].
  split; [apply ends_app; [now apply Forall_app|exact Ho3]|]. split; [unfold KD, K in *; destruct (is_ok y); lia|].
  intros rr rr' Hr. apply rrun_split in Hr. destruct Hr as (rr2 & Hr12 & Hr3). apply rrun_split in Hr12. destruct Hr12 as (rr1 & Hr1 & Hr2).
  specialize (Hz _ _ Hr1). specialize (Hz2 _ _ Hr2). specialize (Hz3 _ _ Hr3).
  unfold into_with. destruct (deserialize_ilint (flat r rr)) as [z w]. destruct Hz as [->|(-> & -> & _)]; [now left|]. rewrite Lid.
  destruct (deserialize_tag_size id (flat r1 rr1)) as [z w]. destruct Hz2 as [->|(-> & -> & _)]; [now left|]. exact Hz3.
Qed.
End AnyFacts.

Lemma into_with_eq e f r t : engine_ok e -> rwf r -> (left r < f)%nat -> into_with f e t r = deserialize_into e r t.
Proof.
  intros He W L. unfold into_with, deserialize_into. destruct (deserialize_ilint r) as [x r1] eqn:E1.
  destruct x as [id| | |]; auto. destruct (negb _); [reflexivity|].
  destruct (safe_deserialize_ilint _ _ _ W E1) as (_ & W1 & L1).
  destruct (deserialize_tag_size id r1) as [x r2] eqn:E2. destruct x as [n| | |]; auto.
  destruct (safe_tag_size _ _ _ _ W1 E2) as (_ & W2 & L2).
  unfold deserialize_tag_value_into, LimitedReader_new.
  rewrite (deserialize_value_agree True (S (left r2)) (deserialize_fuel f e) (deserialize_fuel (S (left r2)) e)); [reflexivity| | | | |].
  - intros q x q' Wq Lq E.
    apply (deserialize_fuel_safe True e f He (create_tag_terminates e) q x q' Wq); [lia|exact E].
  - now apply progress_deserialize.
  - intros q Wq Lq. apply deserialize_fuel_irrelevant; [exact He|exact Wq|lia|lia].
  - exact W2.
  - cbn [left]. lia.
Qed.

(** ** Replaying a run *)
Definition answers (c : call) : list (io_error + N) :=
  match c with
  | CRead (inr b) => [inr b]
  | CFill _ (inr bs) => map inr bs
  | CRead (inl i) | CFill _ (inl i) => [inl i]
  end.
Definition script_of (tr : list call) : list (io_error + N) := flat_map answers tr.
(** A failing request for no bytes. *)
Definition hollow (c : call) : Prop := match c with CFill 0 (inl _) => True | _ => False end.
Lemma script_clean tr : clean tr -> script_of tr = map inr (bytes_of tr).
Proof.
  induction 1 as [|c tr H _ IH]; [reflexivity|]. unfold script_of, bytes_of in *. cbn [flat_map]. rewrite IH, map_app. f_equal.
  destruct c as [[i|b]|n [i|bs]]; cbn in *; try contradiction; reflexivity.
Qed.
Lemma script_bytes tr : bytes_ok (bytes_of tr) -> rwf (RCustom (script_of tr)).
Proof.
  induction tr as [|c tr IH]; [constructor|]. unfold bytes_of, script_of, bytes_ok. cbn [flat_map]. intros H.
  apply Forall_app in H. destruct H as [H1 H2]. cbn [rwf] in *. apply Forall_app. split; [|now apply IH].
  destruct c as [[i|b]|n [i|bs]]; cbn in *; try (repeat constructor; fail).
  - constructor; [|constructor]. now inversion H1.
  - apply Forall_map. exact H1.
Qed.
Lemma custom_all_map bs s : read_custom_all (length bs) (map inr bs ++ s) = (Ok tt, bs, s).
Proof. induction bs as [|b bs IH]; [reflexivity|]. cbn [length map app read_custom_all]. now rewrite IH. Qed.
Lemma replay {U} (M : reader_impl U) u tr u' : impl_ok M -> urun M u tr u' -> Forall (fun c => ~ hollow c) tr ->
  forall s, rrun (RCustom (script_of tr ++ s)) tr (RCustom s).
Proof.
  intros HM H. induction H as [u|u b u1 tr u2 E H IH|u i u1 tr u2 E H IH|u buff bs u1 tr u2 E H IH|u buff i bs u1 tr u2 E H IH];
    intros F s; [constructor|inversion F as [|? ? F1 F2]; subst; specialize (IH F2 s)..];
    unfold script_of in *; cbn [flat_map answers]; rewrite <- ?app_assoc; cbn [app].
  - now apply rrun_read with (2 := IH).
  - now apply rrun_read_err with (2 := IH).
  - apply rrun_fill with (2 := IH). destruct (io_read_all _ HM _ _ _ _ _ E) as (_ & L & _). cbn [read_all].
    replace (N.to_nat (N.min (lenN buff) (lenN (map inr bs ++ flat_map answers tr ++ s) + 1))) with (length bs).
    2:{ rewrite lenN_app. unfold lenN in *. rewrite map_length. lia. }
    now rewrite custom_all_map.
  - destruct (lenN buff) eqn:L; [destruct F1; exact I|].
    apply rrun_fill_err with (bs := []) (2 := IH). cbn [read_all].
    destruct (N.to_nat (N.min (N.pos p) (lenN (inl i :: flat_map answers tr ++ s) + 1))) eqn:En; [exfalso|reflexivity].
    unfold lenN in *. cbn [length] in *. lia.
Qed.
Lemma script_len tr : (length (script_of tr) <= length (bytes_of tr) + length tr)%nat.
Proof.
  induction tr as [|c tr IH]; [reflexivity|]. unfold script_of, bytes_of in *. cbn [flat_map length]. rewrite !app_length.
  destruct c as [[i|b]|n [i|bs]]; cbn [answers call_bytes length]; rewrite ?map_length; lia.
Qed.

(** ** Two readers with the same answers *)
(** [R] relates objects of [M] to readers of IO.v that answer alike. *)
Record same_answers {U} (M : reader_impl U) (R : U -> reader -> Prop) : Prop := SameAnswers {
  sa_read : forall u rr x u', R u rr -> u_read M u = (x, u') -> exists rr', read rr = (x, rr') /\ R u' rr';
  sa_read_all : forall u rr buff x buff' u', R u rr -> u_read_all M buff u = (x, buff', u') ->
    exists got rr', read_all (lenN buff) rr = (x, got, rr') /\ (x = Ok tt -> got = buff') /\ R u' rr' }.
Lemma same_run {U} (M : reader_impl U) R u tr u' : same_answers M R -> urun M u tr u' ->
  forall rr, R u rr -> exists rr', rrun rr tr rr' /\ R u' rr'.
Proof.
  intros [S1 S2] H. induction H as [u|u b u1 tr u2 E H IH|u i u1 tr u2 E H IH|u buff bs u1 tr u2 E H IH|u buff i bs u1 tr u2 E H IH]; intros rr Hr.
  - exists rr. split; [constructor|exact Hr].
  - destruct (S1 _ _ _ _ Hr E) as (r1 & E1 & H1). destruct (IH _ H1) as (r2 & H2 & H3). exists r2. split; [econstructor; eauto|exact H3].
  - destruct (S1 _ _ _ _ Hr E) as (r1 & E1 & H1). destruct (IH _ H1) as (r2 & H2 & H3). exists r2. split; [eapply rrun_read_err; eauto|exact H3].
  - destruct (S2 _ _ _ _ _ _ Hr E) as (got & r1 & E1 & Eg & H1). rewrite (Eg eq_refl) in E1. destruct (IH _ H1) as (r2 & H2 & H3).
    exists r2. split; [econstructor; eauto|exact H3].
  - destruct (S2 _ _ _ _ _ _ Hr E) as (got & r1 & E1 & _ & H1). destruct (IH _ H1) as (r2 & H2 & H3).
    exists r2. split; [eapply rrun_fill_err; eauto|exact H3].
Qed.

(** The readers of IO.v as an implementation. *)
Definition wreader := { r : reader | rwf r }.
Lemma read_rwf r : rwf r -> rwf (snd (read r)).
Proof. intros W. destruct (read r) as [x r'] eqn:E. now apply (read_wf _ _ _ W E). Qed.
Lemma read_all_rwf n r : rwf r -> rwf (snd (read_all n r)).
Proof. intros W. destruct (read_all n r) as [[x got] r'] eqn:E. now apply (read_all_wf _ _ _ _ _ W E). Qed.
Definition reader_as_impl : reader_impl wreader :=
  ReaderImpl _
    (fun w => let '(exist _ r W) := w in (fst (read r), exist _ (snd (read r)) (read_rwf r W)))
    (fun buff w => let '(exist _ r W) := w in
       let got := snd (fst (read_all (lenN buff) r)) in
       (fst (fst (read_all (lenN buff) r)), got ++ dropN (lenN got) buff,
        exist _ (snd (read_all (lenN buff) r)) (read_all_rwf (lenN buff) r W))).
Lemma reader_as_impl_ok : impl_ok reader_as_impl.
Proof.
  constructor.
  - intros [r W] x u' E. cbn [reader_as_impl u_read] in E. apply pair_inv in E. destruct E as [<- _].
    destruct (read r) as [x r'] eqn:Er. destruct (read_wf _ _ _ W Er) as (R & _ & _ & B). auto.
  - intros buff [r W] x buff' u' E. cbn [reader_as_impl u_read_all] in E. apply pair_inv in E. destruct E as [E _].
    apply pair_inv in E. destruct E as [<- <-].
    destruct (read_all (lenN buff) r) as [[x got] r'] eqn:Er. cbn [fst snd]. destruct (read_all_wf _ _ _ _ _ W Er) as (R & _ & _ & B).
    pose proof (read_all_len _ _ _ _ _ Er) as L. split; [exact R|]. split; [rewrite lenN_app, lenN_dropN; lia|].
    intros Hb. apply Forall_app. split; [exact B|now apply Forall_dropN].
Qed.
Definition same_reader (w : wreader) (r : reader) : Prop := proj1_sig w = r.
Lemma reader_as_impl_same : same_answers reader_as_impl same_reader.
Proof.
  constructor.
  - intros [r W] rr x u' H E. unfold same_reader in H. cbn [proj1_sig] in H. subst rr. cbn [reader_as_impl u_read] in E. apply pair_inv in E. destruct E as [<- <-].
    exists (snd (read r)). split; [now destruct (read r)|reflexivity].
  - intros [r W] rr buff x buff' u' H E. unfold same_reader in H. cbn [proj1_sig] in H. subst rr. cbn [reader_as_impl u_read_all] in E. apply pair_inv in E. destruct E as [E <-].
    apply pair_inv in E. destruct E as [<- <-]. exists (snd (fst (read_all (lenN buff) r))), (snd (read_all (lenN buff) r)).
    split; [now destruct (read_all (lenN buff) r) as [[? ?] ?]|]. split; [|reflexivity]. intros Hx.
    destruct (read_all (lenN buff) r) as [[x got] r'] eqn:Er. cbn [fst snd] in *. subst x. apply read_all_ok in Er. destruct Er as [L _].
    rewrite dropN_all by lia. now rewrite app_nil_r.
Qed.
(** A type that provides [read] only. *)
Definition default_impl {U} (rd : U -> res io_error N * U) : reader_impl U := ReaderImpl _ rd (default_read_all rd).
Lemma default_impl_ok {U} (rd : U -> res io_error N * U) :
  (forall u x u', rd u = (x, u') -> returns x /\ (forall b, x = Ok b -> byte_ok b)) -> impl_ok (default_impl rd).
Proof.
  intros H. constructor; [exact H|]. cbn [default_impl u_read_all].
  induction buff as [|b buff IH]; intros u x buff' u' E; cbn [default_read_all] in E.
  - injection E as <- <- <-. split; [exact I|]. auto.
  - destruct (rd u) as [y u1] eqn:Er. destruct (H _ _ _ Er) as (R & B). destruct y as [a|e| |]; try contradiction.
    + destruct (default_read_all rd buff u1) as [[z more] u2] eqn:Ed. injection E as <- <- <-.
      destruct (IH _ _ _ _ Ed) as (R2 & L & K). split; [exact R2|]. split; [now rewrite !lenN_cons, L|].
      intros Hb. inversion Hb; subst. constructor; [now apply B|now apply K].
    + injection E as <- <- <-. split; [exact I|]. auto.
Qed.

(** Proof rules for functions that read from a reader. *)
From Verif Require Import Base BaseFacts Types IO IOSpec IOFacts.

Section Rules.
Context {E : Type}.
Notation action A := (reader -> res E A * reader).

(** Never panics, never runs out of fuel, keeps the reader reachable and does
    not give bytes back. *)
Definition safe {A} (m : action A) : Prop :=
  forall r x r', rwf r -> m r = (x, r') -> returns x /\ rwf r' /\ (left r' <= left r)%nat.
(** Every success consumed bytes related to the result by [P]. *)
Definition sound {A} (m : action A) (P : A -> list N -> Prop) : Prop :=
  forall r a r', rwf r -> m r = (Ok a, r') -> exists bs, P a bs /\ delivers r bs r'.
(** Succeeds with [a], consuming [bs], on every well-behaved reader about to
    deliver [bs]. *)
Definition complete {A} (m : action A) (a : A) (bs : list N) : Prop :=
  forall r rest, rwf r -> good r -> pending r = bs ++ rest ->
    exists r', m r = (Ok a, r') /\ delivers r bs r'.

Lemma sound_weaken {A} (m : action A) (P Q : A -> list N -> Prop) :
  (forall a bs, P a bs -> Q a bs) -> sound m P -> sound m Q.
Proof. intros H S r a r' W Er. destruct (S r a r' W Er) as (bs & HP & D). eauto. Qed.

Lemma safe_ret {A} (a : A) : safe (ret a).
Proof. intros r x r' W [= <- <-]. repeat split; auto. Qed.
Lemma safe_fail {A} (e : E) : safe (@fail reader E A e).
Proof. intros r x r' W [= <- <-]. repeat split; auto. Qed.
Lemma safe_const {A} (x : res E A) : returns x -> safe (fun r => (x, r)).
Proof. intros H r y r' W [= <- <-]. repeat split; auto. Qed.
Lemma safe_bind {A B} (m : action A) (f : A -> action B) :
  safe m -> (forall a, safe (f a)) -> safe (bind m f).
Proof.
  intros Sm Sf r x r' W. unfold bind. destruct (m r) as [y r1] eqn:Em.
  destruct (Sm r y r1 W Em) as (R & W1 & L1).
  destruct y as [a|e| |]; try (intros [= <- <-]; auto; fail); try contradiction.
  intros Ef. destruct (Sf a r1 x r' W1 Ef) as (R' & W' & L'). repeat split; auto. lia.
Qed.
(** As [safe_bind], but the continuation may use how [a] was obtained. *)
Lemma safe_bind_sound {A B} (m : action A) (f : A -> action B) P :
  safe m -> sound m P -> (forall a bs, P a bs -> safe (f a)) -> safe (bind m f).
Proof.
  intros Sm Pm Sf r x r' W. unfold bind. destruct (m r) as [y r1] eqn:Em.
  destruct (Sm r y r1 W Em) as (R & W1 & L1).
  destruct y as [a|e| |]; try (intros [= <- <-]; auto; fail); try contradiction.
  intros Ef. destruct (Pm r a r1 W Em) as (bs & HP & _).
  destruct (Sf a bs HP r1 x r' W1 Ef) as (R' & W' & L'). repeat split; auto. lia.
Qed.

Lemma sound_ret {A} (a : A) : sound (ret a) (fun b bs => b = a /\ bs = []).
Proof. intros r b r' W [= <- <-]. exists []. auto using delivers_refl. Qed.
Lemma sound_fail {A} (e : E) P : sound (@fail reader E A e) P.
Proof. intros r b r' W H. discriminate. Qed.
Lemma sound_bind {A B} (m : action A) (f : A -> action B) P Q :
  sound m P -> (forall a bs, P a bs -> sound (f a) (Q a)) ->
  sound (bind m f) (fun b bs => exists a b1 b2, bs = b1 ++ b2 /\ P a b1 /\ Q a b b2).
Proof.
  intros Sm Sf r b r' W H. apply bind_inv_ok in H as (a & r1 & Em & Ef).
  destruct (Sm _ _ _ W Em) as (b1 & HP & D1).
  destruct (delivers_rwf _ _ _ W D1) as [W1 _].
  destruct (Sf a b1 HP _ _ _ W1 Ef) as (b2 & HQ & D2).
  exists (b1 ++ b2). split; [|eapply delivers_trans; eauto]. exists a, b1, b2. auto.
Qed.

Lemma complete_ret {A} (a : A) : complete (ret a) a [].
Proof. intros r rest W G P. exists r. split; [reflexivity|apply delivers_refl]. Qed.
Lemma complete_bind {A B} (m : action A) (f : A -> action B) a b b1 b2 :
  complete m a b1 -> complete (f a) b b2 -> complete (bind m f) b (b1 ++ b2).
Proof.
  intros Cm Cf r rest W G P. rewrite <- app_assoc in P.
  destruct (Cm r _ W G P) as (r1 & Em & D1).
  destruct (pending_delivers _ _ _ G D1) as [P1 G1]. destruct (delivers_rwf _ _ _ W D1) as [W1 _].
  rewrite P in P1. apply app_inv_head in P1.
  destruct (Cf r1 rest W1 G1 (eq_sym P1)) as (r2 & Ef & D2).
  exists r2. split; [now rewrite (bind_ok _ _ _ _ _ Em)|eapply delivers_trans; eauto].
Qed.
Lemma complete_bind_nil {A B} (m : action A) (f : A -> action B) a b b1 :
  complete m a b1 -> complete (f a) b [] -> complete (bind m f) b b1.
Proof.
  intros Cm Cf. rewrite <- (app_nil_r b1). now apply complete_bind with a.
Qed.
End Rules.

Lemma safe_lift {E E' A} (f : E -> E') (m : reader -> res E A * reader) :
  safe m -> safe (lift_err f m).
Proof.
  intros Sm r x r' W. unfold lift_err. destruct (m r) as [y r1] eqn:Em. intros [= <- <-].
  destruct (Sm _ _ _ W Em) as (R & W1 & L). repeat split; auto. destruct y; auto.
Qed.
Lemma sound_lift {E E' A} (f : E -> E') (m : reader -> res E A * reader) P :
  sound m P -> sound (lift_err f m) P.
Proof.
  intros Sm r a r' W. unfold lift_err. destruct (m r) as [y r1] eqn:Em.
  destruct y as [b|e| |]; try discriminate. intros [= <- <-]. eauto.
Qed.
Lemma complete_lift {E E' A} (f : E -> E') (m : reader -> res E A * reader) a bs :
  complete m a bs -> complete (lift_err f m) a bs.
Proof.
  intros Cm r rest W G P. destruct (Cm r rest W G P) as (r' & Em & D).
  exists r'. unfold lift_err. rewrite Em. auto.
Qed.

(** ** Basic reads *)
Lemma safe_read : safe read.
Proof. intros r x r' W H. destruct (read_wf _ _ _ W H) as (? & ? & ? & _). auto. Qed.
Lemma sound_read : sound read (fun b bs => bs = [b] /\ byte_ok b).
Proof.
  intros r b r' W H. exists [b]. split; [|now apply read_ok].
  destruct (read_wf _ _ _ W H) as (_ & _ & _ & B). auto.
Qed.
Lemma complete_read b : complete read b [b].
Proof.
  intros r rest W G P. destruct (read_good r b rest W G P) as [r' H].
  exists r'. split; [assumption|]. now apply read_ok.
Qed.

(** [read] fails on a well-behaved reader exactly when nothing is pending. *)
Lemma read_fails r : rwf r -> good r -> pending r = [] -> is_ok (fst (read r)) = false.
Proof. intros W G P. destruct (read_good_nil r W G P) as (e & r' & ->). reflexivity. Qed.

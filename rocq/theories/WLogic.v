(** Proof rules for functions that write to a writer. *)
From Verif Require Import Base BaseFacts Types IO IOSpec IOFacts WriterFacts.

(** [emits m bs]: [m] writes [bs] at the cursor.  It never panics; if it fails,
    a prefix of [bs] has been written; it does not fail on a writer that has
    room and does not fail. *)
Definition emits {E} (m : writer -> res E unit * writer) (bs : list N) : Prop :=
  forall w x w', wwf w -> m w = (x, w') ->
  returns x /\
  (exists p, prefix p bs /\ puts w p w' /\ (x = Ok tt -> p = bs)) /\
  (accepts (lenN bs) w -> x = Ok tt).

Lemma accepts_puts n w bs w' :
  accepts n w -> puts w bs w' -> lenN bs <= n -> accepts (n - lenN bs) w'.
Proof.
  destruct w, w'; cbn [accepts puts]; try contradiction.
  - intros [H ->] (-> & -> & -> & _) L. rewrite lenN_overwrite by assumption. split; [lia|reflexivity].
  - intros [H ->] (-> & -> & -> & -> & _) L. rewrite lenN_overwrite by assumption. split; [lia|reflexivity].
  - intros H (-> & -> & H') L. rewrite lenN_overwrite by lia. lia.
  - intros -> (-> & p & H) L. symmetry in H. now apply app_eq_nil in H as [_ ->].
  - intros F (-> & -> & S) L. eapply suffix_Forall; eauto.
  - intros F (-> & S) L. eapply suffix_Forall; eauto.
Qed.

Section Rules.
Context {E : Type}.
Notation waction := (writer -> res E unit * writer).

Lemma emits_ret : emits (E := E) (ret tt) [].
Proof.
  intros w x w' W [= <- <-]. split; [exact I|]. split; [|auto].
  exists []. auto using prefix_refl, puts_refl.
Qed.
Lemma emits_bind (m1 m2 : waction) b1 b2 :
  emits m1 b1 -> emits m2 b2 -> emits (m1 ;;; m2) (b1 ++ b2).
Proof.
  intros H1 H2 w x w' W. unfold bind. destruct (m1 w) as [y w1] eqn:E1.
  destruct (H1 _ _ _ W E1) as (R1 & (p1 & Pp1 & Q1 & O1) & A1).
  assert (A1' : accepts (lenN (b1 ++ b2)) w -> y = Ok tt).
  { intros A. apply A1. eapply accepts_le; [|exact A]. rewrite lenN_app. lia. }
  assert (F : forall e, y = e -> is_ok e = false -> returns e -> returns e /\
    (exists p, prefix p (b1 ++ b2) /\ puts w p w1 /\ (e = Ok tt -> p = b1 ++ b2)) /\
    (accepts (lenN (b1 ++ b2)) w -> e = Ok tt)).
  { intros e -> He Re. split; [assumption|]. split.
    - exists p1. split; [now apply prefix_app_l|]. split; [assumption|]. intros ->. discriminate.
    - auto. }
  destruct y as [[]|e| |].
  - intros E2. specialize (O1 eq_refl). subst p1.
    destruct (H2 _ _ _ (puts_wwf _ _ _ W Q1) E2) as (R2 & (p2 & Pp2 & Q2 & O2) & A2).
    split; [assumption|]. split.
    + exists (b1 ++ p2). split; [now apply prefix_app|]. split; [eapply puts_trans; eauto|].
      intros Hx. now rewrite (O2 Hx).
    + intros A. apply A2. apply accepts_puts with (2 := Q1) in A; [|rewrite lenN_app; lia].
      rewrite lenN_app in A. now replace (lenN b1 + lenN b2 - lenN b1) with (lenN b2) in A by lia.
  - intros [= <- <-]. now apply F.
  - contradiction.
  - contradiction.
Qed.
Lemma emits_ext (m m' : waction) bs : (forall w, wwf w -> m w = m' w) -> emits m' bs -> emits m bs.
Proof. intros H K w x w' W Em. rewrite H in Em by assumption. eauto. Qed.
End Rules.

Lemma emits_lift {E E'} (f : E -> E') m bs : emits m bs -> emits (lift_err f m) bs.
Proof.
  intros H w x w' W. unfold lift_err. destruct (m w) as [y w1] eqn:Em. intros [= <- <-].
  destruct (H _ _ _ W Em) as (R & (p & Pp & Q & O) & A). split; [destruct y; auto|]. split.
  - exists p. repeat split; auto. intros Hy. apply O. destruct y; try discriminate. now injection Hy as ->.
  - intros Ha. now rewrite (A Ha).
Qed.
Lemma emits_write_all bs : emits (write_all bs) bs.
Proof.
  intros w x w' W Em. split; [|split].
  - now apply write_all_spec in Em as [R _].
  - now apply write_all_spec in Em as [_ H].
  - intros A. destruct (write_all_accepts _ bs w A) as (w1 & E1 & _); [lia|]. congruence.
Qed.
Lemma emits_write b : emits (write b) [b].
Proof. eapply emits_ext; [|apply emits_write_all]. intros w W. now apply write_is_write_all. Qed.

(** The reference parser: more steps and more data do not change an outcome that
    the envelope of a tag settles. *)
From Verif Require Import Base BaseFacts Types Spec SpecFacts IO Data ParseSpec ParseFacts.

(** [q] is [p] with more steps. *)
Definition pmono {A} (p q : parser A) : Prop := forall l, fst (p l) <> inr Steps -> q l = p l.
Lemma pmono_refl {A} (p : parser A) : pmono p p.
Proof. now intros l _. Qed.
Lemma pmono_bind {A B} (p p' : parser A) (q q' : A -> parser B) :
  pmono p p' -> (forall a, pmono (q a) (q' a)) -> pmono (pbind p q) (pbind p' q').
Proof.
  intros Hp Hq l. unfold pbind. specialize (Hp l). destruct (p l) as [[a|f] l1]; cbn [fst] in *.
  - intros H. rewrite Hp by discriminate. now apply Hq.
  - intros H. rewrite Hp; [reflexivity|congruence].
Qed.
Lemma pmono_pair {A B} (p p' : parser A) (q q' : parser B) : pmono p p' -> pmono q q' -> pmono (pairP p q) (pairP p' q').
Proof. intros Hp Hq. apply pmono_bind; [exact Hp|]. intros a. apply pmono_bind; [exact Hq|]. intros b. apply pmono_refl. Qed.
Lemma pmono_many {A} (p p' : parser A) : pmono p p' -> forall c, pmono (manyP c p) (manyP c p').
Proof.
  intros Hp c. induction c as [|c IH]; cbn [manyP]; [apply pmono_refl|]. apply pmono_bind; [exact Hp|]. intros a.
  apply pmono_bind; [exact IH|]. intros l. apply pmono_refl.
Qed.
Lemma pmono_until {A} (p p' : parser A) : pmono p p' -> forall s n, pmono (untilP s p n) (untilP s p' n).
Proof.
  intros Hp s. induction s as [|s IH]; intros n l; cbn [untilP]; (destruct (n =? 0); [reflexivity|]).
  - reflexivity.
  - specialize (Hp l). destruct (p l) as [[a|f] l1] eqn:E.
    + intros H. rewrite Hp by discriminate. revert H. apply pmono_bind; [apply IH|]. intros r. apply pmono_refl.
    + cbn [fst]. intros H. rewrite Hp; [reflexivity|]. cbn. congruence.
Qed.
Lemma pmono_exactly {A} n (p p' : parser A) : pmono p p' -> pmono (exactlyP n p) (exactlyP n p').
Proof.
  intros Hp l. unfold exactlyP. specialize (Hp l). destruct (p l) as [[a|f] l1]; cbn [fst] in *; intros H;
    rewrite Hp; congruence.
Qed.
Lemma pmono_within {A} n (p p' : parser A) : pmono p p' -> pmono (withinP n p) (withinP n p').
Proof.
  intros Hp l. unfold withinP. specialize (Hp (takeN n l)). destruct (p (takeN n l)) as [x l1]; cbn [fst] in *.
  intros H. now rewrite Hp by exact H.
Qed.
Ltac mono := repeat first [apply pmono_refl | assumption | apply pmono_exactly | apply pmono_many | apply pmono_pair
  | apply pmono_bind; [|intros ?]].
Lemma pmono_payload p p' k n : pmono p p' -> pmono (payloadP p k n) (payloadP p' k n).
Proof.
  intros Hp. destruct k; cbn [payloadP]; mono.
  intros l. now apply pmono_until.
Qed.
Lemma pmono_slot id n p p' : pmono p p' -> pmono (slotP id n p) (slotP id n p').
Proof.
  intros Hp. apply pmono_within. destruct (_ || _); [|apply pmono_exactly]; (apply pmono_bind; [exact Hp|intros v; apply pmono_refl]).
Qed.
Lemma pmono_tag mk s s' : (s <= s')%nat -> pmono (tagP s mk) (tagP s' mk).
Proof.
  revert s'. induction s as [|s IH]; intros s' L; [now intros l H|].
  destruct s' as [|s']; [lia|]. cbn [tagP]. apply pmono_bind; [apply pmono_refl|]. intros wid.
  apply pmono_bind; [apply pmono_refl|]. intros n. destruct (mk wid) as [[id k]|]; [|apply pmono_refl].
  apply pmono_slot, pmono_payload, IH. lia.
Qed.
(** [parse] with any larger number of steps. *)
Lemma parse_steps mk s l : (S (length l) <= s)%nat -> tagP s mk l = parse mk l.
Proof. intros H. apply (pmono_tag mk _ s H). apply parse_settles. Qed.
Lemma parse_into_steps mk id k s l : (S (length l) <= s)%nat ->
  (let* wid := ilintP in let* _ := require (wid =? id) Unexpected in
   let* n := sizeP wid in slotP id n (payloadP (tagP s mk) k n)) l = parse_into mk id k l.
Proof.
  intros H. unfold parse_into. apply pmono_bind with (p := ilintP) (p' := ilintP); [apply pmono_refl| |apply parse_into_settles].
  intros wid. apply pmono_bind; [apply pmono_refl|]. intros []. apply pmono_bind; [apply pmono_refl|]. intros n.
  apply pmono_slot, pmono_payload, pmono_tag, H.
Qed.

(** Unless the data ends too early, what follows does not matter. *)
Definition stable {A} (p : parser A) : Prop :=
  forall l q, fst (p l) <> inr Short -> p (l ++ q) = (fst (p l), snd (p l) ++ q).
Lemma stable_ret {A} (a : A) : stable (pret a).
Proof. now intros l q _. Qed.
Lemma stable_fail {A} f : stable (@pfail A f).
Proof. now intros l q _. Qed.
Lemma stable_require b f : stable (require b f).
Proof. unfold require. destruct b; [apply stable_ret|apply stable_fail]. Qed.
Lemma stable_bind {A B} (p : parser A) (q : A -> parser B) : stable p -> (forall a, stable (q a)) -> stable (pbind p q).
Proof.
  intros Hp Hq l k. unfold pbind. specialize (Hp l k). destruct (p l) as [[a|f] l1]; cbn [fst snd] in *.
  - intros H. rewrite Hp by discriminate. now apply Hq.
  - intros H. now rewrite Hp by congruence.
Qed.
Lemma takeN_app_le {A} n (a b : list A) : n <= lenN a -> takeN n (a ++ b) = takeN n a.
Proof.
  intros H. rewrite <- (takeN_dropN n a) at 1. rewrite <- app_assoc. apply takeN_app_exact. rewrite lenN_takeN. lia.
Qed.
Lemma dropN_app_le {A} n (a b : list A) : n <= lenN a -> dropN n (a ++ b) = dropN n a ++ b.
Proof.
  intros H. rewrite <- (takeN_dropN n a) at 1. rewrite <- app_assoc. apply dropN_app_exact. rewrite lenN_takeN. lia.
Qed.
Lemma stable_take n : stable (takeP n).
Proof.
  intros l q. unfold takeP. rewrite lenN_app. destruct (N.ltb_spec (lenN l) n) as [H|H]; [now intros K; elim K|].
  intros _. destruct (N.ltb_spec (lenN l + lenN q) n); [lia|]. cbn [fst snd]. now rewrite takeN_app_le, dropN_app_le by exact H.
Qed.
Lemma stable_ilint : stable ilintP.
Proof.
  apply stable_bind; [apply stable_take|]. intros h. destruct (_ <? _); [apply stable_ret|].
  apply stable_bind; [apply stable_take|]. intros b. apply stable_bind; [apply stable_require|]. intros _. apply stable_ret.
Qed.
Lemma stable_size wid : stable (sizeP wid).
Proof.
  apply stable_bind; [destruct (_ <=? _); [apply stable_ret|apply stable_ilint]|]. intros n.
  apply stable_bind; [apply stable_require|]. intros _. apply stable_ret.
Qed.
Lemma within_more {A} n (p : parser A) l q : n <= lenN l ->
  withinP n p (l ++ q) = (fst (withinP n p l), snd (withinP n p l) ++ q).
Proof.
  intros H. unfold withinP. rewrite takeN_app_le, dropN_app_le by exact H. destruct (p (takeN n l)) as [x l1]. cbn [fst snd].
  now rewrite app_assoc.
Qed.

(** The start of [l] holds a header, and as many bytes as it declares follow; or
    the header is bad. *)
Definition enveloped (l : list N) : Prop :=
  match ilintP l with
  | (inl wid, l1) => match sizeP wid l1 with (inl n, l2) => n <= lenN l2 | (inr f, _) => f <> Short end
  | (inr f, _) => f <> Short
  end.
Lemma tag_enveloped mk s l q : enveloped l -> (0 < s)%nat ->
  tagP s mk (l ++ q) = (fst (tagP s mk l), snd (tagP s mk l) ++ q).
Proof.
  unfold enveloped. intros H L. destruct s as [|s]; [lia|]. cbn [tagP]. unfold pbind at 1 3 5.
  pose proof (stable_ilint l q) as S1. destruct (ilintP l) as [[wid|f] l1]; cbn [fst snd] in *.
  2:{ now rewrite S1 by congruence. }
  rewrite S1 by discriminate. unfold pbind.
  pose proof (stable_size wid l1 q) as S2. destruct (sizeP wid l1) as [[n|f] l2]; cbn [fst snd] in *.
  2:{ now rewrite S2 by congruence. }
  rewrite S2 by discriminate. destruct (mk wid) as [[id k]|]; [|reflexivity]. now apply within_more.
Qed.
Lemma parse_enveloped mk l q : enveloped l -> parse mk (l ++ q) = (fst (parse mk l), snd (parse mk l) ++ q).
Proof.
  intros H. unfold parse at 1. rewrite tag_enveloped by (assumption || lia).
  rewrite parse_steps; [reflexivity|]. rewrite app_length. lia.
Qed.
Lemma parse_into_enveloped mk id k l q : enveloped l ->
  parse_into mk id k (l ++ q) = (fst (parse_into mk id k l), snd (parse_into mk id k l) ++ q).
Proof.
  intros H. rewrite <- (parse_into_steps mk id k (S (length (l ++ q))) l) by (rewrite app_length; lia).
  unfold parse_into. set (s := S (length (l ++ q))). unfold enveloped in H. unfold pbind at 1 4 7.
  pose proof (stable_ilint l q) as S1. destruct (ilintP l) as [[wid|f] l1]; cbn [fst snd] in *.
  2:{ now rewrite S1 by congruence. }
  rewrite S1 by discriminate. unfold require. destruct (wid =? id); unfold pbind, pret, pfail; [|reflexivity].
  pose proof (stable_size wid l1 q) as S2. destruct (sizeP wid l1) as [[n|f] l2]; cbn [fst snd] in *.
  2:{ now rewrite S2 by congruence. }
  rewrite S2 by discriminate. now apply within_more.
Qed.
(** Enough bytes are always enough. *)
Lemma ilint_enough l : bytes_ok l -> 9 <= lenN l ->
  match ilintP l with (inl _, l') => lenN l - 9 <= lenN l' /\ bytes_ok l' | (inr f, _) => f <> Short end.
Proof.
  intros B H. unfold ilintP, pbind, takeP at 1. destruct (N.ltb_spec (lenN l) 1) as [|_]; [lia|].
  assert (Hh : be_value (takeN 1 l) < 256).
  { destruct l as [|b l]; [cbn in H; lia|]. apply Forall_inv in B.
    replace (takeN 1 (b :: l)) with [b] by (now destruct l). unfold be_value, byte_ok in *. cbn. lia. }
  assert (Bd : forall n k, bytes_ok k -> bytes_ok (dropN n k)) by (intros n k K; apply Forall_dropN, K).
  destruct (N.ltb_spec (be_value (takeN 1 l)) 248).
  - cbn [pret]. rewrite lenN_dropN. split; [lia|auto].
  - unfold takeP. rewrite lenN_dropN. destruct (N.ltb_spec (lenN l - 1) (be_value (takeN 1 l) - 247)) as [|_]; [lia|].
    unfold require. destruct (_ <? _); unfold pret, pfail; [|discriminate]. rewrite !lenN_dropN. split; [lia|auto].
Qed.
Lemma long_enveloped l : bytes_ok l -> 536870930 <= lenN l -> enveloped l.
Proof.
  intros B H. unfold enveloped. pose proof (ilint_enough l B ltac:(lia)) as K.
  destruct (ilintP l) as [[wid|f] l1]; [|exact K]. destruct K as [L1 B1].
  unfold sizeP, pbind at 1.
  assert (K : match (if wid <=? 15 then pret (implicit_size wid) else ilintP) l1 with
    (inl _, l') => lenN l1 - 9 <= lenN l' | (inr f, _) => f <> Short end).
  { destruct (wid <=? 15); [cbn [pret]; lia|]. pose proof (ilint_enough l1 B1 ltac:(lia)) as K.
    destruct (ilintP l1) as [[n|f] l2]; [tauto|exact K]. }
  destruct ((if wid <=? 15 then pret (implicit_size wid) else ilintP) l1) as [[n|f] l2]; [|exact K].
  unfold pbind, require. destruct (N.leb_spec n 536870912); unfold pret, pfail; [lia|discriminate].
Qed.

(** Readers stay what they are: no function of the library replaces the reader it
    is given, as the type [&mut dyn Reader] says.  And what holds of every
    function built from reads (ClosedFacts.v) holds of the factory with user
    types. *)
From Verif Require Import Base BaseFacts Types IO IOFacts ILInt Data Tags Factory ClosedFacts Open.

(** Same reader, maybe at another point. *)
Fixpoint kin (r r' : reader) : Prop :=
  match r, r' with
  | RByteArray _ _, RByteArray _ _ | RVec _ _, RVec _ _ | RRead _ _, RRead _ _ | RSeek _, RSeek _
  | RCustom _, RCustom _ => True
  | RLimited s _, RLimited s' _ => kin s s'
  | _, _ => False
  end.
Definition Rkin (E A : Type) (m : reader -> res E A * reader) : Prop := forall r x r', m r = (x, r') -> kin r r'.
Definition Mkin (S A : Type) (m : method S A) : Prop := forall s r x s' r', m (s, r) = (x, (s', r')) -> kin r r'.

Lemma kin_refl r : kin r r.
Proof. induction r; cbn [kin]; auto. Qed.
Lemma kin_trans r r1 r2 : kin r r1 -> kin r1 r2 -> kin r r2.
Proof.
  revert r1 r2; induction r; intros r1 r2; destruct r1; cbn [kin]; try contradiction; destruct r2; cbn [kin]; auto. apply IHr.
Qed.
Lemma kin_limited s n r' : kin (RLimited s n) r' -> exists s' n', r' = RLimited s' n' /\ kin s s'.
Proof. destruct r'; cbn [kin]; try contradiction. eauto. Qed.
Lemma kin_read_all n r x got r' : read_all n r = (x, got, r') -> kin r r'.
Proof.
  revert n x got r'; induction r as [a o|v o|s IH m|d sc|s|sc]; intros n x got r'; cbn [read_all].
  - destruct (mem_read_all n a o) as [[y g] o']. intros H. apply pair_inv in H as [_ <-]. exact I.
  - destruct (vecr_read_all n v o) as [[y g] o']. intros H. apply pair_inv in H as [_ <-]. exact I.
  - destruct (m <? n); [intros H; apply pair_inv in H as [_ <-]; apply kin_refl|].
    destruct (read_all n s) as [[y g] s'] eqn:E. intros H. apply pair_inv in H as [_ <-]. cbn [kin]. eauto.
  - destruct (read_exact n d sc) as [[[y g] d'] sc']. intros H. apply pair_inv in H as [_ <-]. exact I.
  - destruct (seek_read_all n s) as [[y g] s']. intros H. apply pair_inv in H as [_ <-]. exact I.
  - destruct (read_custom_all _ sc) as [[y g] sc']. intros H. apply pair_inv in H as [_ <-]. exact I.
Qed.
Lemma kin_read : Rkin _ _ read.
Proof.
  intros r. induction r as [a o|v o|s IH m|d sc|s|sc]; intros x r'; cbn [read].
  - destruct (mem_read a o). intros [= _ <-]. exact I.
  - destruct (vecr_read v o). intros [= _ <-]. exact I.
  - destruct (m <? 1); [intros [= _ <-]; apply kin_refl|]. destruct (read s) as [y s'] eqn:E. intros H.
    apply pair_inv in H as [_ <-]. cbn [kin]. eauto.
  - destruct (read_exact 1 d sc) as [[[y g] d'] sc']. intros H. apply pair_inv in H as [_ <-]. exact I.
  - destruct (seek_read_all 1 s) as [[y g] s']. intros H. apply pair_inv in H as [_ <-]. exact I.
  - destruct sc as [|[e|b] sc]; intros [= _ <-]; exact I.
Qed.
Lemma kin_skip_loop f : forall n, Rkin _ _ (skip_loop f n).
Proof.
  induction f as [|f IH]; intros n r x r'; cbn [skip_loop]; destruct (n =? 0); try (intros [= _ <-]; apply kin_refl).
  destruct (read_all _ r) as [[y g] r1] eqn:E. apply kin_read_all in E.
  destruct y; intros H; try (injection H as _ <-; exact E). apply IH in H. eapply kin_trans; eauto.
Qed.
Lemma kin_skip c n : Rkin _ _ (skip c n).
Proof.
  intros r x r'. destruct r as [a o|v o|s m|d sc|s|sc]; try (apply kin_skip_loop); cbn [skip].
  - destruct (mem_skip _ _ _). intros [= _ <-]. exact I.
  - destruct (vecr_skip _ _ _). intros [= _ <-]. exact I.
  - destruct (seek_skip_u64 c n s). intros [= _ <-]. exact I.
Qed.
Lemma kin_skip_u64_loop c f : forall n, Rkin _ _ (skip_u64_loop c f n).
Proof.
  induction f as [|f IH]; intros n r x r'; cbn [skip_u64_loop]; destruct (n =? 0); try (intros [= _ <-]; apply kin_refl).
  destruct (skip c _ r) as [y r1] eqn:E. apply kin_skip in E.
  destruct y; intros H; try (injection H as _ <-; exact E). apply IH in H. eapply kin_trans; eauto.
Qed.
Lemma kin_skip_u64 c n : Rkin _ _ (skip_u64 c n).
Proof.
  intros r x r'. destruct r as [a o|v o|s m|d sc|s|sc]; try (apply kin_skip_u64_loop); cbn [skip_u64].
  destruct (seek_skip_u64 c n s). intros [= _ <-]. exact I.
Qed.

Lemma closed_kin : closed Rkin Mkin.
Proof.
  constructor.
  - exact kin_read.
  - intros n r x r'. unfold fetch. destruct (read_all n r) as [[y g] r1] eqn:E. intros H. apply pair_inv in H as [_ <-].
    eapply kin_read_all; eauto.
  - intros E A x r y r' [= _ <-]. apply kin_refl.
  - intros E A B m f Hm Hf r x r'. unfold bind. destruct (m r) as [y r1] eqn:E1. apply Hm in E1.
    destruct y as [a|e| |]; try (intros [= _ <-]; exact E1). intros E2. apply Hf in E2. eapply kin_trans; eauto.
  - intros E E' A f m Hm r x r'. unfold lift_err. destruct (m r) as [y r1] eqn:E1. intros H. apply pair_inv in H as [_ <-]. eauto.
  - intros S A g s r x s' r' [= _ _ <-]. apply kin_refl.
  - intros S f s r x s' r' [= _ _ <-]. apply kin_refl.
  - intros S A B m f Hm Hf s r x s' r'. unfold bind. destruct (m (s, r)) as [y [s1 r1]] eqn:E1. apply Hm in E1.
    destruct y as [a|e| |]; try (intros [= _ _ <-]; exact E1). intros E2. apply Hf in E2. eapply kin_trans; eauto.
  - intros S A c m1 m2 H1 H2 s r x s' r'. destruct (c (s, r)); [apply H1|apply H2].
  - intros S A g m H s r x s' r'. apply H.
  - intros S A m Hm s r x s' r'. unfold on_reader. destruct (m r) as [y r1] eqn:E1. intros [= _ _ <-]. eauto.
  - intros S A n m Hm s r x s' r'. unfold limited, LimitedReader_new.
    destruct (m (s, RLimited r n)) as [y [s1 r1]] eqn:E1. intros [= _ _ <-]. apply Hm in E1.
    destruct r1; cbn [kin unlimit] in *; try contradiction. exact E1.
  - intros s r x s' r'. unfold in_place, into_slice. destruct (read_all (lenN s) r) as [[y g] r1] eqn:E.
    intros H. apply pair_inv in H as [_ H]. apply pair_inv in H as [_ <-]. eapply kin_read_all; eauto.
  - intros S T A get put m Hm s r x s' r'. cbn [fst snd]. destruct (m (get s, r)) as [y [t1 r1]] eqn:E1. intros [= _ _ <-]. eauto.
  - intros S A B s m g Hg Hm r x r'. destruct (m (s, r)) as [y [s1 r1]] eqn:E1. intros [= _ <-]. eauto.
  - intros E A m m' Hx Hm r x r' E1. rewrite <- Hx in E1. eauto.
  - intros S A m m' Hx Hm s r x s' r' E1. rewrite <- Hx in E1. eauto.
Qed.

(** ** The factory with user types *)
(** An [OStd] holds no tags. *)
Definition leafy {T} (t : otag T) : Prop :=
  match t with OStd _ v => match v with VSeq _ | VArr _ | VDict _ => False | _ => True end | _ => True end.
Lemma emb_leafy {T} t : leafy (@emb T t).
Proof. destruct t as [id v]. destruct v; exact I. Qed.
Lemma created_leafy {T} (U : user_impl T) e id t : o_create U e id = Ok (Some t) -> leafy t.
Proof.
  unfold o_create. destruct (u_create U id) as [[x|]|]; try discriminate; [intros [= <-]; exact I|].
  destruct (create_tag e id) as [[t1|]| | |]; try discriminate. intros [= <-]. apply emb_leafy.
Qed.
Section OpenClosed.
Variables (R : forall E A, (reader -> res E A * reader) -> Prop) (M : forall S A, method S A -> Prop).
Hypothesis C : closed R M.
Arguments R {E A} _.
Arguments M {S A} _.
Context {T : Type} (U : user_impl T).
Hypothesis HU : forall (d : reader -> res tag_error (otag T) * reader) n, R d -> M (u_deserialize_value U d n).

Section Value.
Variable d : reader -> res tag_error (otag T) * reader.
Hypothesis Hd : R d.
Lemma co_value t n (g : res tag_error unit -> otag T -> res tag_error (otag T)) :
  (forall x t', is_ok (g x t') = is_ok x) ->
  R (fun r => let '(x, t', r') := o_deserialize_value U d t n r in (g x t', r')).
Proof.
  intros Hg.
  assert (K : forall S (s : S) (m : method S unit) mk, M m ->
    (forall r, o_deserialize_value U d t n r = o_run m s mk r) ->
    R (fun r => let '(x, t', r') := o_deserialize_value U d t n r in (g x t', r'))).
  { intros S s m mk H Eq.
    apply (c_ext _ _ C) with (m := fun r => let '(x, (s', r')) := m (s, r) in (g x (mk s'), r')).
    - intros r. rewrite Eq. unfold o_run. destruct (m (s, r)) as [x [s' r']]. reflexivity.
    - apply (c_run _ _ C S unit (otag T) s m (fun x s' => g x (mk s'))); [intros; apply Hg|exact H]. }
  destruct t as [id v|x|id l|id l|id l].
  - clear K.
    apply (c_ext _ _ C) with (m := fun r => let '(x, v', r') := deserialize_value untouchable_deserialize v n r in (g x (OStd id v'), r')).
    + intros r. cbn [o_deserialize_value]. destruct (deserialize_value untouchable_deserialize v n r) as [[x v'] r']. reflexivity.
    + apply (cl_value _ _ C untouchable_deserialize (c_const _ _ C _ _ Panic) v n (fun x v' => g x (OStd id v'))). intros; apply Hg.
  - eapply K; [apply HU, Hd|reflexivity].
  - eapply K; [|reflexivity]. apply (c_limited _ _ C), (c_mbind _ _ C); [apply (c_modify _ _ C)|]. intros _. now apply (cl_while _ _ C).
  - eapply K; [|reflexivity].
    apply (c_limited _ _ C), (c_mbind _ _ C); [apply (c_on_reader _ _ C), (cl_ilint _ _ C)|]. intros count.
    apply (c_mbind _ _ C); [apply (cl_guard _ _ C)|]. intros _. apply (c_mbind _ _ C); [apply (c_modify _ _ C)|]. intros _.
    apply (c_mbind _ _ C); [now apply (cl_repeat _ _ C)|]. intros _. apply (cl_ensure_empty _ _ C).
  - eapply K; [|reflexivity].
    apply (c_limited _ _ C), (c_mbind _ _ C); [apply (c_on_reader _ _ C), (cl_ilint _ _ C)|]. intros count.
    apply (c_mbind _ _ C); [apply (c_modify _ _ C)|]. intros _.
    apply (c_mbind _ _ C); [|intros _; apply (cl_ensure_empty _ _ C)]. apply (cl_repeat _ _ C).
    apply (c_bind _ _ C); [apply (cl_string _ _ C)|]. intros key. apply (c_bind _ _ C); [exact Hd|]. intros t. apply (cl_ret _ _ C).
Qed.
Lemma co_into n t :
  R (fun r => let '(x, t', r') := o_value_into U d n t r in (map_ok (fun _ => t') x, r')).
Proof.
  apply (c_ext _ _ C) with (m := fun r => let '(x, (s', r')) :=
    limited n (t' <- on_reader (fun r => let '(x, t', r') := o_deserialize_value U d t n r in (map_ok (fun _ => t') x, r')) ;;
               (fun st => (if negb (o_id U t' =? IL_ILINT_TAG_ID) && negb (o_id U t' =? IL_SIGNED_ILINT_TAG_ID)
                              && negb (limit_empty (snd st)) then Err CorruptedData else Ok t', st))) (tt, r) in (x, r')).
  - intros r. unfold limited, o_value_into, on_reader, bind.
    destruct (o_deserialize_value U d t n (LimitedReader_new r n)) as [[[[]|e| |] v'] r'];
      cbn [map_ok snd]; try reflexivity. destruct (_ && _); reflexivity.
  - apply (c_run _ _ C unit (otag T) (otag T) tt _ (fun x _ => x)); [reflexivity|].
    apply (c_limited _ _ C), (c_mbind _ _ C).
    + apply (c_on_reader _ _ C). apply (co_value _ n (fun x v' => map_ok (fun _ => v') x)). now intros [a|e| |] v'.
    + intros v. apply (c_query _ _ C).
Qed.
End Value.
Lemma co_deserialize_fuel e f : R (o_deserialize_fuel U f e).
Proof.
  induction f as [|f IH]; [exact (c_const _ _ C _ _ OutOfFuel)|].
  cbn [o_deserialize_fuel]. apply (c_bind _ _ C); [apply (cl_ilint _ _ C)|]. intros id.
  apply (c_bind _ _ C); [apply (cl_tag_size _ _ C)|]. intros n.
  apply (c_ext _ _ C) with (m := match o_create U e id with
    | Ok (Some t) => fun r => let '(x, t', r') := o_value_into U (o_deserialize_fuel U f e) n t r in (map_ok (fun _ => t') x, r')
    | Ok None => fail UnknownTag
    | Err err => fun r => (Err err, r) | Panic => fun r => (Panic, r) | OutOfFuel => fun r => (OutOfFuel, r) end).
  - intros r. unfold bind. now destruct (o_create U e id) as [[t|]| | |].
  - destruct (o_create U e id) as [[t|]| | |] eqn:E; try apply (c_const _ _ C).
    apply co_into. exact IH.
Qed.
End OpenClosed.

(** ILStandardTagFactory (Factory.v) against the wire grammar: termination
    without panic, soundness and completeness of [deserialize]. *)
From Verif Require Import Base BaseFacts Types Spec SpecFacts IO IOSpec IOFacts Logic
  ILInt ILIntFacts Data DataFacts Tags SortFacts TagsFacts Factory FactoryFacts DecodeFacts.

(** What an engine builds for an id. *)
Definition mk_of (e : engine) (id : N) : option (N * kind) :=
  match create_tag e id with
  | Ok (Some t) => Some (tag_id t, kind_of (tag_val t))
  | _ => None
  end.
(** Every tag the engine creates respects the Rust types. *)
Definition engine_ok (e : engine) : Prop := forall id t, id < two64 -> create_tag e id = Ok (Some t) -> wf t.
(** No registered creator panics. *)
Definition engine_total (e : engine) : Prop := forall id, returns (create_tag e id).

Lemma wf_shape t : wf t -> shape (tag_val t).
Proof. destruct t as [id v]. intros [_ H]. destruct v; cbn in *; tauto. Qed.

Lemma implicit_size_spec id : id <= 15 -> implicit_tag_size id = implicit_size id.
Proof.
  intros H.
  assert (K : Forall (fun i => implicit_tag_size i = implicit_size i) (map N.of_nat (seq 0 16))).
  { repeat (constructor; [reflexivity|]). constructor. }
  rewrite Forall_forall in K. apply K. apply in_map_iff. exists (N.to_nat id).
  split; [lia|]. apply in_seq. lia.
Qed.
Lemma implicit_size_le id : implicit_size id <= 16.
Proof. unfold implicit_size. repeat (match goal with |- context [match ?p with _ => _ end] => destruct p end; try lia). Qed.

Lemma safe_tag_size id : safe (deserialize_tag_size id).
Proof.
  unfold deserialize_tag_size. apply safe_bind.
  - destruct (is_implicit_tag id); [apply safe_ret|apply safe_deserialize_ilint].
  - intros n r x r' W [= <- <-]. repeat split; auto. unfold tag_size_to_usize. destruct (_ <? _); exact I.
Qed.
Lemma sound_tag_size id :
  sound (deserialize_tag_size id) (fun n szb => wire_size id szb n /\ n <= 536870912).
Proof.
  intros r n r' W H. unfold deserialize_tag_size in H. apply bind_inv_ok in H as (m & r1 & E1 & H).
  unfold tag_size_to_usize in H. destruct (N.ltb_spec MAX_TAG_SIZE m) as [|L]; [discriminate|].
  injection H as <- <-. unfold MAX_TAG_SIZE in L. rewrite is_implicit_spec in E1.
  destruct (N.leb_spec id 15) as [Hi|Hi].
  - injection E1 as <- <-. exists []. split; [|apply delivers_refl]. rewrite implicit_size_spec in * by assumption.
    split; [now constructor|lia].
  - destruct (sound_deserialize_ilint _ _ _ W E1) as (bs & R & D). exists bs. split; [|exact D].
    split; [now constructor|lia].
Qed.
Lemma complete_tag_size id n szb :
  bytes_ok szb -> wire_size id szb n -> n <= 536870912 -> complete (deserialize_tag_size id) n szb.
Proof.
  intros B H L. unfold deserialize_tag_size. rewrite is_implicit_spec.
  destruct H as [Hi|n szb Hi R]; destruct (N.leb_spec id 15); try lia.
  - rewrite implicit_size_spec by assumption. intros r rest W G P. exists r. split; [|apply delivers_refl].
    unfold bind, ret, tag_size_to_usize, MAX_TAG_SIZE. destruct (N.ltb_spec 536870912 (implicit_size id)); [lia|reflexivity].
  - eapply complete_bind_nil; [exact (complete_deserialize_ilint _ _ B R)|].
    intros r rest W G P. exists r. split; [|apply delivers_refl].
    unfold tag_size_to_usize, MAX_TAG_SIZE. destruct (N.ltb_spec 536870912 n); [lia|reflexivity].
Qed.

(** ** deserialize_tag_value_into *)
Lemma tag_value_into_safe pan b deser n t r x t' r' :
  rsafe pan b deser -> progress deser -> rwf r -> (left r < b)%nat ->
  deserialize_tag_value_into deser n t r = (x, t', r') ->
  okres pan x /\ rwf r' /\ (left r' <= left r)%nat /\ tag_id t' = tag_id t
  /\ kind_of (tag_val t') = kind_of (tag_val t).
Proof.
  intros S P W L. unfold deserialize_tag_value_into, LimitedReader_new.
  destruct (deserialize_value deser (tag_val t) n (RLimited r n)) as [[y v] lr] eqn:E.
  intros [= <- <- <-].
  destruct (deserialize_value_safe pan b deser S P _ _ (RLimited r n) _ _ _ W L E) as (R & W' & L' & K).
  rewrite left_unlimit. cbn [tag_id tag_val]. repeat split; auto using rwf_unlimit.
  destruct y; auto. destruct (_ && _)%bool; exact I.
Qed.
Lemma tag_value_into_sound mk deser n t r t' r' :
  sound deser (fun t bs => wire mk bs t) -> rwf r -> shape (tag_val t) ->
  deserialize_tag_value_into deser n t r = (Ok tt, t', r') ->
  exists bs v', delivers r bs r' /\ t' = Tag (tag_id t) v' /\ payload mk (kind_of (tag_val t)) n bs v'
    /\ (tag_id t = 10 \/ tag_id t = 14 \/ lenN bs = n).
Proof.
  intros S W Sh. unfold deserialize_tag_value_into, LimitedReader_new.
  destruct (deserialize_value deser (tag_val t) n (RLimited r n)) as [[y v] lr] eqn:E.
  destruct y as [[]|e| |]; try discriminate. cbn [tag_id].
  destruct (_ && _)%bool eqn:C; [discriminate|]. intros [= <- <-].
  destruct (deserialize_value_sound mk deser S _ _ (RLimited r n) _ _ W Sh E) as (bs & D & P).
  destruct (delivers_limited _ _ _ _ D) as (L & D' & Em). exists bs, v. repeat split; auto.
  rewrite !Bool.andb_false_iff, !Bool.negb_false_iff, !N.eqb_eq in C.
  unfold IL_ILINT_TAG_ID, IL_SIGNED_ILINT_TAG_ID in C. tauto.
Qed.

(** ** deserialize *)
Lemma mk_of_created e id t : create_tag e id = Ok (Some t) -> mk_of e id = Some (tag_id t, kind_of (tag_val t)).
Proof. intros E. unfold mk_of. now rewrite E. Qed.
Lemma deserialize_fuel_sound e f : engine_ok e -> sound (deserialize_fuel f e) (fun t bs => wire (mk_of e) bs t).
Proof.
  intros He. induction f as [|f IH]; intros r t r' W H; cbn [deserialize_fuel] in H; [discriminate|].
  apply bind_inv_ok in H as (wid & r1 & E1 & H).
  destruct (sound_deserialize_ilint _ _ _ W E1) as (idb & R1 & D1). destruct (delivers_rwf _ _ _ W D1) as [W1 _].
  apply bind_inv_ok in H as (n & r2 & E2 & H).
  destruct (sound_tag_size _ _ _ _ W1 E2) as (szb & [Sz Ln] & D2). destruct (delivers_rwf _ _ _ W1 D2) as [W2 _].
  apply bind_inv_ok in H as (created & r3 & E3 & H). injection E3 as E3 <-.
  destruct created as [t0|]; [|discriminate].
  destruct (deserialize_tag_value_into (deserialize_fuel f e) n t0 r2) as [[x t1] r4] eqn:E4.
  destruct x as [[]|err| |]; try discriminate. injection H as <- <-.
  destruct (tag_value_into_sound _ _ _ _ _ _ _ IH W2 (wf_shape _ (He _ _ (ilint_repr_bound _ _ R1) E3)) E4) as (body & v & D4 & -> & P & Hx).
  exists (idb ++ szb ++ body). split.
  - econstructor; eauto. now apply mk_of_created.
  - eapply delivers_trans; [exact D1|]. eapply delivers_trans; eauto.
Qed.
Lemma progress_deserialize e f : engine_ok e -> progress (deserialize_fuel f e).
Proof.
  intros He. eapply sound_progress; [now apply deserialize_fuel_sound|]. intros a bs H. exact (wire_pos _ _ _ H).
Qed.
(** Fuel above the bytes left is enough. *)
Lemma deserialize_fuel_safe (pan : Prop) e f :
  engine_ok e -> (forall id, okres pan (create_tag e id)) -> rsafe pan f (deserialize_fuel f e).
Proof.
  intros He Ht. induction f as [|f IH]; intros r x r' W L H; cbn [deserialize_fuel] in H; [lia|].
  unfold bind in H. destruct (deserialize_ilint r) as [y r1] eqn:E1.
  destruct (safe_deserialize_ilint _ _ _ W E1) as (R1 & W1 & L1).
  destruct y as [wid|err| |]; try contradiction; [|injection H as <- <-; cbn; auto].
  pose proof (progress_ilint _ _ _ W E1) as Lt.
  destruct (deserialize_tag_size wid r1) as [y r2] eqn:E2.
  destruct (safe_tag_size _ _ _ _ W1 E2) as (R2 & W2 & L2).
  destruct y as [n|err| |]; try contradiction; [|injection H as <- <-; cbn; repeat split; auto; lia].
  specialize (Ht wid). destruct (create_tag e wid) as [created|err| |] eqn:E3;
    try (injection H as <- <-; repeat split; auto; lia).
  destruct created as [t0|]; [|injection H as <- <-; cbn; repeat split; auto; lia].
  destruct (deserialize_tag_value_into (deserialize_fuel f e) n t0 r2) as [[y t1] r4] eqn:E4.
  injection H as <- <-.
  destruct (tag_value_into_safe pan f _ _ _ _ _ _ _ IH (progress_deserialize e f He) W2 ltac:(lia) E4) as (R & W' & L' & _).
  repeat split; auto; [|lia]. destruct y; auto.
Qed.
Lemma deserialize_sound e : engine_ok e -> sound (deserialize e) (fun t bs => wire (mk_of e) bs t).
Proof. intros He r t r' W H. eapply deserialize_fuel_sound; eauto. Qed.
Lemma deserialize_safe e : engine_ok e -> engine_total e -> safe (deserialize e).
Proof.
  intros He Ht r x r' W H. unfold deserialize in H.
  destruct (deserialize_fuel_safe False e (S (left r)) He (fun id => returns_okres _ _ (Ht id)) _ _ _ W ltac:(lia) H)
    as (R & W' & L). repeat split; auto.
Qed.
Lemma deserialize_terminates e r x r' : engine_ok e -> rwf r -> deserialize e r = (x, r') -> x <> OutOfFuel.
Proof.
  intros He W H. unfold deserialize in H.
  assert (Hc : forall id, okres True (create_tag e id)).
  { intros id. unfold create_tag. destruct (cr_get _ _) as [c|]; [destruct (c id); exact I|].
    destruct (_ && _)%bool; [|exact I]. unfold ILRawTag_new. destruct (is_implicit_tag id); exact I. }
  destruct (deserialize_fuel_safe True e (S (left r)) He Hc _ _ _ W ltac:(lia) H) as (R & _ & _).
  destruct x; auto; discriminate.
Qed.

(** ** Completeness *)
Scheme wire_min := Minimality for wire Sort Prop
  with payload_min := Minimality for payload Sort Prop
  with wires_min := Minimality for wires Sort Prop
  with wire_entries_min := Minimality for wire_entries Sort Prop.
Combined Scheme wire_mutind from wire_min, payload_min, wires_min, wire_entries_min.

Lemma payload_len mk k n bs v : payload mk k n bs v -> lenN bs <= n.
Proof.
  destruct 1; rewrite ?lenN_app, ?lenN_nil, ?lenN_cons, ?lenN_nil; try lia.
Qed.

Definition pcomplete (f : nat) e v0 n v (bs : list N) : Prop :=
  forall r rest, rwf r -> good r -> (left r < f)%nat -> pending r = bs ++ rest ->
    exists r', deserialize_value (deserialize_fuel f e) v0 n r = (Ok tt, v, r') /\ delivers r bs r'.
Lemma pcomplete_run {S} (m : method S unit) f e v0 n s mkv s' bs :
  (forall r, deserialize_value (deserialize_fuel f e) v0 n r = run m s mkv r) ->
  mcomplete f m s tt s' bs -> pcomplete f e v0 n (mkv s') bs.
Proof.
  intros E C r rest W G L P. destruct (C r rest W G L P) as (r' & Em & D). exists r'. split; [|exact D].
  rewrite E. now apply run_ok.
Qed.
Lemma into_slice_complete (s bs : list N) r rest :
  rwf r -> good r -> lenN s = lenN bs -> pending r = bs ++ rest ->
  exists r', into_slice s r = (Ok tt, bs, r') /\ delivers r bs r'.
Proof.
  intros W G Ls P.
  destruct (read_all_good (lenN s) r G) as (r' & E); [rewrite P, lenN_app; lia|].
  assert (K : into_slice s r = (Ok tt, bs, r')).
  { unfold into_slice. rewrite E, P, Ls. rewrite takeN_app_exact by reflexivity.
    rewrite <- Ls, dropN_all by lia. now rewrite app_nil_r. }
  exists r'. split; [exact K|]. destruct (into_slice_spec _ _ _ _ _ W K) as (_ & _ & _ & _ & _ & H).
  now apply H.
Qed.
Lemma mcomplete_in_place b s bs : lenN s = lenN bs -> mcomplete b in_place s tt bs bs.
Proof.
  intros Ls r rest W G L P. destruct (into_slice s r) as [[y v] r'] eqn:E.
  unfold in_place. rewrite E.
  destruct (into_slice_complete s bs r rest W G Ls P) as (r1 & E' & D). rewrite E in E'. injection E' as -> -> ->.
  eauto.
Qed.
Lemma mcomplete_raw b n s bs : lenN bs = n -> mcomplete b (raw_deserialize n) s tt bs bs.
Proof.
  intros Ls r rest W G L P. unfold raw_deserialize, into_vec.
  destruct (into_slice_complete (resizeN n 0 s) bs r rest W G ltac:(rewrite lenN_resizeN; lia) P) as (r1 & E & D).
  rewrite E. eauto.
Qed.
Lemma be_value_bool (b : bool) : be_value [if b then 1 else 0] = if b then 1 else 0.
Proof. destruct b; reflexivity. Qed.

(** Inside a limit that ends exactly with the method. *)
Definition lcomplete (b : nat) {S A} (m : method S A) (s : S) (a : A) (s' : S) (bs : list N) : Prop :=
  forall r rest, rwf r -> good r -> (left r < b)%nat -> pending r = bs ++ rest ->
    exists r', m (s, RLimited r (lenN bs)) = (Ok a, (s', RLimited r' 0)) /\ delivers r bs r'.
Lemma lcomplete_bind b {S A B} (m : method S A) (f : A -> method S B) s a s1 c s2 b1 b2 :
  mcomplete b m s a s1 b1 -> lcomplete b (f a) s1 c s2 b2 -> lcomplete b (bind m f) s c s2 (b1 ++ b2).
Proof.
  intros Cm Cf r rest W G L P. rewrite <- app_assoc in P.
  destruct (Cm (RLimited r (lenN (b1 ++ b2))) (takeN (lenN b2) (b2 ++ rest)) W G L) as (r1 & E1 & D1).
  { cbn [pending]. rewrite P, lenN_app, takeN_app_r by lia. f_equal. f_equal. lia. }
  destruct r1; cbn [delivers] in D1; try contradiction. destruct D1 as (_ & -> & D1).
  destruct (pending_delivers _ _ _ G D1) as [P1 G1]. destruct (delivers_rwf _ _ _ W D1) as [W1 _].
  pose proof (delivers_left _ _ _ D1) as L1. rewrite P in P1. apply app_inv_head in P1.
  destruct (Cf r1 rest W1 G1 ltac:(lia) (eq_sym P1)) as (r2 & E2 & D2).
  exists r2. split; [|eapply delivers_trans; eauto].
  rewrite (bind_ok _ _ _ _ _ E1). rewrite lenN_app. replace (lenN b1 + lenN b2 - lenN b1) with (lenN b2) by lia.
  exact E2.
Qed.
Lemma lcomplete_bind_l b {S A B} (m : method S A) (f : A -> method S B) s a s1 c s2 b2 :
  mcomplete b m s a s1 [] -> lcomplete b (f a) s1 c s2 b2 -> lcomplete b (bind m f) s c s2 b2.
Proof. intros Cm Cf. exact (lcomplete_bind b m f s a s1 c s2 [] b2 Cm Cf). Qed.
Lemma lcomplete_bind_r b {S A B} (m : method S A) (f : A -> method S B) s a s1 c s2 b1 :
  mcomplete b m s a s1 b1 -> lcomplete b (f a) s1 c s2 [] -> lcomplete b (bind m f) s c s2 b1.
Proof. intros Cm Cf. rewrite <- (app_nil_r b1). eapply lcomplete_bind; eauto. Qed.
Lemma lcomplete_ensure_empty b {S} e (s : S) : lcomplete b (limited_reader_ensure_empty e) s tt s [].
Proof. intros r rest W G L P. exists r. split; [reflexivity|apply delivers_refl]. Qed.
Lemma lcomplete_while b {S A} (m : reader -> res tag_error A * reader) (store : A -> S -> S) l bs s :
  chain (fun a c => rcomplete b m a c /\ 0 < lenN c) l bs ->
  lcomplete b (fuelled (fun f => while_read f m store)) s tt (fold_left (fun s a => store a s) l s) bs.
Proof.
  intros C r rest W G L P. unfold fuelled. cbn [snd left].
  eapply while_read_complete; eauto.
Qed.
Lemma mcomplete_limited b {S A} (m : method S A) s a s' bs :
  lcomplete b m s a s' bs -> mcomplete b (limited (lenN bs) m) s a s' bs.
Proof.
  intros C r rest W G L P. destruct (C r rest W G L P) as (r' & E & D). exists r'. split; [|exact D].
  unfold limited, LimitedReader_new. now rewrite E.
Qed.
Lemma mcomplete_counted {A B} b (m : reader -> res tag_error A * reader) (store : A -> list B -> list B)
  (g : N -> bool) s cb body (l : list A) :
  bytes_ok cb -> ilint_repr (lenN l) cb -> g (lenN l) = false ->
  chain (fun a c => rcomplete b m a c /\ 0 < lenN c) l body ->
  mcomplete b (limited (lenN (cb ++ body)) (
    count <- on_reader deserialize_ilint ;;
    (if g count then fail CorruptedData else ret tt) ;;;
    modify (fun _ => []) ;;;
    fuelled (fun f => repeat_read f m store count) ;;;
    limited_reader_ensure_empty CorruptedData)) s tt (fold_left (fun s a => store a s) l []) (cb ++ body).
Proof.
  intros B1 R G C. apply mcomplete_limited.
  eapply lcomplete_bind; [apply mcomplete_on_reader, complete_rcomplete; exact (complete_deserialize_ilint _ _ B1 R)|].
  eapply lcomplete_bind_l; [apply mcomplete_guard; exact G|].
  eapply lcomplete_bind_l; [apply (mcomplete_modify b (fun _ => []))|].
  eapply lcomplete_bind_r; [apply mcomplete_repeat_read; exact C|].
  apply lcomplete_ensure_empty.
Qed.

Lemma chain_strings b bs es : bytes_ok bs -> wire_strings bs es ->
  chain (fun e c => rcomplete b (k <- deserialize_string_tag_from_value ;;
                                  v <- deserialize_string_tag_from_value ;; ret (k, v)) e c /\ 0 < lenN c) es bs.
Proof.
  intros B H. induction H as [|kb k vb v bs es Hk Hv H IH]; [constructor|].
  rewrite !bytes_ok_app in B. destruct B as (B1 & B2 & B3). rewrite app_assoc. constructor; [|auto].
  split; [|rewrite lenN_app; pose proof (wire_string_pos _ _ Hk); lia].
  eapply rcomplete_bind; [apply rcomplete_string; eauto|].
  rewrite <- (app_nil_r vb). eapply rcomplete_bind; [apply rcomplete_string; eauto|].
  apply complete_rcomplete, complete_ret.
Qed.
Lemma chain_ilints_complete b bs l : bytes_ok bs -> ilints l bs ->
  chain (fun a c => rcomplete b deserialize_ilint a c /\ 0 < lenN c) l bs.
Proof.
  intros B H. induction H as [|v c l bs R H IH]; [constructor|].
  rewrite bytes_ok_app in B. destruct B as [B1 B2]. constructor; [|auto]. split.
  - apply complete_rcomplete. now apply complete_deserialize_ilint.
  - exact (ilint_repr_pos _ _ R).
Qed.
Lemma complete_f32 bs : bytes_ok bs -> lenN bs = 4 -> complete deserialize_f32 (be_value bs) bs.
Proof.
  intros B L. apply complete_lift. intros r rest. rewrite read_f32_eq. apply (complete_read_uint W32); auto.
  unfold lenN in L. cbn. lia.
Qed.
Lemma complete_f64 bs : bytes_ok bs -> lenN bs = 8 -> complete deserialize_f64 (be_value bs) bs.
Proof.
  intros B L. apply complete_lift. intros r rest. rewrite read_f64_eq. apply (complete_read_uint W64); auto.
  unfold lenN in L. cbn. lia.
Qed.
Lemma complete_sint4 bs : bytes_ok bs -> lenN bs = 4 -> complete (deserialize_sint W32) (to_signed W32 (be_value bs)) bs.
Proof. intros B L. apply complete_deserialize_sint; auto. unfold lenN in L. cbn. lia. Qed.

Section Completeness.
Variable e : engine.
Hypothesis He : engine_ok e.

Lemma completeness :
  (forall bs t, wire (mk_of e) bs t -> forall f, bytes_ok bs -> rcomplete f (deserialize_fuel f e) t bs) /\
  (forall k n bs v, payload (mk_of e) k n bs v ->
     forall f v0, kind_of v0 = k -> shape v0 -> bytes_ok bs -> pcomplete f e v0 n v bs) /\
  (forall bs l, wires (mk_of e) bs l -> forall f, bytes_ok bs ->
     chain (fun t c => rcomplete f (deserialize_fuel f e) t c /\ 0 < lenN c) l bs) /\
  (forall bs es, wire_entries (mk_of e) bs es -> forall f, bytes_ok bs ->
     chain (fun x c => rcomplete f (k <- deserialize_string_tag_from_value ;;
                                    t <- deserialize_fuel f e ;; ret (k, t)) x c /\ 0 < lenN c) es bs).
Proof.
  apply wire_mutind.
  - (* wire *) intros wid idb szb n body id k v R Sz Ln Hmk P IH Hx f B r rest W G L Pr.
    rewrite !bytes_ok_app in B. destruct B as (B1 & B2 & B3).
    destruct f as [|f]; [lia|]. rewrite <- !app_assoc in Pr.
    destruct (complete_deserialize_ilint _ _ B1 R r _ W G Pr) as (r1 & E1 & D1).
    destruct (pending_delivers _ _ _ G D1) as [P1 G1]. destruct (delivers_rwf _ _ _ W D1) as [W1 _].
    pose proof (delivers_left _ _ _ D1) as L1. rewrite Pr in P1. apply app_inv_head in P1.
    destruct (complete_tag_size _ _ _ B2 Sz Ln r1 _ W1 G1 (eq_sym P1)) as (r2 & E2 & D2).
    destruct (pending_delivers _ _ _ G1 D2) as [P2 G2]. destruct (delivers_rwf _ _ _ W1 D2) as [W2 _].
    pose proof (delivers_left _ _ _ D2) as L2. rewrite <- P1 in P2. apply app_inv_head in P2.
    pose proof (ilint_repr_pos _ _ R) as Hpos. unfold lenN in Hpos.
    unfold mk_of in Hmk. destruct (create_tag e wid) as [[t0|]| | |] eqn:E3; try discriminate Hmk.
    injection Hmk as Hid Hk.
    pose proof (payload_len _ _ _ _ _ P) as Lb.
    destruct (IH f (tag_val t0) Hk (wf_shape _ (He _ _ (ilint_repr_bound _ _ R) E3)) B3 (RLimited r2 n) (takeN (n - lenN body) rest) W2 G2)
      as (lr & E4 & D4).
    { cbn [left]. lia. }
    { cbn [pending]. rewrite <- P2. now apply takeN_app_r. }
    destruct (delivers_limited _ _ _ _ D4) as (_ & D4' & Em).
    exists (unlimit lr). split.
    2:{ eapply delivers_trans; [exact D1|]. eapply delivers_trans; eauto. }
    cbn [deserialize_fuel]. rewrite (bind_ok _ _ _ _ _ E1), (bind_ok _ _ _ _ _ E2).
    unfold bind at 1. rewrite E3. cbv beta iota.
    unfold deserialize_tag_value_into, LimitedReader_new. rewrite E4. cbn [tag_id]. rewrite Hid.
    assert (C : (negb (id =? IL_ILINT_TAG_ID) && negb (id =? IL_SIGNED_ILINT_TAG_ID) && negb (limit_empty lr))%bool = false).
    { rewrite !Bool.andb_false_iff, !Bool.negb_false_iff, !N.eqb_eq. rewrite Em.
      unfold IL_ILINT_TAG_ID, IL_SIGNED_ILINT_TAG_ID. tauto. }
    rewrite C. reflexivity.
  - (* null *) intros f v0 Hk _ _. destruct v0; try discriminate Hk.
    eapply (pcomplete_run _ _ _ _ _ _ (fun _ => VNull) tt); [reflexivity|]. apply mcomplete_check_size.
  - (* bool *) intros b f v0 Hk _ B. destruct v0; try discriminate Hk.
    eapply (pcomplete_run _ _ _ _ _ _ VBool b); [reflexivity|]. unfold bool_deserialize.
    eapply mcomplete_bind_l; [apply mcomplete_check_size|].
    eapply mcomplete_bind_r; [apply mcomplete_on_reader, complete_rcomplete;
      apply (complete_deserialize_uint W8 _ B); reflexivity|].
    rewrite be_value_bool. destruct b; cbn [N.eqb]; [apply (mcomplete_modify f (fun _ => true))|apply (mcomplete_modify f (fun _ => false))].
  - (* uint *) intros w bs L f v0 Hk _ B. destruct v0; try discriminate Hk. injection Hk as ->.
    eapply (pcomplete_run _ _ _ _ _ _ (VUInt w)); [reflexivity|]. unfold uint_deserialize, lenN. rewrite L.
    eapply mcomplete_bind_l; [apply mcomplete_check_size|].
    apply mcomplete_set_from, complete_rcomplete. now apply complete_deserialize_uint.
  - (* sint *) intros w bs L f v0 Hk _ B. destruct v0; try discriminate Hk. injection Hk as ->.
    eapply (pcomplete_run _ _ _ _ _ _ (VSInt w)); [reflexivity|]. unfold sint_deserialize, lenN. rewrite L.
    eapply mcomplete_bind_l; [apply mcomplete_check_size|].
    apply mcomplete_set_from, complete_rcomplete. now apply complete_deserialize_sint.
  - (* bin32 *) intros bs L f v0 Hk _ B. destruct v0; try discriminate Hk.
    eapply (pcomplete_run _ _ _ _ _ _ VBin32); [reflexivity|].
    eapply mcomplete_bind_l; [apply mcomplete_check_size|].
    apply mcomplete_set_from, complete_rcomplete. now apply complete_f32.
  - (* bin64 *) intros bs L f v0 Hk _ B. destruct v0; try discriminate Hk.
    eapply (pcomplete_run _ _ _ _ _ _ VBin64); [reflexivity|].
    eapply mcomplete_bind_l; [apply mcomplete_check_size|].
    apply mcomplete_set_from, complete_rcomplete. now apply complete_f64.
  - (* bin128 *) intros bs L f v0 Hk Sh B. destruct v0; try discriminate Hk.
    eapply (pcomplete_run _ _ _ _ _ _ VBin128); [reflexivity|].
    eapply mcomplete_bind_l; [apply mcomplete_check_size|].
    apply mcomplete_in_place. cbn [shape] in Sh. congruence.
  - (* ilint *) intros n v bs R L f v0 Hk _ B. destruct v0; try discriminate Hk.
    eapply (pcomplete_run _ _ _ _ _ _ VILInt); [reflexivity|].
    apply mcomplete_set_from, complete_rcomplete. now apply complete_deserialize_ilint.
  - (* silint *) intros n z bs Rz R L f v0 Hk _ B. destruct v0; try discriminate Hk.
    eapply (pcomplete_run _ _ _ _ _ _ VSILInt); [reflexivity|].
    apply mcomplete_set_from, complete_rcomplete. now apply complete_deserialize_signed_ilint.
  - (* raw *) intros bs f v0 Hk _ B. destruct v0; try discriminate Hk.
    eapply (pcomplete_run _ _ _ _ _ _ VRaw); [reflexivity|]. now apply mcomplete_raw.
  - (* bytes *) intros bs f v0 Hk _ B. destruct v0; try discriminate Hk.
    eapply (pcomplete_run _ _ _ _ _ _ VBytes); [reflexivity|]. now apply mcomplete_raw.
  - (* bigint *) intros bs f v0 Hk _ B. destruct v0; try discriminate Hk.
    eapply (pcomplete_run _ _ _ _ _ _ VBigInt); [reflexivity|]. now apply mcomplete_raw.
  - (* string *) intros bs U f v0 Hk _ B. destruct v0; try discriminate Hk.
    eapply (pcomplete_run _ _ _ _ _ _ VString); [reflexivity|].
    eapply mcomplete_bind_r; [apply mcomplete_on_reader, complete_rcomplete;
      apply (complete_deserialize_bytes _ bs); reflexivity|].
    rewrite from_utf8_complete by assumption. apply (mcomplete_modify f (fun _ => bs)).
  - (* bigdec *) intros sb bs L f v0 Hk _ B. destruct v0; try discriminate Hk.
    rewrite bytes_ok_app in B. destruct B as [B1 B2].
    eapply (pcomplete_run _ _ _ _ _ _ (fun s => VBigDec (fst s) (snd s)) (to_signed W32 (be_value sb), bs));
      [reflexivity|].
    eapply mcomplete_bind_l; [apply mcomplete_guard; apply N.ltb_ge; lia|].
    eapply mcomplete_bind; [apply mcomplete_on_reader, complete_rcomplete; exact (complete_sint4 sb B1 L)|].
    eapply mcomplete_bind_l; [apply (mcomplete_modify f (fun s : Z * list N => (to_signed W32 (be_value sb), snd s)))|].
    intros r rest W G Lr P. cbn [snd].
    destruct (mcomplete_raw f (4 + lenN bs - 4) bs0 bs ltac:(lia) r rest W G Lr P) as (r' & E & D).
    exists r'. split; [|exact D]. unfold on_snd. now rewrite E.
  - (* ilintarray *) intros cb ib l R I f v0 Hk _ B. destruct v0; try discriminate Hk.
    rewrite bytes_ok_app in B. destruct B as [B1 B2].
    eapply (pcomplete_run _ _ _ _ _ _ VILIntArray); [reflexivity|].
    pose proof (chain_ilints_complete f _ _ B2 I) as C.
    rewrite <- (app_nil_l l). rewrite <- (fold_push l []).
    eapply (mcomplete_counted f _ push (fun c => lenN (cb ++ ib) <? c)); auto.
    apply N.ltb_ge. rewrite lenN_app. eapply chain_len in C; [lia|]. intros ? ? [_ K]; exact K.
  - (* oid *) intros cb ib l R I f v0 Hk _ B. destruct v0; try discriminate Hk.
    rewrite bytes_ok_app in B. destruct B as [B1 B2].
    eapply (pcomplete_run _ _ _ _ _ _ VOID); [reflexivity|].
    pose proof (chain_ilints_complete f _ _ B2 I) as C.
    rewrite <- (app_nil_l l). rewrite <- (fold_push l []).
    eapply (mcomplete_counted f _ push (fun c => lenN (cb ++ ib) <? c)); auto.
    apply N.ltb_ge. rewrite lenN_app. eapply chain_len in C; [lia|]. intros ? ? [_ K]; exact K.
  - (* seq *) intros body l Ws IH f v0 Hk _ B. destruct v0; try discriminate Hk.
    eapply (pcomplete_run _ _ _ _ _ _ VSeq); [reflexivity|].
    rewrite <- (app_nil_l l). rewrite <- (fold_push l []).
    apply mcomplete_limited. eapply lcomplete_bind_l; [apply (mcomplete_modify f (fun _ => []))|].
    apply lcomplete_while. now apply IH.
  - (* arr *) intros cb body l R Ws IH f v0 Hk _ B. destruct v0; try discriminate Hk.
    rewrite bytes_ok_app in B. destruct B as [B1 B2].
    eapply (pcomplete_run _ _ _ _ _ _ VArr); [reflexivity|].
    pose proof (IH f B2) as C.
    rewrite <- (app_nil_l l). rewrite <- (fold_push l []).
    eapply (mcomplete_counted f _ push (fun c => lenN (cb ++ body) <? c)); auto.
    apply N.ltb_ge. rewrite lenN_app. eapply chain_len in C; [lia|]. intros ? ? [_ K]; exact K.
  - (* range *) intros s sb cb R L f v0 Hk _ B. destruct v0; try discriminate Hk.
    rewrite bytes_ok_app in B. destruct B as [B1 B2].
    eapply (pcomplete_run _ _ _ _ _ _ (fun s => VRange (fst s) (snd s)) (s, be_value cb)); [reflexivity|].
    rewrite <- L, <- lenN_app. apply mcomplete_limited.
    eapply lcomplete_bind; [apply mcomplete_on_reader, complete_rcomplete; exact (complete_deserialize_ilint _ _ B1 R)|].
    eapply lcomplete_bind_l; [apply (mcomplete_modify f (fun x : N * N => (s, snd x)))|].
    eapply lcomplete_bind_r; [apply mcomplete_on_reader, complete_rcomplete;
      apply (complete_deserialize_uint W16 _ B2); unfold lenN in L; cbn; lia|].
    eapply lcomplete_bind_r; [apply (mcomplete_modify f (fun x : N * N => (fst x, be_value cb)))|].
    apply lcomplete_ensure_empty.
  - (* version *) intros a b c d La Lb Lc Ld f v0 Hk _ B. destruct v0; try discriminate Hk.
    rewrite !bytes_ok_app in B. destruct B as (B1 & B2 & B3 & B4).
    eapply (pcomplete_run _ _ _ _ _ _ (fun '(a, b, c, d) => VVersion a b c d)
      (to_signed W32 (be_value a), to_signed W32 (be_value b), to_signed W32 (be_value c), to_signed W32 (be_value d)));
      [reflexivity|].
    eapply mcomplete_bind_l; [apply mcomplete_check_size|].
    eapply mcomplete_bind; [apply mcomplete_on_reader, complete_rcomplete; exact (complete_sint4 _ B1 La)|].
    eapply mcomplete_bind_l; [apply mcomplete_modify|].
    eapply mcomplete_bind; [apply mcomplete_on_reader, complete_rcomplete; exact (complete_sint4 _ B2 Lb)|].
    eapply mcomplete_bind_l; [apply mcomplete_modify|].
    eapply mcomplete_bind; [apply mcomplete_on_reader, complete_rcomplete; exact (complete_sint4 _ B3 Lc)|].
    eapply mcomplete_bind_l; [apply mcomplete_modify|].
    eapply mcomplete_bind_r; [apply mcomplete_on_reader, complete_rcomplete; exact (complete_sint4 _ B4 Ld)|].
    intros r rest W G L P. exists r. split; [reflexivity|apply delivers_refl].
  - (* dict *) intros cb body es R We IH f v0 Hk _ B. destruct v0; try discriminate Hk.
    rewrite bytes_ok_app in B. destruct B as [B1 B2].
    eapply (pcomplete_run _ _ _ _ _ _ VDict); [reflexivity|].
    unfold dict_of. rewrite <- fold_insert.
    eapply (mcomplete_counted f _ (fun x => hm_insert (fst x) (snd x)) (fun _ => false)); auto.
  - (* strdict *) intros cb body es R We f v0 Hk _ B. destruct v0; try discriminate Hk.
    rewrite bytes_ok_app in B. destruct B as [B1 B2].
    eapply (pcomplete_run _ _ _ _ _ _ VStrDict); [reflexivity|].
    unfold dict_of. rewrite <- fold_insert.
    eapply (mcomplete_counted f _ (fun x => hm_insert (fst x) (snd x)) (fun _ => false)); auto using chain_strings.
  - intros f B. constructor.
  - intros c t bs l Wt IH1 Ws IH2 f B. rewrite bytes_ok_app in B. destruct B as [B1 B2].
    constructor; [|auto]. split; [auto|]. exact (wire_pos _ _ _ Wt).
  - intros f B. constructor.
  - intros kb k c t bs es Hs Wt IH1 We IH2 f B. rewrite !bytes_ok_app in B. destruct B as (B1 & B2 & B3).
    rewrite app_assoc. constructor; [|auto].
    split; [|rewrite lenN_app; pose proof (wire_string_pos _ _ Hs); lia].
    eapply rcomplete_bind; [apply rcomplete_string; eauto|].
    rewrite <- (app_nil_r c). eapply rcomplete_bind; [apply IH1; assumption|].
    apply complete_rcomplete, complete_ret.
Qed.
Lemma deserialize_fuel_complete f bs t : bytes_ok bs -> wire (mk_of e) bs t -> rcomplete f (deserialize_fuel f e) t bs.
Proof. intros B H. now apply (proj1 completeness). Qed.
Lemma deserialize_complete bs t : bytes_ok bs -> wire (mk_of e) bs t -> complete (deserialize e) t bs.
Proof.
  intros B H r rest W G P. unfold deserialize.
  apply (deserialize_fuel_complete (S (left r)) bs t B H r rest W G); [lia|exact P].
Qed.
End Completeness.

(** The deserializer of Factory.v against the wire grammar of Spec.v. *)
From Verif Require Import Base BaseFacts Types Spec SpecFacts IO IOSpec IOFacts Logic
  ILInt ILIntFacts Data DataFacts Tags SortFacts Factory FactoryFacts.

Definition shape (v : value) : Prop := match v with VBin128 bs => lenN bs = 16 | _ => True end.

Lemma run_inv {S} (m : method S unit) s mkv r x v' r' :
  run m s mkv r = (x, v', r') -> exists s', m (s, r) = (x, (s', r')) /\ v' = mkv s'.
Proof. unfold run. destruct (m (s, r)) as [y [s1 r1]]. intros [= <- <- <-]. eauto. Qed.
Lemma run_ok {S} (m : method S unit) s mkv r s' r' :
  m (s, r) = (Ok tt, (s', r')) -> run m s mkv r = (Ok tt, mkv s', r').
Proof. unfold run. intros ->. reflexivity. Qed.

Lemma wire_pos mk bs t : wire mk bs t -> 0 < lenN bs.
Proof. destruct 1. rewrite lenN_app. pose proof (ilint_repr_pos _ _ H). lia. Qed.

(** ** Safety *)
Section Safety.
Variables (pan : Prop) (b : nat) (deser : reader -> res tag_error tag * reader).
Hypothesis Hsafe : rsafe pan b deser.
Hypothesis Hprog : progress deser.

Lemma msafe_uint w n : msafe pan b (uint_deserialize w n).
Proof.
  apply msafe_bind; [apply msafe_check_size|]. intros _.
  apply msafe_set_from, safe_rsafe, safe_deserialize_uint.
Qed.
Lemma msafe_sint w n : msafe pan b (sint_deserialize w n).
Proof.
  apply msafe_bind; [apply msafe_check_size|]. intros _.
  apply msafe_set_from, safe_rsafe, safe_deserialize_sint.
Qed.
Lemma rsafe_f32 : rsafe pan b deserialize_f32.
Proof. apply safe_rsafe, safe_lift. intros r x r'. rewrite read_f32_eq. apply safe_read_uint. Qed.
Lemma rsafe_f64 : rsafe pan b deserialize_f64.
Proof. apply safe_rsafe, safe_lift. intros r x r'. rewrite read_f64_eq. apply safe_read_uint. Qed.
Lemma msafe_bool n : msafe pan b (bool_deserialize n).
Proof.
  apply msafe_bind; [apply msafe_check_size|]. intros _.
  apply msafe_bind; [apply msafe_on_reader, safe_rsafe, safe_deserialize_uint|]. intros v.
  destruct (v =? 0); [apply msafe_modify|]. destruct (v =? 1); [apply msafe_modify|apply msafe_fail].
Qed.
Lemma msafe_string n : msafe pan b (string_deserialize n).
Proof.
  apply msafe_bind; [apply msafe_on_reader, safe_rsafe, safe_deserialize_bytes|]. intros v.
  destruct (from_utf8 v); [apply msafe_modify|apply msafe_fail].
Qed.
Lemma msafe_guard {S} (c : bool) e : msafe pan b (if c then @fail (S * reader) tag_error unit e else ret tt).
Proof. destruct c; [apply msafe_fail|apply msafe_ret]. Qed.
Lemma msafe_bigdec n : msafe pan b (bigdec_deserialize n).
Proof.
  apply msafe_bind; [apply msafe_guard|]. intros _.
  apply msafe_bind; [apply msafe_on_reader, safe_rsafe, safe_deserialize_sint|]. intros v.
  apply msafe_bind; [apply msafe_modify|]. intros _. apply msafe_on_snd, msafe_raw.
Qed.
Lemma msafe_ilintarray n : msafe pan b (ilintarray_deserialize n).
Proof.
  apply msafe_limited.
  apply msafe_bind; [apply msafe_on_reader, safe_rsafe, safe_deserialize_ilint|]. intros c.
  apply msafe_bind; [apply msafe_guard|]. intros _.
  apply msafe_bind; [apply msafe_modify|]. intros _.
  apply msafe_bind; [|intros _; apply msafe_ensure_empty].
  apply msafe_repeat_read; [apply safe_rsafe, safe_deserialize_ilint|apply progress_ilint].
Qed.
Lemma msafe_seq n : msafe pan b (seq_deserialize deser n).
Proof.
  apply msafe_limited. apply msafe_bind; [apply msafe_modify|]. intros _. now apply msafe_while_read.
Qed.
Lemma msafe_arr n : msafe pan b (arr_deserialize deser n).
Proof.
  apply msafe_limited.
  apply msafe_bind; [apply msafe_on_reader, safe_rsafe, safe_deserialize_ilint|]. intros c.
  apply msafe_bind; [apply msafe_guard|]. intros _.
  apply msafe_bind; [apply msafe_modify|]. intros _.
  apply msafe_bind; [|intros _; apply msafe_ensure_empty]. now apply msafe_repeat_read.
Qed.
Lemma msafe_range n : msafe pan b (range_deserialize n).
Proof.
  apply msafe_limited.
  apply msafe_bind; [apply msafe_on_reader, safe_rsafe, safe_deserialize_ilint|]. intros c.
  apply msafe_bind; [apply msafe_modify|]. intros _.
  apply msafe_bind; [apply msafe_on_reader, safe_rsafe, safe_deserialize_uint|]. intros d.
  apply msafe_bind; [apply msafe_modify|]. intros _. apply msafe_ensure_empty.
Qed.
Lemma msafe_version n : msafe pan b (version_deserialize n).
Proof.
  apply msafe_bind; [apply msafe_check_size|]. intros _.
  do 3 (apply msafe_bind; [apply msafe_on_reader, safe_rsafe, safe_deserialize_sint|]; intros ?;
        apply msafe_bind; [apply msafe_modify|]; intros _).
  apply msafe_bind; [apply msafe_on_reader, safe_rsafe, safe_deserialize_sint|]. intros d. apply msafe_modify.
Qed.
Lemma progress_bind {E A B} (m : reader -> res E A * reader) (f : A -> reader -> res E B * reader) :
  progress m -> (forall r x r', rwf r -> m r = (Ok x, r') -> rwf r') ->
  (forall a r c r', rwf r -> f a r = (Ok c, r') -> (left r' <= left r)%nat) -> progress (bind m f).
Proof.
  intros P W F r c r' Wr H. apply bind_inv_ok in H as (a & r1 & E1 & H).
  pose proof (P _ _ _ Wr E1). apply F in H; [lia|eauto].
Qed.
Lemma progress_string : progress deserialize_string_tag_from_value.
Proof. eapply sound_progress; [apply sound_string|]. intros a bs H. exact (wire_string_pos _ _ H). Qed.
Lemma rwf_string r x r' : rwf r -> deserialize_string_tag_from_value r = (x, r') -> rwf r' /\ (left r' <= left r)%nat.
Proof.
  intros W E. destruct (rsafe_string True (S (left r)) _ _ _ W ltac:(lia) E) as (_ & W' & L). auto.
Qed.
Lemma rwf_deser r a r' : rwf r -> deser r = (Ok a, r') -> (left r' <= left r)%nat.
Proof. intros W E. apply Hprog in E; auto. lia. Qed.
Lemma progress_entry : progress (k <- deserialize_string_tag_from_value ;; t <- deser ;; ret (k, t)).
Proof.
  apply progress_bind; [apply progress_string| |].
  - intros r x r' W E. now apply (rwf_string _ _ _ W E).
  - intros k r c r' W H. apply bind_inv_ok in H as (t & r1 & E1 & H). injection H as <- <-.
    eapply rwf_deser; eauto.
Qed.
Lemma progress_sentry :
  progress (k <- deserialize_string_tag_from_value ;; v <- deserialize_string_tag_from_value ;; ret (k, v)).
Proof.
  apply progress_bind; [apply progress_string| |].
  - intros r x r' W E. now apply (rwf_string _ _ _ W E).
  - intros k r c r' W H. apply bind_inv_ok in H as (t & r1 & E1 & H). injection H as <- <-.
    now apply (rwf_string _ _ _ W E1).
Qed.
Lemma rsafe_ret {E A} (a : A) : rsafe pan b (@ret reader E A a).
Proof. intros r x r' W L [= <- <-]. cbn. auto. Qed.
Lemma msafe_dict n : msafe pan b (dict_deserialize deser n).
Proof.
  apply msafe_limited.
  apply msafe_bind; [apply msafe_on_reader, safe_rsafe, safe_deserialize_ilint|]. intros c.
  apply msafe_bind; [apply msafe_modify|]. intros _.
  apply msafe_bind; [|intros _; apply msafe_ensure_empty].
  apply msafe_repeat_read; [|apply progress_entry].
  apply rsafe_bind; [apply rsafe_string|]. intros k. apply rsafe_bind; [exact Hsafe|]. intros t. apply rsafe_ret.
Qed.
Lemma msafe_strdict n : msafe pan b (strdict_deserialize n).
Proof.
  apply msafe_limited.
  apply msafe_bind; [apply msafe_on_reader, safe_rsafe, safe_deserialize_ilint|]. intros c.
  apply msafe_bind; [apply msafe_modify|]. intros _.
  apply msafe_bind; [|intros _; apply msafe_ensure_empty].
  apply msafe_repeat_read; [|apply progress_sentry].
  apply rsafe_bind; [apply rsafe_string|]. intros k. apply rsafe_bind; [apply rsafe_string|]. intros t. apply rsafe_ret.
Qed.

Lemma deserialize_value_safe v n r x v' r' :
  rwf r -> (left r < b)%nat -> deserialize_value deser v n r = (x, v', r') ->
  okres pan x /\ rwf r' /\ (left r' <= left r)%nat /\ kind_of v' = kind_of v.
Proof.
  intros W L H.
  assert (K : forall S (m : method S unit) s mkv,
    run m s mkv r = (x, v', r') -> msafe pan b m -> (forall s, kind_of (mkv s) = kind_of v) ->
    okres pan x /\ rwf r' /\ (left r' <= left r)%nat /\ kind_of v' = kind_of v).
  { clear H. intros S m s mkv H Sm Hk. apply run_inv in H as (s' & H & ->).
    destruct (Sm _ _ _ _ _ W L H) as (? & ? & ?). auto. }
  destruct v; cbn [deserialize_value] in H; eapply K; eauto;
    first [ apply msafe_check_size | apply msafe_bool | apply msafe_uint | apply msafe_sint
          | (apply msafe_bind; [apply msafe_check_size|intros _; apply msafe_set_from, rsafe_f32])
          | (apply msafe_bind; [apply msafe_check_size|intros _; apply msafe_set_from, rsafe_f64])
          | (apply msafe_bind; [apply msafe_check_size|intros _; apply msafe_in_place])
          | apply msafe_set_from, safe_rsafe, safe_deserialize_ilint
          | apply msafe_set_from, safe_rsafe, safe_deserialize_signed_ilint
          | apply msafe_raw | apply msafe_string | apply msafe_bigdec | apply msafe_ilintarray
          | apply msafe_seq | apply msafe_arr | apply msafe_range | apply msafe_version
          | apply msafe_dict | apply msafe_strdict
          | (intros [[[? ?] ?] ?]; reflexivity) | (intros; reflexivity) ].
Qed.
End Safety.

(** ** Soundness *)
Lemma chain_ilints l bs : chain (fun v b => ilint_repr v b) l bs -> ilints l bs.
Proof. induction 1; constructor; auto. Qed.
Lemma ilints_chain l bs : ilints l bs -> chain (fun v b => ilint_repr v b) l bs.
Proof. induction 1; constructor; auto. Qed.
Lemma chain_wires mk l bs : chain (fun t b => wire mk b t) l bs -> wires mk bs l.
Proof. induction 1; constructor; auto. Qed.
Lemma chain_wire_entries mk es bs :
  chain (fun e bs => exists kb b, bs = kb ++ b /\ wire_string kb (fst e) /\ wire mk b (snd e)) es bs ->
  wire_entries mk bs es.
Proof.
  induction 1 as [|[k t] x es bs (kb & c & -> & S & Wt) C IH]; [constructor|].
  rewrite <- app_assoc. now constructor.
Qed.
Lemma chain_wire_strings es bs :
  chain (fun e bs => exists kb b, bs = kb ++ b /\ wire_string kb (fst e) /\ wire_string b (snd e)) es bs ->
  wire_strings bs es.
Proof.
  induction 1 as [|[k t] x es bs (kb & c & -> & S & Wt) C IH]; [constructor|].
  rewrite <- app_assoc. now constructor.
Qed.

Section Soundness.
Variables (mk : N -> option (N * kind)) (deser : reader -> res tag_error tag * reader).
Hypothesis Hsound : sound deser (fun t bs => wire mk bs t).

Lemma sound_entry :
  sound (k <- deserialize_string_tag_from_value ;; t <- deser ;; ret (k, t))
    (fun e bs => exists kb b, bs = kb ++ b /\ wire_string kb (fst e) /\ wire mk b (snd e)).
Proof.
  intros r e r' W H. apply bind_inv_ok in H as (k & r1 & E1 & H). apply bind_inv_ok in H as (t & r2 & E2 & H).
  injection H as <- <-. destruct (sound_string _ _ _ W E1) as (kb & S & D1).
  destruct (delivers_rwf _ _ _ W D1) as [W1 _]. destruct (Hsound _ _ _ W1 E2) as (b & Wt & D2).
  exists (kb ++ b). split; [exists kb, b; auto|eapply delivers_trans; eauto].
Qed.
Lemma sound_sentry :
  sound (k <- deserialize_string_tag_from_value ;; v <- deserialize_string_tag_from_value ;; ret (k, v))
    (fun e bs => exists kb b, bs = kb ++ b /\ wire_string kb (fst e) /\ wire_string b (snd e)).
Proof.
  intros r e r' W H. apply bind_inv_ok in H as (k & r1 & E1 & H). apply bind_inv_ok in H as (t & r2 & E2 & H).
  injection H as <- <-. destruct (sound_string _ _ _ W E1) as (kb & S & D1).
  destruct (delivers_rwf _ _ _ W D1) as [W1 _]. destruct (sound_string _ _ _ W1 E2) as (b & Wt & D2).
  exists (kb ++ b). split; [exists kb, b; auto|eapply delivers_trans; eauto].
Qed.
Lemma raw_sound n s r s' r' :
  rwf r -> raw_deserialize n (s, r) = (Ok tt, (s', r')) -> lenN s' = n /\ bytes_ok s' /\ delivers r s' r'.
Proof.
  intros W. unfold raw_deserialize, into_vec. destruct (into_slice _ r) as [[y v] r1] eqn:E. intros [= -> <- <-].
  destruct (into_slice_spec _ _ _ _ _ W E) as (_ & _ & _ & L & _ & K).
  rewrite lenN_resizeN in L. destruct (K eq_refl). auto.
Qed.
Lemma set_from_sound {A} (m : reader -> res tag_error A * reader) P s r s' r' :
  sound m P -> rwf r -> set_from m (s, r) = (Ok tt, (s', r')) -> exists bs, P s' bs /\ delivers r bs r'.
Proof.
  intros S W H. apply bind_inv_ok in H as (a & [s1 r1] & E1 & H). apply on_reader_ok in E1 as [E1 ->].
  apply modify_ok in H as (_ & -> & ->). exact (S _ _ _ W E1).
Qed.
Lemma sound_f32 : sound deserialize_f32 (fun v bs => v = be_value bs /\ length bs = 4%nat).
Proof. apply sound_lift. intros r x r'. rewrite read_f32_eq. apply (sound_read_uint W32). Qed.
Lemma sound_f64 : sound deserialize_f64 (fun v bs => v = be_value bs /\ length bs = 8%nat).
Proof. apply sound_lift. intros r x r'. rewrite read_f64_eq. apply (sound_read_uint W64). Qed.

(** The counted forms share this prefix. *)
Lemma counted_sound {A B} (m : reader -> res tag_error A * reader) (R : A -> list N -> Prop) (store : A -> list B -> list B)
  (g : N -> bool) n s r s' r' :
  sound m R -> rwf r ->
  limited n (
    count <- on_reader deserialize_ilint ;;
    (if g count then fail CorruptedData else ret tt) ;;;
    modify (fun _ => []) ;;;
    fuelled (fun f => repeat_read f m store count) ;;;
    limited_reader_ensure_empty CorruptedData) (s, r) = (Ok tt, (s', r')) ->
  exists cb body l, ilint_repr (lenN l) cb /\ chain R l body /\ n = lenN (cb ++ body)
    /\ delivers r (cb ++ body) r' /\ s' = fold_left (fun s a => store a s) l [].
Proof.
  intros S W H. apply limited_ok in H as (r1 & H & ->).
  apply bind_inv_ok in H as (c & [s2 r2] & E2 & H). apply on_reader_ok in E2 as [E2 ->].
  apply bind_inv_ok in H as (u & [s3 r3] & E3 & H). apply guard_ok in E3 as (_ & -> & ->).
  apply bind_inv_ok in H as (u2 & [s4 r4] & E4 & H). apply modify_ok in E4 as (_ & -> & ->).
  apply bind_inv_ok in H as (u3 & [s5 r5] & E5 & H). apply ensure_empty_ok in H as (Em & -> & ->).
  destruct (sound_deserialize_ilint (RLimited r n) _ _ W E2) as (cb & Rc & D2).
  destruct (delivers_rwf (RLimited r n) _ _ W D2) as [W2 _]. unfold fuelled in E5.
  destruct (repeat_read_sound m R store S _ _ _ _ _ _ _ W2 E5) as (l & bs & Ll & C & D5 & Hs).
  pose proof (delivers_trans _ _ _ _ _ D2 D5) as D.
  destruct (delivers_limited _ _ _ _ D) as (_ & D' & Hl). apply Hl in Em.
  exists cb, bs, l. rewrite Ll. auto.
Qed.

Lemma deserialize_value_sound v n r v' r' :
  rwf r -> shape v -> deserialize_value deser v n r = (Ok tt, v', r') ->
  exists bs, delivers r bs r' /\ (lenN bs <= n -> payload mk (kind_of v) n bs v').
Proof.
  intros W Sh H.
  destruct v as [|b0|w u0|w z0|u0|u0|l0|u0|z0|l0|l0|l0|l0|z0 l0|l0|l0|l0|u0 u1|z0 z1 z2 z3|l0|l0|l0];
    cbn [deserialize_value kind_of] in *;
    apply run_inv in H as (s' & H & ->).
  - (* null *) apply check_size_ok in H as (-> & _ & ->). exists []. split; [apply delivers_refl|constructor].
  - (* bool *) apply bind_inv_ok in H as (u & [s1 r1] & E1 & H). apply check_size_ok in E1 as (-> & -> & ->).
    apply bind_inv_ok in H as (a & [s2 r2] & E2 & H). apply on_reader_ok in E2 as [E2 ->].
    destruct (sound_deserialize_uint W8 _ _ _ W E2) as (bs & (-> & L) & D). exists bs.
    change (length bs = 1%nat) in L. destruct bs as [|z [|y bs]]; try discriminate L. clear L.
    rewrite be_value_single in *.
    destruct (z =? 0) eqn:Hz; [apply N.eqb_eq in Hz; subst z|].
    { apply modify_ok in H as (_ & -> & ->). split; [exact D|]. intros _. apply (P_bool mk false). }
    destruct (z =? 1) eqn:Hz1; [apply N.eqb_eq in Hz1; subst z|discriminate].
    apply modify_ok in H as (_ & -> & ->). split; [exact D|]. intros _. apply (P_bool mk true).
  - apply bind_inv_ok in H as (u & [s1 r1] & E1 & H). apply check_size_ok in E1 as (-> & -> & ->).
    destruct (set_from_sound _ _ _ _ _ _ (sound_deserialize_uint w) W H) as (bs & (-> & L) & D).
    exists bs. split; [exact D|]. intros _. rewrite <- L. now apply P_uint.
  - apply bind_inv_ok in H as (u & [s1 r1] & E1 & H). apply check_size_ok in E1 as (-> & -> & ->).
    destruct (set_from_sound _ _ _ _ _ _ (sound_deserialize_sint w) W H) as (bs & (-> & L) & D).
    exists bs. split; [exact D|]. intros _. rewrite <- L. now apply P_sint.
  - apply bind_inv_ok in H as (u & [s1 r1] & E1 & H). apply check_size_ok in E1 as (-> & -> & ->).
    destruct (set_from_sound _ _ _ _ _ _ sound_f32 W H) as (bs & (-> & L) & D).
    exists bs. split; [exact D|]. intros _. apply P_bin32. unfold lenN. now rewrite L.
  - apply bind_inv_ok in H as (u & [s1 r1] & E1 & H). apply check_size_ok in E1 as (-> & -> & ->).
    destruct (set_from_sound _ _ _ _ _ _ sound_f64 W H) as (bs & (-> & L) & D).
    exists bs. split; [exact D|]. intros _. apply P_bin64. unfold lenN. now rewrite L.
  - apply bind_inv_ok in H as (u & [s1 r1] & E1 & H). apply check_size_ok in E1 as (-> & -> & ->).
    unfold in_place in H. destruct (into_slice _ r) as [[y v] r2] eqn:E. injection H as -> <- <-.
    destruct (into_slice_spec _ _ _ _ _ W E) as (_ & _ & _ & L & _ & K). destruct (K eq_refl) as [B D].
    exists v. split; [exact D|]. intros _. apply P_bin128. cbn [shape] in Sh. congruence.
  - destruct (set_from_sound _ _ _ _ _ _ sound_deserialize_ilint W H) as (bs & R & D).
    exists bs. split; [exact D|]. now apply P_ilint.
  - destruct (set_from_sound _ _ _ _ _ _ sound_deserialize_signed_ilint W H) as (bs & (Z & R) & D).
    exists bs. split; [exact D|]. now apply P_silint.
  - apply raw_sound in H as (<- & B & D); [|exact W]. exists s'. split; [exact D|]. intros _. apply P_raw.
  - apply raw_sound in H as (<- & B & D); [|exact W]. exists s'. split; [exact D|]. intros _. apply P_bytes.
  - (* string *) apply bind_inv_ok in H as (a & [s2 r2] & E2 & H). apply on_reader_ok in E2 as [E2 ->].
    destruct (sound_deserialize_bytes _ _ _ _ W E2) as (bs & (-> & <- & B) & D).
    destruct (from_utf8 bs) eqn:U; [|discriminate]. apply modify_ok in H as (_ & -> & ->).
    exists bs. split; [exact D|]. intros _. apply P_string. now apply from_utf8_spec.
  - apply raw_sound in H as (<- & B & D); [|exact W]. exists s'. split; [exact D|]. intros _. apply P_bigint.
  - (* bigdec *) apply bind_inv_ok in H as (u & [s1 r1] & E1 & H). apply guard_ok in E1 as (G & -> & ->).
    apply bind_inv_ok in H as (sc & [s2 r2] & E2 & H). apply on_reader_ok in E2 as [E2 ->].
    apply bind_inv_ok in H as (u3 & [s3 r3] & E3 & H). apply modify_ok in E3 as (_ & -> & ->).
    cbn [snd] in H. unfold on_snd in H.
    match type of H with context [raw_deserialize ?k (?l, ?q)] =>
      destruct (raw_deserialize k (l, q)) as [y [t r4]] eqn:E4 end. injection H as -> <- <-.
    destruct (sound_deserialize_sint W32 _ _ _ W E2) as (sb & (-> & L) & D2).
    destruct (delivers_rwf _ _ _ W D2) as [W2 _]. apply raw_sound in E4 as (Lt & B & D4); [|exact W2].
    exists (sb ++ t). split; [eapply delivers_trans; eauto|]. intros _. cbn [fst snd].
    apply N.ltb_ge in G. replace n with (4 + lenN t) by lia. apply P_bigdec. unfold lenN. now rewrite L.
  - (* ilintarray *)
    destruct (counted_sound _ _ _ (fun c => n <? c) _ _ _ _ _ sound_deserialize_ilint W H)
      as (cb & body & l' & Rc & C & -> & D & ->).
    rewrite fold_push. cbn [app]. exists (cb ++ body). split; [exact D|]. intros _.
    apply P_ilintarray; auto using chain_ilints.
  - (* seq *) apply limited_ok in H as (r1 & H & ->).
    apply bind_inv_ok in H as (u & [s1 r2] & E1 & H). apply modify_ok in E1 as (_ & -> & ->).
    unfold fuelled in H.
    destruct (while_read_sound deser _ push Hsound _ _ (RLimited r n) _ _ _ W H) as (l' & bs & C & D & Em & ->).
    rewrite fold_push. cbn [app]. destruct (delivers_limited _ _ _ _ D) as (_ & D' & Hl). apply Hl in Em.
    exists bs. split; [exact D'|]. intros _. rewrite <- Em. apply P_seq. now apply chain_wires.
  - (* arr *)
    destruct (counted_sound _ _ _ (fun c => n <? c) _ _ _ _ _ Hsound W H)
      as (cb & body & l' & Rc & C & -> & D & ->).
    rewrite fold_push. cbn [app]. exists (cb ++ body). split; [exact D|]. intros _.
    apply P_arr; auto using chain_wires.
  - (* range *) apply limited_ok in H as (r1 & H & ->).
    apply bind_inv_ok in H as (st & [s2 r2] & E2 & H). apply on_reader_ok in E2 as [E2 ->].
    apply bind_inv_ok in H as (u3 & [s3 r3] & E3 & H). apply modify_ok in E3 as (_ & -> & ->).
    apply bind_inv_ok in H as (cn & [s4 r4] & E4 & H). apply on_reader_ok in E4 as [E4 ->].
    apply bind_inv_ok in H as (u5 & [s5 r5] & E5 & H). apply modify_ok in E5 as (_ & -> & ->).
    apply ensure_empty_ok in H as (Em & -> & ->).
    destruct (sound_deserialize_ilint (RLimited r n) _ _ W E2) as (sb & R2 & D2).
    destruct (delivers_rwf (RLimited r n) _ _ W D2) as [W2 _].
    destruct (sound_deserialize_uint W16 _ _ _ W2 E4) as (cb & (-> & L4) & D4).
    pose proof (delivers_trans _ _ _ _ _ D2 D4) as D.
    destruct (delivers_limited _ _ _ _ D) as (_ & D' & Hl). apply Hl in Em.
    exists (sb ++ cb). split; [exact D'|]. intros _. cbn [fst snd].
    assert (L : lenN cb = 2) by (unfold lenN; now rewrite L4).
    rewrite <- Em, lenN_app, L. now apply P_range.
  - (* version *) apply bind_inv_ok in H as (u & [s1 r1] & E1 & H). apply check_size_ok in E1 as (-> & -> & ->).
    apply bind_inv_ok in H as (va & [s2 r2] & E2 & H). apply on_reader_ok in E2 as [E2 ->].
    apply bind_inv_ok in H as (u3 & [s3 r3] & E3 & H). apply modify_ok in E3 as (_ & -> & ->).
    apply bind_inv_ok in H as (vb & [s4 r4] & E4 & H). apply on_reader_ok in E4 as [E4 ->].
    apply bind_inv_ok in H as (u5 & [s5 r5] & E5 & H). apply modify_ok in E5 as (_ & -> & ->).
    apply bind_inv_ok in H as (vc & [s6 r6] & E6 & H). apply on_reader_ok in E6 as [E6 ->].
    apply bind_inv_ok in H as (u7 & [s7 r7] & E7 & H). apply modify_ok in E7 as (_ & -> & ->).
    apply bind_inv_ok in H as (vd & [s8 r8] & E8 & H). apply on_reader_ok in E8 as [E8 ->].
    apply modify_ok in H as (_ & -> & ->).
    destruct (sound_deserialize_sint W32 _ _ _ W E2) as (ba & (-> & La) & Da). destruct (delivers_rwf _ _ _ W Da) as [Wa _].
    destruct (sound_deserialize_sint W32 _ _ _ Wa E4) as (bb & (-> & Lb) & Db). destruct (delivers_rwf _ _ _ Wa Db) as [Wb _].
    destruct (sound_deserialize_sint W32 _ _ _ Wb E6) as (bc & (-> & Lc) & Dc). destruct (delivers_rwf _ _ _ Wb Dc) as [Wc _].
    destruct (sound_deserialize_sint W32 _ _ _ Wc E8) as (bd & (-> & Ld) & Dd).
    exists (ba ++ bb ++ bc ++ bd). split.
    { eapply delivers_trans; [exact Da|]. eapply delivers_trans; [exact Db|]. eapply delivers_trans; eauto. }
    intros _. apply P_version; unfold lenN; rewrite ?La, ?Lb, ?Lc, ?Ld; reflexivity.
  - (* oid *)
    destruct (counted_sound _ _ _ (fun c => n <? c) _ _ _ _ _ sound_deserialize_ilint W H)
      as (cb & body & l' & Rc & C & -> & D & ->).
    rewrite fold_push. cbn [app]. exists (cb ++ body). split; [exact D|]. intros _.
    apply P_oid; auto using chain_ilints.
  - (* dict *)
    destruct (counted_sound _ _ (fun e => hm_insert (fst e) (snd e)) (fun _ => false) _ _ _ _ _ sound_entry W H)
      as (cb & body & l' & Rc & C & -> & D & ->).
    rewrite fold_insert. exists (cb ++ body). split; [exact D|]. intros _.
    apply P_dict; auto using chain_wire_entries.
  - (* strdict *)
    destruct (counted_sound _ _ (fun e => hm_insert (fst e) (snd e)) (fun _ => false) _ _ _ _ _ sound_sentry W H)
      as (cb & body & l' & Rc & C & -> & D & ->).
    rewrite fold_insert. exists (cb ++ body). split; [exact D|]. intros _.
    apply P_strdict; auto using chain_wire_strings.
Qed.
End Soundness.

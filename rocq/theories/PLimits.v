(** The size limit, unknown tags and deserialization into a tag: C35, C36, C39,
    C40. *)
From Verif Require Import Base BaseFacts Types Spec SpecFacts IO IOSpec IOFacts Logic ILInt ILIntFacts Data DataFacts Tags
  TagsFacts Factory FactoryFacts DecodeFacts DeserFacts IntoFacts EngineFacts WireFacts StableFacts FromFacts PTags.

(** ** C35.  The 512 MB limit. *)
Lemma oversize_header r rest wid idb n szb :
  15 < wid -> ilint_repr wid idb -> ilint_repr n szb -> 536870912 < n ->
  rwf r -> good r -> pending r = idb ++ szb ++ rest ->
  exists r1 r2, deserialize_ilint r = (Ok wid, r1) /\ deserialize_ilint r1 = (Ok n, r2) /\
    deserialize_tag_size wid r1 = (Err TagTooLarge, r2) /\ delivers r (idb ++ szb) r2.
Proof.
  intros Hw R Rs Hn W G P. pose proof (bytes_ok_pending _ W) as B. rewrite P, !bytes_ok_app in B. destruct B as (B1 & B2 & _).
  destruct (complete_deserialize_ilint _ _ B1 R r _ W G P) as (r1 & E1 & D1).
  destruct (pending_delivers _ _ _ G D1) as [P1 G1]. destruct (delivers_rwf _ _ _ W D1) as [W1 _].
  rewrite P in P1. apply app_inv_head in P1.
  destruct (complete_deserialize_ilint _ _ B2 Rs r1 _ W1 G1 (eq_sym P1)) as (r2 & E2 & D2).
  exists r1, r2. split; [exact E1|]. split; [exact E2|]. split; [|eapply delivers_trans; eauto].
  unfold deserialize_tag_size. rewrite is_implicit_spec. destruct (N.leb_spec wid 15); [lia|].
  rewrite (bind_ok _ _ _ _ _ E2). unfold tag_size_to_usize, MAX_TAG_SIZE. destruct (N.ltb_spec 536870912 n); [reflexivity|lia].
Qed.
Theorem C35_rejected_before_the_payload : forall r rest wid idb n szb,
  15 < wid -> ilint_repr wid idb -> ilint_repr n szb -> 536870912 < n ->
  rwf r -> good r -> pending r = idb ++ szb ++ rest ->
  exists r', delivers r (idb ++ szb) r' /\
    (forall e, deserialize e r = (Err TagTooLarge, r')) /\
    (forall e t, tag_id t = wid -> deserialize_into e r t = (Err TagTooLarge, t, r')) /\
    (wid = 17 -> forall s, deserialize_string_tag_from_value_into (s, r) = (Err TagTooLarge, (s, r'))).
Proof.
  intros r rest wid idb n szb Hw R Rs Hn W G P.
  destruct (oversize_header r rest wid idb n szb Hw R Rs Hn W G P) as (r1 & r2 & E1 & E2 & E3 & D).
  exists r2. split; [exact D|]. split; [|split].
  - intros e. unfold deserialize. cbn [deserialize_fuel]. rewrite (bind_ok _ _ _ _ _ E1). unfold bind. now rewrite E3.
  - intros e t Ht. unfold deserialize_into. rewrite E1, Ht, N.eqb_refl. cbn [negb]. now rewrite E3.
  - intros -> s. unfold deserialize_string_tag_from_value_into, bind, on_reader. rewrite E1. cbv beta iota.
    change (negb (17 =? IL_STRING_TAG_ID)) with false. cbv iota. unfold ret. rewrite E2. cbv beta iota.
    unfold tag_size_to_usize, MAX_TAG_SIZE. destruct (N.ltb_spec 536870912 n); [reflexivity|lia].
Qed.
Print Assumptions C35_rejected_before_the_payload.
(** The limit itself is accepted. *)
Theorem C35_limit_is_inclusive : forall r body rest,
  lenN body = 536870912 -> rwf r -> good r -> pending r = (16 :: ilint 536870912 ++ body) ++ rest ->
  exists r', deserialize (create_std_engine true) r = (Ok (Tag 16 (VBytes body)), r') /\ pending r' = rest.
Proof.
  intros r body rest L W G P.
  assert (Hw : wire (standard_mk true) ([16] ++ ilint 536870912 ++ body) (Tag 16 (VBytes body))).
  { apply (wire_intro _ 16 [16] _ 536870912 body 16 KBytes); auto.
    - constructor. lia.
    - constructor; [lia|]. apply ilint_repr_ilint. unfold two64. lia.
    - lia.
    - rewrite <- L. constructor. }
  apply wire_std in Hw. destruct (proj2 (accepts_iff _ r _ _ (std_engine_ok true) W G) (conj Hw (ex_intro _ rest P))) as (r' & E & D).
  exists r'. split; [exact E|]. destruct (pending_delivers _ _ _ G D) as [P' _]. rewrite P in P'.
  now apply app_inv_head in P'.
Qed.
Print Assumptions C35_limit_is_inclusive.
Example C35_instance :
  from_bytes (create_std_engine true) ([16] ++ ilint 536870913 ++ [1]) = Err TagTooLarge /\
  from_bytes (create_std_engine true) ([16] ++ ilint 18446744073709551615) = Err TagTooLarge.
Proof. vm_compute. auto. Qed.
Lemma zeros n : exists l : list N, lenN l = n /\ bytes_ok l.
Proof.
  exists (repeatN 0 n). split; [apply lenN_repeatN|]. apply Forall_forall. intros x Hx. apply repeat_spec in Hx. now subst x.
Qed.
(** Writing has no such limit. *)
Theorem C35_written_tags_can_be_read_refuted :
  (forall e t, wf t -> 15 < tag_id t -> 536870912 < lenN (encv (tag_val t)) -> lenN (enc t) < two64 ->
     exists bs, to_bytes t = Ok bs /\ from_bytes e bs = Err TagTooLarge) /\
  ~ (forall t bs, wf t -> standard true t -> to_bytes t = Ok bs ->
       exists t', from_bytes (create_std_engine true) bs = Ok t').
Proof.
  assert (K : forall e t, wf t -> 15 < tag_id t -> 536870912 < lenN (encv (tag_val t)) -> lenN (enc t) < two64 ->
     exists bs, to_bytes t = Ok bs /\ from_bytes e bs = Err TagTooLarge).
  { intros e [id v] W Hid Hl L. exists (enc (Tag id v)). split; [now apply to_bytes_spec|].
    pose proof (enc_bytes_ok _ W L) as B. destruct (mem_reader _ B) as (Wr & G & P).
    cbn [tag_id tag_val] in *. cbn [enc] in *. unfold enc_header in *. destruct (N.leb_spec id 15); [lia|].
    rewrite !lenN_app in L. rewrite <- app_assoc in *. destruct W as [Hi Wv].
    destruct (C35_rejected_before_the_payload _ (encv v) id (ilint id) (lenN (encv v)) (ilint (lenN (encv v))) Hid
      (ilint_repr_ilint _ Hi) (ilint_repr_ilint (lenN (encv v)) ltac:(lia)) Hl Wr G P) as (r' & _ & E & _).
    unfold from_bytes. now rewrite E. }
  split; [exact K|]. intros H.
  destruct (zeros 536870913) as (l & Ll & Bl).
  assert (W : wf (Tag 16 (VBytes l))) by (split; [unfold two64; lia|exact Bl]).
  assert (Lp : lenN (encv (tag_val (Tag 16 (VBytes l)))) = 536870913) by exact Ll.
  assert (Le : lenN (enc (Tag 16 (VBytes l))) < two64).
  { change (enc (Tag 16 (VBytes l))) with (enc_header 16 (lenN l) ++ l). rewrite lenN_app, Ll.
    change (lenN (enc_header 16 536870913)) with 6. unfold two64. lia. }
  destruct (K (create_std_engine true) (Tag 16 (VBytes l)) W ltac:(cbn [tag_id]; lia) ltac:(rewrite Lp; lia) Le) as (bs & Eb & F).
  destruct (H (Tag 16 (VBytes l)) bs W ltac:(cbn; auto) Eb) as (t' & F'). congruence.
Qed.
Print Assumptions C35_written_tags_can_be_read_refuted.

(** ** C36.  Unknown tags. *)
Lemma unregistered e id : cr_get id (creators e) = None ->
  mk_of e id = if negb (strict e) && (15 <? id) then Some (id, KRaw) else None.
Proof.
  intros H. unfold mk_of, create_tag. rewrite H. rewrite is_implicit_spec. unfold ILRawTag_new. rewrite is_implicit_spec.
  replace (15 <? id) with (negb (id <=? 15)) by lia. destruct (strict e), (id <=? 15); reflexivity.
Qed.
Theorem C36_kept_raw : forall e id idb szb body r rest,
  engine_ok e -> cr_get id (creators e) = None -> strict e = false -> 15 < id ->
  ilint_repr id idb -> ilint_repr (lenN body) szb -> lenN body <= 536870912 ->
  rwf r -> good r -> pending r = (idb ++ szb ++ body) ++ rest ->
  (exists r', deserialize e r = (Ok (Tag id (VRaw body)), r') /\ delivers r (idb ++ szb ++ body) r') /\
  to_bytes (Tag id (VRaw body)) = Ok (ilint id ++ ilint (lenN body) ++ body).
Proof.
  intros e id idb szb body r rest He Hc Hs Hid R Rs L W G P.
  pose proof (bytes_ok_pending _ W) as B. rewrite P, !bytes_ok_app in B. destruct B as ((B1 & B2 & B3) & _). split.
  - apply accepts_iff; auto. split; [|now exists rest].
    apply (wire_intro _ id idb szb (lenN body) body id KRaw); auto.
    + now constructor.
    + rewrite (unregistered e id Hc), Hs. destruct (N.ltb_spec 15 id); [reflexivity|lia].
    + constructor.
  - assert (Wt : wf (Tag id (VRaw body))) by (split; [now apply ilint_repr_bound in R|exact B3]).
    rewrite (to_bytes_spec _ Wt (payload_size_u64 (Tag id (VRaw body)) L Wt)). f_equal. cbn [enc encv]. unfold enc_header.
    destruct (N.leb_spec id 15); [lia|]. now rewrite app_assoc.
Qed.
Print Assumptions C36_kept_raw.
(** On any reader, the only way to succeed. *)
Theorem C36_only_raw : forall e id r r1 t r',
  engine_ok e -> cr_get id (creators e) = None -> rwf r -> deserialize_ilint r = (Ok id, r1) ->
  deserialize e r = (Ok t, r') ->
  strict e = false /\ 15 < id /\ exists szb body, t = Tag id (VRaw body) /\ ilint_repr (lenN body) szb /\ delivers r1 (szb ++ body) r'.
Proof.
  intros e id r r1 t r' He Hc W E1 H. unfold deserialize in H. cbn [deserialize_fuel] in H.
  rewrite (bind_ok _ _ _ _ _ E1) in H. apply bind_inv_ok in H as (n & r2 & E2 & H).
  destruct (sound_deserialize_ilint _ _ _ W E1) as (idb & R & D1). destruct (delivers_rwf _ _ _ W D1) as [W1 _].
  destruct (sound_tag_size _ _ _ _ W1 E2) as (szb & (Sz & Ln) & D2). destruct (delivers_rwf _ _ _ W1 D2) as [W2 _].
  unfold bind at 1, create_tag in H. rewrite Hc in H.
  destruct (negb (strict e) && negb (is_implicit_tag id))%bool eqn:C; [|discriminate H].
  unfold ILRawTag_new in H. rewrite is_implicit_spec in C, H. rewrite Bool.andb_true_iff, !Bool.negb_true_iff in C. destruct C as [Cs Ci].
  rewrite Ci in H. cbn [map_ok] in H. cbv beta iota in H. apply N.leb_gt in Ci.
  destruct (deserialize_tag_value_into _ n (Tag id (VRaw [])) r2) as [[x t'] r3] eqn:E3.
  destruct x as [[]| | |]; try discriminate H. injection H as <- <-.
  destruct (tag_value_into_sound (mk_of e) _ n (Tag id (VRaw [])) r2 t' r3 (deserialize_fuel_sound e (left r) He) W2 I E3) as (body & v & D3 & -> & P & Hx).
  cbn [tag_id tag_val kind_of] in *. inversion P; subst.
  split; [exact Cs|]. split; [exact Ci|]. exists szb, body. split; [reflexivity|].
  split; [inversion Sz; [lia|assumption]|].
  eapply delivers_trans; eauto.
Qed.
Print Assumptions C36_only_raw.
Theorem C36_refused : forall e id idb szb n r rest,
  cr_get id (creators e) = None -> strict e = true \/ id <= 15 ->
  ilint_repr id idb -> wire_size id szb n -> n <= 536870912 -> rwf r -> good r -> pending r = idb ++ szb ++ rest ->
  exists r', deserialize e r = (Err UnknownTag, r') /\ delivers r (idb ++ szb) r'.
Proof.
  intros e id idb szb n r rest Hc Hr R Sz Ln W G P.
  pose proof (bytes_ok_pending _ W) as B. rewrite P, !bytes_ok_app in B. destruct B as (B1 & B2 & _).
  destruct (complete_deserialize_ilint _ _ B1 R r _ W G P) as (r1 & E1 & D1).
  destruct (pending_delivers _ _ _ G D1) as [P1 G1]. destruct (delivers_rwf _ _ _ W D1) as [W1 _].
  rewrite P in P1. apply app_inv_head in P1.
  destruct (complete_tag_size _ _ _ B2 Sz Ln r1 _ W1 G1 (eq_sym P1)) as (r2 & E2 & D2).
  exists r2. split; [|eapply delivers_trans; eauto]. unfold deserialize. cbn [deserialize_fuel].
  rewrite (bind_ok _ _ _ _ _ E1), (bind_ok _ _ _ _ _ E2). unfold bind, create_tag. rewrite Hc, is_implicit_spec.
  destruct (negb (strict e) && negb (id <=? 15))%bool eqn:C; [|reflexivity].
  rewrite Bool.andb_true_iff, !Bool.negb_true_iff, N.leb_gt in C. destruct C, Hr; [congruence|lia].
Qed.
Print Assumptions C36_refused.
Example C36_instance :
  from_bytes (create_std_engine false) [249; 0; 8; 2; 7; 9] = Ok (Tag 256 (VRaw [7; 9])) /\
  from_bytes (create_std_engine true) [249; 0; 8; 2; 7; 9] = Err UnknownTag /\
  from_bytes (create_std_engine false) [15; 0] = Err UnknownTag.
Proof. vm_compute. auto. Qed.

(** ** C39.  deserialize_into. *)
Theorem C39_accepts : forall e t r bs t',
  engine_ok e -> wf t -> rwf r -> good r ->
  ((exists r', deserialize_into e r t = (Ok tt, t', r') /\ delivers r bs r') <->
   (exists idb szb n body v, bs = idb ++ szb ++ body /\ t' = Tag (tag_id t) v /\
      ilint_repr (tag_id t) idb /\ wire_size (tag_id t) szb n /\ n <= 536870912 /\
      payload (mk_of e) (kind_of (tag_val t)) n body v /\ (tag_id t = 10 \/ tag_id t = 14 \/ lenN body = n)) /\
   prefix bs (pending r)).
Proof.
  intros e t r bs t' He Wt W G. split.
  - intros (r' & H & D). unfold deserialize_into in H.
    destruct (deserialize_ilint r) as [x r1] eqn:E1. destruct x as [wid| | |]; try discriminate H.
    destruct (N.eqb_spec wid (tag_id t)) as [->|]; [|discriminate H]. cbn [negb] in H.
    destruct (deserialize_tag_size (tag_id t) r1) as [x r2] eqn:E2. destruct x as [n| | |]; try discriminate H.
    destruct (sound_deserialize_ilint _ _ _ W E1) as (idb & R & D1). destruct (delivers_rwf _ _ _ W D1) as [W1 _].
    destruct (sound_tag_size _ _ _ _ W1 E2) as (szb & (Sz & Ln) & D2). destruct (delivers_rwf _ _ _ W1 D2) as [W2 _].
    destruct (tag_value_into_sound (mk_of e) _ n t r2 t' r' (deserialize_fuel_sound e (S (left r2)) He) W2 (wf_shape _ Wt) H)
      as (body & v & D3 & -> & P & Hx).
    pose proof (delivers_trans _ _ _ _ _ D1 (delivers_trans _ _ _ _ _ D2 D3)) as D'.
    destruct (pending_delivers _ _ _ G D) as [Pd _]. destruct (pending_delivers _ _ _ G D') as [Pd' _].
    assert (bs = idb ++ szb ++ body) as ->.
    { pose proof (delivers_left _ _ _ D). pose proof (delivers_left _ _ _ D').
      rewrite Pd in Pd'. apply app_eq_app_len in Pd'; [now destruct Pd'|unfold lenN; lia]. }
    split; [|now exists (pending r')]. exists idb, szb, n, body, v. repeat (split; [assumption || reflexivity|]). exact Hx.
  - intros [(idb & szb & n & body & v & -> & -> & R & Sz & Ln & P & Hx) (rest & Pr)].
    pose proof (bytes_ok_pending _ W) as B. rewrite Pr, !bytes_ok_app in B. destruct B as ((B1 & B2 & B3) & _).
    rewrite <- !app_assoc in Pr.
    destruct (complete_deserialize_ilint _ _ B1 R r _ W G Pr) as (r1 & E1 & D1).
    destruct (pending_delivers _ _ _ G D1) as [P1 G1]. destruct (delivers_rwf _ _ _ W D1) as [W1 _].
    rewrite Pr in P1. apply app_inv_head in P1.
    destruct (complete_tag_size _ _ _ B2 Sz Ln r1 _ W1 G1 (eq_sym P1)) as (r2 & E2 & D2).
    destruct (pending_delivers _ _ _ G1 D2) as [P2 G2]. destruct (delivers_rwf _ _ _ W1 D2) as [W2 _].
    rewrite <- P1 in P2. apply app_inv_head in P2.
    pose proof (payload_len _ _ _ _ _ P) as Lb.
    destruct (completeness e He) as (_ & Cp & _).
    destruct (Cp _ _ _ _ P (S (left r2)) (tag_val t) eq_refl (wf_shape _ Wt) B3 (RLimited r2 n) (takeN (n - lenN body) rest) W2 G2)
      as (lr & E4 & D4).
    { cbn [left]. lia. }
    { cbn [pending]. rewrite <- P2. now apply takeN_app_r. }
    destruct (delivers_limited _ _ _ _ D4) as (_ & D4' & Em).
    exists (unlimit lr). split.
    2:{ eapply delivers_trans; [exact D1|]. eapply delivers_trans; eauto. }
    unfold deserialize_into. rewrite E1, N.eqb_refl. cbn [negb]. rewrite E2.
    unfold deserialize_tag_value_into, LimitedReader_new. rewrite E4. cbn [tag_id].
    assert (C : (negb (tag_id t =? IL_ILINT_TAG_ID) && negb (tag_id t =? IL_SIGNED_ILINT_TAG_ID) && negb (limit_empty lr))%bool = false).
    { rewrite !Bool.andb_false_iff, !Bool.negb_false_iff, !N.eqb_eq. rewrite Em.
      unfold IL_ILINT_TAG_ID, IL_SIGNED_ILINT_TAG_ID. tauto. }
    now rewrite C.
Qed.
Print Assumptions C39_accepts.
(** With the type and id the factory would create, it is [deserialize], errors
    included, on any reader. *)
Theorem C39_agrees_with_deserialize : forall e r t x r',
  engine_ok e -> rwf r -> wf t -> mk_of e (tag_id t) = Some (tag_id t, kind_of (tag_val t)) ->
  deserialize e r = (x, r') ->
  (forall wid r1, deserialize_ilint r = (Ok wid, r1) -> wid = tag_id t) ->
  exists y t', deserialize_into e r t = (y, t', r') /\
    (y = Ok tt -> x = Ok t') /\ (forall err, y = Err err -> x = Err err) /\
    (forall t0, x = Ok t0 -> y = Ok tt) /\ (forall err, x = Err err -> y = Err err) /\ (y = Panic <-> x = Panic).
Proof. intros e r t x r' He W Wt Hm E Hid. now apply (deserialize_into_agrees e r t He W Wt Hm x r' E). Qed.
Print Assumptions C39_agrees_with_deserialize.
(** The contents of the target do not matter. *)
Theorem C39_previous_contents : forall e r t1 t2, rwf r -> wf t1 -> wf t2 ->
  tag_id t1 = tag_id t2 -> kind_of (tag_val t1) = kind_of (tag_val t2) ->
  exists x t1' t2' r', deserialize_into e r t1 = (x, t1', r') /\ deserialize_into e r t2 = (x, t2', r') /\
    (x = Ok tt -> t1' = t2').
Proof.
  intros e r [i1 v1] [i2 v2] W W1 W2 Hi Hk. cbn [tag_id tag_val] in *. subst i2. unfold deserialize_into. cbn [tag_id].
  destruct (deserialize_ilint r) as [x r1] eqn:E1. destruct (safe_deserialize_ilint _ _ _ W E1) as (_ & Wr1 & _).
  destruct x as [wid| | |]; try (repeat eexists; discriminate).
  destruct (wid =? i1); cbn [negb]; [|repeat eexists; discriminate].
  destruct (deserialize_tag_size wid r1) as [x r2] eqn:E2. destruct (safe_tag_size _ _ _ _ Wr1 E2) as (_ & Wr2 & _).
  destruct x as [n| | |]; try (repeat eexists; discriminate).
  unfold deserialize_tag_value_into, LimitedReader_new. cbn [tag_id tag_val].
  destruct (deserialize_value_indep (deserialize_fuel (S (left r2)) e) v1 v2 n (RLimited r2 n) Wr2
    (wf_shape _ W1) (wf_shape _ W2) Hk) as (z & a & b & lr & Ea & Eb & Hz). rewrite Ea, Eb.
  eexists _, _, _, _. split; [reflexivity|]. split; [reflexivity|].
  destruct z as [[]| | |]; try discriminate. intros _. now rewrite (Hz eq_refl).
Qed.
Print Assumptions C39_previous_contents.
Theorem C39_other_id : forall e r t wid r1, deserialize_ilint r = (Ok wid, r1) -> wid <> tag_id t ->
  deserialize_into e r t = (Err UnexpectedTagType, t, r1).
Proof.
  intros e r t wid r1 E H. unfold deserialize_into. rewrite E. destruct (N.eqb_spec wid (tag_id t)); [contradiction|reflexivity].
Qed.
Print Assumptions C39_other_id.
(** A target of a type the factory does not know, with a custom id. *)
Example C39_instance :
  deserialize_into (create_std_engine true) (RVec [248; 8; 2; 1; 5; 6; 4] 0) (Tag 256 (VILIntArray [1; 2; 3]))
  = (Ok tt, Tag 256 (VILIntArray [5]), RVec [248; 8; 2; 1; 5; 6; 4] 5) /\
  deserialize_into (create_std_engine true) (RVec [248; 8; 2; 1; 5; 6; 4] 0) (Tag 20 (VILIntArray [1; 2; 3]))
  = (Err UnexpectedTagType, Tag 20 (VILIntArray [1; 2; 3]), RVec [248; 8; 2; 1; 5; 6; 4] 2).
Proof. vm_compute. auto. Qed.

(** ** C40.  A failed deserialize_into. *)
(** Types read in one step that consumes the whole declared payload. *)
Definition read_at_once (t : tag) : Prop :=
  match kind_of (tag_val t) with
  | KNull | KBool | KUInt _ | KSInt _ | KBin32 | KBin64 | KString => True
  | KILInt | KSILInt => tag_id t = 10 \/ tag_id t = 14
  | _ => False
  end.
Theorem C40_id_and_type : forall e r t x t' r', deserialize_into e r t = (x, t', r') ->
  tag_id t' = tag_id t /\ kind_of (tag_val t') = kind_of (tag_val t).
Proof.
  intros e r t x t' r'. unfold deserialize_into.
  destruct (deserialize_ilint r) as [[wid| | |] r1]; try (intros [= <- <- <-]; auto).
  destruct (negb _); try (intros [= <- <- <-]; auto).
  destruct (deserialize_tag_size wid r1) as [[n| | |] r2]; try (intros [= <- <- <-]; auto).
  unfold deserialize_tag_value_into.
  destruct (deserialize_value _ (tag_val t) n _) as [[y v] lr] eqn:E. intros [= <- <- <-]. split; [reflexivity|].
  cbn [tag_val]. destruct (tag_val t); cbn [deserialize_value] in E; apply run_inv in E as (s' & _ & ->); cbn [kind_of]; try reflexivity.
  now destruct s' as [[[? ?] ?] ?].
Qed.
Print Assumptions C40_id_and_type.
Lemma failed_value deser id v0 n r x v r' : read_at_once (Tag id v0) ->
  deserialize_value deser v0 n r = (x, v, r') -> x <> Ok tt -> v = v0.
Proof.
  intros Ht E Hx. unfold read_at_once in Ht. cbn [tag_id tag_val] in Ht.
  destruct v0; cbn [kind_of] in Ht; try contradiction; cbn [deserialize_value] in E;
    apply run_inv in E as (s' & E & ->); f_equal; revert E;
    unfold null_deserialize, bool_deserialize, uint_deserialize, sint_deserialize, bin32_deserialize, bin64_deserialize,
      string_deserialize, set_from, bind, check_size, on_reader, modify, fail, ret;
    repeat match goal with |- context [if n =? ?k then _ else _] => destruct (n =? k) end; try (intros [= ]; congruence);
    match goal with |- context [let '(_, _) := ?m r in _] => destruct (m r) as [[?| | |] ?] end;
    repeat match goal with |- context [if ?c then _ else _] => destruct c end; intros [= ]; congruence.
Qed.
Theorem C40_unchanged_on_failure : forall e r t x t' r',
  engine_ok e -> rwf r -> read_at_once t -> deserialize_into e r t = (x, t', r') -> x <> Ok tt -> t' = t.
Proof.
  intros e r t x t' r' He W Ht. unfold deserialize_into.
  destruct (deserialize_ilint r) as [y r1] eqn:E1. destruct (safe_deserialize_ilint _ _ _ W E1) as (_ & W1 & _).
  destruct y as [wid| | |]; try (intros [= <- <- <-]; reflexivity).
  destruct (N.eqb_spec wid (tag_id t)) as [->|]; cbn [negb]; try (intros [= <- <- <-]; reflexivity).
  destruct (deserialize_tag_size (tag_id t) r1) as [y r2] eqn:E2. destruct (safe_tag_size _ _ _ _ W1 E2) as (_ & W2 & _).
  destruct y as [n| | |]; try (intros [= <- <- <-]; reflexivity).
  unfold deserialize_tag_value_into, LimitedReader_new.
  destruct (deserialize_value _ (tag_val t) n (RLimited r2 n)) as [[y v] lr] eqn:E. intros [= <- <- <-] Hx.
  destruct t as [id v0]. unfold read_at_once in Ht. cbn [tag_id tag_val] in *. f_equal.
  destruct y as [[]|err| |].
  - exfalso. apply Hx. clear Hx.
    assert (Sh : shape v0) by (destruct v0; try exact I; contradiction).
    destruct (deserialize_value_sound (mk_of e) _ (deserialize_fuel_sound e _ He) v0 n (RLimited r2 n) v lr W2 Sh E) as (bs & D & P).
    destruct (delivers_limited _ _ _ _ D) as (L & _ & Em). specialize (P L).
    unfold IL_ILINT_TAG_ID, IL_SIGNED_ILINT_TAG_ID.
    destruct (id =? 10) eqn:H10; [reflexivity|]. destruct (id =? 14) eqn:H14; [reflexivity|]. cbn [negb andb].
    assert (Hl : lenN bs = n).
    { apply N.eqb_neq in H10, H14. destruct v0; cbn [kind_of] in *; try contradiction;
        try (destruct Ht; contradiction); inversion P; subst; try reflexivity; assumption. }
    apply Em in Hl. now rewrite Hl.
  - now apply (failed_value _ id _ _ _ _ _ _ Ht E).
  - now apply (failed_value _ id _ _ _ _ _ _ Ht E).
  - now apply (failed_value _ id _ _ _ _ _ _ Ht E).
Qed.
Print Assumptions C40_unchanged_on_failure.
(** A string that is not UTF-8, and one cut short. *)
Example C40_instance :
  deserialize_into (create_std_engine true) (RVec [17; 2; 255; 255] 0) (Tag 17 (VString [97]))
  = (Err CorruptedData, Tag 17 (VString [97]), RVec [17; 2; 255; 255] 4) /\
  deserialize_into (create_std_engine true) (RVec [17; 2; 98] 0) (Tag 17 (VString [97]))
  = (Err (TagIO UnableToReadData), Tag 17 (VString [97]), RVec [17; 2; 98] 2) /\
  read_at_once (Tag 17 (VString [97])) /\ engine_ok (create_std_engine true) /\ rwf (RVec [17; 2; 255; 255] 0).
Proof.
  split; [vm_compute; reflexivity|]. split; [vm_compute; reflexivity|]. split; [exact I|]. split; [apply std_engine_ok|].
  split; [repeat constructor|cbn; lia].
Qed.
(** Byte arrays, ILInt arrays and ILInt tags with an id of their own can be left
    with other contents. *)
Theorem C40_always_unchanged_refuted :
  ~ (forall t r x t' r', wf t -> rwf r -> deserialize_into (create_std_engine true) r t = (x, t', r') -> x <> Ok tt -> t' = t) /\
  (exists r', deserialize_into (create_std_engine true) (RVec [16; 4; 9] 0) (Tag 16 (VBytes [1; 2]))
              = (Err (TagIO UnableToReadData), Tag 16 (VBytes [1; 2; 0; 0]), r')) /\
  (exists r', deserialize_into (create_std_engine true) (RVec [20; 3; 2; 7; 250] 0) (Tag 20 (VILIntArray [1; 2]))
              = (Err (TagIO UnableToReadData), Tag 20 (VILIntArray [7]), r')) /\
  (exists r', deserialize_into (create_std_engine true) (RVec [100; 2; 7; 0] 0) (Tag 100 (VILInt 5))
              = (Err CorruptedData, Tag 100 (VILInt 7), r')).
Proof.
  split.
  - intros H. specialize (H (Tag 100 (VILInt 5)) (RVec [100; 2; 7; 0] 0) (Err CorruptedData) (Tag 100 (VILInt 7)) (RVec [100; 2; 7; 0] 3)).
    assert (wf (Tag 100 (VILInt 5))) by (split; cbn [wfv]; unfold two64; lia).
    assert (rwf (RVec [100; 2; 7; 0] 0)) by (split; [repeat constructor|cbn; lia]).
    assert (deserialize_into (create_std_engine true) (RVec [100; 2; 7; 0] 0) (Tag 100 (VILInt 5))
      = (Err CorruptedData, Tag 100 (VILInt 7), RVec [100; 2; 7; 0] 3)) by (vm_compute; reflexivity).
    assert (K : Tag 100 (VILInt 7) = Tag 100 (VILInt 5)) by (apply H; auto; discriminate). discriminate K.
  - split; [eexists; vm_compute; reflexivity|]. split; [eexists; vm_compute; reflexivity|eexists; vm_compute; reflexivity].
Qed.
Print Assumptions C40_always_unchanged_refuted.

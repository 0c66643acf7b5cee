(** Payload tags: C47. *)
From Verif Require Import Base BaseFacts Types Spec SpecFacts IO IOSpec IOFacts WriterFacts Logic WLogic ILInt ILIntFacts Data DataFacts Tags
  TagsFacts Factory FactoryFacts DecodeFacts DeserFacts EngineFacts FromFacts Payload.

(** The contract of a payload type: the values in [ok] are written as [code],
    [serialized_size] is the length of that, and [deserialize], given a reader
    limited to it, reads it back whatever the fields were before.  [deser] is
    the [deserialize] of the factory with enough fuel. *)
Record contract {T} (P : payload_impl T) (deser : nat -> reader -> res tag_error (any_tag T) * reader)
    (ok : T -> Prop) (code : T -> list N) : Prop := {
  c_size : forall x, ok x -> p_serialized_size P x = lenN (code x);
  c_writes : forall x, ok x -> emits (p_serialize P x) (code x);
  c_bytes : forall x, ok x -> bytes_ok (code x);
  c_reads : forall x x0 f r rest, ok x -> rwf r -> good r -> (left r < f)%nat -> pending r = code x ++ rest ->
    exists r', p_deserialize P (deser f) (lenN (code x)) (x0, RLimited r (lenN (code x))) = (Ok tt, (x, RLimited r' 0))
      /\ delivers r (code x) r' }.

Definition payload_bytes {T} (id : N) (code : T -> list N) (x : T) : list N := enc_header id (lenN (code x)) ++ code x.

Theorem C47_size_and_layout : forall T (P : payload_impl T) deser ok code id x,
  contract P deser ok code -> ok x -> id < two64 -> lenN (payload_bytes id code x) < two64 ->
  any_size P (APayload id x) = lenN (payload_bytes id code x) /\
  any_to_bytes P (APayload id x) = Ok (payload_bytes id code x) /\
  emits (any_serialize P (APayload id x)) (payload_bytes id code x).
Proof.
  intros T P deser ok code id x C Hx Hi L. unfold payload_bytes in *. rewrite lenN_app in L.
  assert (Em : emits (any_serialize P (APayload id x)) (enc_header id (lenN (code x)) ++ code x)).
  { unfold any_serialize, enc_header. cbn [any_id any_value_size any_serialize_value].
    rewrite (c_size _ _ _ _ C x Hx), is_implicit_spec, <- app_assoc.
    apply emits_bind; [now apply emits_serialize_ilint|].
    apply emits_bind; [|exact (c_writes _ _ _ _ C x Hx)].
    destruct (id <=? 15); [apply emits_ret|apply emits_serialize_ilint; lia]. }
  split; [|split; [|exact Em]].
  - unfold any_size. cbn [any_id any_value_size]. rewrite (c_size _ _ _ _ C x Hx), is_implicit_spec.
    rewrite !encoded_size_spec by lia. unfold enc_header. rewrite !lenN_app. destruct (id <=? 15); [change (lenN (@nil N)) with 0|]; lia.
  - unfold any_to_bytes. destruct (any_serialize P (APayload id x) VecWriter_new) as [y w'] eqn:E.
    destruct (Em VecWriter_new y w') as (R & (p & Pp & Q & O) & A); [apply N.le_refl|assumption|].
    rewrite A in * by (split; [apply N.le_refl|reflexivity]). rewrite O in Q by reflexivity.
    destruct w'; cbn [puts VecWriter_new] in Q; try contradiction. destruct Q as (-> & _).
    f_equal. unfold overwrite. rewrite takeN_0, dropN_all by (rewrite lenN_nil; lia). now rewrite app_nil_r.
Qed.
Print Assumptions C47_size_and_layout.

Theorem C47_round_trip : forall T (P : payload_impl T) reg e ok code id x bs r rest,
  contract P (any_deserialize_fuel P reg e) ok code -> ok x -> id < two64 -> reg id = true ->
  15 < id \/ lenN (code x) = implicit_size id -> lenN (code x) <= 536870912 ->
  any_to_bytes P (APayload id x) = Ok bs -> rwf r -> good r -> pending r = bs ++ rest ->
  exists r', any_deserialize P reg e r = (Ok (APayload id x), r') /\ delivers r bs r' /\ pending r' = rest.
Proof.
  intros T P reg e ok code id x bs r rest C Hx Hi Hr Hid L Eb W G Pr.
  assert (Lb : lenN (payload_bytes id code x) < two64).
  { unfold payload_bytes, enc_header. rewrite !lenN_app.
    pose proof (ilint_repr_len _ _ (ilint_repr_ilint id Hi)).
    pose proof (ilint_repr_len _ _ (ilint_repr_ilint (lenN (code x)) ltac:(unfold two64; lia))).
    destruct (id <=? 15); rewrite ?lenN_nil; unfold two64; lia. }
  destruct (C47_size_and_layout T P _ ok code id x C Hx Hi Lb) as (_ & Eb' & _).
  rewrite Eb' in Eb. apply Ok_inv in Eb as <-. unfold payload_bytes in *.
  assert (Sz : exists szb, enc_header id (lenN (code x)) = ilint id ++ szb /\ wire_size id szb (lenN (code x)) /\ bytes_ok szb).
  { unfold enc_header. eexists. split; [reflexivity|]. destruct (N.leb_spec id 15).
    - split; [|constructor]. destruct Hid as [Hid|Hid]; [lia|]. rewrite Hid. now constructor.
    - split; [|apply ilint_bytes_ok; unfold two64; lia]. constructor; [lia|]. apply ilint_repr_ilint. unfold two64. lia. }
  destruct Sz as (szb & Eh & Sz & Bz). rewrite Eh in Pr |- *. rewrite <- !app_assoc in Pr. repeat rewrite <- app_assoc in Pr. rewrite <- !app_assoc.
  assert (Bi : bytes_ok (ilint id)) by now apply ilint_bytes_ok.
  destruct (complete_deserialize_ilint id (ilint id) Bi (ilint_repr_ilint id Hi) r _ W G Pr) as (r1 & E1 & D1).
  destruct (pending_delivers _ _ _ G D1) as [P1 G1]. destruct (delivers_rwf _ _ _ W D1) as [W1 _].
  rewrite Pr in P1. apply app_inv_head in P1.
  destruct (complete_tag_size id _ szb Bz Sz L r1 _ W1 G1 (eq_sym P1)) as (r2 & E2 & D2).
  destruct (pending_delivers _ _ _ G1 D2) as [P2 G2]. destruct (delivers_rwf _ _ _ W1 D2) as [W2 _].
  rewrite <- P1 in P2. apply app_inv_head in P2.
  assert (Lf : (left r2 < left r)%nat).
  { rewrite (delivers_left _ _ _ D1), (delivers_left _ _ _ D2).
    pose proof (ilint_repr_len _ _ (ilint_repr_ilint id Hi)) as K. unfold lenN in K. lia. }
  destruct (c_reads _ _ _ _ C x (p_default P) (left r) r2 rest Hx W2 G2 Lf (eq_sym P2)) as (r3 & E3 & D3).
  exists r3. unfold any_deserialize. cbn [any_deserialize_fuel].
  rewrite (bind_ok _ _ _ _ _ E1), (bind_ok _ _ _ _ _ E2). unfold bind, any_create. rewrite Hr. cbn [payload_tag_new].
  unfold payload_tag_new, payload_value_into, LimitedReader_new. rewrite E3. cbn [limit_empty unlimit N.eqb negb andb map_ok].
  rewrite Bool.andb_false_r. cbn [map_ok].
  split; [reflexivity|].
  pose proof (delivers_trans _ _ _ _ _ D1 (delivers_trans _ _ _ _ _ D2 D3)) as D.
  split; [assumption|]. destruct (pending_delivers _ _ _ G D) as [P3 _].
  rewrite Pr in P3. rewrite <- !app_assoc in P3. now repeat apply app_inv_head in P3.
Qed.
Print Assumptions C47_round_trip.

(** Without the contract: what the payload's [deserialize] makes of the value
    decides.  It gets the default, the announced size and a reader limited to
    that size; its error is returned; what it leaves unread is an error except
    under the identifiers 10 and 14. *)
Theorem C47_outcome : forall T (P : payload_impl T) reg e id idb n szb r rest,
  reg id = true -> ilint_repr id idb -> wire_size id szb n -> n <= 536870912 ->
  bytes_ok idb -> bytes_ok szb ->
  rwf r -> good r -> pending r = idb ++ szb ++ rest ->
  exists r2, delivers r (idb ++ szb) r2 /\ pending r2 = rest /\
  forall y x r3 k,
  p_deserialize P (any_deserialize_fuel P reg e (left r)) n (p_default P, RLimited r2 n) = (y, (x, RLimited r3 k)) ->
  (forall err, y = Err err -> any_deserialize P reg e r = (Err err, r3)) /\
  (y = Ok tt -> k = 0 \/ id = 10 \/ id = 14 -> any_deserialize P reg e r = (Ok (APayload id x), r3)) /\
  (y = Ok tt -> k <> 0 -> id <> 10 -> id <> 14 -> any_deserialize P reg e r = (Err CorruptedData, r3)).
Proof.
  intros T P reg e id idb n szb r rest Hr Ri Sz L Bi Bz W G Pr.
  destruct (complete_deserialize_ilint id idb Bi Ri r _ W G Pr) as (r1 & E1 & D1).
  destruct (pending_delivers _ _ _ G D1) as [P1 G1]. destruct (delivers_rwf _ _ _ W D1) as [W1 _].
  rewrite Pr in P1. apply app_inv_head in P1.
  destruct (complete_tag_size id _ szb Bz Sz L r1 _ W1 G1 (eq_sym P1)) as (r2 & E2 & D2).
  destruct (pending_delivers _ _ _ G1 D2) as [P2 G2]. rewrite <- P1 in P2. apply app_inv_head in P2.
  exists r2. split; [eapply delivers_trans; eauto|]. split; [now symmetry|].
  intros y x r3 k E3. unfold any_deserialize. cbn [any_deserialize_fuel].
  rewrite (bind_ok _ _ _ _ _ E1), (bind_ok _ _ _ _ _ E2). unfold bind, any_create. rewrite Hr.
  unfold payload_tag_new, payload_value_into, LimitedReader_new. rewrite E3.
  cbn [limit_empty unlimit]. change IL_ILINT_TAG_ID with 10. change IL_SIGNED_ILINT_TAG_ID with 14.
  split; [|split].
  - intros err ->. reflexivity.
  - intros -> H.
    assert (K : negb (id =? 10) && negb (id =? 14) && negb (k =? 0) = false).
    { destruct H as [->|[->| ->]]; [apply Bool.andb_false_r|reflexivity..]. }
    now rewrite K.
  - intros -> Hk H1 H2. apply N.eqb_neq in Hk, H1, H2. now rewrite Hk, H1, H2.
Qed.
Print Assumptions C47_outcome.
(** A payload that reads one byte of its value, whatever its size. *)
Definition first_byte : payload_impl N := {|
  p_default := 0; p_serialized_size := fun _ => 1; p_serialize := fun b => serialize_uint W8 b;
  p_deserialize := fun _ _ => b <- on_reader (deserialize_uint W8) ;; modify (fun _ => b) |}.
Example C47_outcome_cases :
  let run bs := any_deserialize first_byte (fun _ => true) (create_std_engine true) (RByteArray bs 0) in
  run [40; 1; 7; 9] = (Ok (APayload 40 7), RByteArray [40; 1; 7; 9] 3) /\
  run [40; 2; 7; 9] = (Err CorruptedData, RByteArray [40; 2; 7; 9] 3) /\
  run [4; 7; 9] = (Err CorruptedData, RByteArray [4; 7; 9] 2) /\
  run [10; 7; 9] = (Ok (APayload 10 7), RByteArray [10; 7; 9] 2) /\
  run [40; 0; 9] = (Err (TagIO UnableToReadData), RByteArray [40; 0; 9] 2).
Proof. vm_compute. auto 10. Qed.

(** Without the contract: the header always announces [serialized_size], and the
    bytes written follow. *)
Theorem C47_any_payload : forall T (P : payload_impl T) id x bs,
  emits (p_serialize P x) bs -> p_serialized_size P x < two64 -> id < two64 ->
  any_to_bytes P (APayload id x) = Ok (enc_header id (p_serialized_size P x) ++ bs) /\
  (any_size P (APayload id x) = lenN (enc_header id (p_serialized_size P x) ++ bs) <-> p_serialized_size P x = lenN bs).
Proof.
  intros T P id x bs Em Ls Hi. split.
  - assert (Em2 : emits (any_serialize P (APayload id x)) (enc_header id (p_serialized_size P x) ++ bs)).
    { unfold any_serialize, enc_header. cbn [any_id any_value_size any_serialize_value].
      rewrite is_implicit_spec, <- app_assoc.
      apply emits_bind; [now apply emits_serialize_ilint|]. apply emits_bind; [|exact Em].
      destruct (id <=? 15); [apply emits_ret|now apply emits_serialize_ilint]. }
    unfold any_to_bytes. destruct (any_serialize P (APayload id x) VecWriter_new) as [y w'] eqn:E.
    destruct (Em2 VecWriter_new y w') as (R & (p & Pp & Q & O) & A); [apply N.le_refl|assumption|].
    rewrite A in * by (split; [apply N.le_refl|reflexivity]). rewrite O in Q by reflexivity.
    destruct w'; cbn [puts VecWriter_new] in Q; try contradiction. destruct Q as (-> & _).
    f_equal. unfold overwrite. rewrite takeN_0, dropN_all by (rewrite lenN_nil; lia). now rewrite app_nil_r.
  - unfold any_size. cbn [any_id any_value_size]. rewrite is_implicit_spec, !encoded_size_spec by assumption.
    unfold enc_header. rewrite !lenN_app. destruct (id <=? 15); [change (lenN (@nil N)) with 0|]; lia.
Qed.
Print Assumptions C47_any_payload.

(** *** Two payload types that meet the contract *)
Lemma reads_of_mcomplete {T} (m : method T unit) f x0 x bs r rest :
  mcomplete f m x0 tt x bs -> rwf r -> good r -> (left r < f)%nat -> pending r = bs ++ rest ->
  exists r', m (x0, RLimited r (lenN bs)) = (Ok tt, (x, RLimited r' 0)) /\ delivers r bs r'.
Proof.
  intros C W G L P. destruct (C (RLimited r (lenN bs)) []) as (lr & E & D); auto.
  { cbn [pending]. rewrite P, takeN_app_exact, app_nil_r; reflexivity. }
  destruct (IOFacts.delivers_limited _ _ _ _ D) as (r' & -> & _ & D'). rewrite N.sub_diag in E. eauto.
Qed.
(** TestTagPayload, src/tags/payload/tests.rs:41-98. *)
Definition test_payload : payload_impl (N * N) := {|
  p_default := (0, 0);
  p_serialized_size := fun _ => 6;
  p_serialize := fun x => serialize_uint W16 (fst x) ;;; serialize_uint W32 (snd x);
  p_deserialize := fun _ n =>
    check_size n 6 ;;;
    a <- on_reader (deserialize_uint W16) ;; modify (fun x => (a, snd x)) ;;;
    b <- on_reader (deserialize_uint W32) ;; modify (fun x => (fst x, b)) |}.
Definition test_code (x : N * N) : list N := be_bytes 2 (fst x) ++ be_bytes 4 (snd x).
Lemma test_contract deser :
  contract test_payload deser (fun x => fst x < wmod W16 /\ snd x < wmod W32) test_code.
Proof.
  assert (L : forall x, lenN (test_code x) = 6).
  { intros x. unfold test_code. rewrite lenN_app. unfold lenN. rewrite !be_bytes_length. reflexivity. }
  constructor.
  - intros x _. now rewrite L.
  - intros x [Ha Hb]. cbn [p_serialize test_payload]. apply emits_bind; [exact (emits_serialize_uint W16 _ Ha)|exact (emits_serialize_uint W32 _ Hb)].
  - intros x _. unfold test_code. rewrite bytes_ok_app. auto using be_bytes_ok.
  - intros [a b] x0 f r rest [Ha Hb] W G Lf P. cbn [fst snd] in *. rewrite L.
    replace 6 with (lenN (test_code (a, b))) at 2 by apply L. replace 6 with (lenN (test_code (a, b))) by apply L.
    eapply reads_of_mcomplete; eauto. rewrite L. cbn [p_deserialize test_payload].
    eapply mcomplete_bind_l; [apply mcomplete_check_size|].
    unfold test_code. cbn [fst snd].
    eapply mcomplete_bind; [apply mcomplete_on_reader, complete_rcomplete; apply (complete_deserialize_uint W16); [apply be_bytes_ok|apply be_bytes_length]|].
    eapply mcomplete_bind_l; [apply mcomplete_modify|].
    eapply mcomplete_bind_r; [apply mcomplete_on_reader, complete_rcomplete; apply (complete_deserialize_uint W32); [apply be_bytes_ok|apply be_bytes_length]|].
    cbn [fst snd]. rewrite !be_value_be_bytes by (rewrite wmod_pow in *; assumption).
    eapply (mcomplete_modify f (fun x : N * N => (fst x, b))).
Qed.

(** Registering a payload leaves every other identifier as it was. *)
Theorem C47_others_unchanged : forall T (P : payload_impl T) reg e r id r1,
  deserialize_ilint r = (Ok id, r1) -> reg id = false ->
  any_deserialize P reg e r = (let '(y, r') := deserialize e r in (map_ok AStandard y, r')).
Proof.
  intros T P reg e r id r1 E R. unfold any_deserialize, deserialize. cbn [any_deserialize_fuel deserialize_fuel].
  rewrite !(bind_ok _ _ _ _ _ E). unfold bind, any_create. rewrite R.
  destruct (deserialize_tag_size id r1) as [[n| | |] r2]; try reflexivity.
  destruct (create_tag e id) as [[t|]| | |]; try reflexivity.
  cbn [map_ok option_map]. destruct (deserialize_tag_value_into _ n t r2) as [[[]?]?]; reflexivity.
Qed.
Print Assumptions C47_others_unchanged.

(** A payload holding a standard tag that it reads through the factory it is
    given (src/tags/payload/mod.rs:72-90). *)
Lemma any_standard_complete {T} (P : payload_impl T) reg e f t bs :
  engine_ok e -> (forall wid k, mk_of e wid = Some (tag_id t, k) -> reg wid = false) ->
  bytes_ok bs -> wire (mk_of e) bs t -> rcomplete f (any_deserialize_fuel P reg e f) (AStandard t) bs.
Proof.
  intros Eo R B Wt r rest W G Lf Pr.
  destruct (deserialize_fuel_complete e Eo f bs t B Wt r rest W G Lf Pr) as (r' & E & D). exists r'. split; [|exact D].
  inversion Wt as [wid idb szb n body id k v Hw Hs Hn Hm Hp Hl Eb Et]. subst bs t. cbn [tag_id] in R.
  destruct f as [|f]; [lia|]. rewrite !bytes_ok_app in B. destruct B as (B1 & B2 & B3).
  rewrite <- app_assoc in Pr.
  destruct (complete_deserialize_ilint wid idb B1 Hw r _ W G Pr) as (r1 & E1 & D1).
  cbn [any_deserialize_fuel deserialize_fuel] in *. rewrite (bind_ok _ _ _ _ _ E1). rewrite (bind_ok _ _ _ _ _ E1) in E.
  unfold bind, any_create in *. rewrite (R _ _ Hm).
  destruct (deserialize_tag_size wid r1) as [[z| | |] r2]; try discriminate E.
  destruct (create_tag e wid) as [[c|]| | |]; try discriminate E.
  cbn [map_ok option_map] in *. destruct (deserialize_tag_value_into _ z c r2) as [[[]?]?]; try discriminate E.
  cbn [map_ok] in *. apply pair_inv in E as [E ->]. apply Ok_inv in E as ->. reflexivity.
Qed.
Definition doc_payload (dflt : tag) : payload_impl tag := {|
  p_default := dflt;
  p_serialized_size := size;
  p_serialize := serialize;
  p_deserialize := fun deser _ =>
    t <- on_reader deser ;;
    match t with AStandard t => modify (fun _ => t) | APayload _ _ => fail CorruptedData end |}.
Lemma doc_contract dflt reg e : engine_ok e ->
  contract (doc_payload dflt) (any_deserialize_fuel (doc_payload dflt) reg e)
    (fun t => wf t /\ lenN (enc t) < two64 /\ wire (mk_of e) (enc t) t /\
              (forall wid k, mk_of e wid = Some (tag_id t, k) -> reg wid = false)) enc.
Proof.
  intros Eo. constructor; cbn [p_serialized_size p_serialize p_deserialize doc_payload].
  - intros t (W & L & _). now apply size_spec.
  - intros t (W & L & _). now apply serialize_emits.
  - intros t (W & L & _). now apply enc_bytes_ok.
  - intros t t0 f r rest (Wt & L & Ww & R) W G Lf P.
    eapply reads_of_mcomplete; eauto.
    eapply mcomplete_bind_r; [apply mcomplete_on_reader; apply (any_standard_complete _ reg e f t); auto using enc_bytes_ok|].
    cbn beta iota. exact (mcomplete_modify f (fun _ => t) t0).
Qed.

Definition reg_1234 (id : N) : bool := id =? 1234.
(** The tags of src/tags/payload/tests.rs round trip: every pair of fields, from
    every kind of reader. *)
Theorem C47_test_payload : forall a b r rest bs,
  a < 2 ^ 16 -> b < 2 ^ 32 -> any_to_bytes test_payload (APayload 1234 (a, b)) = Ok bs ->
  rwf r -> good r -> pending r = bs ++ rest ->
  lenN bs = 10 /\
  exists r', any_deserialize test_payload reg_1234 (create_std_engine true) r = (Ok (APayload 1234 (a, b)), r') /\ pending r' = rest.
Proof.
  intros a b r rest bs Ha Hb E W G P.
  pose proof (test_contract (any_deserialize_fuel test_payload reg_1234 (create_std_engine true))) as C.
  assert (Hx : fst (a, b) < wmod W16 /\ snd (a, b) < wmod W32) by (split; [exact Ha|exact Hb]).
  assert (L : lenN (test_code (a, b)) = 6) by (unfold test_code; now rewrite lenN_app, !lenN_be_bytes).
  split.
  - destruct (C47_size_and_layout _ _ _ _ _ 1234 (a, b) C Hx) as (_ & E2 & _); [reflexivity| |].
    { unfold payload_bytes. rewrite lenN_app, L. reflexivity. }
    rewrite E2 in E. apply Ok_inv in E as <-. unfold payload_bytes. rewrite lenN_app, L. reflexivity.
  - destruct (C47_round_trip _ _ reg_1234 _ _ _ 1234 (a, b) bs r rest C Hx) as (q & E2 & _ & P2); auto; try reflexivity; try (left; reflexivity).
    { rewrite L. lia. }
    eauto.
Qed.
Print Assumptions C47_test_payload.
Example C47_test_payload_case :
  any_to_bytes test_payload (APayload 1234 (43981, 4009829189)) = Ok [249; 3; 218; 6; 171; 205; 239; 1; 35; 69].
Proof. vm_compute. reflexivity. Qed.
Example C47_doc_case :
  (* a payload tag of identifier 1234 whose payload is an ILSeqTag of a string and an ILIntTag *)
  let t := Tag 22 (VSeq [Tag 17 (VString [65; 66]); Tag 10 (VILInt 300)]) in
  let P := doc_payload (Tag 0 VNull) in
  exists bs, any_to_bytes P (APayload 1234 t) = Ok bs /\
    fst (any_deserialize P reg_1234 (create_std_engine true) (RByteArray bs 0)) = Ok (APayload 1234 t).
Proof. cbv zeta. eexists. split; [vm_compute; reflexivity|]. vm_compute. reflexivity. Qed.

(** [ILGenericPayloadTag::new] (src/tags/payload/mod.rs:153-155) and
    default_with_id (201-203) accept the identifiers of implicit tags, for
    which no size is written: then the payload is read back with the implicit
    size of the identifier, and the round trip is lost. *)
Theorem C47_implicit_id : forall T (P : payload_impl T) reg e id x,
  id <= 15 -> p_serialized_size P x <> implicit_size id ->
  (forall n d r y s, p_deserialize P d n (p_default P, r) = (Ok tt, (y, s)) -> p_serialized_size P y = n) ->
  forall r, fst (any_deserialize P reg e r) <> Ok (APayload id x).
Proof.
  intros T P reg e id x Hi Ne Strict r H. unfold any_deserialize in H. cbn [any_deserialize_fuel] in H.
  unfold bind in H. destruct (deserialize_ilint r) as [[i| | |] r1]; try discriminate H.
  destruct (deserialize_tag_size i r1) as [[n| | |] r2] eqn:Ez; try discriminate H.
  unfold any_create in H. destruct (reg i) eqn:Ri.
  - unfold payload_tag_new, payload_value_into in H.
    destruct (p_deserialize P _ n (p_default P, LimitedReader_new r2 n)) as [[[]| | |] [y lr]] eqn:Ed; try discriminate H.
    destruct (negb (i =? _) && _ && _) in H; try discriminate H. cbn [fst map_ok] in H. injection H as -> ->.
    apply Strict in Ed. unfold deserialize_tag_size, bind in Ez. rewrite is_implicit_spec in Ez.
    destruct (N.leb_spec id 15); [|lia]. rewrite implicit_size_spec in Ez by assumption. cbn [ret] in Ez.
    unfold ret in Ez. apply pair_inv in Ez as [Ez _]. unfold tag_size_to_usize in Ez.
    destruct (_ <? _) in Ez; try discriminate Ez. apply Ok_inv in Ez. congruence.
  - destruct (create_tag e i) as [[c|]| | |]; try discriminate H. cbn [map_ok option_map] in H.
    destruct (deserialize_tag_value_into _ n c r2) as [[[]?]?]; discriminate H.
Qed.
Print Assumptions C47_implicit_id.
(** "Every tag built with [new] over a payload meeting the contract reads back". *)
Theorem C47_every_id_round_trips_refuted : exists (x : N * N) id bs,
  fst x < 2 ^ 16 /\ snd x < 2 ^ 32 /\
  any_to_bytes test_payload (APayload id x) = Ok bs /\
  fst (any_deserialize test_payload (fun i => i =? id) (create_std_engine true) (RByteArray bs 0)) = Err CorruptedData.
Proof. exists (1, 2), 3, [3; 0; 1; 0; 0; 0; 2]. repeat split; vm_compute; reflexivity. Qed.
Print Assumptions C47_every_id_round_trips_refuted.

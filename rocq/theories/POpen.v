(** User tags inside the containers of the library: C63, C76. *)
From Verif Require Import Base BaseFacts Types Spec SpecFacts IO IOSpec IOFacts WriterFacts Logic WLogic ILInt ILIntFacts Data DataFacts Tags
  SortFacts TagsFacts Factory FactoryFacts DecodeFacts DeserFacts EngineFacts WireFacts FromFacts Payload PPayload Open ClosedFacts KinFacts OpenFacts.

(** The contract of the user types: the values in [ok] are written as a raw tag
    with the bytes [code], [size] is the length of that, and [deserialize_value],
    on any object with the same id and a reader limited to those bytes, reads them
    back.  The factory it gets has enough fuel. *)
Record ucontract {T} (U : user_impl T) (e : engine) (ok : T -> Prop) (code : T -> list N) : Prop := {
  uc_size : forall x, ok x -> let raw := Tag (u_id U x) (VRaw (code x)) in
    wf raw -> lenN (enc raw) < two64 -> u_size U x = lenN (enc raw);
  uc_writes : forall x, ok x -> let raw := Tag (u_id U x) (VRaw (code x)) in
    wf raw -> lenN (enc raw) < two64 -> emits (u_serialize U x) (enc raw);
  uc_bytes : forall x, ok x -> let raw := Tag (u_id U x) (VRaw (code x)) in
    wf raw -> lenN (enc raw) < two64 -> u_to_bytes U x = Ok (enc raw);
  uc_reads : forall x x0 f r rest, ok x -> u_id U x0 = u_id U x ->
    rwf r -> good r -> (left r < f)%nat -> pending r = code x ++ rest ->
    exists r', u_deserialize_value U (o_deserialize_fuel U f e) (lenN (code x)) (x0, RLimited r (lenN (code x)))
                 = (Ok tt, (x, RLimited r' 0)) /\ delivers r (code x) r' }.

(** A type that keeps the provided methods meets it if [serialize_value] writes
    [code] and [value_size] is the length of that. *)
Theorem C63_provided : forall T (id vsize : T -> N) sv dv create e (ok : T -> Prop) (code : T -> list N),
  (forall x, ok x -> vsize x = lenN (code x)) -> (forall x, ok x -> emits (sv x) (code x)) ->
  (forall x x0 f r rest, ok x -> id x0 = id x -> rwf r -> good r -> (left r < f)%nat -> pending r = code x ++ rest ->
   exists r', dv (o_deserialize_fuel (provided id vsize sv dv create) f e) (lenN (code x)) (x0, RLimited r (lenN (code x)))
                = (Ok tt, (x, RLimited r' 0)) /\ delivers r (code x) r') ->
  ucontract (provided id vsize sv dv create) e ok code.
Proof.
  intros T id vsize sv dv create e ok code Hs Hw Hr.
  assert (K : forall x, ok x -> wf (Tag (id x) (VRaw (code x))) -> lenN (enc (Tag (id x) (VRaw (code x)))) < two64 ->
    emits (serialize_with (id x) (vsize x) (sv x)) (enc (Tag (id x) (VRaw (code x))))).
  { intros x Hx [Hi _] L. pose proof (enc_payload_len (id x) (VRaw (code x))) as Lp. rewrite (Hs x Hx).
    cbn [enc encv] in *. apply serialize_with_header; [assumption|lia|now apply Hw]. }
  constructor; cbn [u_id u_size u_serialize u_to_bytes u_deserialize_value provided provided_but]; [| | |exact Hr].
  - intros x Hx [Hi _] L. pose proof (enc_payload_len (id x) (VRaw (code x))) as Lp.
    change (size_with (id x) (vsize x) = lenN (enc (Tag (id x) (VRaw (code x))))). rewrite (Hs x Hx).
    cbn [enc encv] in *. rewrite size_with_header by (assumption || lia). now rewrite lenN_app.
  - exact K.
  - intros x Hx W L. now apply to_bytes_over_spec, K.
Qed.
Print Assumptions C63_provided.

(** The layout of a tree with user tags is that of the tree with raw tags
    holding their bytes instead. *)
Theorem C63_layout : forall T (U : user_impl T) e ok code t,
  ucontract U e ok code -> users ok t -> wf (shadow (u_id U) code t) -> lenN (enc (shadow (u_id U) code t)) < two64 ->
  o_size U t = lenN (enc (shadow (u_id U) code t)) /\
  o_to_bytes U t = Ok (enc (shadow (u_id U) code t)) /\
  emits (o_serialize U t) (enc (shadow (u_id U) code t)) /\
  o_to_bytes U t = to_bytes (shadow (u_id U) code t).
Proof.
  intros T U e ok code t C A W L.
  pose proof (o_to_bytes_spec U ok code (uc_size _ _ _ _ C) (uc_writes _ _ _ _ C) (uc_bytes _ _ _ _ C) t W A L) as Eb.
  split; [|split; [exact Eb|split]].
  - apply (o_size_shadow U ok code (uc_size _ _ _ _ C)); assumption.
  - apply (o_serialize_emits U ok code (uc_size _ _ _ _ C) (uc_writes _ _ _ _ C)); assumption.
  - rewrite Eb. symmetry. now apply to_bytes_spec.
Qed.
Print Assumptions C63_layout.

Theorem C63_round_trip : forall T (U : user_impl T) e ok code t bs r rest,
  engine_ok e -> ucontract U e ok code -> users ok t -> wf (shadow (u_id U) code t) -> readable U e code t ->
  lenN (encv (tag_val (shadow (u_id U) code t))) <= 536870912 ->
  o_to_bytes U t = Ok bs -> rwf r -> good r -> pending r = bs ++ rest ->
  exists r', o_deserialize U e r = (Ok (onorm t), r') /\ delivers r bs r' /\ pending r' = rest.
Proof.
  intros T U e ok code t bs r rest He C A W R L Eb Wr G P.
  pose proof (payload_two64 _ W L) as L2.
  rewrite (o_to_bytes_spec U ok code (uc_size _ _ _ _ C) (uc_writes _ _ _ _ C) (uc_bytes _ _ _ _ C) t W A L2) in Eb. apply Ok_inv in Eb as <-.
  destruct (o_complete U e ok code He (uc_reads _ _ _ _ C) t W A R L (S (left r)) r rest Wr G ltac:(lia) P) as (r' & E & D).
  exists r'. split; [exact E|]. split; [exact D|].
  destruct (pending_delivers _ _ _ G D) as [P' _]. rewrite P in P'. now apply app_inv_head in P'.
Qed.
Print Assumptions C63_round_trip.

(** from_bytes of the same bytes; bytes after them are an error. *)
Theorem C63_from_bytes : forall T (U : user_impl T) e ok code t bs,
  engine_ok e -> ucontract U e ok code -> users ok t -> wf (shadow (u_id U) code t) -> readable U e code t ->
  lenN (encv (tag_val (shadow (u_id U) code t))) <= 536870912 -> o_to_bytes U t = Ok bs ->
  o_from_bytes U e bs = Ok (onorm t) /\
  (forall b rest, bytes_ok (b :: rest) -> o_from_bytes U e (bs ++ b :: rest) = Err CorruptedData).
Proof.
  intros T U e ok code t bs He C A W R L Eb.
  assert (B : bytes_ok bs).
  { pose proof (payload_two64 _ W L) as L2.
    rewrite (o_to_bytes_spec U ok code (uc_size _ _ _ _ C) (uc_writes _ _ _ _ C) (uc_bytes _ _ _ _ C) t W A L2) in Eb. apply Ok_inv in Eb as <-.
    now apply enc_bytes_ok. }
  assert (K : forall rest, bytes_ok rest -> o_from_bytes U e (bs ++ rest) = if lenN rest =? 0 then Ok (onorm t) else Err CorruptedData).
  { intros rest Br. assert (Ba : bytes_ok (bs ++ rest)) by now apply bytes_ok_app.
    destruct (mem_reader _ Ba) as (Wr & G & P).
    destruct (C63_round_trip T U e ok code t bs _ rest He C A W R L Eb Wr G P) as (r' & E & D & _).
    unfold o_from_bytes. rewrite E. apply mem_delivers in D as [-> _]. unfold mem_available. rewrite lenN_app.
    destruct (N.leb_spec (lenN bs) (lenN bs + lenN rest)); [|lia].
    replace (lenN bs + lenN rest - lenN bs) with (lenN rest) by lia. reflexivity. }
  split.
  - pose proof (K [] (Forall_nil _)) as K0. rewrite app_nil_r in K0. exact K0.
  - intros b rest Br. rewrite (K _ Br). rewrite lenN_cons. destruct (N.eqb_spec (1 + lenN rest) 0); [lia|reflexivity].
Qed.
Print Assumptions C63_from_bytes.

(** Into an existing user tag with the same id. *)
Theorem C63_round_trip_into : forall T (U : user_impl T) e ok code x x0 bs r rest,
  ucontract U e ok code -> ok x -> u_id U x < two64 -> bytes_ok (code x) -> u_id U x0 = u_id U x ->
  15 < u_id U x \/ lenN (code x) = implicit_size (u_id U x) -> lenN (code x) <= 536870912 ->
  o_to_bytes U (OUser x) = Ok bs -> rwf r -> good r -> pending r = bs ++ rest ->
  exists r', o_deserialize_into U e r (OUser x0) = (Ok tt, OUser x, r') /\ delivers r bs r' /\ pending r' = rest.
Proof.
  intros T U e ok code x x0 bs r rest C Hx Hi B Hid Sz L Eb W G P.
  assert (Ws : wf (shadow (u_id U) code (OUser x))) by (split; assumption).
  pose proof (payload_two64 _ Ws L) as L2.
  rewrite (o_to_bytes_spec U ok code (uc_size _ _ _ _ C) (uc_writes _ _ _ _ C) (uc_bytes _ _ _ _ C) (OUser x) Ws Hx L2) in Eb. apply Ok_inv in Eb as <-.
  cbn [shadow enc encv] in *. unfold enc_header in *. rewrite <- !app_assoc in P.
  destruct (complete_deserialize_ilint _ _ (ilint_bytes_ok _ Hi) (ilint_repr_ilint _ Hi) r _ W G P) as (r1 & E1 & D1).
  destruct (pending_delivers _ _ _ G D1) as [P1 G1]. destruct (delivers_rwf _ _ _ W D1) as [W1 _].
  rewrite P in P1. apply app_inv_head in P1.
  set (szb := if u_id U x <=? 15 then [] else ilint (lenN (code x))) in *.
  assert (B2 : bytes_ok szb).
  { unfold szb. destruct (u_id U x <=? 15); [constructor|]. apply ilint_bytes_ok. unfold two64. lia. }
  assert (Wz : wire_size (u_id U x) szb (lenN (code x))).
  { unfold szb. destruct (N.leb_spec (u_id U x) 15) as [Hy|Hy].
    - destruct Sz as [Sz|Sz]; [lia|]. rewrite Sz. now constructor.
    - constructor; [lia|]. apply ilint_repr_ilint. unfold two64. lia. }
  destruct (complete_tag_size _ _ _ B2 Wz L r1 _ W1 G1 (eq_sym P1)) as (r2 & E2 & D2).
  destruct (pending_delivers _ _ _ G1 D2) as [P2 G2]. destruct (delivers_rwf _ _ _ W1 D2) as [W2 _].
  rewrite <- P1 in P2. apply app_inv_head in P2.
  destruct (uc_reads _ _ _ _ C x x0 (S (left r2)) r2 rest Hx Hid W2 G2 ltac:(lia) (eq_sym P2)) as (r3 & E3 & D3).
  pose proof (delivers_trans _ _ _ _ _ D1 (delivers_trans _ _ _ _ _ D2 D3)) as D.
  exists r3. split; [|split].
  - unfold o_deserialize_into. rewrite E1. cbn [o_id]. rewrite Hid, N.eqb_refl. cbn [negb]. rewrite E2.
    unfold o_value_into, LimitedReader_new. cbn [o_deserialize_value]. unfold o_run. rewrite E3.
    cbn [limit_empty unlimit N.eqb negb]. now rewrite Bool.andb_false_r.
  - now rewrite <- app_assoc.
  - destruct (pending_delivers _ _ _ G D) as [P3 _]. rewrite P in P3. rewrite <- !app_assoc in P3.
    now repeat apply app_inv_head in P3.
Qed.
Print Assumptions C63_round_trip_into.

(** Whatever the data, the factory terminates and does not panic if the user
    code behaves (OpenFacts.v) and no creator panics. *)
Theorem C63_total : forall T (U : user_impl T) e r,
  behaves False U -> (forall id, u_create U id <> Some None) -> engine_total e -> rwf r ->
  (exists x r', o_deserialize U e r = (x, r') /\ returns x /\ rwf r' /\ (left r' <= left r)%nat) /\
  (forall t, leaf_tag t ->
   exists x t' r', o_deserialize_into U e r t = (x, t', r') /\ returns x /\ rwf r' /\ (left r' <= left r)%nat).
Proof.
  intros T U e r HU Hc Ht W.
  assert (Hc' : forall id, okres False (o_create U e id)).
  { intros id. unfold o_create. specialize (Hc id). destruct (u_create U id) as [[x|]|]; [exact I|congruence|].
    specialize (Ht id). destruct (create_tag e id); cbn in *; auto. }
  split.
  - destruct (o_deserialize U e r) as [x r'] eqn:E. exists x, r'.
    destruct (o_deserialize_safe U e False HU Hc' r x r' W E) as (R & W' & L). split; [reflexivity|].
    split; [destruct x; cbn in *; auto|auto].
  - intros t Hl. destruct (o_deserialize_into U e r t) as [[x t'] r'] eqn:E. exists x, t', r'.
    destruct (o_deserialize_into_safe U e False HU Hc' r t x t' r' Hl W E) as (R & W' & L). split; [reflexivity|].
    split; [destruct x; cbn in *; auto|auto].
Qed.
Print Assumptions C63_total.

(** The other half of the condition on creators: a creator that panics panics the
    factory, on any reader that has a header with its id, before anything of the
    value is read. *)
Theorem C63_creator_panics : forall T (U : user_impl T) e id n idb szb r rest,
  bytes_ok idb -> bytes_ok szb -> ilint_repr id idb -> wire_size id szb n -> n <= 536870912 ->
  rwf r -> good r -> pending r = idb ++ szb ++ rest -> u_create U id = Some None ->
  exists r', o_deserialize U e r = (Panic, r') /\ delivers r (idb ++ szb) r' /\ pending r' = rest.
Proof.
  intros T U e id n idb szb r rest B1 B2 R1 R2 L W G P Hc.
  destruct (complete_deserialize_ilint _ _ B1 R1 r _ W G P) as (r1 & E1 & D1).
  destruct (pending_delivers _ _ _ G D1) as [P1 G1]. destruct (delivers_rwf _ _ _ W D1) as [W1 _].
  rewrite P in P1. apply app_inv_head in P1.
  destruct (complete_tag_size _ _ _ B2 R2 L r1 _ W1 G1 (eq_sym P1)) as (r2 & E2 & D2).
  destruct (pending_delivers _ _ _ G1 D2) as [P2 _]. rewrite <- P1 in P2. apply app_inv_head in P2.
  exists r2. split; [|split; [exact (delivers_trans _ _ _ _ _ D1 D2)|now symmetry]].
  unfold o_deserialize. cbn [o_deserialize_fuel]. rewrite (bind_ok _ _ _ _ _ E1), (bind_ok _ _ _ _ _ E2).
  unfold bind, o_create. now rewrite Hc.
Qed.
Print Assumptions C63_creator_panics.

(** User code cannot make the library accept badly framed data: what was consumed
    is in the wire grammar, with a raw tag in place of each user tag, and the
    bytes of that raw tag are what the user code read.  The user code may only
    read through the reader it is given ([R x bs]: it ended with the value [x]
    having read [bs]) and may not change the id; user types do not take the ids
    of the ILInt tags. *)
Theorem C63_framing : forall T (U : user_impl T) e (R : T -> list N -> Prop) r t r',
  engine_ok e ->
  (forall deser n id x0 r x lr, sound deser (framing U e R) -> rwf r -> u_create U id = Some (Some x0) ->
     u_deserialize_value U deser n (x0, RLimited r n) = (Ok tt, (x, lr)) ->
     exists bs, delivers (RLimited r n) bs lr /\ (lenN bs = n -> R x bs) /\ u_id U x = u_id U x0) ->
  (forall id x, u_create U id = Some (Some x) -> u_id U x <> 10 /\ u_id U x <> 14) ->
  rwf r -> o_deserialize U e r = (Ok t, r') ->
  exists bs s, delivers r bs r' /\ wire (open_mk U e) bs s /\ framed (u_id U) (std_made U e) R t s.
Proof.
  intros T U e R r t r' He HU Hid W E.
  destruct (o_deserialize_fuel_sound U e R He (fun f => HU _) Hid _ r t r' W E) as (bs & (s & Ws & F) & D). eauto.
Qed.
Print Assumptions C63_framing.

(** With no user type the open model is the model of the other properties, on
    every reader, writer and tag, failures included. *)
Theorem C63_conservative : forall T (U : user_impl T) e,
  (forall id, u_create U id = None) ->
  (forall r, o_deserialize U e r = let '(x, r') := deserialize e r in (map_ok emb x, r')) /\
  (forall r t, o_deserialize_into U e r (emb t) = let '(x, t', r') := deserialize_into e r t in (x, emb t', r')) /\
  (forall bs, o_from_bytes U e bs = map_ok emb (from_bytes e bs)).
Proof.
  intros T U e Hn.
  assert (K : forall r, o_deserialize U e r = let '(x, r') := deserialize e r in (map_ok emb x, r')).
  { intros r. unfold o_deserialize, deserialize. now apply o_deserialize_fuel_emb. }
  split; [exact K|]. split; [intros r t; now apply o_deserialize_into_emb|].
  intros bs. unfold o_from_bytes, from_bytes. rewrite K. destruct (deserialize e (ByteArrayReader_new bs)) as [[t|err| |] r'];
    cbn [map_ok]; try reflexivity.
  destruct r'; try reflexivity. destruct (mem_available _ _) as [n|err| |]; try reflexivity.
  now destruct (n =? 0).
Qed.
Print Assumptions C63_conservative.
Theorem C63_conservative_serialize : forall T (U : user_impl T) t,
  o_size U (emb t) = size t /\ (forall w, o_serialize U (emb t) w = serialize t w) /\ o_to_bytes U (emb t) = to_bytes t.
Proof.
  intros T U t. split; [apply o_size_emb|]. split; [apply o_serialize_emb|apply o_to_bytes_emb].
Qed.
Print Assumptions C63_conservative_serialize.

(** *** Payload tags are user types *)
Definition payload_impl_user {T} (P : payload_impl T) (reg : N -> bool) : user_impl (N * T) :=
  payload_user (p_default P) (p_serialized_size P) (p_serialize P) (fun _ => p_deserialize P (fun r => (Panic, r))) reg.
Lemma payload_ucontract {T} (P : payload_impl T) reg e ok code :
  contract P (fun _ r => (Panic, r)) ok code ->
  ucontract (payload_impl_user P reg) e (fun x => ok (snd x)) (fun x => code (snd x)).
Proof.
  intros C. apply C63_provided.
  - intros [i x] H. exact (c_size _ _ _ _ C x H).
  - intros [i x] H. exact (c_writes _ _ _ _ C x H).
  - intros [i x] [i0 x0] f r rest H Hi W G L Pr. cbn in Hi. subst i0. cbn [snd] in *.
    destruct (c_reads _ _ _ _ C x x0 f r rest H W G L Pr) as (r' & E & D). exists r'. split; [|exact D].
    unfold on_snd. now rewrite E.
Qed.
Lemma test_behaves reg : behaves False (payload_impl_user test_payload reg).
Proof.
  split.
  - intros deser n _. cbn. apply (cl_on_snd _ _ closed_kin). cbn [p_deserialize test_payload].
    apply (c_mbind _ _ closed_kin); [apply (cl_check_size _ _ closed_kin)|]. intros _.
    apply (c_mbind _ _ closed_kin); [apply (c_on_reader _ _ closed_kin), (cl_uint _ _ closed_kin W16)|]. intros x.
    apply (c_mbind _ _ closed_kin); [apply (c_modify _ _ closed_kin)|]. intros _.
    apply (c_mbind _ _ closed_kin); [apply (c_on_reader _ _ closed_kin), (cl_uint _ _ closed_kin W32)|]. intros y.
    apply (c_modify _ _ closed_kin).
  - intros b deser n x r m y x' r' _ _ _ W L E. revert E. enough (K : msafe False b (u_deserialize_value (payload_impl_user test_payload reg) deser n)).
    { intros E. exact (K _ (RLimited r m) _ _ _ W L E). }
    cbn. apply msafe_on_snd. cbn [p_deserialize test_payload].
    apply msafe_bind; [apply msafe_check_size|]. intros _.
    apply msafe_bind; [apply msafe_on_reader, safe_rsafe, (safe_deserialize_uint W16)|]. intros a.
    apply msafe_bind; [apply msafe_modify|]. intros _.
    apply msafe_bind; [apply msafe_on_reader, safe_rsafe, (safe_deserialize_uint W32)|]. intros a'. apply msafe_modify.
Qed.
(** A payload tag twice in a tree: in a sequence inside a dictionary, beside
    tags of the library. *)
Definition open_user : user_impl (N * (N * N)) := payload_impl_user test_payload (fun id => id =? 2000).
Definition open_sample : otag (N * (N * N)) :=
  ODict 30 [ ([98], OSeq 22 [OUser (2000, (513, 67305985)); OStd 3 (VUInt W8 7)]);
             ([97], OUser (2000, (1, 2))) ].
Example C63_instance :
  ucontract open_user (create_std_engine false) (fun x => fst (snd x) < wmod W16 /\ snd (snd x) < wmod W32) (fun x => test_code (snd x)) /\
  users (fun x => fst (snd x) < wmod W16 /\ snd (snd x) < wmod W32) open_sample /\
  wf (shadow (u_id open_user) (fun x => test_code (snd x)) open_sample) /\
  readable open_user (create_std_engine false) (fun x => test_code (snd x)) open_sample /\
  o_to_bytes open_user open_sample = Ok
    [30; 31; 2; 17; 1; 97; 249; 6; 216; 6; 0; 1; 0; 0; 0; 2; 17; 1; 98; 22; 12; 249; 6; 216; 6; 2; 1; 4; 3; 2; 1; 3; 7] /\
  fst (o_deserialize open_user (create_std_engine false) (ByteArrayReader_new
    [30; 31; 2; 17; 1; 97; 249; 6; 216; 6; 0; 1; 0; 0; 0; 2; 17; 1; 98; 22; 12; 249; 6; 216; 6; 2; 1; 4; 3; 2; 1; 3; 7])) =
    Ok (ODict 30 [ ([97], OUser (2000, (1, 2)));
                   ([98], OSeq 22 [OUser (2000, (513, 67305985)); OStd 3 (VUInt W8 7)]) ]).
Proof.
  split; [exact (payload_ucontract _ _ _ _ _ (test_contract _))|].
  split; [repeat split; reflexivity|].
  split.
  { cbn. split; [reflexivity|]. split; [|split].
    - repeat constructor; cbn; intuition discriminate.
    - repeat constructor; exists [98] + exists [97]; (split; [repeat constructor; left; reflexivity|reflexivity]).
    - repeat split; try reflexivity; repeat constructor. }
  split.
  { cbn -[lenN N.pow]. repeat split; try reflexivity; try (left; reflexivity); try (exists (2000, (0, 0)); now split). right; left; reflexivity. }
  split; vm_compute; reflexivity.
Qed.
Example C63_total_instance : behaves False open_user /\ (forall id, u_create open_user id <> Some None) /\
  engine_total (create_std_engine true).
Proof.
  split; [apply test_behaves|]. split; [|apply std_engine_total].
  intros id. cbn. destruct (id =? 2000); discriminate.
Qed.
(** A creator that panics for the id 2000, of its own and inside a sequence; the
    bytes after the header are not looked at. *)
Example C63_creator_panics_instance :
  let U := {| u_id := u_id open_user; u_size := u_size open_user; u_serialize := u_serialize open_user;
              u_to_bytes := u_to_bytes open_user; u_deserialize_value := u_deserialize_value open_user;
              u_create := fun id => if id =? 2000 then Some None else None |} in
  let r := ByteArrayReader_new [249; 6; 216; 6; 0; 1; 0; 0; 0; 2] in
  ilint_repr 2000 [249; 6; 216] /\ wire_size 2000 [6] 6 /\ u_create U 2000 = Some None /\
  (rwf r /\ good r /\ pending r = [249; 6; 216] ++ [6] ++ [0; 1; 0; 0; 0; 2]) /\
  fst (o_deserialize U (create_std_engine false) (ByteArrayReader_new [22; 10; 249; 6; 216; 6; 0; 1; 0; 0; 0; 2])) = Panic /\
  fst (o_deserialize U (create_std_engine false) (ByteArrayReader_new [22; 4; 249; 7; 216; 0])) = Ok (OSeq 22 [OStd 2256 (VRaw [])]).
Proof.
  split; [exact (repr_long [6; 216] ltac:(vm_compute; split; discriminate) ltac:(reflexivity))|].
  split; [apply size_explicit; [reflexivity|now apply repr_short]|]. split; [reflexivity|].
  split; [apply mem_reader; repeat constructor|]. split; vm_compute; reflexivity.
Qed.
Example C63_framing_instance :
  (forall deser n id x0 r x lr, sound deser (framing open_user (create_std_engine false) (fun x bs => bs = test_code (snd x))) -> rwf r ->
     u_create open_user id = Some (Some x0) -> u_deserialize_value open_user deser n (x0, RLimited r n) = (Ok tt, (x, lr)) ->
     exists bs, delivers (RLimited r n) bs lr /\ (lenN bs = n -> bs = test_code (snd x)) /\ u_id open_user x = u_id open_user x0) /\
  (forall id x, u_create open_user id = Some (Some x) -> u_id open_user x <> 10 /\ u_id open_user x <> 14).
Proof.
  split.
  - intros deser n id [i0 x0] r x lr _ W _ H. cbn [u_deserialize_value open_user payload_impl_user payload_user] in H.
    unfold open_user, payload_impl_user, payload_user, provided, provided_but, u_deserialize_value, on_snd in H.
    destruct (p_deserialize test_payload _ n (x0, RLimited r n)) as [y [x1 lr1]] eqn:E. injection H as -> <- <-.
    cbn [p_deserialize test_payload] in E.
    apply bind_inv_ok in E as (u & [s1 r1] & E1 & E). apply check_size_ok in E1 as (_ & -> & ->).
    apply bind_inv_ok in E as (a & [s2 r2] & E2 & E). apply on_reader_ok in E2 as [E2 ->].
    apply bind_inv_ok in E as (u3 & [s3 r3] & E3 & E). apply modify_ok in E3 as (_ & -> & ->).
    apply bind_inv_ok in E as (b & [s4 r4] & E4 & E). apply on_reader_ok in E4 as [E4 ->].
    apply modify_ok in E as (_ & -> & ->).
    destruct (sound_deserialize_uint W16 (RLimited r n) _ _ W E2) as (ba & (-> & La) & Da).
    destruct (delivers_rwf (RLimited r n) _ _ W Da) as [Wa Ba].
    destruct (sound_deserialize_uint W32 _ _ _ Wa E4) as (bb & (-> & Lb) & Db).
    destruct (delivers_rwf _ _ _ Wa Db) as [_ Bb].
    exists (ba ++ bb). split; [eapply delivers_trans; eauto|]. split; [intros _|reflexivity].
    cbn [fst snd]. unfold test_code. cbn [fst snd]. f_equal; symmetry.
    + change (length ba = 2%nat) in La. rewrite <- La. now apply be_bytes_be_value.
    + change (length bb = 4%nat) in Lb. rewrite <- Lb. now apply be_bytes_be_value.
  - intros id x. cbn. destruct (N.eqb_spec id 2000) as [->|]; [|discriminate]. intros [= <-]. cbn. split; discriminate.
Qed.

(** ** C76: user types that override the provided methods *)
(** Whatever [size] and [serialize] a user type has, a container says the sum of
    what its items say and writes them one after the other. *)
Theorem C76_layout : forall T (U : user_impl T) (ok : T -> Prop) wr t,
  (forall x, ok x -> emits (u_serialize U x) (wr x)) -> fits (u_size U) t -> users ok t ->
  o_size U t = declared (u_size U) t /\
  emits (o_serialize U t) (laid (u_size U) wr t) /\
  (of_library t -> o_to_bytes U t = Ok (laid (u_size U) wr t)).
Proof.
  intros T U ok wr t Hw F A. pose proof (o_serialize_laid U ok wr Hw t F A) as Em.
  split; [now apply o_size_declared|]. split; [exact Em|].
  destruct t; intros H; try exact (to_bytes_over_spec _ _ Em). contradiction.
Qed.
Print Assumptions C76_layout.

(** The size of a tree is wrong by as much as the sizes of its user tags are,
    all together: no other tag adds to the error or hides it. *)
Lemma laid_declared {T} (dsz : T -> N) wr (t : otag T) :
  lenN (laid dsz wr t) + nsum (map dsz (user_tags t)) = declared dsz t + nsum (map (fun x => lenN (wr x)) (user_tags t)).
Proof.
  assert (K : forall {X} (f : X -> otag T) (l : list X) (p : X -> list N),
    Forall (fun e => lenN (laid dsz wr (f e)) + nsum (map dsz (user_tags (f e)))
                     = declared dsz (f e) + nsum (map (fun x => lenN (wr x)) (user_tags (f e)))) l ->
    lenN (concat (map (fun e => p e ++ laid dsz wr (f e)) l)) + nsum (map dsz (flat_map (fun e => user_tags (f e)) l))
    = nsum (map (fun e => lenN (p e) + declared dsz (f e)) l)
      + nsum (map (fun x => lenN (wr x)) (flat_map (fun e => user_tags (f e)) l))).
  { intros X f l p. induction 1 as [|e l He H IH]; cbn [map concat flat_map nsum fold_right]; [reflexivity|].
    rewrite !map_app, !nsum_app, !lenN_app. fold (nsum (map (fun e => lenN (p e) + declared dsz (f e)) l)). lia. }
  induction t as [id v|x|id l IH|id l IH|id l IH] using otag_induction; cbn [laid declared user_tags].
  - reflexivity.
  - cbn [map nsum fold_right]. lia.
  - cbv zeta. pose proof (K _ (fun t => t) l (fun _ => []) IH) as E. cbn [app] in E. rewrite lenN_nil in E.
    rewrite lenN_app. change (map (fun e => 0 + declared dsz e) l) with (map (declared dsz) l) in E.
    change (fun e => laid dsz wr e) with (laid dsz wr) in E. change (fun e : otag T => user_tags e) with (@user_tags T) in E. lia.
  - cbv zeta. pose proof (K _ (fun t => t) l (fun _ => []) IH) as E. cbn [app] in E. rewrite lenN_nil in E.
    rewrite !lenN_app. change (map (fun e => 0 + declared dsz e) l) with (map (declared dsz) l) in E.
    change (fun e => laid dsz wr e) with (laid dsz wr) in E. change (fun e : otag T => user_tags e) with (@user_tags T) in E. lia.
  - cbv zeta. pose proof (K _ snd l (fun e => enc_string (fst e)) IH) as E.
    rewrite (sort_entries_map (laid dsz wr) l), map_map, !lenN_app. cbn [fst snd].
    rewrite <- (lenN_concat_perm (fun e => enc_string (fst e) ++ laid dsz wr (snd e)) l) by apply sort_entries_perm. lia.
Qed.
Theorem C76_size_error : forall T (U : user_impl T) (ok : T -> Prop) wr t w w',
  (forall x, ok x -> emits (u_serialize U x) (wr x)) -> fits (u_size U) t -> users ok t -> wwf w ->
  o_serialize U t w = (Ok tt, w') ->
  exists bs, puts w bs w' /\
  lenN bs + nsum (map (u_size U) (user_tags t)) = o_size U t + nsum (map (fun x => lenN (wr x)) (user_tags t)).
Proof.
  intros T U ok wr t w w' Hw F A W E. destruct (C76_layout T U ok wr t Hw F A) as (Es & Em & _).
  destruct (Em w _ _ W E) as (_ & (p & _ & P & Ep) & _). exists p. split; [exact P|]. rewrite (Ep eq_refl), Es. apply laid_declared.
Qed.
Print Assumptions C76_size_error.

(** What a container writes: its head, then its items in order, each after some
    bytes (the key, in a dictionary). *)
Definition frame {T} (dsz : T -> N) (t : otag T) : option (list N * list (list N * otag T)) :=
  match t with
  | OStd _ _ | OUser _ => None
  | OSeq id l => Some (enc_header id (nsum (map (declared dsz) l)), map (fun t => ([], t)) l)
  | OArr id l =>
      Some (enc_header id (lenN (ilint (lenN l)) + nsum (map (declared dsz) l)) ++ ilint (lenN l), map (fun t => ([], t)) l)
  | ODict id l =>
      Some (enc_header id (lenN (ilint (lenN l)) + nsum (map (fun e => lenN (enc_string (fst e)) + declared dsz (snd e)) l))
            ++ ilint (lenN l), map (fun e => (enc_string (fst e), snd e)) (sort_entries l))
  end.
Lemma emits_step {E} (m : writer -> res E unit * writer) bs n w : emits m bs -> accepts n w -> lenN bs <= n ->
  exists w1, puts w bs w1 /\ accepts (n - lenN bs) w1 /\ forall k : writer -> res E unit * writer, (m ;;; k) w = k w1.
Proof.
  intros Em A L. destruct (m w) as [x w1] eqn:E1.
  destruct (Em w x w1 (accepts_wwf _ _ A) E1) as (_ & (p & _ & P & Ep) & B).
  assert (x = Ok tt) as -> by (apply B; eapply accepts_le; eauto). rewrite (Ep eq_refl) in P.
  exists w1. split; [exact P|]. split; [now apply accepts_puts with w|]. intros k. unfold bind. now rewrite E1.
Qed.
Lemma for_each_step {E X} (l1 l2 : list X) x (f : X -> writer -> res E unit * writer) g n w :
  Forall (fun x => emits (f x) (g x)) l1 -> accepts n w -> lenN (concat (map g l1)) <= n ->
  exists w1, puts w (concat (map g l1)) w1 /\ accepts (n - lenN (concat (map g l1))) w1 /\
    for_each (l1 ++ x :: l2) f w = (f x ;;; for_each l2 f) w1.
Proof.
  intros F. revert n w. induction F as [|y l1 Hy F IH]; intros n w A L; cbn [map concat app for_each fold_right] in *.
  - exists w. rewrite lenN_nil, N.sub_0_r. split; [apply puts_refl, (accepts_wwf _ _ A)|]. split; [exact A|reflexivity].
  - rewrite lenN_app in L. destruct (emits_step (f y) (g y) n w Hy A ltac:(lia)) as (w1 & P1 & A1 & E1).
    destruct (IH (n - lenN (g y)) w1 A1 ltac:(lia)) as (w2 & P2 & A2 & E2). exists w2.
    split; [eapply puts_trans; eauto using accepts_wwf|]. rewrite lenN_app.
    replace (n - (lenN (g y) + lenN (concat (map g l1)))) with (n - lenN (g y) - lenN (concat (map g l1))) by lia.
    split; [exact A2|]. rewrite E1. exact E2.
Qed.
Lemma serialize_with_step id n sv m w : id < two64 -> n < two64 -> accepts m w -> lenN (enc_header id n) <= m ->
  exists w1, puts w (enc_header id n) w1 /\ accepts (m - lenN (enc_header id n)) w1 /\ serialize_with id n sv w = sv w1.
Proof.
  intros Hi Hn A L. assert (Em : emits (serialize_with id n (ret tt)) (enc_header id n)).
  { rewrite <- (app_nil_r (enc_header id n)). apply serialize_with_header; auto using emits_ret. }
  destruct (emits_step _ _ m w Em A L) as (w1 & P & A1 & K). exists w1. split; [exact P|]. split; [exact A1|].
  rewrite <- K. unfold serialize_with, serialize_over. unfold bind, ret.
  destruct (serialize_ilint id w) as [[u| | |] w2]; try reflexivity.
  destruct ((if is_implicit_tag id then _ else _) w2) as [[u'| | |] w3]; reflexivity.
Qed.

Lemma Some_pair_inv {A B} (a a' : A) (b b' : B) : Some (a, b) = Some (a', b') -> a = a' /\ b = b'.
Proof. intros H. now injection H. Qed.

(** The first item that fails: nothing after it is written, its error is the
    error of the container, and the writer is as the item left it. *)
Theorem C76_first_failure : forall T (U : user_impl T) (ok : T -> Prop) wr t h i1 p c i2 w,
  (forall x, ok x -> emits (u_serialize U x) (wr x)) -> fits (u_size U) t ->
  frame (u_size U) t = Some (h, i1 ++ (p, c) :: i2) -> Forall (fun i => users ok (snd i)) i1 ->
  let before := h ++ concat (map (fun i => fst i ++ laid (u_size U) wr (snd i)) i1) ++ p in
  accepts (lenN before) w ->
  exists w1, puts w before w1 /\
    forall y w', o_serialize U c w1 = (y, w') -> y <> Ok tt -> o_serialize U t w = (y, w').
Proof.
  intros T U ok wr t h i1 p c i2 w Hw F Ef A before Acc. subst before. rewrite !lenN_app in Acc.
  set (lay := laid (u_size U) wr) in *.
  assert (Stop : forall (m k : writer -> res tag_error unit * writer) w1 y w', m w1 = (y, w') -> y <> Ok tt -> (m ;;; k) w1 = (y, w')).
  { intros m k w1 y w' E N. unfold bind. rewrite E. destruct y as [[]| | |]; congruence. }
  assert (Items : forall l, i1 ++ (p, c) :: i2 = map (fun t => ([], t)) l -> all (fits (u_size U)) l ->
    forall w0, accepts (lenN (concat (map (fun i => fst i ++ lay (snd i)) i1)) + lenN p) w0 ->
    exists w1, puts w0 (concat (map (fun i => fst i ++ lay (snd i)) i1) ++ p) w1 /\
      forall y w', o_serialize U c w1 = (y, w') -> y <> Ok tt -> for_each l (o_serialize U) w0 = (y, w')).
  { intros l El Fl w0 A0. symmetry in El. apply map_eq_app in El as (l1 & l' & -> & E1 & E2).
    apply map_eq_cons in E2 as (c' & l2 & -> & E2 & _). apply pair_inv in E2 as [<- <-].
    apply all_Forall, Forall_app in Fl as [Fl _]. subst i1. rewrite Forall_map in A. rewrite map_map in *. cbn [fst snd app] in *.
    rewrite lenN_nil, N.add_0_r in A0. rewrite app_nil_r.
    assert (Fe : Forall (fun t => emits (o_serialize U t) (lay t)) l1).
    { rewrite Forall_forall in *. intros t' Ht. apply (o_serialize_laid U ok wr Hw); auto. }
    destruct (for_each_step l1 l2 c' (o_serialize U) lay _ w0 Fe A0 (N.le_refl _)) as (w1 & P1 & A1 & E1).
    exists w1. split; [exact P1|]. intros y w' E N. rewrite E1. now apply Stop. }
  destruct t as [id v|x|id l|id l|id l]; cbn [frame] in Ef; try discriminate; apply Some_pair_inv in Ef as [<- Ef]; cbn [fits] in F.
  - destruct F as (Hi & Hn & Fl). cbn [o_serialize]. rewrite items_size_declared by exact Fl.
    destruct (serialize_with_step id (nsum (map (declared (u_size U)) l)) (for_each l (o_serialize U)) _ w Hi Hn Acc ltac:(lia)) as (w1 & P1 & A1 & E1).
    destruct (Items l (eq_sym Ef) Fl w1) as (w2 & P2 & E2); [eapply accepts_le; [|exact A1]; lia|].
    exists w2. split; [eapply puts_trans; eauto using accepts_wwf|]. rewrite E1. exact E2.
  - destruct F as (Hi & Hc & Hn & Fl). cbn [o_serialize]. rewrite items_size_declared, <- lenN_ilint_lt by assumption.
    rewrite lenN_app in Acc.
    destruct (serialize_with_step id (lenN (ilint (lenN l)) + nsum (map (declared (u_size U)) l)) (serialize_ilint (lenN l) ;;; for_each l (o_serialize U)) _ w Hi Hn Acc
      ltac:(lia)) as (w1 & P1 & A1 & E1).
    destruct (emits_step (serialize_ilint (lenN l)) (ilint (lenN l)) _ w1 (emits_serialize_ilint _ Hc) A1 ltac:(lia)) as (w2 & P2 & A2 & E2).
    destruct (Items l (eq_sym Ef) Fl w2) as (w3 & P3 & E3); [eapply accepts_le; [|exact A2]; lia|].
    exists w3. split; [|rewrite E1, E2; exact E3].
    eapply puts_trans; [eapply accepts_wwf; eauto| |exact P3]. eapply puts_trans; eauto using accepts_wwf.
  - destruct F as (Hi & Hc & D & Hk & Hn & Fl). cbn [o_serialize]. cbv zeta.
    rewrite entries_size_declared, <- lenN_ilint_lt by assumption. rewrite lenN_app in Acc.
    match goal with |- context [serialize_with id ?n ?sv w] =>
      destruct (serialize_with_step id n sv _ w Hi Hn Acc) as (w1 & P1 & A1 & E1) end.
    { lia. }
    destruct (emits_step (serialize_ilint (lenN l)) (ilint (lenN l)) _ w1 (emits_serialize_ilint _ Hc) A1 ltac:(lia)) as (w2 & P2 & A2 & E2).
    rewrite E1, E2.
    assert (In1 : forall e, In e (sort_entries l) -> In e l).
    { intros e He. eapply Permutation.Permutation_in; [symmetry; apply sort_entries_perm|exact He]. }
    assert (Ke : forall w0, for_each (sort_unstable (map fst l)) (fun key =>
        match hm_get key (map (fun e => (fst e, o_serialize U (snd e))) l) with
        | Some value => serialize_string_tag_from_value key ;;; value | None => fail UnableToSerialize end) w0
      = for_each (sort_entries l) (fun e => serialize_string_tag_from_value (fst e) ;;; o_serialize U (snd e)) w0).
    { intros w0. rewrite sort_unstable_entries. apply for_each_ext. apply Forall_forall. intros [k t] He w3. cbn [fst snd].
      rewrite (hm_get_map (o_serialize U)), (hm_get_in k t l D) by now apply In1. reflexivity. }
    rewrite Ke.
    symmetry in Ef. revert Ef. generalize (sort_entries l) as s, In1. intros s In2 Es. symmetry in Es.
    apply map_eq_app in Es as (l1 & s' & -> & E3 & E4).
    apply map_eq_cons in E4 as ([k c'] & l2 & -> & E4 & _). cbn [fst snd] in E4. apply pair_inv in E4 as [<- <-].
    subst i1. rewrite Forall_map in A. rewrite map_map in *. cbn [fst snd] in *.
    assert (Hl1 : forall e, In e l1 -> In e l) by (intros e He; apply In2, in_or_app; auto).
    apply all_Forall in Fl. rewrite Forall_forall in *.
    assert (Fe : Forall (fun e => emits (serialize_string_tag_from_value (fst e) ;;; o_serialize U (snd e)) (enc_string (fst e) ++ lay (snd e))) l1).
    { apply Forall_forall. intros e He. apply emits_bind; [apply emits_serialize_string; auto|].
      apply (o_serialize_laid U ok wr Hw); auto. }
    destruct (for_each_step l1 l2 (k, c') (fun e => serialize_string_tag_from_value (fst e) ;;; o_serialize U (snd e))
      (fun e => enc_string (fst e) ++ lay (snd e)) _ w2 Fe A2 ltac:(lia)) as (w3 & P3 & A3 & E3).
    assert (Hk' : lenN k < two64) by (apply (Hk (k, c')), In2, in_or_app; right; now left).
    cbn [fst snd] in E3.
    destruct (emits_step _ _ _ w3 (emits_serialize_string k Hk') A3 ltac:(lia)) as (w4 & P4 & A4 & E5).
    exists w4. split.
    { rewrite <- !app_assoc. pose proof (accepts_wwf _ _ Acc). pose proof (accepts_wwf _ _ A1). pose proof (accepts_wwf _ _ A2).
      pose proof (accepts_wwf _ _ A3). eapply puts_trans; [assumption|exact P1|]. eapply puts_trans; [assumption|exact P2|].
      eapply puts_trans; eassumption. }
    intros y w' E N. rewrite E3. apply Stop; [|exact N]. rewrite E5. exact E.
Qed.
Print Assumptions C76_first_failure.

(** A type that overrides is_implicity and keeps the rest: its answer, not the
    id, decides whether the size is written and counted. *)
Theorem C76_is_implicity : forall T imp (id vsize : T -> N) sv dv create x bs, let U := provided_but imp id vsize sv dv create in
  id x < two64 -> vsize x < two64 -> emits (sv x) bs ->
  u_size U x = lenN (ilint (id x)) + (if imp x then 0 else lenN (ilint (vsize x))) + vsize x /\
  emits (u_serialize U x) (ilint (id x) ++ (if imp x then [] else ilint (vsize x)) ++ bs) /\
  u_to_bytes U x = Ok (ilint (id x) ++ (if imp x then [] else ilint (vsize x)) ++ bs).
Proof.
  intros T imp id vsize sv dv create x bs U Hi Hn Em.
  assert (K : emits (u_serialize U x) (ilint (id x) ++ (if imp x then [] else ilint (vsize x)) ++ bs)).
  { apply emits_bind; [now apply emits_serialize_ilint|]. apply emits_bind; [|exact Em].
    destruct (imp x); [apply emits_ret|now apply emits_serialize_ilint]. }
  split; [|split; [exact K|now apply to_bytes_over_spec]].
  cbn [U u_size provided_but]. unfold size_over. rewrite !lenN_ilint_lt by assumption. destruct (imp x); lia.
Qed.
Print Assumptions C76_is_implicity.

(** User tags that write seven bytes whatever size they say, and 0 cannot be
    written: in a tree, sizes that are wrong make bytes that are not read back. *)
Definition liar : user_impl N := {|
  u_id := fun _ => 3000; u_size := fun x => x;
  u_serialize := fun x => if x =? 0 then fail TagTooLarge else serialize_with 3000 3 (serialize_bytes [1; 2; 3]);
  u_to_bytes := fun _ => Err UnableToSerialize;
  u_deserialize_value := fun _ n => bs <- on_reader (deserialize_bytes n) ;; modify (fun _ => 7);
  u_create := fun id => if id =? 3000 then Some (Some 7) else None |}.
Definition liars (x : N) : otag N := OArr 21 [OUser x; ODict 30 [([97], OUser 7)]; OStd 3 (VUInt W8 7)].
Example C76_instance :
  (forall x, x <> 0 -> emits (u_serialize liar x) (enc (Tag 3000 (VRaw [1; 2; 3])))) /\
  (forall x, x < 1000 -> x <> 0 -> fits (u_size liar) (liars x) /\ users (fun x => x <> 0) (liars x)) /\
  user_tags (liars 9) = [9; 7].
Proof.
  split.
  - intros x Hx. cbn [u_serialize liar]. destruct (N.eqb_spec x 0); [contradiction|].
    apply (serialize_with_header 3000 3 (serialize_bytes [1; 2; 3]) [1; 2; 3]); [reflexivity..|apply emits_serialize_bytes].
  - split; [|reflexivity]. intros x L N0. split.
    + cbn [fits liars all]. cbn [map nsum fold_right declared liar u_size fst snd].
      replace (lenN (enc (Tag 3 (VUInt W8 7)))) with 2 by reflexivity.
      match goal with |- context [lenN (enc_header 30 ?n) + ?n] => replace (lenN (enc_header 30 n) + n) with 13 by reflexivity end.
      split; [reflexivity|]. split; [reflexivity|]. split; [change (lenN (ilint _)) with 1; unfold two64; lia|].
      split; [exact I|]. split; [|split; [|exact I]].
      * split; [reflexivity|]. split; [reflexivity|]. split; [repeat constructor; intros []|].
        split; [repeat constructor|]. split; [reflexivity|]. split; exact I.
      * split; [|reflexivity]. split; reflexivity.
    + cbn. repeat split; (assumption || discriminate).
Qed.
Example C76_cases :
  let e := create_std_engine false in
  let tree x := o_to_bytes liar (liars x) in
  tree 7 = Ok [21; 23; 3; 249; 10; 192; 3; 1; 2; 3; 30; 11; 1; 17; 1; 97; 249; 10; 192; 3; 1; 2; 3; 3; 7] /\
  o_size liar (liars 7) = 25 /\
  o_from_bytes liar e [21; 23; 3; 249; 10; 192; 3; 1; 2; 3; 30; 11; 1; 17; 1; 97; 249; 10; 192; 3; 1; 2; 3; 3; 7] = Ok (liars 7) /\
  (* too large by two *)
  tree 9 = Ok [21; 25; 3; 249; 10; 192; 3; 1; 2; 3; 30; 11; 1; 17; 1; 97; 249; 10; 192; 3; 1; 2; 3; 3; 7] /\
  o_size liar (liars 9) = 27 /\
  o_from_bytes liar e [21; 25; 3; 249; 10; 192; 3; 1; 2; 3; 30; 11; 1; 17; 1; 97; 249; 10; 192; 3; 1; 2; 3; 3; 7] = Err CorruptedData /\
  (* too small by two *)
  o_from_bytes liar e [21; 21; 3; 249; 10; 192; 3; 1; 2; 3; 30; 11; 1; 17; 1; 97; 249; 10; 192; 3; 1; 2; 3; 3; 7] = Err (TagIO UnableToReadData) /\
  tree 5 = Ok [21; 21; 3; 249; 10; 192; 3; 1; 2; 3; 30; 11; 1; 17; 1; 97; 249; 10; 192; 3; 1; 2; 3; 3; 7] /\
  (* the second entry, in key order, fails *)
  (match o_serialize liar (ODict 30 [([98], OUser 0); ([97], OUser 7); ([99], OUser 7)]) VecWriter_new with
   | (Err TagTooLarge, WVec v _ _) => v = [30; 24; 3; 17; 1; 97; 249; 10; 192; 3; 1; 2; 3; 17; 1; 98] | _ => False end) /\
  (* implicit with an id above 15 *)
  (let U := provided_but (fun _ => true) (fun _ : N => 3000) (fun _ => 3) (fun _ => serialize_bytes [1; 2; 3])
              (fun _ n => bs <- on_reader (deserialize_bytes n) ;; modify (fun _ => 7)) (fun id => if id =? 3000 then Some (Some 7) else None) in
   u_size U 7 = 6 /\ u_to_bytes U 7 = Ok [249; 10; 192; 1; 2; 3] /\ o_from_bytes U e [249; 10; 192; 1; 2; 3] = Err CorruptedData).
Proof. vm_compute. repeat split. Qed.

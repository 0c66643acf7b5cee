(** Properties of deserialization: C25, C26, C27, C28, C29, C45.

    [wire mk] (Spec.v) is the grammar of the ILTags format for a factory that
    builds the struct [mk id] for the wire id [id]; [mk_of e] reads [mk] off the
    engine's [create_tag].  [engine_ok e]: the creators registered in [e] build
    values of Rust's types (a u64 id, well-formed contents); [engine_total e]:
    they do not panic.  Both hold of the standard engine and of every engine made
    of the library's creators (see C38, PEngine.v). *)
From Verif Require Import Base BaseFacts Types Spec SpecFacts IO IOSpec IOFacts Logic ILInt ILIntFacts Data Tags
  SortFacts TagsFacts SameFacts Factory FactoryFacts DecodeFacts DeserFacts IntoFacts EngineFacts WireFacts StableFacts FromFacts PTags.

Lemma sample_standard : standard false sample.
Proof. cbn. repeat split; auto; right; repeat split; lia. Qed.
(** ** C25.  Round trip. *)
Theorem C25_round_trip : forall e t bs r rest,
  engine_ok e -> wf t -> conforms (mk_of e) t -> lenN (encv (tag_val t)) <= 536870912 ->
  to_bytes t = Ok bs -> rwf r -> good r -> pending r = bs ++ rest ->
  exists t' r', deserialize e r = (Ok t', r') /\ same_tag t t' /\ kind_of (tag_val t') = kind_of (tag_val t) /\
    delivers r bs r' /\ pending r' = rest /\ lenN bs = size t.
Proof.
  intros e t bs r rest He W C L E Wr G P.
  pose proof (payload_size_u64 t L W) as Lu. rewrite (to_bytes_spec t W Lu) in E. injection E as <-.
  pose proof (enc_wire _ t W C L) as Hw.
  destruct (deserialize_complete e He _ _ (enc_bytes_ok t W Lu) Hw r rest Wr G P) as (r' & E & D).
  exists (norm t), r'. repeat split; auto.
  - apply same_norm.
  - destruct t. apply kind_of_norm.
  - destruct (pending_delivers _ _ _ G D) as [P' _]. rewrite P in P'. now apply app_inv_head in P'.
  - symmetry. now apply size_spec.
Qed.
Print Assumptions C25_round_trip.
Theorem C25_round_trip_standard : forall strict t bs r rest,
  wf t -> standard strict t -> lenN (encv (tag_val t)) <= 536870912 ->
  to_bytes t = Ok bs -> rwf r -> good r -> pending r = bs ++ rest ->
  exists t' r', deserialize (create_std_engine strict) r = (Ok t', r') /\ same_tag t t' /\
    kind_of (tag_val t') = kind_of (tag_val t) /\ delivers r bs r' /\ pending r' = rest /\ lenN bs = size t.
Proof.
  intros strict t bs r rest W S L. apply C25_round_trip; auto using std_engine_ok.
  eapply (conforms_ext (standard_mk strict)); [intros; symmetry; apply mk_of_std|]. now apply standard_conforms.
Qed.
Print Assumptions C25_round_trip_standard.
Theorem C25_from_bytes : forall e t bs,
  engine_ok e -> wf t -> conforms (mk_of e) t -> lenN (encv (tag_val t)) <= 536870912 -> to_bytes t = Ok bs ->
  exists t', from_bytes e bs = Ok t' /\ same_tag t t'.
Proof.
  intros e t bs He W C L E. pose proof (payload_size_u64 t L W) as Lu. rewrite (to_bytes_spec t W Lu) in E. injection E as <-.
  exists (norm t). split; [|apply same_norm]. apply from_bytes_iff; auto using enc_bytes_ok, enc_wire.
Qed.
Print Assumptions C25_from_bytes.
Example C25_instance :
  (wf sample /\ standard false sample /\ lenN (encv (tag_val sample)) <= 536870912) /\
  fst (deserialize (create_std_engine false) (RRead (sample_bytes ++ [9; 9]) [Chunk 1; Interrupt; Chunk 5])) =
    Ok (Tag 30 (VDict [([97], Tag 1000 (VRaw [1; 2; 3]));
                       ([98], Tag 21 (VArr [Tag 3 (VUInt W8 7); Tag 10 (VILInt 300)]))])).
Proof.
  split; [split; [apply sample_wf|split; [apply sample_standard|vm_compute; congruence]]|].
  vm_compute. reflexivity.
Qed.

(** ** C26.  The deserializer accepts exactly the grammar. *)
Theorem C26_accepts_exactly_the_grammar : forall e r t bs,
  engine_ok e -> rwf r -> good r ->
  ((exists r', deserialize e r = (Ok t, r') /\ delivers r bs r')
   <-> wire (mk_of e) bs t /\ exists rest, pending r = bs ++ rest).
Proof. exact accepts_iff. Qed.
Print Assumptions C26_accepts_exactly_the_grammar.
(** Also on readers that fail now and then: a success is always justified. *)
Theorem C26_success_on_any_reader : forall e r t r',
  engine_ok e -> rwf r -> deserialize e r = (Ok t, r') ->
  exists bs, wire (mk_of e) bs t /\ delivers r bs r' /\ bytes_ok bs /\ wf t.
Proof.
  intros e r t r' He W E. destruct (deserialize_sound e He _ _ _ W E) as (bs & Hw & D).
  destruct (delivers_rwf _ _ _ W D) as [_ B]. exists bs. repeat split; auto.
  eapply wire_wf; eauto. now apply engine_mk_ok.
Qed.
Print Assumptions C26_success_on_any_reader.
Theorem C26_standard_factory : forall strict r t bs,
  rwf r -> good r ->
  ((exists r', deserialize (create_std_engine strict) r = (Ok t, r') /\ delivers r bs r')
   <-> wire (standard_mk strict) bs t /\ exists rest, pending r = bs ++ rest).
Proof.
  intros strict r t bs W G. rewrite <- wire_std. now apply accepts_iff; [apply std_engine_ok| |].
Qed.
Print Assumptions C26_standard_factory.
(** A sequence holding an ILInt and a raw tag with a non-minimal id; a bad boolean. *)
Example C26_instance :
  fst (deserialize (create_std_engine false)
         (RSeek (Seekable [22; 8; 10; 248; 7; 249; 0; 0; 1; 9; 1] 0 [Chunk 2] [None]))) =
    Ok (Tag 22 (VSeq [Tag 10 (VILInt 255); Tag 248 (VRaw [9])])) /\
  fst (deserialize (create_std_engine false) (RVec [1; 2] 0)) = Err CorruptedData.
Proof. vm_compute. auto. Qed.

(** ** C27.  No tag is a prefix of another. *)
Theorem C27_prefix_free : forall e bs t p k,
  engine_ok e -> bytes_ok bs -> from_bytes e bs = Ok t -> bs = p ++ k -> k <> [] ->
  (forall t', from_bytes e p <> Ok t') /\
  (forall r t' r', rwf r -> good r -> pending r = p -> deserialize e r <> (Ok t', r')).
Proof.
  intros e bs t p k He B F -> Hk. apply (from_bytes_iff e _ t He B) in F.
  assert (K : forall q t' rest, wire (mk_of e) q t' -> p = q ++ rest -> False).
  { intros q t' rest Hq ->. 
    assert (B0 : bytes_ok (((q ++ rest) ++ k) ++ [])) by now rewrite app_nil_r.
    destruct (wire_det e _ _ _ _ [] (rest ++ k) He B0 F Hq) as [E _].
    { now rewrite app_nil_r, app_assoc. }
    apply (f_equal lenN) in E. rewrite !lenN_app in E. destruct k as [|x k]; [now apply Hk|]. rewrite lenN_cons in E. lia. }
  split.
  - intros t' F'. apply bytes_ok_app in B as [B _]. apply (from_bytes_iff e _ t' He B) in F'.
    apply (K p t' []); [exact F'|]. now rewrite app_nil_r.
  - intros r t' r' W G P E. destruct (deserialize_sound e He _ _ _ W E) as (q & Hq & D).
    destruct (pending_delivers _ _ _ G D) as [P' _]. rewrite P in P'. exact (K q t' _ Hq P').
Qed.
Print Assumptions C27_prefix_free.
Theorem C27_from_bytes : forall e bs, engine_ok e -> bytes_ok bs ->
  (forall t, from_bytes e bs = Ok t <-> exists r', deserialize e (ByteArrayReader_new bs) = (Ok t, r') /\
                                          delivers (ByteArrayReader_new bs) bs r') /\
  (forall t r' p, deserialize e (ByteArrayReader_new bs) = (Ok t, r') -> delivers (ByteArrayReader_new bs) p r' ->
     p <> bs -> from_bytes e bs = Err CorruptedData) /\
  (forall err r', deserialize e (ByteArrayReader_new bs) = (Err err, r') -> from_bytes e bs = Err err).
Proof.
  intros e bs He B. destruct (mem_reader _ B) as (W & G & P). split; [|split].
  - intros t. rewrite (from_bytes_iff e bs t He B). rewrite accepts_iff by assumption. rewrite P.
    split; [intros H; split; [exact H|exists []; now rewrite app_nil_r]|tauto].
  - intros t r' p E D Hp. destruct (proj1 (accepts_iff e _ t p He W G) (ex_intro _ r' (conj E D))) as [Hw (rest & Ep)].
    rewrite P in Ep. destruct (from_bytes_eq e bs He B) as [F _]. rewrite (F t p rest Hw Ep).
    destruct rest; [|reflexivity]. rewrite app_nil_r in Ep. congruence.
  - intros err r' E. unfold from_bytes. now rewrite E.
Qed.
Print Assumptions C27_from_bytes.
Example C27_instance :
  from_bytes (create_std_engine false) sample_bytes <> Err CorruptedData /\
  from_bytes (create_std_engine false) (sample_bytes ++ [0]) = Err CorruptedData /\
  from_bytes (create_std_engine false) (takeN 23 sample_bytes) = Err (TagIO EndOfData).
Proof. vm_compute. repeat split; congruence. Qed.

(** ** C28.  Termination and no panics. *)
Theorem C28_total : forall e r, engine_ok e -> engine_total e -> rwf r ->
  exists x r', deserialize e r = (x, r') /\ ((exists t, x = Ok t) \/ (exists err, x = Err err)) /\
    rwf r' /\ (left r' <= left r)%nat.
Proof.
  intros e r He Ht W. destruct (deserialize e r) as [x r'] eqn:E. exists x, r'. split; [reflexivity|].
  destruct (deserialize_safe e He Ht _ _ _ W E) as (R & W' & L). split; [|auto]. destruct x; try contradiction; eauto.
Qed.
Print Assumptions C28_total.
Theorem C28_standard_factory : forall strict r, rwf r ->
  exists x r', deserialize (create_std_engine strict) r = (x, r') /\ ((exists t, x = Ok t) \/ (exists err, x = Err err)) /\
    rwf r' /\ (left r' <= left r)%nat.
Proof. intros strict r W. apply C28_total; auto using std_engine_ok, std_engine_total. Qed.
Print Assumptions C28_standard_factory.
(** Nested calls (and loop iterations, whose fuel is the same) are bounded by the
    bytes left in the reader: more fuel changes nothing. *)
Theorem C28_depth_bounded_by_input : forall e r fuel, engine_ok e -> rwf r -> (left r < fuel)%nat ->
  deserialize_fuel fuel e r = deserialize e r /\ fst (deserialize e r) <> OutOfFuel.
Proof.
  intros e r fuel He W L. split; [now apply deserialize_fuel_eq|].
  destruct (deserialize e r) as [x r'] eqn:E. exact (deserialize_terminates e r x r' He W E).
Qed.
Print Assumptions C28_depth_bounded_by_input.
Theorem C28_from_bytes : forall strict bs, bytes_ok bs ->
  (exists t, from_bytes (create_std_engine strict) bs = Ok t) \/ (exists err, from_bytes (create_std_engine strict) bs = Err err).
Proof.
  intros strict bs B. pose proof (from_bytes_returns _ bs (std_engine_ok strict) (std_engine_total strict) B) as R.
  destruct (from_bytes _ bs); try contradiction; eauto.
Qed.
Print Assumptions C28_from_bytes.
Example C28_instance :
  fst (deserialize (create_std_engine true) (RCustom [inr 21; inr 250; inl EndOfData; inr 0])) = Err (TagIO EndOfData) /\
  from_bytes (create_std_engine true) (repeat 22 200) = Err (TagIO UnableToReadData).
Proof. vm_compute. auto. Qed.

(** ** C29.  Decode, encode, decode. *)
Theorem C29_stable : forall e r t r', engine_ok e -> keeps_ids (mk_of e) -> rwf r -> deserialize e r = (Ok t, r') ->
  exists bs bs2 t2, delivers r bs r' /\ to_bytes t = Ok bs2 /\ lenN bs2 <= lenN bs /\
    from_bytes e bs2 = Ok t2 /\ same_tag t t2 /\ to_bytes t2 = Ok bs2.
Proof.
  intros e r t r' He Hk W E. destruct (deserialize_sound e He _ _ _ W E) as (bs & Hw & D).
  destruct (delivers_rwf _ _ _ W D) as [_ B]. pose proof (engine_mk_ok e He) as Hm.
  pose proof (wire_wf _ _ _ Hm Hw B) as Wt. destruct (stable_all _ Hm Hk) as (St & _). destruct (St _ _ Hw B) as (L & C & Lp).
  pose proof (payload_size_u64 t Lp Wt) as Lu.
  exists bs, (enc t), (norm t). repeat split; auto.
  - now apply to_bytes_spec.
  - apply from_bytes_iff; auto using enc_bytes_ok. now apply enc_wire.
  - apply same_norm.
  - rewrite <- (enc_norm t Wt). apply to_bytes_spec; [now apply wf_norm|]. now rewrite enc_norm.
Qed.
Print Assumptions C29_stable.
Theorem C29_standard_factory : forall strict r t r', rwf r -> deserialize (create_std_engine strict) r = (Ok t, r') ->
  exists bs bs2 t2, delivers r bs r' /\ to_bytes t = Ok bs2 /\ lenN bs2 <= lenN bs /\
    from_bytes (create_std_engine strict) bs2 = Ok t2 /\ same_tag t t2 /\ to_bytes t2 = Ok bs2.
Proof.
  intros strict r t r'. apply C29_stable; [apply std_engine_ok|].
  intros wid id k H. rewrite mk_of_std in H. now apply (standard_keeps_ids strict) in H.
Qed.
Print Assumptions C29_standard_factory.
Example C29_instance :
  from_bytes (create_std_engine false) [20; 5; 1; 250; 0; 0; 7] = Ok (Tag 20 (VILIntArray [255])) /\
  to_bytes (Tag 20 (VILIntArray [255])) = Ok [20; 3; 1; 248; 7].
Proof. vm_compute. auto. Qed.

(** ** C45.  The reader does not matter. *)
Theorem C45_reader_independent : forall e r1 r2, engine_ok e ->
  rwf r1 -> good r1 -> rwf r2 -> good r2 -> pending r1 = pending r2 ->
  (forall t r1', deserialize e r1 = (Ok t, r1') ->
     exists r2' bs, deserialize e r2 = (Ok t, r2') /\ delivers r1 bs r1' /\ delivers r2 bs r2' /\
       pending r1' = pending r2') /\
  ((exists t, fst (deserialize e r1) = Ok t) <-> (exists t, fst (deserialize e r2) = Ok t)).
Proof.
  assert (K : forall e r1 r2, engine_ok e -> rwf r1 -> good r1 -> rwf r2 -> good r2 -> pending r1 = pending r2 ->
    forall t r1', deserialize e r1 = (Ok t, r1') ->
     exists r2' bs, deserialize e r2 = (Ok t, r2') /\ delivers r1 bs r1' /\ delivers r2 bs r2' /\ pending r1' = pending r2').
  { intros e r1 r2 He W1 G1 W2 G2 P t r1' E. destruct (deserialize_sound e He _ _ _ W1 E) as (bs & Hw & D).
    destruct (pending_delivers _ _ _ G1 D) as [P1 _]. destruct (delivers_rwf _ _ _ W1 D) as [_ B].
    rewrite P in P1. destruct (deserialize_complete e He bs t B Hw r2 _ W2 G2 P1) as (r2' & E2 & D2).
    exists r2', bs. repeat split; auto. destruct (pending_delivers _ _ _ G2 D2) as [P2 _].
    rewrite P1 in P2. now apply app_inv_head in P2. }
  intros e r1 r2 He W1 G1 W2 G2 P. split; [now apply K|].
  split; intros [t E].
  - destruct (deserialize e r1) as [x r1'] eqn:E1. cbn [fst] in E. subst x.
    destruct (K e r1 r2 He W1 G1 W2 G2 P t r1' E1) as (r2' & bs & E2 & _). rewrite E2. exists t. reflexivity.
  - destruct (deserialize e r2) as [x r2'] eqn:E2. cbn [fst] in E. subst x.
    destruct (K e r2 r1 He W2 G2 W1 G1 (eq_sym P) t r2' E2) as (r1' & bs & E1 & _). rewrite E1. exists t. reflexivity.
Qed.
Print Assumptions C45_reader_independent.
Example C45_instance :
  fst (deserialize (create_std_engine false) (RRead sample_bytes [Chunk 3; Interrupt; Chunk 1]))
  = fst (deserialize (create_std_engine false) (RLimited (RCustom (map inr (sample_bytes ++ [1]))) 24)) /\
  is_ok (fst (deserialize (create_std_engine false) (RVec (7 :: sample_bytes) 1))) = true.
Proof. vm_compute. auto. Qed.

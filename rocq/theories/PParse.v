(** Properties of deserialization against a reference parser: C61, C62.

    [ParseSpec.parse] is a parser over lists of bytes, without readers, limits or
    targets.  It says what every byte string holds or what is wrong with it. *)
From Verif Require Import Base BaseFacts Types Spec SpecFacts IO IOSpec IOFacts Logic ILInt ILIntFacts Data Tags
  SortFacts TagsFacts SameFacts Factory FactoryFacts DecodeFacts DeserFacts IntoFacts EngineFacts WireFacts StableFacts FromFacts
  MonoFacts PErrors ParseSpec ParseFacts.

(** The error that reports each flaw other than missing data. *)
Definition reported (f : flaw) : option tag_error :=
  match f with
  | Short => None
  | Invalid => Some CorruptedData
  | Overflow => Some (TagIO IoCorruptedData)
  | TooLarge => Some TagTooLarge
  | Unknown => Some UnknownTag
  | Unexpected => Some UnexpectedTagType
  | Steps => None
  end.
Lemma tag_flaw_reported f e : tag_error_of f e -> f <> Short -> reported f = Some e.
Proof. destruct f; cbn; try congruence; contradiction. Qed.

(** ** C61.  deserialize *)
(** For every factory whose creators do not panic and every reader: the tag, or
    the error, that the reference parser finds in the bytes of the reader, and
    the reader left where the parser stopped. *)
Theorem C61_deserialize : forall e r x r', engine_ok e -> engine_total e -> rwf r -> good r ->
  deserialize e r = (x, r') ->
  match parse (mk_of e) (pending r) with
  | (inl t, rest) => x = Ok t /\ pending r' = rest /\ exists bs, delivers r bs r' /\ pending r = bs ++ rest
  | (inr f, rest) =>
      f <> Steps /\
      (f = Short -> exists i, x = Err (TagIO i) /\ no_data i) /\
      (forall err, reported f = Some err ->
         x = Err err /\ pending r' = rest /\ exists bs, delivers r bs r' /\ pending r = bs ++ rest)
  end.
Proof.
  intros e r x r' Ho Ht W G E. pose proof (deserialize_followed e r x r' Ho Ht W G E) as K. unfold followed in K.
  pose proof (parse_settles (mk_of e) (pending r)) as Q.
  destruct (parse (mk_of e) (pending r)) as [[t|f] rest]; cbn [fst] in Q.
  - destruct K as [-> T]. pose proof (took_rest _ _ _ T) as P. auto.
  - destruct K as (err & -> & He & T). split; [intros ->; now apply Q|]. split.
    + intros ->. destruct He as (i & -> & Hi). eauto.
    + intros err' Hr. assert (Hf : f <> Short) by (intros ->; discriminate).
      pose proof (tag_flaw_reported f err He Hf) as R. rewrite R in Hr. injection Hr as <-.
      specialize (T Hf). pose proof (took_rest _ _ _ T) as P. auto.
Qed.
Print Assumptions C61_deserialize.
(** deserialize_into, for any target. *)
Theorem C61_deserialize_into : forall e r t x t' r', engine_ok e -> engine_total e -> rwf r -> good r -> wf t ->
  deserialize_into e r t = (x, t', r') ->
  match parse_into (mk_of e) (tag_id t) (kind_of (tag_val t)) (pending r) with
  | (inl a, rest) => x = Ok tt /\ t' = a /\ pending r' = rest /\ exists bs, delivers r bs r' /\ pending r = bs ++ rest
  | (inr f, rest) =>
      f <> Steps /\
      (f = Short -> exists i, x = Err (TagIO i) /\ no_data i) /\
      (forall err, reported f = Some err ->
         x = Err err /\ pending r' = rest /\ exists bs, delivers r bs r' /\ pending r = bs ++ rest)
  end.
Proof.
  intros e r t x t' r' Ho Ht W G Wt E. pose proof (deserialize_into_followed e r t x t' r' Ho Ht W G Wt E) as K.
  pose proof (parse_into_settles (mk_of e) (tag_id t) (kind_of (tag_val t)) (pending r)) as Q.
  destruct (parse_into _ _ _ (pending r)) as [[a|f] rest]; cbn [fst] in Q.
  - destruct K as (-> & -> & T). pose proof (took_rest _ _ _ T) as P. auto.
  - destruct K as (err & -> & He & T). split; [intros ->; now apply Q|]. split.
    + intros ->. destruct He as (i & -> & Hi). eauto.
    + intros err' Hr. assert (Hf : f <> Short) by (intros ->; discriminate).
      pose proof (tag_flaw_reported f err He Hf) as R. rewrite R in Hr. injection Hr as <-.
      specialize (T Hf). pose proof (took_rest _ _ _ T) as P. auto.
Qed.
Print Assumptions C61_deserialize_into.
(** from_bytes: a function of the parser's outcome. *)
Theorem C61_from_bytes : forall e bs, engine_ok e -> engine_total e -> bytes_ok bs ->
  match parse (mk_of e) bs with
  | (inl t, []) => from_bytes e bs = Ok t
  | (inl _, _ :: _) => from_bytes e bs = Err CorruptedData
  | (inr f, _) =>
      (f = Short -> from_bytes e bs = Err (TagIO EndOfData) \/ from_bytes e bs = Err (TagIO UnableToReadData)) /\
      (f <> Short -> exists err, reported f = Some err /\ from_bytes e bs = Err err)
  end.
Proof.
  intros e bs Ho Ht B. destruct (mem_reader _ B) as (W & G & P).
  unfold from_bytes. destruct (deserialize e (ByteArrayReader_new bs)) as [x r'] eqn:E.
  pose proof (deserialize_followed e _ x r' Ho Ht W G E) as K. unfold followed in K. rewrite P in K.
  destruct (parse (mk_of e) bs) as [[t|f] rest].
  - destruct K as [-> (b & D & Eq)]. apply mem_delivers in D as [-> _]. unfold mem_available.
    subst bs. rewrite lenN_app. destruct rest as [|c rest].
    + rewrite lenN_nil. destruct (N.leb_spec (lenN b) (lenN b + 0)); [|lia].
      replace (lenN b + 0 - lenN b) with 0 by lia. reflexivity.
    + rewrite lenN_cons. destruct (N.leb_spec (lenN b) (lenN b + (1 + lenN rest))); [|lia].
      destruct (N.eqb_spec (lenN b + (1 + lenN rest) - lenN b) 0); [lia|reflexivity].
  - destruct K as (err & -> & He & _). split.
    + intros ->. destruct He as (i & -> & Hi).
      destruct (deserialize_rel e _ _ [] _ _ _ _ Ho W G W G (eq_sym (app_nil_r _)) E E) as [(j & Ej & H)|(_ & F & _)].
      * injection Ej as <-. destruct H as [->|H]; [now right|]. cbn [ByteArrayReader_new runs_out] in H. destruct H as [->| ->]; auto.
      * exfalso. cbn in F. unfold decided in F. destruct Hi as [->|[->| ->]]; intuition discriminate.
    + intros Hf. exists err. split; [now apply tag_flaw_reported|reflexivity].
Qed.
Print Assumptions C61_from_bytes.
(** What the parser accepts is what the grammar of [Spec.wire] describes. *)
Theorem C61_grammar : forall e l t rest, engine_ok e -> engine_total e -> bytes_ok l ->
  (parse (mk_of e) l = (inl t, rest) <-> exists bs, l = bs ++ rest /\ wire (mk_of e) bs t).
Proof.
  intros e l t rest Ho Ht B. destruct (mem_reader _ B) as (W & G & P). split.
  - intros E. destruct (deserialize e (ByteArrayReader_new l)) as [x r'] eqn:D.
    pose proof (C61_deserialize e _ _ _ Ho Ht W G D) as K. rewrite P, E in K. destruct K as (-> & _ & bs & Db & ->).
    exists bs. split; [reflexivity|].
    exact (proj1 (proj1 (accepts_iff e _ t bs Ho W G) (ex_intro _ r' (conj D Db)))).
  - intros (bs & -> & Hw). pose proof (proj1 (bytes_ok_app _ _) B) as [Bs _].
    destruct (deserialize_complete e Ho bs t Bs Hw _ rest W G P) as (r' & E & D).
    pose proof (C61_deserialize e _ _ _ Ho Ht W G E) as K. rewrite P in K.
    destruct (pending_delivers _ _ _ G D) as [P' _]. rewrite P in P'. apply app_inv_head in P'.
    destruct (parse (mk_of e) (bs ++ rest)) as [[t1|f] l1].
    + destruct K as (K & K2 & _). injection K as <-. congruence.
    + destruct K as (Nf & K1 & K2). exfalso. destruct f; try (now elim Nf); try (destruct (K2 _ eq_refl) as [K _]; discriminate).
      destruct (K1 eq_refl) as (i & K & _). discriminate.
Qed.
Print Assumptions C61_grammar.
(** Every flaw occurs: a short buffer, a boolean of 2, an overlong ILInt, a size
    above the limit, an unknown id; and the reader stops after the part that was
    refused. *)
Example C61_instance :
  let mk := mk_of (create_std_engine true) in
  parse mk [22; 5; 1; 1; 2; 7; 0; 99] = (inl (Tag 22 (VSeq [Tag 1 (VBool true); Tag 2 (VSInt W8 7); Tag 0 VNull])), [99]) /\
  parse mk [22; 5; 1; 1; 2; 7] = (inr Short, []) /\
  parse mk [22; 5; 1; 2; 2; 7; 0] = (inr Invalid, [2; 7; 0]) /\
  parse mk [10; 255; 255; 255; 255; 255; 255; 255; 255; 255; 4] = (inr Overflow, [4]) /\
  parse mk [17; 251; 32; 0; 0; 0; 65] = (inr TooLarge, [65]) /\
  parse mk [21; 4; 1; 77; 0; 0; 3] = (inr Unknown, [0; 3]) /\
  parse_into mk 17 KString [16; 1; 65] = (inr Unexpected, [1; 65]) /\
  parse_into mk 17 KString [17; 1; 65; 8] = (inl (Tag 17 (VString [65])), [8]) /\
  from_bytes (create_std_engine true) [21; 4; 1; 77; 0; 0; 3] = Err UnknownTag /\
  deserialize (create_std_engine true) (RVec [22; 5; 1; 2; 2; 7; 0] 0) = (Err CorruptedData, RVec [22; 5; 1; 2; 2; 7; 0] 4) /\
  engine_ok (create_std_engine true) /\ engine_total (create_std_engine true).
Proof.
  cbv zeta. split; [vm_compute; reflexivity|]. split; [vm_compute; reflexivity|]. split; [vm_compute; reflexivity|].
  split; [vm_compute; reflexivity|]. split; [vm_compute; reflexivity|]. split; [vm_compute; reflexivity|].
  split; [vm_compute; reflexivity|]. split; [vm_compute; reflexivity|]. split; [vm_compute; reflexivity|].
  split; [vm_compute; reflexivity|]. split; [apply std_engine_ok|apply std_engine_total].
Qed.

(** ** C62.  Readers that fail *)
Lemma tag_says_reported f e : tag_says f e -> reported f = Some e.
Proof. destruct f; cbn; try congruence; contradiction. Qed.
(** Whatever errors the reader raises, and whenever: deserialize returns one of
    them, or the error of a limit that was too small, or exactly what the
    reference parser finds in the bytes of the reader.  It never turns a failure
    of the reader into a tag or into another error. *)
Theorem C62_deserialize : forall e r x r', engine_ok e -> engine_total e -> rwf r ->
  deserialize e r = (x, r') ->
  (exists i, x = Err (TagIO i) /\ (i = UnableToReadData \/ faults r i)) \/
  match parse (mk_of e) (pending r) with
  | (inl t, rest) => x = Ok t /\ pending r' = rest /\ exists bs, delivers r bs r' /\ pending r = bs ++ rest
  | (inr f, rest) => exists err, reported f = Some err /\ x = Err err /\ pending r' = rest /\
      exists bs, delivers r bs r' /\ pending r = bs ++ rest
  end.
Proof.
  intros e r x r' Ho Ht W E. destruct (deserialize_run e r x r' Ho Ht W E) as [(i & -> & Hi & _)|K]; [left; eauto|right].
  unfold precise in K. destruct (parse (mk_of e) (pending r)) as [[t|f] rest].
  - destruct K as [-> T]. pose proof (took_rest _ _ _ T) as P. auto.
  - destruct K as (err & -> & He & T). pose proof (took_rest _ _ _ T) as P. exists err. auto using tag_says_reported.
Qed.
Print Assumptions C62_deserialize.
Theorem C62_deserialize_into : forall e r t x t' r', engine_ok e -> engine_total e -> rwf r -> wf t ->
  deserialize_into e r t = (x, t', r') ->
  (exists i, x = Err (TagIO i) /\ (i = UnableToReadData \/ faults r i)) \/
  match parse_into (mk_of e) (tag_id t) (kind_of (tag_val t)) (pending r) with
  | (inl a, rest) => x = Ok tt /\ t' = a /\ pending r' = rest /\ exists bs, delivers r bs r' /\ pending r = bs ++ rest
  | (inr f, rest) => exists err, reported f = Some err /\ x = Err err /\ pending r' = rest /\
      exists bs, delivers r bs r' /\ pending r = bs ++ rest
  end.
Proof.
  intros e r t x t' r' Ho Ht W Wt E. destruct (deserialize_into_run e r t x t' r' Ho Ht W Wt E) as [(i & -> & Hi & _)|K]; [left; eauto|right].
  unfold precise_into in K. destruct (parse_into _ _ _ (pending r)) as [[a|f] rest].
  - destruct K as (-> & -> & T). pose proof (took_rest _ _ _ T) as P. auto.
  - destruct K as (err & -> & He & T). pose proof (took_rest _ _ _ T) as P. exists err. auto using tag_says_reported.
Qed.
Print Assumptions C62_deserialize_into.
(** A stream that breaks in the middle of a sequence; a flaw met before the break
    is still reported; a custom reader whose error passes through two limits. *)
Example C62_instance :
  let broken l := RRead l [Chunk 2; Interrupt; Chunk 3; Chunk 1; Chunk 1; Fail (OtherKind 7)] in
  let e := create_std_engine true in
  faults (broken []) (IOErrorStd (OtherKind 7)) /\
  fst (deserialize e (broken [22; 5; 1; 1; 2; 7; 0])) = Err (TagIO (IOErrorStd (OtherKind 7))) /\
  fst (deserialize e (broken [22; 5; 1; 2; 2; 7; 0])) = Err CorruptedData /\
  fst (deserialize e (broken [22; 2; 1; 1; 0])) = Ok (Tag 22 (VSeq [Tag 1 (VBool true)])) /\
  fst (deserialize e (RCustom [inr 22; inr 5; inr 21; inr 3; inl EndOfData; inr 1; inr 7])) = Err (TagIO EndOfData) /\
  fst (deserialize e (RCustom [inr 22; inr 5; inr 21; inr 3; inl IoCorruptedData; inr 1; inr 7])) = Err (TagIO IoCorruptedData).
Proof.
  cbv zeta. split; [right; exists (OtherKind 7); split; [cbn; tauto|reflexivity]|].
  split; [vm_compute; reflexivity|]. split; [vm_compute; reflexivity|]. split; [vm_compute; reflexivity|].
  split; vm_compute; reflexivity.
Qed.

(** deserialize and from_bytes against the grammar. *)
From Verif Require Import Base BaseFacts Types Spec SpecFacts IO IOSpec IOFacts Logic ILInt ILIntFacts Data Tags TagsFacts
  Factory FactoryFacts DecodeFacts DeserFacts IntoFacts EngineFacts WireFacts StableFacts.

Lemma mem_reader bs : bytes_ok bs ->
  rwf (ByteArrayReader_new bs) /\ good (ByteArrayReader_new bs) /\ pending (ByteArrayReader_new bs) = bs.
Proof.
  intros B. unfold ByteArrayReader_new. cbn [rwf good pending]. repeat split; auto; try apply N.le_0_l. apply dropN_0.
Qed.
Lemma mem_delivers a bs r' : delivers (ByteArrayReader_new a) bs r' ->
  r' = RByteArray a (lenN bs) /\ exists rest, a = bs ++ rest.
Proof.
  unfold ByteArrayReader_new. destruct r'; cbn [delivers]; try contradiction. intros (-> & -> & rest & E).
  rewrite dropN_0 in E. split; [reflexivity|]. exists rest. exact E.
Qed.

(** Accepting on a well-behaved reader is being in the grammar. *)
Lemma accepts_iff e r t bs : engine_ok e -> rwf r -> good r ->
  ((exists r', deserialize e r = (Ok t, r') /\ delivers r bs r') <-> (wire (mk_of e) bs t /\ prefix bs (pending r))).
Proof.
  intros He W G. split.
  - intros (r' & E & D). destruct (deserialize_sound e He _ _ _ W E) as (bs' & Hw & D').
    destruct (pending_delivers _ _ _ G D) as [P _]. destruct (pending_delivers _ _ _ G D') as [P' _].
    assert (bs' = bs) as ->.
    { pose proof (delivers_left _ _ _ D). pose proof (delivers_left _ _ _ D').
      rewrite P in P'. apply app_eq_app_len in P'; [now destruct P'|unfold lenN; lia]. }
    split; [exact Hw|]. now exists (pending r').
  - intros [Hw (rest & P)].
    pose proof (bytes_ok_pending _ W) as B. rewrite P in B. apply bytes_ok_app in B as [B _].
    exact (deserialize_complete e He bs t B Hw r rest W G P).
Qed.

(** The grammar is prefix-free and unambiguous. *)
Lemma wire_det e bs t bs' t' k k' : engine_ok e -> bytes_ok (bs ++ k) ->
  wire (mk_of e) bs t -> wire (mk_of e) bs' t' -> bs ++ k = bs' ++ k' -> bs = bs' /\ t = t'.
Proof.
  intros He B H H' E.
  destruct (mem_reader _ B) as (W & G & P). 
  pose proof B as B'. rewrite E in B'. apply bytes_ok_app in B as [B _]. apply bytes_ok_app in B' as [B' _].
  destruct (deserialize_complete e He bs t B H _ k W G P) as (r1 & E1 & D1).
  rewrite E in P at 2.
  destruct (deserialize_complete e He bs' t' B' H' _ k' W G P) as (r2 & E2 & D2).
  rewrite E1 in E2. injection E2 as <- <-. split; [|reflexivity].
  pose proof (delivers_left _ _ _ D1). pose proof (delivers_left _ _ _ D2).
  apply app_eq_app_len in E; [now destruct E|unfold lenN; lia].
Qed.

Lemma from_bytes_eq e bs : engine_ok e -> bytes_ok bs ->
  (forall t p rest, wire (mk_of e) p t -> bs = p ++ rest ->
     from_bytes e bs = match rest with [] => Ok t | _ => Err CorruptedData end) /\
  (forall t, from_bytes e bs = Ok t -> wire (mk_of e) bs t).
Proof.
  intros He B. destruct (mem_reader _ B) as (W & G & P). split.
  - intros t p rest H ->. destruct (proj1 (bytes_ok_app _ _) B) as [Bp _].
    destruct (deserialize_complete e He p t Bp H _ rest W G P) as (r' & E & D).
    apply mem_delivers in D as [-> _]. unfold from_bytes. rewrite E. unfold mem_available.
    rewrite lenN_app. destruct rest as [|x rest].
    + rewrite lenN_nil. destruct (N.leb_spec (lenN p) (lenN p + 0)); [|lia].
      replace (lenN p + 0 - lenN p) with 0 by lia. reflexivity.
    + rewrite lenN_cons. destruct (N.leb_spec (lenN p) (lenN p + (1 + lenN rest))); [|lia].
      destruct (N.eqb_spec (lenN p + (1 + lenN rest) - lenN p) 0); [lia|reflexivity].
  - intros t H. unfold from_bytes in H. destruct (deserialize e (ByteArrayReader_new bs)) as [x r'] eqn:E.
    destruct x as [t1|err| |]; try discriminate.
    destruct (deserialize_sound e He _ _ _ W E) as (p & Hw & D).
    apply mem_delivers in D as [-> (rest & ->)]. unfold mem_available in H. rewrite lenN_app in H.
    destruct (lenN p <=? lenN p + lenN rest); [|discriminate].
    destruct (N.eqb_spec (lenN p + lenN rest - lenN p) 0) as [Z|]; [|discriminate]. injection H as <-.
    destruct rest as [|y rest]; [now rewrite app_nil_r|]. rewrite lenN_cons in Z. lia.
Qed.
Lemma from_bytes_iff e bs t : engine_ok e -> bytes_ok bs -> (from_bytes e bs = Ok t <-> wire (mk_of e) bs t).
Proof.
  intros He B. destruct (from_bytes_eq e bs He B) as [H1 H2]. split; [apply H2|].
  intros H. apply (H1 t bs []); [exact H|]. now rewrite app_nil_r.
Qed.
Lemma from_bytes_returns e bs : engine_ok e -> engine_total e -> bytes_ok bs -> returns (from_bytes e bs).
Proof.
  intros He Ht B. destruct (mem_reader _ B) as (W & G & P). unfold from_bytes.
  destruct (deserialize e (ByteArrayReader_new bs)) as [x r'] eqn:E.
  destruct (deserialize_safe e He Ht _ _ _ W E) as (R & _ & _). destruct x as [t|err| |]; try contradiction; [|exact I].
  destruct (deserialize_sound e He _ _ _ W E) as (p & Hw & D).
  apply mem_delivers in D as [-> (rest & ->)]. unfold mem_available. rewrite lenN_app.
  destruct (N.leb_spec (lenN p) (lenN p + lenN rest)); [|lia]. destruct (_ =? 0); exact I.
Qed.

(** ** Round trip *)
Lemma payload_size_u64 t : lenN (encv (tag_val t)) <= 536870912 -> wf t -> lenN (enc t) < two64.
Proof.
  destruct t as [id v]. cbn [tag_val enc]. intros L [Hi W]. unfold enc_header. rewrite !lenN_app.
  pose proof (ilint_repr_len _ _ (ilint_repr_ilint id Hi)).
  assert (H2 : lenN (encv v) < two64) by (unfold two64; lia).
  pose proof (ilint_repr_len _ _ (ilint_repr_ilint _ H2)).
  destruct (id <=? 15); rewrite ?lenN_nil; unfold two64; lia.
Qed.

(** Properties of the bytes taken from a stream: C65, C66, C67. *)
From Verif Require Import Base BaseFacts Types Spec SpecFacts IO IOSpec IOFacts Logic ILInt ILIntFacts Data DataFacts Tags
  SortFacts TagsFacts SameFacts PTags Factory FactoryFacts DecodeFacts DeserFacts IntoFacts EngineFacts WireFacts StableFacts FromFacts PDecode
  MonoFacts PErrors ParseSpec ParseFacts PParse ClosedFacts ConsumeFacts SettleFacts.

(** ** C65.  The extent of a call *)
(** Whatever the outcome and whatever the reader, failing ones included: the call
    took less than a header, or a header and at most as many bytes as it
    declares.  A success always took a whole header. *)
Theorem C65_deserialize : forall e r x r', rwf r -> deserialize e r = (x, r') ->
  exists bs, moved (is_ok x) r bs r' /\ lenN bs <= 536870930 /\
    ((is_ok x = false /\ lenN bs <= 18) \/
     exists wid n idb szb body, bs = idb ++ szb ++ body /\ ilint_repr wid idb /\ wire_size wid szb n /\
       n <= 536870912 /\ lenN body <= n).
Proof.
  intros e r x r' W H. destruct (deserialize_extent e r x r' W H) as (bs & M & X). exists bs.
  split; [exact M|]. split; [exact (extent_len _ _ X)|exact X].
Qed.
Print Assumptions C65_deserialize.
Theorem C65_deserialize_into : forall e r t x t' r', rwf r -> deserialize_into e r t = (x, t', r') ->
  exists bs, moved (is_ok x) r bs r' /\ lenN bs <= 536870930 /\
    ((is_ok x = false /\ lenN bs <= 18) \/
     exists wid n idb szb body, bs = idb ++ szb ++ body /\ ilint_repr wid idb /\ wire_size wid szb n /\
       n <= 536870912 /\ lenN body <= n).
Proof.
  intros e r t x t' r' W H. destruct (deserialize_into_extent e r t x t' r' W H) as (bs & M & X). exists bs.
  split; [exact M|]. split; [exact (extent_len _ _ X)|exact X].
Qed.
Print Assumptions C65_deserialize_into.
Theorem C65_string : forall r x r', rwf r -> deserialize_string_tag_from_value r = (x, r') ->
  exists bs, moved (is_ok x) r bs r' /\ lenN bs <= 536870930 /\
    ((is_ok x = false /\ lenN bs <= 18) \/
     exists wid n idb szb body, bs = idb ++ szb ++ body /\ ilint_repr wid idb /\ wire_size wid szb n /\
       n <= 536870912 /\ lenN body <= n).
Proof.
  intros r x r' W H. destruct (string_extent r x r' W H) as (bs & M & X). exists bs.
  split; [exact M|]. split; [exact (extent_len _ _ X)|exact X].
Qed.
Print Assumptions C65_string.
(** What this means for a stream: its data after the call is its data before
    without at most 536870930 bytes at the front. *)
Theorem C65_stream : forall e data sched x r', bytes_ok data -> deserialize e (RRead data sched) = (x, r') ->
  exists bs data' sched', r' = RRead data' sched' /\ data = bs ++ data' /\ lenN bs <= 536870930.
Proof.
  intros e data sched x r' B H. destruct (C65_deserialize e (RRead data sched) x r' B H) as (bs & M & L & _).
  destruct r'; cbn [moved] in M; try contradiction. eauto 6.
Qed.
Print Assumptions C65_stream.
(** A sequence of 4 bytes whose second tag is cut by a failure of the stream, with
    more data behind; a header that cannot be read. *)
Example C65_instance :
  let e := create_std_engine true in
  deserialize e (RRead [22; 4; 1; 1; 16; 9; 7; 7; 7; 7] [Chunk 1; Interrupt]) =
    (Err (TagIO UnableToReadData), RRead [7; 7; 7; 7] []) /\
  deserialize e (RRead [22; 250; 1; 1; 16; 9] [Chunk 1; Chunk 1; Chunk 2; Fail (OtherKind 3); Chunk 9]) =
    (Err (TagIO (IOErrorStd (OtherKind 3))), RRead [16; 9] [Chunk 9]) /\
  moved false (RRead [22; 250; 1; 1; 16; 9] [Chunk 1; Chunk 1; Chunk 2; Fail (OtherKind 3); Chunk 9]) [22; 250; 1; 1] (RRead [16; 9] [Chunk 9]) /\
  deserialize e (RLimited (RCustom [inr 22; inr 5; inr 1; inl EndOfData; inr 4]) 9) =
    (Err (TagIO EndOfData), RLimited (RCustom [inr 4]) 6) /\
  moved false (RLimited (RCustom [inr 22; inr 5; inr 1; inl EndOfData; inr 4]) 9) [22; 5; 1] (RLimited (RCustom [inr 4]) 6).
Proof.
  cbv zeta. split; [vm_compute; reflexivity|]. split; [vm_compute; reflexivity|]. split; [reflexivity|].
  split; [vm_compute; reflexivity|]. cbn [moved]. split; [cbn; lia|]. split; [lia|]. split; [discriminate|].
  exists [inr 22; inr 5; inr 1; inl EndOfData]. auto.
Qed.

(** ** C66.  A complete envelope settles the outcome *)
Lemma ilintP_repr v bs rest : ilint_repr v bs -> ilintP (bs ++ rest) = (inl v, rest).
Proof.
  intros [w H|body H1 H2]; unfold ilintP, pbind, takeP at 1.
  - cbn [app]. rewrite lenN_cons. destruct (N.ltb_spec (1 + lenN rest) 1) as [|_]; [lia|].
    replace (takeN 1 (w :: rest)) with [w] by (now destruct rest). replace (dropN 1 (w :: rest)) with rest by (now destruct rest).
    replace (be_value [w]) with w by (cbn; lia). now rewrite (proj2 (N.ltb_lt _ _) H).
  - cbn [app]. rewrite lenN_cons. destruct (N.ltb_spec (1 + lenN (body ++ rest)) 1) as [|_]; [lia|].
    set (h := 247 + lenN body). replace (takeN 1 (h :: body ++ rest)) with [h] by (now destruct (body ++ rest)).
    replace (dropN 1 (h :: body ++ rest)) with (body ++ rest) by (now destruct (body ++ rest)).
    replace (be_value [h]) with h by (cbn; lia). destruct (N.ltb_spec h 248) as [|_]; [lia|].
    replace (h - 247) with (lenN body) by lia. unfold takeP. rewrite lenN_app.
    destruct (N.ltb_spec (lenN body + lenN rest) (lenN body)) as [|_]; [lia|].
    rewrite takeN_app_exact, dropN_app_exact by reflexivity. unfold require.
    now rewrite (proj2 (N.ltb_lt _ _) H2).
Qed.
Lemma sizeP_repr wid szb n rest : wire_size wid szb n -> n <= 536870912 -> sizeP wid (szb ++ rest) = (inl n, rest).
Proof.
  intros [H|m z H R] L; unfold sizeP, pbind at 1; destruct (N.leb_spec wid 15); try lia.
  - cbn [app pret]. unfold pbind, require. now rewrite (proj2 (N.leb_le _ _) L).
  - rewrite (ilintP_repr _ _ rest R). unfold pbind, require. now rewrite (proj2 (N.leb_le _ _) L).
Qed.
(** The outcomes on two readers are the same: the same result after the same
    bytes, or both report missing data. *)
Definition same_outcome {A} (r1 : reader) (x1 : res tag_error A) (r1' : reader) (r2 : reader) (x2 : res tag_error A) (r2' : reader) : Prop :=
  (x1 = x2 /\ exists bs, delivers r1 bs r1' /\ delivers r2 bs r2') \/
  exists i1 i2, x1 = Err (TagIO i1) /\ x2 = Err (TagIO i2) /\ no_data i1 /\ no_data i2.
Lemma enveloped_same e l q1 q2 r1 r2 x1 x2 r1' r2' : enveloped l ->
  engine_ok e -> engine_total e -> rwf r1 -> good r1 -> rwf r2 -> good r2 ->
  pending r1 = l ++ q1 -> pending r2 = l ++ q2 ->
  deserialize e r1 = (x1, r1') -> deserialize e r2 = (x2, r2') -> same_outcome r1 x1 r1' r2 x2 r2'.
Proof.
  intros Hv Ho Ht W1 G1 W2 G2 P1 P2 E1 E2.
  pose proof (C61_deserialize e r1 x1 r1' Ho Ht W1 G1 E1) as K1. pose proof (C61_deserialize e r2 x2 r2' Ho Ht W2 G2 E2) as K2.
  rewrite P1, (parse_enveloped _ l q1 Hv) in K1. rewrite P2, (parse_enveloped _ l q2 Hv) in K2.
  assert (Hb : forall b1 b2 rest, l ++ q1 = b1 ++ rest ++ q1 -> l ++ q2 = b2 ++ rest ++ q2 -> b1 = b2).
  { intros b1 b2 rest H1 H2. rewrite app_assoc in H1, H2. apply app_inv_tail in H1, H2. rewrite H1 in H2. now apply app_inv_tail in H2. }
  destruct (parse (mk_of e) l) as [[t|f] rest]; cbn [fst snd] in *.
  - destruct K1 as (-> & _ & b1 & D1 & H1). destruct K2 as (-> & _ & b2 & D2 & H2).
    left. split; [reflexivity|]. rewrite (Hb _ _ _ H1 H2) in D1. eauto.
  - destruct K1 as (Nf & K1 & J1). destruct K2 as (_ & K2 & J2).
    assert (Hf : f = Short \/ exists err, reported f = Some err) by (destruct f; cbn; eauto; contradiction).
    destruct Hf as [Hf|[err Hf]].
    + right. destruct (K1 Hf) as (i1 & -> & N1). destruct (K2 Hf) as (i2 & -> & N2). eauto 8.
    + left. destruct (J1 _ Hf) as (-> & _ & b1 & D1 & H1). destruct (J2 _ Hf) as (-> & _ & b2 & D2 & H2).
      split; [reflexivity|]. rewrite (Hb _ _ _ H1 H2) in D1. eauto.
Qed.
Lemma enveloped_header wid n idb szb body : ilint_repr wid idb -> wire_size wid szb n -> n <= 536870912 -> n <= lenN body ->
  enveloped (idb ++ szb ++ body).
Proof.
  intros R Sz L Lb. unfold enveloped. rewrite (ilintP_repr _ _ _ R), (sizeP_repr _ _ _ _ Sz L). exact Lb.
Qed.
(** Once the header and the declared number of bytes are there, what follows
    changes nothing, whether the tag is accepted or not. *)
Theorem C66_deserialize : forall e wid n idb szb body q1 q2 r1 r2 x1 x2 r1' r2',
  engine_ok e -> engine_total e -> rwf r1 -> good r1 -> rwf r2 -> good r2 ->
  ilint_repr wid idb -> wire_size wid szb n -> n <= 536870912 -> lenN body = n ->
  pending r1 = (idb ++ szb ++ body) ++ q1 -> pending r2 = (idb ++ szb ++ body) ++ q2 ->
  deserialize e r1 = (x1, r1') -> deserialize e r2 = (x2, r2') ->
  (x1 = x2 /\ exists bs, delivers r1 bs r1' /\ delivers r2 bs r2') \/
  exists i1 i2, x1 = Err (TagIO i1) /\ x2 = Err (TagIO i2) /\ no_data i1 /\ no_data i2.
Proof.
  intros e wid n idb szb body q1 q2 r1 r2 x1 x2 r1' r2' Ho Ht W1 G1 W2 G2 R Sz L Lb P1 P2 E1 E2.
  eapply enveloped_same with (l := idb ++ szb ++ body); eauto. apply (enveloped_header wid n); auto. lia.
Qed.
Print Assumptions C66_deserialize.
(** So missing data inside a complete envelope stays missing whatever arrives
    later: a caller that waits for more and tries again never gets a tag. *)
Theorem C66_retry_never_succeeds : forall e wid n idb szb body q1 q2 r1 r2 i r1' x2 r2',
  engine_ok e -> engine_total e -> rwf r1 -> good r1 -> rwf r2 -> good r2 ->
  ilint_repr wid idb -> wire_size wid szb n -> n <= 536870912 -> lenN body = n ->
  pending r1 = (idb ++ szb ++ body) ++ q1 -> pending r2 = (idb ++ szb ++ body) ++ q2 ->
  deserialize e r1 = (Err (TagIO i), r1') -> no_data i -> deserialize e r2 = (x2, r2') ->
  exists j, x2 = Err (TagIO j) /\ no_data j.
Proof.
  intros e wid n idb szb body q1 q2 r1 r2 i r1' x2 r2' Ho Ht W1 G1 W2 G2 R Sz L Lb P1 P2 E1 N E2.
  destruct (C66_deserialize e wid n idb szb body q1 q2 r1 r2 _ _ _ _ Ho Ht W1 G1 W2 G2 R Sz L Lb P1 P2 E1 E2)
    as [[<- _]|(i1 & i2 & _ & -> & _ & N2)]; eauto.
Qed.
Print Assumptions C66_retry_never_succeeds.
(** And in any case 536870930 bytes decide: no call ever needs more input. *)
Theorem C66_enough : forall e l q1 q2 r1 r2 x1 x2 r1' r2',
  engine_ok e -> engine_total e -> rwf r1 -> good r1 -> rwf r2 -> good r2 ->
  536870930 <= lenN (l : list N) -> pending r1 = l ++ q1 -> pending r2 = l ++ q2 ->
  deserialize e r1 = (x1, r1') -> deserialize e r2 = (x2, r2') ->
  (x1 = x2 /\ exists bs, delivers r1 bs r1' /\ delivers r2 bs r2') \/
  exists i1 i2, x1 = Err (TagIO i1) /\ x2 = Err (TagIO i2) /\ no_data i1 /\ no_data i2.
Proof.
  intros e l q1 q2 r1 r2 x1 x2 r1' r2' Ho Ht W1 G1 W2 G2 L P1 P2 E1 E2.
  eapply enveloped_same with (l := l); eauto. apply long_enveloped; [|exact L].
  pose proof (bytes_ok_pending r1 W1) as B. rewrite P1 in B. now apply bytes_ok_app in B.
Qed.
Print Assumptions C66_enough.
(** deserialize_into, also for the target. *)
Theorem C66_deserialize_into : forall e wid n idb szb body q1 q2 r1 r2 t x1 x2 t1 t2 r1' r2',
  engine_ok e -> engine_total e -> rwf r1 -> good r1 -> rwf r2 -> good r2 -> wf t ->
  ilint_repr wid idb -> wire_size wid szb n -> n <= 536870912 -> lenN body = n ->
  pending r1 = (idb ++ szb ++ body) ++ q1 -> pending r2 = (idb ++ szb ++ body) ++ q2 ->
  deserialize_into e r1 t = (x1, t1, r1') -> deserialize_into e r2 t = (x2, t2, r2') ->
  (x1 = x2 /\ (x1 = Ok tt -> t1 = t2) /\ exists bs, delivers r1 bs r1' /\ delivers r2 bs r2') \/
  exists i1 i2, x1 = Err (TagIO i1) /\ x2 = Err (TagIO i2) /\ no_data i1 /\ no_data i2.
Proof.
  intros e wid n idb szb body q1 q2 r1 r2 t x1 x2 t1 t2 r1' r2' Ho Ht W1 G1 W2 G2 Wt R Sz L Lb P1 P2 E1 E2.
  assert (Hv : enveloped (idb ++ szb ++ body)) by (apply (enveloped_header wid n); auto; lia).
  set (l := idb ++ szb ++ body) in *.
  pose proof (C61_deserialize_into e r1 t x1 t1 r1' Ho Ht W1 G1 Wt E1) as K1.
  pose proof (C61_deserialize_into e r2 t x2 t2 r2' Ho Ht W2 G2 Wt E2) as K2.
  rewrite P1, (parse_into_enveloped _ _ _ l q1 Hv) in K1. rewrite P2, (parse_into_enveloped _ _ _ l q2 Hv) in K2.
  assert (Hb : forall b1 b2 rest, l ++ q1 = b1 ++ rest ++ q1 -> l ++ q2 = b2 ++ rest ++ q2 -> b1 = b2).
  { intros b1 b2 rest H1 H2. rewrite app_assoc in H1, H2. apply app_inv_tail in H1, H2. rewrite H1 in H2. now apply app_inv_tail in H2. }
  destruct (parse_into (mk_of e) _ _ l) as [[a|f] rest]; cbn [fst snd] in *.
  - destruct K1 as (-> & -> & _ & b1 & D1 & H1). destruct K2 as (-> & -> & _ & b2 & D2 & H2).
    left. split; [reflexivity|]. split; [reflexivity|]. rewrite (Hb _ _ _ H1 H2) in D1. eauto.
  - destruct K1 as (Nf & K1 & J1). destruct K2 as (_ & K2 & J2).
    assert (Hf : f = Short \/ exists err, reported f = Some err) by (destruct f; cbn; eauto; contradiction).
    destruct Hf as [Hf|[err Hf]].
    + right. destruct (K1 Hf) as (i1 & -> & N1). destruct (K2 Hf) as (i2 & -> & N2). eauto 8.
    + left. destruct (J1 _ Hf) as (-> & _ & b1 & D1 & H1). destruct (J2 _ Hf) as (-> & _ & b2 & D2 & H2).
      split; [reflexivity|]. split; [discriminate|]. rewrite (Hb _ _ _ H1 H2) in D1. eauto.
Qed.
Print Assumptions C66_deserialize_into.
(** A byte array inside a sequence that claims more than the sequence has: the
    envelope is complete, and no continuation helps. *)
Example C66_instance :
  let e := create_std_engine true in
  ilint_repr 22 [22] /\ wire_size 22 [4] 4 /\
  fst (deserialize e (RVec ([22; 4; 16; 3; 1; 1] ++ []) 0)) = Err (TagIO UnableToReadData) /\
  fst (deserialize e (RRead ([22; 4; 16; 3; 1; 1] ++ [1; 1; 1; 1]) [Chunk 3])) = Err (TagIO UnableToReadData) /\
  deserialize e (RVec ([22; 4; 16; 2; 1; 1] ++ [9]) 0) = (Ok (Tag 22 (VSeq [Tag 16 (VBytes [1; 1])])), RVec [22; 4; 16; 2; 1; 1; 9] 6) /\
  (exists l, bytes_ok l /\ 536870930 <= lenN l).
Proof.
  cbv zeta. split; [now constructor|]. split; [constructor; [lia|now constructor]|].
  split; [vm_compute; reflexivity|]. split; [vm_compute; reflexivity|]. split; [vm_compute; reflexivity|].
  exists (repeat 0 (N.to_nat 536870930)). split.
  - apply Forall_forall. intros x H. apply repeat_spec in H as ->. unfold byte_ok. lia.
  - unfold lenN. rewrite repeat_length. rewrite N2Nat.id. lia.
Qed.

(** ** C67.  Several tags on one stream *)
(** Calls of deserialize one after another, each starting where the one before
    stopped. *)
Inductive reads (e : engine) : reader -> list tag -> reader -> Prop :=
| reads_nil r : reads e r [] r
| reads_cons r t r1 ts r' : deserialize e r = (Ok t, r1) -> reads e r1 ts r' -> reads e r (t :: ts) r'.
(** Tags written one after another are read back one after another. *)
Theorem C67_round_trip : forall e ts bss r rest, engine_ok e ->
  Forall (fun t => wf t /\ conforms (mk_of e) t /\ lenN (encv (tag_val t)) <= 536870912) ts ->
  Forall2 (fun t bs => to_bytes t = Ok bs) ts bss ->
  rwf r -> good r -> pending r = concat bss ++ rest ->
  exists ts' r', reads e r ts' r' /\ Forall2 same_tag ts ts' /\ delivers r (concat bss) r' /\ pending r' = rest.
Proof.
  intros e ts bss r rest He Hts Hb. revert r. induction Hb as [|t bs ts bss E Hb IH]; intros r W G P.
  - exists [], r. cbn [concat app] in *. split; [constructor|]. split; [constructor|]. split; [apply delivers_refl|exact P].
  - apply Forall_cons_iff in Hts as [(Wt & C & L) Hts]. cbn [concat] in P. rewrite <- app_assoc in P.
    destruct (C25_round_trip e t bs r (concat bss ++ rest) He Wt C L E W G P) as (t' & r1 & E1 & St & _ & D1 & P1 & _).
    destruct (delivers_rwf _ _ _ W D1) as [W1 _].
    destruct (pending_delivers _ _ _ G D1) as [_ G1].
    destruct (IH Hts r1 W1 G1 P1) as (ts' & r' & R & S & D & P').
    exists (t' :: ts'), r'. split; [econstructor; eauto|]. split; [now constructor|].
    split; [cbn [concat]; eapply delivers_trans; eauto|exact P'].
Qed.
Print Assumptions C67_round_trip.
(** On any reader, what is read is what the bytes say, cut in one way only; and
    every tag takes at least one byte, so a loop over a stream ends. *)
Theorem C67_reads : forall e r ts r', engine_ok e -> rwf r -> reads e r ts r' ->
  exists bss, Forall2 (fun bs t => wire (mk_of e) bs t /\ bs <> []) bss ts /\ delivers r (concat bss) r' /\
    (length ts <= left r)%nat.
Proof.
  intros e r ts r' He W H. induction H as [r|r t r1 ts r' E H IH].
  - exists []. split; [constructor|]. split; [apply delivers_refl|cbn; lia].
  - destruct (C26_success_on_any_reader e r t r1 He W E) as (bs & Hw & D & B & _).
    destruct (delivers_rwf _ _ _ W D) as [W1 _]. destruct (IH W1) as (bss & F & D' & L).
    assert (Hne : bs <> []).
    { destruct Hw as [wid idb szb n body id k v R]. apply ilint_repr_len in R. intros K. apply app_eq_nil in K as [-> _]. cbn in R. lia. }
    exists (bs :: bss). split; [now constructor|]. split; [cbn [concat]; eapply delivers_trans; eauto|].
    pose proof (delivers_left _ _ _ D) as Ll. cbn [length]. destruct bs as [|b bs]; [congruence|]. cbn [length] in Ll. lia.
Qed.
Print Assumptions C67_reads.
Theorem C67_one_way_to_cut : forall e bss ts bss' ts', engine_ok e -> bytes_ok (concat bss) ->
  Forall2 (wire (mk_of e)) bss ts -> Forall2 (wire (mk_of e)) bss' ts' -> concat bss = concat bss' ->
  bss = bss' /\ ts = ts'.
Proof.
  intros e bss ts bss' ts' He B H. revert bss' ts' B. 
  assert (Hne : forall bs t, wire (mk_of e) bs t -> bs <> []).
  { intros bs t [wid idb szb n body id k v R] K. apply ilint_repr_len in R. apply app_eq_nil in K as [-> _]. cbn in R. lia. }
  induction H as [|bs t bss ts Hw H IH]; intros bss' ts' B H' E.
  - destruct H' as [|bs' t' bss' ts' Hw' H']; [auto|]. cbn [concat] in E. symmetry in E. apply app_eq_nil in E as [E _].
    now elim (Hne _ _ Hw').
  - destruct H' as [|bs' t' bss' ts' Hw' H']; cbn [concat] in E, B.
    { apply app_eq_nil in E as [E _]. now elim (Hne _ _ Hw). }
    destruct (wire_det e _ _ _ _ (concat bss) (concat bss') He B Hw Hw' E) as [-> ->].
    apply app_inv_head in E as Er. apply bytes_ok_app in B as [_ B]. destruct (IH _ _ B H' Er) as [-> ->]. auto.
Qed.
Print Assumptions C67_one_way_to_cut.
(** At the end of the data: missing data, not a tag. *)
Theorem C67_end : forall e r, engine_ok e -> engine_total e -> rwf r -> good r -> pending r = [] ->
  exists i r', deserialize e r = (Err (TagIO i), r') /\ no_data i.
Proof.
  intros e r Ho Ht W G P. destruct (deserialize e r) as [x r'] eqn:E. pose proof (C61_deserialize e r x r' Ho Ht W G E) as K.
  rewrite P in K. cbn in K. destruct K as (_ & K & _). destruct (K eq_refl) as (i & -> & N). eauto.
Qed.
Print Assumptions C67_end.
(** Claim: after an error the next call starts at the next tag.  It does not: it
    starts inside the tag that was refused. *)
Theorem C67_resumes_after_refused_tag_refuted : forall strict r rest, rwf r -> good r ->
  pending r = [22; 4; 1; 2; 1; 1] ++ rest ->
  exists r1 r2, deserialize (create_std_engine strict) r = (Err CorruptedData, r1) /\
    deserialize (create_std_engine strict) r1 = (Ok (Tag 1 (VBool true)), r2) /\ delivers r [22; 4; 1; 2; 1; 1] r2.
Proof.
  intros strict r rest W G P. set (e := create_std_engine strict).
  assert (Ho : engine_ok e) by apply std_engine_ok. assert (Ht : engine_total e) by apply std_engine_total.
  destruct (deserialize e r) as [x r1] eqn:E1. pose proof (C61_deserialize e r x r1 Ho Ht W G E1) as K.
  rewrite P, parse_enveloped in K by (vm_compute; discriminate).
  assert (Ev : parse (mk_of e) [22; 4; 1; 2; 1; 1] = (inr Invalid, [1; 1])) by (unfold e; destruct strict; vm_compute; reflexivity).
  rewrite Ev in K. cbn [fst snd] in K. destruct K as (_ & _ & K). destruct (K _ eq_refl) as (-> & P1 & bs & D1 & Eb).
  destruct (delivers_rwf _ _ _ W D1) as [W1 _]. destruct (pending_delivers _ _ _ G D1) as [_ G1].
  destruct (deserialize e r1) as [x2 r2] eqn:E2. pose proof (C61_deserialize e r1 x2 r2 Ho Ht W1 G1 E2) as K2.
  rewrite P1, parse_enveloped in K2 by (vm_compute; discriminate).
  assert (Ev2 : parse (mk_of e) [1; 1] = (inl (Tag 1 (VBool true)), [])) by (unfold e; destruct strict; vm_compute; reflexivity).
  rewrite Ev2 in K2. cbn [fst snd app] in K2. destruct K2 as (-> & _ & bs2 & D2 & Eb2).
  exists r1, r2. split; [reflexivity|]. split; [exact E2|].
  assert (bs ++ bs2 = [22; 4; 1; 2; 1; 1]) as <-.
  { change (1 :: 1 :: rest) with ([1; 1] ++ rest) in Eb2. apply app_inv_tail in Eb2. subst bs2.
    rewrite app_assoc in Eb. now apply app_inv_tail in Eb. }
  eapply delivers_trans; eauto.
Qed.
Print Assumptions C67_resumes_after_refused_tag_refuted.
Example C67_instance :
  let e := create_std_engine true in
  let r := RRead [1; 1; 17; 2; 65; 66; 22; 1; 0; 9] [Chunk 2; Interrupt; Chunk 4] in
  reads e r [Tag 1 (VBool true); Tag 17 (VString [65; 66]); Tag 22 (VSeq [Tag 0 VNull])] (RRead [9] []) /\
  fst (deserialize e (RRead [] [])) = Err (TagIO (IOErrorStd UnexpectedEof)).
Proof.
  cbv zeta. split; [|vm_compute; reflexivity].
  econstructor; [vm_compute; reflexivity|]. econstructor; [vm_compute; reflexivity|]. econstructor; [vm_compute; reflexivity|]. constructor.
Qed.

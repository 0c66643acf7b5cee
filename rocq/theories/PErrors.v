(** Properties of the errors of deserialization: C60, and parts of C09 and C45.

    A result computed from some bytes is final unless it is an I/O error saying
    that data is missing: bytes that come later change nothing.  Truncating an
    accepted buffer is always reported as missing data. *)
From Verif Require Import Base BaseFacts Types Spec SpecFacts IO IOSpec IOFacts Logic ILInt ILIntFacts Data Tags
  SortFacts TagsFacts SameFacts Factory FactoryFacts DecodeFacts DeserFacts IntoFacts EngineFacts WireFacts StableFacts FromFacts
  PTags PDecode WriterFacts WLogic DataFacts PData MonoFacts.

Lemma deserialize_rel e r r' q x s y s' : engine_ok e -> rwf r -> good r -> rwf r' -> good r' -> pending r' = pending r ++ q ->
  deserialize e r = (x, s) -> deserialize e r' = (y, s') ->
  (exists i, x = Err (TagIO i) /\ (i = UnableToReadData \/ runs_out r i)) \/
  (x = y /\ final decided x /\ pending s' = pending s ++ q).
Proof.
  intros He W G W' G' P E E'.
  pose proof (deserialize_terminates e r x s He W E) as T. pose proof (deserialize_terminates e r' y s' He W' E') as T'.
  unfold deserialize in E, E'.
  destruct (rel_deserialize_fuel (fun i => i = UnableToReadData \/ runs_out r i) (or_introl eq_refl) q e
              (Datatypes.S (left r)) (Datatypes.S (left r')) O r r' x s y s') as [[(err & -> & i & -> & H)|[->| ->]]|(-> & F & X)]; auto.
  - cbn [ext]. auto 8.
  - left. eauto.
  - now elim T.
  - now elim T'.
  - right. cbn [ext] in X. tauto.
Qed.

(** ** C60.  Which results more data can change. *)
Theorem C60_results_are_final : forall e r r' q x s y s',
  engine_ok e -> rwf r -> good r -> rwf r' -> good r' -> pending r' = pending r ++ q ->
  deserialize e r = (x, s) -> deserialize e r' = (y, s') ->
  (forall i, x = Err (TagIO i) -> ~ no_data i) ->
  x = y /\ pending s' = pending s ++ q.
Proof.
  intros e r r' q x s y s' He W G W' G' P E E' N.
  destruct (deserialize_rel e r r' q x s y s' He W G W' G' P E E') as [(i & -> & H)|(K & _ & K')]; [|auto].
  elim (N i eq_refl). destruct H as [->|H]; [unfold no_data; auto|now apply runs_out_no_data in H].
Qed.
Print Assumptions C60_results_are_final.
(** The errors of a well-behaved reader. *)
Theorem C60_errors : forall e r err s, engine_ok e -> rwf r -> good r -> deserialize e r = (Err err, s) ->
  err = CorruptedData \/ err = UnknownTag \/ err = TagTooLarge \/ err = TagIO IoCorruptedData \/
  exists i, err = TagIO i /\ no_data i.
Proof.
  intros e r err s He W G E.
  destruct (deserialize_rel e r r [] _ _ _ _ He W G W G (eq_sym (app_nil_r _)) E E) as [(i & K & H)|(_ & F & _)].
  - injection K as ->. do 4 right. exists i. split; [reflexivity|].
    destruct H as [->|H]; [unfold no_data; auto|now apply runs_out_no_data in H].
  - cbn in F. unfold decided in F. tauto.
Qed.
Print Assumptions C60_errors.
(** Every strict prefix of an accepted buffer, whatever reader it comes from, is
    reported as missing data. *)
Theorem C60_truncated : forall e bs t p k, engine_ok e -> bytes_ok bs -> from_bytes e bs = Ok t -> bs = p ++ k -> k <> [] ->
  (from_bytes e p = Err (TagIO EndOfData) \/ from_bytes e p = Err (TagIO UnableToReadData)) /\
  (forall r, rwf r -> good r -> pending r = p ->
     exists i r', deserialize e r = (Err (TagIO i), r') /\ no_data i).
Proof.
  intros e bs t p k He B F -> Hk. pose proof (proj1 (C27_from_bytes e (p ++ k) He B) t) as I.
  destruct (proj1 I F) as (z & Ez & Dz). clear I.
  destruct (proj1 (bytes_ok_app _ _) B) as [Bp _].
  destruct (mem_reader _ B) as (W & G & P). destruct (mem_reader _ Bp) as (Wp & Gp & Pp).
  assert (K : forall r, rwf r -> good r -> pending r = p ->
     exists i r', deserialize e r = (Err (TagIO i), r') /\ (i = UnableToReadData \/ runs_out r i)).
  { intros r Wr Gr Pr. destruct (deserialize e r) as [x s] eqn:E.
    assert (Q : pending (ByteArrayReader_new (p ++ k)) = pending r ++ k) by now rewrite P, Pr.
    destruct (deserialize_rel e r (ByteArrayReader_new (p ++ k)) k x s _ _ He Wr Gr W G Q E Ez) as [(i & -> & H)|(-> & _)].
    - eauto.
    - destruct (C27_prefix_free e (p ++ k) t p k He B F eq_refl Hk) as [_ N]. elim (N _ _ _ Wr Gr Pr E). }
  split.
  - destruct (K _ Wp Gp Pp) as (i & r' & E & H). unfold from_bytes. rewrite E.
    destruct H as [->|H]; [now right|]. cbn [ByteArrayReader_new runs_out] in H. destruct H as [->| ->]; auto.
  - intros r Wr Gr Pr. destruct (K r Wr Gr Pr) as (i & r' & E & H). exists i, r'. split; [exact E|].
    destruct H as [->|H]; [unfold no_data; auto|now apply runs_out_no_data in H].
Qed.
Print Assumptions C60_truncated.
Example C60_instance :
  from_bytes (create_std_engine false) sample_bytes <> Err CorruptedData /\
  map (fun n => match from_bytes (create_std_engine false) (takeN n sample_bytes) with
                | Err (TagIO EndOfData) => 1 | Err (TagIO UnableToReadData) => 2 | _ => 0 end) [0; 1; 2; 5; 12; 23]
  = [1; 1; 1; 1; 2; 1] /\
  fst (deserialize (create_std_engine false) (RRead (takeN 12 sample_bytes) [Chunk 2; Interrupt])) = Err (TagIO (IOErrorStd UnexpectedEof)) /\
  fst (deserialize (create_std_engine true) (RCustom (map inr [100; 3; 1; 2; 3]))) = Err UnknownTag /\
  fst (deserialize (create_std_engine true) (RCustom (map inr [1; 2; 3; 4]))) = Err CorruptedData /\
  fst (deserialize (create_std_engine true) (RCustom (map inr [22; 251; 255; 0; 0; 0; 4]))) = Err TagTooLarge.
Proof. vm_compute. repeat split; congruence. Qed.

(** ** C09.  Strings through the wrappers. *)
(** The same through the wrappers of the tags: the string itself and nothing else
    is written; reading it back gives the string; anything else is an I/O error,
    the one of corrupted data exactly when the bytes are there and not UTF-8. *)
Theorem C09_wrappers :
  (forall s, emits (serialize_str s) s) /\
  (forall s r rest, utf8 s -> rwf r -> good r -> pending r = s ++ rest ->
     exists r', deserialize_string (lenN s) r = (Ok s, r') /\ delivers r s r') /\
  (forall r n x r', rwf r -> good r -> deserialize_string n r = (x, r') ->
     ((exists s, x = Ok s) <-> n <= lenN (pending r) /\ utf8 (takeN n (pending r))) /\
     (x = Err (TagIO IoCorruptedData) <-> n <= lenN (pending r) /\ ~ utf8 (takeN n (pending r))) /\
     (lenN (pending r) < n -> exists i, x = Err (TagIO i) /\ no_data i)).
Proof.
  split; [apply emits_serialize_str|]. destruct C09_strings as (K & Ks & _ & _ & Kr). split.
  - intros s r rest U W G P. destruct (Kr s r rest U W G P) as (r' & E & D). exists r'. split; [|exact D].
    unfold deserialize_string, lift_err. now rewrite E.
  - intros r n x r' W G E. unfold deserialize_string, lift_err in E.
    destruct (read_string n r) as [y r1] eqn:Ey. apply pair_inv in E as [<- <-].
    destruct (K r n W G) as (K1 & K2 & _).
    destruct (N.le_gt_cases n (lenN (pending r))) as [L|L].
    + destruct (from_utf8 (takeN n (pending r))) eqn:F.
      * apply from_utf8_spec in F. destruct (K1 L F) as (r2 & E2 & _). rewrite Ey in E2. apply pair_inv in E2 as [-> _].
        cbn [map_err]. split; [|split].
        -- split; [auto|eauto].
        -- split; [discriminate|tauto].
        -- lia.
      * assert (F' : ~ utf8 (takeN n (pending r))) by (intros U; apply from_utf8_spec in U; congruence).
        destruct (K2 L F') as (r2 & E2 & _). rewrite Ey in E2. apply pair_inv in E2 as [-> _].
        cbn [map_err]. split; [|split].
        -- split; [intros [s [=]]|tauto].
        -- tauto.
        -- lia.
    + destruct (read_all_short_error n r G L) as (e & got & r2 & E2 & No). apply runs_out_no_data in No.
      unfold read_string, fetch, bind in Ey. rewrite E2 in Ey. apply pair_inv in Ey as [<- _]. cbn [map_err].
      split; [|split].
      * split; [intros [s [=]]|lia].
      * split; [|lia]. intros [= ->]. exfalso. destruct No as [No|[No|No]]; discriminate.
      * intros _. exists e. auto.
Qed.
Print Assumptions C09_wrappers.
Example C09_wrappers_instance :
  fst (deserialize_string 2 (RRead [195;169;1] [Chunk 1])) = Ok [195;169] /\
  fst (deserialize_string 2 (RVec [195;65] 0)) = Err (TagIO IoCorruptedData) /\
  fst (deserialize_string 3 (RVec [195;169] 0)) = Err (TagIO UnableToReadData) /\
  serialize_str [195;169] (WVec [] 0 false) = (Ok tt, WVec [195;169] 2 false).
Proof. vm_compute. auto. Qed.

(** ** C45, all outcomes: two readers with the same bytes give the same result,
    except that missing data is reported by each reader in its own way. *)
Theorem C45_same_outcome : forall e r1 r2 x1 x2 s1 s2, engine_ok e ->
  rwf r1 -> good r1 -> rwf r2 -> good r2 -> pending r1 = pending r2 ->
  deserialize e r1 = (x1, s1) -> deserialize e r2 = (x2, s2) ->
  (x1 = x2 /\ pending s1 = pending s2) \/
  (exists i1 i2, x1 = Err (TagIO i1) /\ x2 = Err (TagIO i2) /\ no_data i1 /\ no_data i2).
Proof.
  assert (N : forall r i, i = UnableToReadData \/ runs_out r i -> no_data i).
  { intros r i [->|H]; [unfold no_data; auto|now apply runs_out_no_data in H]. }
  intros e r1 r2 x1 x2 s1 s2 He W1 G1 W2 G2 P E1 E2.
  assert (P1 : pending r2 = pending r1 ++ []) by now rewrite app_nil_r.
  assert (P2 : pending r1 = pending r2 ++ []) by now rewrite app_nil_r.
  destruct (deserialize_rel e r1 r2 [] _ _ _ _ He W1 G1 W2 G2 P1 E1 E2) as [(i & -> & H)|(-> & _ & Q)].
  - destruct (deserialize_rel e r2 r1 [] _ _ _ _ He W2 G2 W1 G1 P2 E2 E1) as [(j & -> & H')|(-> & _ & Q)].
    + right. exists i, j. split; [reflexivity|]. split; [reflexivity|]. split; [exact (N _ _ H)|exact (N _ _ H')].
    + left. rewrite app_nil_r in Q. auto.
  - left. rewrite app_nil_r in Q. auto.
Qed.
Print Assumptions C45_same_outcome.
Example C45_outcomes_instance :
  fst (deserialize (create_std_engine true) (RRead [22; 3; 1; 7; 2] [Chunk 2; Interrupt]))
  = fst (deserialize (create_std_engine true) (RVec [22; 3; 1; 7; 2] 0)) /\
  fst (deserialize (create_std_engine true) (RRead [22; 3; 1; 7; 2] [])) = Err CorruptedData /\
  fst (deserialize (create_std_engine true) (RRead [5; 0] [])) = Err (TagIO (IOErrorStd UnexpectedEof)) /\
  fst (deserialize (create_std_engine true) (RVec [5; 0] 0)) = Err (TagIO UnableToReadData).
Proof. vm_compute. auto. Qed.

(** The converse fails: an error that says that data is missing does not mean
    that more data can help.  A sequence of declared length 1 holding the first
    byte of a byte-array tag is reported so whatever follows it. *)
Lemma stuck_custom strict rest : fst (deserialize (create_std_engine strict) (RCustom (map inr (22 :: 1 :: 16 :: rest)))) = Err (TagIO UnableToReadData).
Proof. destruct strict; vm_compute; reflexivity. Qed.
Theorem C60_missing_data_means_incomplete_refuted : forall strict r rest, rwf r -> good r -> pending r = 22 :: 1 :: 16 :: rest ->
  exists i r', deserialize (create_std_engine strict) r = (Err (TagIO i), r') /\ no_data i.
Proof.
  intros strict r rest W G P.
  assert (B : bytes_ok (22 :: 1 :: 16 :: rest)) by (rewrite <- P; now apply bytes_ok_pending).
  set (c := RCustom (map inr (22 :: 1 :: 16 :: rest))).
  assert (Wc : rwf c /\ good c /\ pending c = 22 :: 1 :: 16 :: rest).
  { unfold c. cbn [rwf good pending]. repeat split.
    - apply Forall_map. exact B.
    - apply Forall_map. apply Forall_forall. intros; exact I.
    - clear. induction (22 :: 1 :: 16 :: rest) as [|b l IH]; [reflexivity|]. cbn. now rewrite IH. }
  destruct Wc as (Wc & Gc & Pc). destruct (deserialize (create_std_engine strict) r) as [x r'] eqn:E.
  destruct (deserialize (create_std_engine strict) c) as [y c'] eqn:Ec.
  assert (y = Err (TagIO UnableToReadData)) as -> by (rewrite <- (stuck_custom strict rest); unfold c in Ec; now rewrite Ec).
  destruct (C45_same_outcome _ r c _ _ _ _ (std_engine_ok strict) W G Wc Gc (eq_trans P (eq_sym Pc)) E Ec) as [[-> _]|(i & j & -> & _ & N & _)].
  - exists UnableToReadData, r'. split; [reflexivity|]. unfold no_data; auto.
  - eauto.
Qed.
Print Assumptions C60_missing_data_means_incomplete_refuted.

(** Properties of dictionaries and of types sharing a format: C31, C32, C33,
    C34. *)
From Verif Require Import Base BaseFacts Types Spec SpecFacts IO IOSpec IOFacts Logic ILInt ILIntFacts Data Tags
  SortFacts TagsFacts SameFacts Factory FactoryFacts DecodeFacts DeserFacts IntoFacts EngineFacts WireFacts StableFacts FromFacts.

(** ** C31.  Duplicate keys: the last one wins. *)
(** The value of the last of the entries [es] whose key is [k]. *)
Definition last_value {A} (k : list N) (es : list (list N * A)) : option A :=
  fold_left (fun acc e => if bytes_eqb k (fst e) then Some (snd e) else acc) es None.
Lemma hm_get_put {A} k k' (x : A) m : hm_get k (put k' x m) = if bytes_eqb k k' then Some x else hm_get k m.
Proof.
  induction m as [|[j y] m IH]; cbn [put hm_get]; rewrite <- ?bytes_eqb_str_eqb; [reflexivity|].
  destruct (bytes_eqb k' j) eqn:E; cbn [hm_get]; rewrite <- ?bytes_eqb_str_eqb.
  - apply bytes_eqb_eq in E. subst j. destruct (bytes_eqb k k'); reflexivity.
  - rewrite IH. destruct (bytes_eqb k j) eqn:Ej; [|reflexivity].
    apply bytes_eqb_eq in Ej. subst j. destruct (bytes_eqb k k') eqn:Ek; [|reflexivity].
    apply bytes_eqb_eq in Ek. subst k'. now rewrite bytes_eqb_refl in E.
Qed.
Lemma hm_get_dict_of {A} k (es : list (list N * A)) : hm_get k (dict_of es) = last_value k es.
Proof.
  unfold dict_of, last_value. change (@None A) with (hm_get (A:=A) k []). generalize (@nil (list N * A)).
  induction es as [|[j x] es IH]; intros m; cbn [fold_left fst snd]; [reflexivity|]. rewrite IH. f_equal. apply hm_get_put.
Qed.

Theorem C31_last_value_wins : forall e r rest wid id idb szb cb body es,
  engine_ok e -> mk_of e wid = Some (id, KDict) ->
  ilint_repr wid idb -> wire_size wid szb (lenN (cb ++ body)) -> lenN (cb ++ body) <= 536870912 ->
  ilint_repr (lenN es) cb -> wire_entries (mk_of e) body es ->
  rwf r -> good r -> pending r = (idb ++ szb ++ cb ++ body) ++ rest ->
  exists d r', deserialize e r = (Ok (Tag id (VDict d)), r') /\ delivers r (idb ++ szb ++ cb ++ body) r' /\
    (forall k, hm_get k d = last_value k es) /\ NoDup (map fst d).
Proof.
  intros e r rest wid id idb szb cb body es He Hk R Sz L Rc We W G P.
  assert (Hw : wire (mk_of e) (idb ++ szb ++ cb ++ body) (Tag id (VDict (dict_of es)))).
  { econstructor; eauto. now apply P_dict. }
  pose proof (bytes_ok_pending _ W) as B. rewrite P in B. apply bytes_ok_app in B as [B _].
  destruct (deserialize_complete e He _ _ B Hw r rest W G P) as (r' & E & D).
  exists (dict_of es), r'. repeat (split; [assumption|]). split; [intros k; apply hm_get_dict_of|apply dict_of_NoDup].
Qed.
Print Assumptions C31_last_value_wins.
(** Conversely, every dictionary the deserializer returns arises in this way. *)
Theorem C31_every_dictionary : forall e r id d r',
  engine_ok e -> rwf r -> deserialize e r = (Ok (Tag id (VDict d)), r') ->
  exists wid idb szb cb body es, delivers r (idb ++ szb ++ cb ++ body) r' /\ ilint_repr wid idb /\
    wire_size wid szb (lenN (cb ++ body)) /\ ilint_repr (lenN es) cb /\ wire_entries (mk_of e) body es /\
    (forall k, hm_get k d = last_value k es) /\ NoDup (map fst d).
Proof.
  intros e r id d r' He W E. destruct (deserialize_sound e He _ _ _ W E) as (bs & Hw & D).
  inversion Hw as [wid idb szb n body id' k v R Sz Ln Hk P Hx]; subst.
  inversion P as [| | | | | | | | | | | | | | | | | | | |cb body' es Rc We|]; subst.
  exists wid, idb, szb, cb, body', es. repeat (split; [assumption|]). split; [intros k; apply hm_get_dict_of|apply dict_of_NoDup].
Qed.
Print Assumptions C31_every_dictionary.
Theorem C31_last_string_wins : forall e r rest wid id idb szb cb body es,
  engine_ok e -> mk_of e wid = Some (id, KStrDict) ->
  ilint_repr wid idb -> wire_size wid szb (lenN (cb ++ body)) -> lenN (cb ++ body) <= 536870912 ->
  ilint_repr (lenN es) cb -> wire_strings body es ->
  rwf r -> good r -> pending r = (idb ++ szb ++ cb ++ body) ++ rest ->
  exists d r', deserialize e r = (Ok (Tag id (VStrDict d)), r') /\ delivers r (idb ++ szb ++ cb ++ body) r' /\
    (forall k, hm_get k d = last_value k es) /\ NoDup (map fst d).
Proof.
  intros e r rest wid id idb szb cb body es He Hk R Sz L Rc We W G P.
  assert (Hw : wire (mk_of e) (idb ++ szb ++ cb ++ body) (Tag id (VStrDict (dict_of es)))).
  { econstructor; eauto. now apply P_strdict. }
  pose proof (bytes_ok_pending _ W) as B. rewrite P in B. apply bytes_ok_app in B as [B _].
  destruct (deserialize_complete e He _ _ B Hw r rest W G P) as (r' & E & D).
  exists (dict_of es), r'. repeat (split; [assumption|]). split; [intros k; apply hm_get_dict_of|apply dict_of_NoDup].
Qed.
Print Assumptions C31_last_string_wins.
Theorem C31_every_string_dictionary : forall e r id d r',
  engine_ok e -> rwf r -> deserialize e r = (Ok (Tag id (VStrDict d)), r') ->
  exists wid idb szb cb body es, delivers r (idb ++ szb ++ cb ++ body) r' /\ ilint_repr wid idb /\
    wire_size wid szb (lenN (cb ++ body)) /\ ilint_repr (lenN es) cb /\ wire_strings body es /\
    (forall k, hm_get k d = last_value k es) /\ NoDup (map fst d).
Proof.
  intros e r id d r' He W E. destruct (deserialize_sound e He _ _ _ W E) as (bs & Hw & D).
  inversion Hw as [wid idb szb n body id' k v R Sz Ln Hk P Hx]; subst.
  inversion P as [| | | | | | | | | | | | | | | | | | | | |cb body' es Rc We]; subst.
  exists wid, idb, szb, cb, body', es. repeat (split; [assumption|]). split; [intros k; apply hm_get_dict_of|apply dict_of_NoDup].
Qed.
Print Assumptions C31_every_string_dictionary.
(** Key "a" twice (values 1 and 2); keys "b" and "a" out of order. *)
Definition repeated_key : list N := [30; 11; 2; 17; 1; 97; 3; 1; 17; 1; 97; 3; 2].
Definition unsorted_keys : list N := [30; 11; 2; 17; 1; 98; 3; 1; 17; 1; 97; 3; 2].
Example C31_instance :
  from_bytes (create_std_engine true) repeated_key = Ok (Tag 30 (VDict [([97], Tag 3 (VUInt W8 2))])).
Proof. vm_compute. reflexivity. Qed.
(** The decoder does not insist on unique, sorted keys: two different byte
    sequences mean the same dictionary. *)
Theorem C31_accepted_bytes_are_canonical_refuted :
  ~ (forall bs t, bytes_ok bs -> from_bytes (create_std_engine true) bs = Ok t -> to_bytes t = Ok bs) /\
  (exists t, from_bytes (create_std_engine true) repeated_key = Ok t /\
             to_bytes t = Ok [30; 6; 1; 17; 1; 97; 3; 2]) /\
  (exists t, from_bytes (create_std_engine true) unsorted_keys = Ok t /\
             to_bytes t = Ok [30; 11; 2; 17; 1; 97; 3; 2; 17; 1; 98; 3; 1]).
Proof.
  assert (F : from_bytes (create_std_engine true) repeated_key = Ok (Tag 30 (VDict [([97], Tag 3 (VUInt W8 2))])))
    by (vm_compute; reflexivity).
  assert (F' : from_bytes (create_std_engine true) unsorted_keys
    = Ok (Tag 30 (VDict [([98], Tag 3 (VUInt W8 1)); ([97], Tag 3 (VUInt W8 2))]))) by (vm_compute; reflexivity).
  assert (B : bytes_ok repeated_key) by (repeat constructor).
  split; [|split].
  - intros H. specialize (H _ _ B F). vm_compute in H. discriminate.
  - eexists. split; [exact F|]. vm_compute. reflexivity.
  - eexists. split; [exact F'|]. vm_compute. reflexivity.
Qed.
Print Assumptions C31_accepted_bytes_are_canonical_refuted.

(** ** C34.  String tag shortcuts. *)
Theorem C34_serialize : forall s,
  (forall w, serialize_string_tag_from_value s w = serialize (Tag 17 (VString s)) w) /\
  string_tag_size_from_value s = size (Tag 17 (VString s)).
Proof. intros s. split; reflexivity. Qed.
Print Assumptions C34_serialize.
(** A factory that builds string tags for id 17 and for no other id. *)
Lemma wire_string_tag mk bs s : mk 17 = Some (17, KString) -> (forall i k, mk i = Some (17, k) -> i = 17) ->
  (wire_string bs s <-> wire mk bs (Tag 17 (VString s))).
Proof.
  intros Hm Hu. split.
  - destruct 1 as [idb szb s R1 R2 L U]. eapply wire_intro; eauto; [now constructor|now apply P_string].
  - intros H. inversion H as [wid idb szb n body id k v R Sz Ln Hk P Hx]; subst.
    apply Hu in Hk as ->. inversion P; subst.
    inversion Sz as [Hw E1 E2|n szb' Hw Rs E1 E2]; subst; [lia|]. now constructor.
Qed.
Lemma std_17 s : standard_mk s 17 = Some (17, KString) /\ (forall i k, standard_mk s i = Some (17, k) -> i = 17).
Proof.
  split; [reflexivity|]. intros i k H. destruct (standard_keeps_ids s _ _ _ H) as [E _]. congruence.
Qed.
Theorem C34_deserialize : forall strict r s bs, rwf r -> good r ->
  ((exists r', deserialize_string_tag_from_value r = (Ok s, r') /\ delivers r bs r') <->
   (exists r', deserialize (create_std_engine strict) r = (Ok (Tag 17 (VString s)), r') /\ delivers r bs r')).
Proof.
  intros strict r s bs W G. rewrite accepts_iff by auto using std_engine_ok. rewrite wire_std.
  destruct (std_17 strict) as [S1 S2]. rewrite <- (wire_string_tag _ bs s S1 S2). split.
  - intros (r' & E & D). destruct (sound_string _ _ _ W E) as (bs' & Hs & D').
    destruct (pending_delivers _ _ _ G D) as [P _]. destruct (pending_delivers _ _ _ G D') as [P' _].
    assert (bs' = bs) as ->.
    { pose proof (delivers_left _ _ _ D). pose proof (delivers_left _ _ _ D').
      rewrite P in P'. apply app_eq_app_len in P'; [now destruct P'|unfold lenN; lia]. }
    split; [exact Hs|]. now exists (pending r').
  - intros [Hs (rest & P)]. pose proof (bytes_ok_pending _ W) as B. rewrite P in B. apply bytes_ok_app in B as [B _].
    exact (rcomplete_string (S (left r)) s bs B Hs r rest W G ltac:(lia) P).
Qed.
Print Assumptions C34_deserialize.
(** On every reader, failing or not: if the id on the wire is that of the string
    tag the outcomes are the same, with the same error and the same reader
    afterwards; any other id is CorruptedData. *)
Theorem C34_same_outcome : forall strict r id r1, deserialize_ilint r = (Ok id, r1) ->
  (id = 17 -> forall x r', deserialize (create_std_engine strict) r = (x, r') ->
     exists y, deserialize_string_tag_from_value r = (y, r') /\
       (forall s, y = Ok s <-> x = Ok (Tag 17 (VString s))) /\ (forall err, y = Err err <-> x = Err err)) /\
  (id <> 17 -> deserialize_string_tag_from_value r = (Err CorruptedData, r1)).
Proof.
  intros strict r id r1 E. split.
  - intros -> x r'. unfold deserialize. cbn [deserialize_fuel]. rewrite (bind_ok _ _ _ _ _ E).
    unfold deserialize_string_tag_from_value, deserialize_string_tag_from_value_into, bind, on_reader, modify.
    rewrite E. cbn [negb IL_STRING_TAG_ID N.eqb Pos.eqb ret fail]. unfold deserialize_tag_size, bind.
    change (is_implicit_tag 17) with false. cbn iota.
    destruct (deserialize_ilint r1) as [[n|e| |] r2]; try (intros [= <- <-]; eexists; split; [reflexivity|]; split; split; congruence).
    destruct (tag_size_to_usize n) as [m|e| |]; try (intros [= <- <-]; eexists; split; [reflexivity|]; split; split; congruence).
    rewrite std_create. change (std_created strict 17) with (Some (Tag 17 (VString []))).
    unfold deserialize_tag_value_into, LimitedReader_new. cbn [tag_val tag_id deserialize_value].
    unfold run, string_deserialize, bind, on_reader, modify, deserialize_bytes, lift_err, fetch. cbn [read_all].
    rewrite N.ltb_irrefl. destruct (read_all m r2) as [[[[]|e| |] got] r3]; cbn [map_ok map_err is_ok unlimit negb andb N.eqb Pos.eqb IL_ILINT_TAG_ID IL_SIGNED_ILINT_TAG_ID limit_empty];
      try (intros [= <- <-]; eexists; split; [reflexivity|]; split; split; congruence).
    destruct (from_utf8 got); cbn [fail].
    + rewrite N.sub_diag. cbn [N.eqb negb andb]. intros [= <- <-]. eexists. split; [reflexivity|]. split; split; congruence.
    + intros [= <- <-]. eexists. split; [reflexivity|]. split; split; congruence.
  - intros H. unfold deserialize_string_tag_from_value, deserialize_string_tag_from_value_into, bind, on_reader.
    rewrite E. unfold IL_STRING_TAG_ID. destruct (N.eqb_spec id 17); [contradiction|]. reflexivity.
Qed.
Print Assumptions C34_same_outcome.
Example C34_same_outcome_instance :
  deserialize_string_tag_from_value (RRead [17; 3; 65] [Chunk 2; Chunk 1; Fail (OtherKind 1)])
  = (Err (TagIO (IOErrorStd (OtherKind 1))), RRead [65] []) /\
  deserialize (create_std_engine true) (RRead [17; 3; 65] [Chunk 2; Chunk 1; Fail (OtherKind 1)])
  = (Err (TagIO (IOErrorStd (OtherKind 1))), RRead [65] []) /\
  deserialize_string_tag_from_value (RVec [16; 1; 65] 0) = (Err CorruptedData, RVec [16; 1; 65] 1).
Proof. vm_compute. auto. Qed.
(** On every reader, failing or not: no panic, and the output string changes only
    on success, to the same string whatever it held. *)
Theorem C34_output_on_failure : forall r s x s' r', rwf r ->
  deserialize_string_tag_from_value_into (s, r) = (x, (s', r')) ->
  ((x = Ok tt /\ deserialize_string_tag_from_value r = (Ok s', r')) \/
   (exists err, x = Err err /\ s' = s /\ deserialize_string_tag_from_value r = (Err err, r'))).
Proof.
  intros r s x s' r' W H.
  assert (K : forall s0, (exists t, x = Ok tt /\ s' = t /\ deserialize_string_tag_from_value_into (s0, r) = (Ok tt, (t, r'))) \/
                 (exists y, x = y /\ y <> Ok tt /\ s' = s /\ deserialize_string_tag_from_value_into (s0, r) = (y, (s0, r')))).
  { intros s0. revert H. unfold deserialize_string_tag_from_value_into, bind, on_reader, modify.
    destruct (deserialize_ilint r) as [[id|err| |] r1]; try (intros [= <- <- <-]; right; eexists; repeat split; discriminate).
    destruct (negb (id =? IL_STRING_TAG_ID)); cbn [fail ret]; [intros [= <- <- <-]; right; eexists; repeat split; discriminate|].
    destruct (deserialize_ilint r1) as [[len|err| |] r2]; try (intros [= <- <- <-]; right; eexists; repeat split; discriminate).
    destruct (tag_size_to_usize len) as [n|err| |]; try (intros [= <- <- <-]; right; eexists; repeat split; discriminate).
    destruct (deserialize_bytes n r2) as [[tmp|err| |] r3]; try (intros [= <- <- <-]; right; eexists; repeat split; discriminate).
    destruct (from_utf8 tmp); cbn [fail]; [intros [= <- <- <-]; left; eexists; repeat split|
      intros [= <- <- <-]; right; eexists; repeat split; discriminate]. }
  destruct (string_into_msafe False (S (left r)) s r x s' r' W ltac:(lia) H) as (R & _ & _).
  destruct (K []) as [(t & -> & -> & E)|(y & <- & Hy & -> & E)].
  - left. split; [reflexivity|]. unfold deserialize_string_tag_from_value. now rewrite E.
  - right. destruct x as [[]|err| |]; try contradiction. exists err. repeat split.
    unfold deserialize_string_tag_from_value. now rewrite E.
Qed.
Print Assumptions C34_output_on_failure.
Example C34_instance :
  deserialize_string_tag_from_value_into ([9], RVec [17; 2; 195; 169; 5] 0) = (Ok tt, ([195; 169], RVec [17; 2; 195; 169; 5] 4)) /\
  deserialize_string_tag_from_value_into ([9], RVec [17; 2; 195; 40] 0) = (Err CorruptedData, ([9], RVec [17; 2; 195; 40] 4)).
Proof. vm_compute. auto. Qed.

(** ** C32.  String dictionaries and dictionaries. *)
Definition wrap (e : list N * list N) : list N * tag := (fst e, Tag 17 (VString (snd e))).
Lemma hm_get_wrap k l : hm_get k (map (fun e => (fst e, serialize (snd e))) (map wrap l))
  = option_map (fun s => serialize (Tag 17 (VString s))) (hm_get k l).
Proof.
  induction l as [|[j s] l IH]; cbn [map wrap hm_get fst snd]; [reflexivity|]. destruct (str_eqb k j); [reflexivity|exact IH].
Qed.
Theorem C32_same_bytes_and_size : forall l,
  (forall w, serialize_value (VStrDict l) w = serialize_value (VDict (map wrap l)) w) /\
  value_size (VStrDict l) = value_size (VDict (map wrap l)) /\
  encv (VStrDict l) = encv (VDict (map wrap l)).
Proof.
  intros l.
  assert (Ef : map fst (map wrap l) = map fst l) by (rewrite map_map; reflexivity).
  assert (El : lenN (map wrap l) = lenN l) by (unfold lenN; now rewrite map_length).
  split; [|split].
  - intros w. cbn [serialize_value]. rewrite Ef, El. unfold bind at 1 3.
    destruct (serialize_ilint (lenN l) w) as [[u|err| |] w1]; try reflexivity.
    apply for_each_ext. intros k w2 _. rewrite hm_get_wrap. destruct (hm_get k l); reflexivity.
  - cbn [value_size]. rewrite El. f_equal. generalize 0. clear. induction l as [|[k s] l IH]; intros a; cbn [map fold_left]; [reflexivity|].
    rewrite IH. reflexivity.
  - cbn [encv]. rewrite El. f_equal.
    assert (Es : map (fun e : list N * tag => (fst e, enc (snd e))) (map wrap l)
                 = map (fun e => (fst e, enc_string (snd e))) l).
    { rewrite map_map. apply map_ext. intros [k s]. cbn [wrap fst snd]. f_equal. }
    rewrite Es, sort_entries_map, map_map. reflexivity.
Qed.
Print Assumptions C32_same_bytes_and_size.

Lemma wire_strings_wrap mk bs es : mk 17 = Some (17, KString) -> (forall i k, mk i = Some (17, k) -> i = 17) ->
  (wire_strings bs es <-> wire_entries mk bs (map wrap es)).
Proof.
  intros H1 H2. split.
  - induction 1 as [|kb k vb v bs es Hk Hv Hs IH]; cbn [map wrap fst snd]; constructor; auto. now apply wire_string_tag.
  - revert bs. induction es as [|[k v] es IH]; cbn [map wrap fst snd]; intros bs H; inversion H; subst; constructor; auto.
    now apply (wire_string_tag mk).
Qed.
(** Bodies of explicit tags with a one-byte id. *)
Lemma one_byte_id mk id k rest v : 15 < id < 248 -> (forall i j, mk i = Some (id, j) -> i = id /\ j = k) ->
  mk id = Some (id, k) ->
  (wire mk (id :: rest) (Tag id v) <->
   exists szb body, rest = szb ++ body /\ ilint_repr (lenN body) szb /\ lenN body <= 536870912 /\ payload mk k (lenN body) body v).
Proof.
  intros Hid Hu Hm. split.
  - intros H. inversion H as [wid idb szb n body id' k' v' R Sz Ln Hk P Hx E]; subst.
    destruct (Hu _ _ Hk) as [-> ->].
    destruct (ilint_repr_prefix _ _ rest _ _ _ (repr_short id ltac:(lia)) R (eq_sym E)) as (_ & <- & ->).
    inversion Sz as [Hw|n' szb' Hw Rs]; subst; [lia|].
    exists szb, body. destruct Hx as [Hx|[Hx|Hx]]; [lia|lia|]. subst n. auto.
  - intros (szb & body & -> & Rs & L & P). apply (wire_intro mk id [id] szb (lenN body) body id k v); auto.
    + constructor. lia.
    + constructor; [lia|exact Rs].
Qed.
Lemma std_unique s id k : standard_kind id = Some k ->
  (forall i j, standard_mk s i = Some (id, j) -> i = id /\ j = k) /\ standard_mk s id = Some (id, k).
Proof.
  intros Hk. assert (E : standard_mk s id = Some (id, k)) by (unfold standard_mk; now rewrite Hk).
  split; [|exact E]. intros i j H. destruct (standard_keeps_ids s _ _ _ H) as [-> _]. split; [reflexivity|]. congruence.
Qed.
(** A string dictionary is accepted exactly when the dictionary with the same
    bytes is, all the values on the wire being standard string tags. *)
Theorem C32_accepts : forall strict rest d, bytes_ok rest ->
  (from_bytes (create_std_engine strict) (31 :: rest) = Ok (Tag 31 (VStrDict d)) <->
   exists szb cb body es,
     rest = szb ++ cb ++ body /\ ilint_repr (lenN (cb ++ body)) szb /\ lenN (cb ++ body) <= 536870912 /\
     ilint_repr (lenN es) cb /\ wire_entries (standard_mk strict) body (map wrap es) /\ d = dict_of es) /\
  (forall d', from_bytes (create_std_engine strict) (30 :: rest) = Ok (Tag 30 (VDict d')) <->
   exists szb cb body es,
     rest = szb ++ cb ++ body /\ ilint_repr (lenN (cb ++ body)) szb /\ lenN (cb ++ body) <= 536870912 /\
     ilint_repr (lenN es) cb /\ wire_entries (standard_mk strict) body es /\ d' = dict_of es).
Proof.
  intros strict rest d B. destruct (std_17 strict) as [S1 S2].
  assert (Bc : forall id, id < 256 -> bytes_ok (id :: rest)) by (intros; constructor; assumption).
  split; [|intros d'].
  - rewrite from_bytes_iff by (auto using std_engine_ok; apply Bc; lia).
    rewrite wire_std. destruct (std_unique strict 31 KStrDict eq_refl) as [U M].
    rewrite (one_byte_id _ 31 KStrDict _ _ ltac:(lia) U M). split.
    + intros (szb & body & -> & Rs & L & P). inversion P; subst. exists szb, cb, body0, es. repeat split; auto.
      now apply wire_strings_wrap.
    + intros (szb & cb & body & es & -> & Rs & L & Rc & We & ->). exists szb, (cb ++ body). repeat split; auto.
      apply P_strdict; auto. now apply wire_strings_wrap in We.
  - rewrite from_bytes_iff by (auto using std_engine_ok; apply Bc; lia).
    rewrite wire_std. destruct (std_unique strict 30 KDict eq_refl) as [U M].
    rewrite (one_byte_id _ 30 KDict _ _ ltac:(lia) U M). split.
    + intros (szb & body & -> & Rs & L & P). inversion P; subst. exists szb, cb, body0, es. repeat split; auto.
    + intros (szb & cb & body & es & -> & Rs & L & Rc & We & ->). exists szb, (cb ++ body). repeat split; auto.
      now apply P_dict.
Qed.
Print Assumptions C32_accepts.
Lemma put_wrap k v m : put k (Tag 17 (VString v)) (map wrap m) = map wrap (put k v m).
Proof.
  induction m as [|[j x] m IH]; cbn [map wrap put fst snd]; [reflexivity|]. destruct (bytes_eqb k j); cbn [map wrap fst snd]; [reflexivity|].
  f_equal. exact IH.
Qed.
Lemma dict_of_wrap es : dict_of (map wrap es) = map wrap (dict_of es).
Proof.
  unfold dict_of. change (@nil (list N * tag)) with (map wrap []). generalize (@nil (list N * list N)).
  induction es as [|[k v] es IH]; intros m; cbn [map fold_left wrap fst snd]; [reflexivity|]. rewrite put_wrap. apply IH.
Qed.
Theorem C32_strdict_as_dict : forall strict rest d, bytes_ok rest ->
  from_bytes (create_std_engine strict) (31 :: rest) = Ok (Tag 31 (VStrDict d)) ->
  from_bytes (create_std_engine strict) (30 :: rest) = Ok (Tag 30 (VDict (map wrap d))).
Proof.
  intros strict rest d B H. apply (C32_accepts strict rest d B) in H as (szb & cb & body & es & -> & Rs & L & Rc & We & ->).
  apply (C32_accepts strict _ [] B). exists szb, cb, body, (map wrap es). repeat split; auto.
  - now replace (lenN (map wrap es)) with (lenN es) by (unfold lenN; now rewrite map_length).
  - symmetry. apply dict_of_wrap.
Qed.
Print Assumptions C32_strdict_as_dict.
Example C32_instance :
  from_bytes (create_std_engine true) [31; 7; 1; 17; 1; 97; 17; 1; 98] = Ok (Tag 31 (VStrDict [([97], [98])])) /\
  from_bytes (create_std_engine true) [30; 7; 1; 17; 1; 97; 17; 1; 98] = Ok (Tag 30 (VDict [([97], Tag 17 (VString [98]))])) /\
  from_bytes (create_std_engine true) [31; 6; 1; 17; 1; 97; 3; 1] = Err CorruptedData /\
  encv (VStrDict [([98], [1]); ([97], [2])]) = [2; 17; 1; 97; 17; 1; 2; 17; 1; 98; 17; 1; 1].
Proof. vm_compute. auto. Qed.
(** Reading a value that is not a string is refused even if a later entry with
    the same key would replace it: the dictionary's final contents do not tell. *)
Theorem C32_final_contents_decide_refuted :
  ~ (forall rest d, bytes_ok rest ->
      from_bytes (create_std_engine true) (30 :: rest) = Ok (Tag 30 (VDict (map wrap d))) ->
      from_bytes (create_std_engine true) (31 :: rest) = Ok (Tag 31 (VStrDict d))).
Proof.
  intros H. specialize (H [12; 2; 17; 1; 97; 3; 1; 17; 1; 97; 17; 1; 98] [([97], [98])] ltac:(repeat constructor)).
  specialize (H ltac:(vm_compute; reflexivity)). vm_compute in H. discriminate.
Qed.
Print Assumptions C32_final_contents_decide_refuted.

(** ** C33.  Types that share a format. *)
Theorem C33_same_bytes_and_size :
  (forall l, (forall w, serialize_value (VOID l) w = serialize_value (VILIntArray l) w) /\
             value_size (VOID l) = value_size (VILIntArray l) /\ encv (VOID l) = encv (VILIntArray l)) /\
  (forall bs, (forall w, serialize_value (VRaw bs) w = serialize_value (VBytes bs) w /\
                         serialize_value (VBigInt bs) w = serialize_value (VBytes bs) w) /\
              value_size (VRaw bs) = value_size (VBytes bs) /\ value_size (VBigInt bs) = value_size (VBytes bs) /\
              encv (VRaw bs) = bs /\ encv (VBytes bs) = bs /\ encv (VBigInt bs) = bs).
Proof. repeat split. Qed.
Print Assumptions C33_same_bytes_and_size.
Theorem C33_accept_the_same_payloads : forall strict rest, bytes_ok rest ->
  (forall l, from_bytes (create_std_engine strict) (25 :: rest) = Ok (Tag 25 (VOID l)) <->
             from_bytes (create_std_engine strict) (20 :: rest) = Ok (Tag 20 (VILIntArray l))) /\
  (forall bs, from_bytes (create_std_engine strict) (16 :: rest) = Ok (Tag 16 (VBytes bs)) <->
              from_bytes (create_std_engine strict) (18 :: rest) = Ok (Tag 18 (VBigInt bs))) /\
  (forall bs, from_bytes (create_std_engine strict) (16 :: rest) = Ok (Tag 16 (VBytes bs)) <->
              from_bytes (create_std_engine false) (26 :: rest) = Ok (Tag 26 (VRaw bs))).
Proof.
  intros strict rest B.
  assert (Bc : forall id, id < 256 -> bytes_ok (id :: rest)) by (intros; constructor; assumption).
  destruct (std_unique strict 25 KOID eq_refl) as [U25 M25]. destruct (std_unique strict 20 KILIntArray eq_refl) as [U20 M20].
  destruct (std_unique strict 16 KBytes eq_refl) as [U16 M16]. destruct (std_unique strict 18 KBigInt eq_refl) as [U18 M18].
  assert (M26 : standard_mk false 26 = Some (26, KRaw)) by reflexivity.
  assert (U26 : forall i j, standard_mk false i = Some (26, j) -> i = 26 /\ j = KRaw).
  { intros i j H. destruct (standard_keeps_ids false _ _ _ H) as [<- _]. rewrite M26 in H. split; congruence. }
  split; [|split].
  - intros l. rewrite !from_bytes_iff by (auto using std_engine_ok; apply Bc; lia). rewrite !wire_std.
    rewrite (one_byte_id _ 25 KOID _ _ ltac:(lia) U25 M25), (one_byte_id _ 20 KILIntArray _ _ ltac:(lia) U20 M20).
    split; intros (szb & body & -> & Rs & L & P); inversion P; subst; exists szb, (cb ++ ib);
      repeat split; auto; constructor; auto.
  - intros bs. rewrite !from_bytes_iff by (auto using std_engine_ok; apply Bc; lia). rewrite !wire_std.
    rewrite (one_byte_id _ 16 KBytes _ _ ltac:(lia) U16 M16), (one_byte_id _ 18 KBigInt _ _ ltac:(lia) U18 M18).
    split; intros (szb & body & -> & Rs & L & P); inversion P; subst; exists szb, bs;
      repeat split; auto; constructor; auto.
  - intros bs. rewrite !from_bytes_iff by (auto using std_engine_ok; apply Bc; lia). rewrite !wire_std.
    rewrite (one_byte_id _ 16 KBytes _ _ ltac:(lia) U16 M16), (one_byte_id _ 26 KRaw _ _ ltac:(lia) U26 M26).
    split; intros (szb & body & -> & Rs & L & P); inversion P; subst; exists szb, bs;
      repeat split; auto; constructor; auto.
Qed.
Print Assumptions C33_accept_the_same_payloads.
Example C33_instance :
  from_bytes (create_std_engine true) [25; 4; 2; 5; 248; 7] = Ok (Tag 25 (VOID [5; 255])) /\
  from_bytes (create_std_engine true) [20; 4; 2; 5; 248; 7] = Ok (Tag 20 (VILIntArray [5; 255])) /\
  from_bytes (create_std_engine true) [18; 2; 7; 8] = Ok (Tag 18 (VBigInt [7; 8])).
Proof. vm_compute. auto. Qed.

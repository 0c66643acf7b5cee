(** The scanner against a reference scanner over lists of bytes: C73. *)
From Verif Require Import Base BaseFacts Types Spec SpecFacts IO IOSpec IOFacts Logic ILInt ILIntFacts HistFacts PReaders
  Data DataFacts Tags TagsFacts Factory FactoryFacts DecodeFacts DeserFacts IntoFacts EngineFacts StableFacts FromFacts MonoFacts PErrors
  ParseSpec ParseFacts PParse Scanner ScannerFacts.

(** What the header at the start of some bytes says: the id, the size of a
    minimal header, the size of the value and how much of it is still ahead. *)
Definition headP : parser (N * N * N * N) :=
  let* id := ilintP in
  if 15 <? id then let* n := ilintP in pret (id, lenN (ilint id) + lenN (ilint n), n, n)
  else if (id =? 10) || (id =? 14) then
    let* b := takeP 1 in
    let n := if be_value b <? 248 then 1 else be_value b - 246 in
    pret (id, 1, n, n - 1)
  else let* _ := require (negb (id =? 15)) Invalid in pret (id, 1, implicit_size id, implicit_size id).

(** ** The header *)
Definition head (c : cfg) : reader -> res tag_error (N * N * N * N) * reader :=
  id <- deserialize_ilint ;;
  z <- extract_tag_size c id ;;
  ret (id, lenN (ilint id) + fst (fst z), snd (fst z), snd z).
Lemma ilint_yields : yields ilintP (fun n => n < two64).
Proof.
  intros l n l1 B H. unfold ilintP, pbind in H. destruct (takeP 1 l) as [[h|f] l2] eqn:E1; [|discriminate].
  destruct (N.ltb_spec (be_value h) 248); [injection H as <- _; unfold two64; lia|].
  destruct (takeP _ l2) as [[bd|f] l3]; [|discriminate]. unfold require in H.
  destruct (N.ltb_spec (be_value bd + 248) two64); [|discriminate]. injection H as <- _. assumption.
Qed.
Lemma refines_head F c : refines F tag_flaw (head c) headP.
Proof.
  unfold head, headP. eapply refines_bind_if; [apply refines_ilint|apply ilint_yields|]. intros id Hi.
  destruct (N.ltb_spec 15 id) as [L|L].
  - destruct (extract_unfold c id ltac:(lia)) as (U & _ & _). rewrite U by exact L.
    intros r x r' W G H. unfold bind in H.
    assert (K : (n <- deserialize_ilint ;; ret (id, lenN (ilint id) + encoded_size n, n, n)) r = (x, r')).
    { unfold bind. destruct (deserialize_ilint r) as [[n|e| |] r1]; exact H. }
    clear H. revert r x r' W G K. change (refines F tag_flaw (n <- deserialize_ilint ;; ret (id, lenN (ilint id) + encoded_size n, n, n))
      (let* n := ilintP in pret (id, lenN (ilint id) + lenN (ilint n), n, n))).
    eapply refines_bind_if; [apply refines_ilint|apply ilint_yields|]. intros n Hn. rewrite encoded_size_spec by exact Hn. apply refines_ret.
  - destruct (N.eq_dec id 15) as [->|N15].
    { cbn [N.eqb Pos.eqb orb negb require]. intros r x r' W G H. cbn in H. injection H as <- <-. right. right.
      exists CorruptedData. cbn. split; [reflexivity|]. split; [reflexivity|apply took_refl]. }
    destruct (extract_unfold c id N15) as (_ & U2 & U3).
    destruct ((id =? 10) || (id =? 14)) eqn:Eq.
    + assert (I : id = 10 \/ id = 14).
      { apply orb_true_iff in Eq as [Eq|Eq]; apply N.eqb_eq in Eq; auto. }
      rewrite (U2 I). assert (Li : lenN (ilint id) = 1) by (destruct I as [-> | ->]; reflexivity). rewrite Li. clear U2 U3.
      intros r x r' W G H.
      assert (K : (b <- lift_err TagIO read ;; ret (id, 1, decoded_size b, decoded_size b - 1)) r = (x, r')).
      { unfold extract_implicit_ilint_tag_size, bind in H. unfold bind. destruct (lift_err TagIO read r) as [[b|e| |] r1]; try exact H.
        cbv zeta in H. rewrite sub_usize_1 in H. exact H. }
      clear H. revert r x r' W G K.
      match goal with |- forall r x r', _ -> _ -> ?m r = _ -> answers _ _ (?p _) _ _ _ => change (refines F tag_flaw m p) end.
      apply (refines_ext F _ _ (let* b := (let* b := takeP 1 in pret (be_value b)) in pret (id, 1, decoded_size b, decoded_size b - 1))).
      { intros l _. unfold pbind, pret. destruct (takeP 1 l) as [[b|f] l1]; [|reflexivity].
        unfold decoded_size, ILINT_BASE. destruct (N.ltb_spec (be_value b) 248); [reflexivity|].
        replace (be_value b - 248 + 2) with (be_value b - 246) by lia. reflexivity. }
      apply refines_bind; [apply refines_tag, refines_read|]. intros b. apply refines_ret.
    + apply orb_false_iff in Eq as [E1 E2]. apply N.eqb_neq in E1, E2. rewrite U3 by lia.
      assert (Li : lenN (ilint id) = 1) by (apply ilint_small; lia).
      destruct (N.eqb_spec id 15); [contradiction|]. cbn [negb require].
      intros r x r' W G H. unfold bind, ret in H. cbn [fst snd] in H. rewrite Li, N.add_0_r in H. injection H as <- <-.
      right. split; [reflexivity|apply took_refl].
Qed.

(** The call after the header. *)
Lemma add_mod c a b : a < two64 -> b < two64 -> add_u64 (E := tag_error) c a b =
  if overflow_checks c && (two64 <=? a + b) then Panic else Ok ((a + b) mod two64).
Proof.
  intros H Hb. unfold add_u64. destruct (N.ltb_spec (a + b) two64); destruct (N.leb_spec two64 (a + b)); try lia.
  - rewrite andb_false_r, N.mod_small by assumption. reflexivity.
  - rewrite andb_true_r. destruct (overflow_checks c); [reflexivity|]. f_equal. apply (N.mod_unique _ _ 1); lia.
Qed.
Lemma advance_mod c off h n : off < two64 -> h < two64 -> n < two64 ->
  advance c off h n = if overflow_checks c && (two64 <=? off + h + n) then Panic else Ok ((off + h + n) mod two64).
Proof.
  intros Ho Hh Hn. unfold advance, and_then. rewrite add_mod by assumption.
  assert (T : two64 <> 0) by discriminate. pose proof (N.mod_lt (h + n) two64 T) as Hm.
  destruct (overflow_checks c) eqn:Oc; cbn [andb].
  - destruct (N.leb_spec two64 (h + n)).
    + destruct (N.leb_spec two64 (off + h + n)); [reflexivity|lia].
    + rewrite add_mod by assumption. rewrite Oc. cbn [andb]. rewrite (N.mod_small (h + n)) by assumption.
      now rewrite N.add_assoc.
  - rewrite add_mod by assumption. rewrite Oc. cbn [andb]. rewrite N.add_mod_idemp_r by exact T. now rewrite N.add_assoc.
Qed.
Lemma next_tag_head c off r : rwf r -> off < two64 ->
  next_tag c (off, r) =
    match head c r with
    | (Ok (id, h, n, k), r2) =>
        if overflow_checks c && (two64 <=? off + h + n) then (Panic, (off, r2))
        else let '(x, r3) := skip_u64 c k r2 in
             (map_ok (fun _ => Some (RawTagOffset_new id off h n)) (map_err TagIO x), ((off + h + n) mod two64, r3))
    | (Err e, r2) => (Err e, (off, r2))
    | (Panic, r2) => (Panic, (off, r2))
    | (OutOfFuel, r2) => (OutOfFuel, (off, r2))
    end.
Proof.
  intros W Ho. unfold head, bind. destruct (deserialize_ilint r) as [[id|e| |] r1] eqn:E1;
    try (unfold next_tag, bind, on_source; now rewrite E1).
  destruct (sound_deserialize_ilint _ _ _ W E1) as (idb & R & D1). destruct (delivers_rwf _ _ _ W D1) as [W1 B1].
  destruct (extract_tag_size c id r1) as [[[[h n] k]|e| |] r2] eqn:E2;
    try (unfold next_tag, bind, on_source; rewrite E1; cbv beta iota; now rewrite E2).
  destruct (sound_extract c id _ _ _ W1 E2) as (zb & Z & D2).
  rewrite (next_tag_steps c off r id r1 idb zb h n k r2 E1 R E2 Z). cbn [ret fst snd].
  rewrite advance_mod; [|exact Ho| |].
  - destruct (_ && _); reflexivity.
  - assert (Hi : id < two64) by (eapply ilint_repr_bound; eauto).
    pose proof (ilint_repr_len id (ilint id) (ilint_repr_ilint _ Hi)).
    assert (h <= 9).
    { inversion Z; subst; try lia. match goal with HR : ilint_repr ?m zb |- _ => apply (ilint_repr_len m), ilint_repr_ilint; eapply ilint_repr_bound; exact HR end. }
    unfold two64. lia.
  - inversion Z; subst; [eapply ilint_repr_bound; eauto| |].
    + unfold implicit_size, two64. repeat match goal with |- context [match ?p with _ => _ end] => destruct p; try lia end.
    + unfold decoded_size, ILINT_BASE, byte_ok, two64 in *. destruct (b <? 248); lia.
Qed.

(** Errors of a skip are errors of the reader. *)
Lemma mem_skip_err n (a : list N) o e o' : o <= lenN a -> mem_skip n (lenN a) o = (Err e, o') -> e = EndOfData \/ e = UnableToReadData.
Proof.
  intros H. rewrite mem_skip_spec by assumption.
  destruct (n =? 0); [discriminate|]. destruct (o =? lenN a); [intros [= <- _]; auto|]. destruct (_ <? n); [intros [= <- _]; auto|discriminate].
Qed.
Lemma skip_loop_faults fuel n r e r' : rwf r -> skip_loop fuel n r = (Err e, r') -> faults r e.
Proof.
  revert n r. induction fuel as [|f IH]; intros n r W; cbn [skip_loop]; destruct (n =? 0); try discriminate. cbv zeta.
  destruct (read_all (N.min n 512) r) as [[x got] r1] eqn:E. destruct x as [[]|e1| |]; try discriminate.
  - intros H. apply read_all_ok in E as [_ D]. destruct (delivers_rwf _ _ _ W D) as [W1 _]. eapply faults_delivers; [exact D|eauto].
  - intros [= <- _]. eapply read_all_faults; eauto.
Qed.
Lemma skip_faults c n r e r' : rwf r -> no_seek r -> skip c n r = (Err e, r') -> faults r e.
Proof.
  intros W S. destruct r as [a o|a o|s m|d sc|s|sc]; cbn [skip no_seek] in *; try contradiction; try (apply skip_loop_faults; assumption).
  - destruct (mem_skip n (lenN a) o) as [x o'] eqn:E. intros [= -> _]. apply mem_skip_err in E; [exact E|exact (proj2 W)].
  - rewrite vecr_skip_eq. destruct (mem_skip n (lenN a) o) as [x o'] eqn:E. intros [= -> _]. apply mem_skip_err in E; [exact E|exact (proj2 W)].
Qed.
Lemma skip_u64_faults c n r e r' : rwf r -> no_seek r -> skip_u64 c n r = (Err e, r') -> faults r e.
Proof.
  intros W S. assert (Q : skip_u64 c n r = skip_u64_loop c (Datatypes.S (left r)) n r) by (destruct r; try reflexivity; contradiction).
  rewrite Q. clear Q. generalize (Datatypes.S (left r)). intros fuel. revert n r W S.
  induction fuel as [|f IH]; intros n r W S; cbn [skip_u64_loop]; destruct (n =? 0); try discriminate. cbv zeta.
  destruct (skip c (N.min n (usize_max c)) r) as [[[]|e1| |] r1] eqn:E; try discriminate.
  - intros H. pose proof (skip_no_seek _ _ _ _ _ S E) as S1. destruct (skip_sound _ _ _ _ W S E) as (bs & _ & D).
    destruct (delivers_rwf _ _ _ W D) as [W1 _]. eapply faults_delivers; [exact D|eauto].
  - intros [= <- _]. eapply skip_faults; eauto.
Qed.

(** ** C73. *)
(** What the reference scanner says of a call, but for missing data. *)
Definition scanned (c : cfg) (off : N) (r : reader) (x : res tag_error (option raw_tag_offset)) (off' : N) (r' : reader) : Prop :=
  match headP (pending r) with
  | (inl (id, h, n, k), rest) =>
      if overflow_checks c && (two64 <=? off + h + n)
      then x = Panic /\ off' = off /\ exists bs, delivers r bs r' /\ pending r = bs ++ rest
      else k <= lenN rest /\ x = Ok (Some (RawTagOffset_new id off h n)) /\ off' = (off + h + n) mod two64 /\
           exists bs, delivers r bs r' /\ pending r = bs ++ dropN k rest
  | (inr f, rest) =>
      exists err, reported f = Some err /\ x = Err err /\ off' = off /\ exists bs, delivers r bs r' /\ pending r = bs ++ rest
  end.
(** Data is missing, and where the offset is then. *)
Definition scan_short (c : cfg) (off : N) (r : reader) (off' : N) : Prop :=
  match headP (pending r) with
  | (inl (id, h, n, k), rest) =>
      overflow_checks c && (two64 <=? off + h + n) = false /\ lenN rest < k /\ off' = (off + h + n) mod two64
  | (inr f, _) => f = Short /\ off' = off
  end.

(** Any reader, failing as it likes: a failure of the reader, or what the
    reference scanner says. *)
Theorem C73_any_reader : forall c off r x off' r', cfg_ok c -> rwf r -> no_seek r -> off < two64 ->
  next_tag c (off, r) = (x, (off', r')) ->
  (exists i, x = Err (TagIO i) /\ faults r i /\ (good r -> scan_short c off r off')) \/ scanned c off r x off' r'.
Proof.
  intros c off r x off' r' C W S Ho H. rewrite next_tag_head in H by assumption.
  destruct (head c r) as [y r2] eqn:Eh.
  assert (Q : fits (faults r) r) by (intros i Hi; exact Hi).
  pose proof (refines_head (faults r) c r y r2 W Q Eh) as A.
  assert (Ry : returns y).
  { clear -W Eh. unfold head, bind in Eh. destruct (deserialize_ilint r) as [y1 r1] eqn:E1.
    destruct (safe_deserialize_ilint _ _ _ W E1) as (R1 & W1 & _).
    destruct y1 as [id|e| |]; try contradiction; [|injection Eh as <- _; exact I].
    destruct (extract_tag_size c id r1) as [y2 r3] eqn:E2. destruct (safe_extract c id _ _ _ W1 E2) as (R2 & _).
    destruct y2; try contradiction; injection Eh as <- _; exact I. }
  destruct A as [[->|(i & -> & Fi & Sh)]|A]; [contradiction| |].
  - left. injection H as <- <- <-. exists i. split; [reflexivity|]. split; [exact Fi|]. intros G. unfold scan_short.
    specialize (Sh G). destruct (headP (pending r)) as [[p|f] rest]; cbn [fst] in Sh; [discriminate|]. injection Sh as ->. auto.
  - unfold scanned, scan_short. destruct (headP (pending r)) as [[[[[id h] n] k]|f] rest] eqn:Ep.
    + destruct A as [-> T]. destruct (overflow_checks c && (two64 <=? off + h + n)) eqn:Ov.
      { right. injection H as <- <- <-. split; [reflexivity|]. split; [reflexivity|exact T]. }
      destruct (took_pending _ _ _ _ W Q T) as (W2 & _ & P2).
      assert (S2 : no_seek r2).
      { destruct T as (bs & D & _). destruct r, r2; cbn [delivers no_seek] in *; try contradiction; auto. }
      destruct (skip_u64 c k r2) as [z r3] eqn:Es.
      assert (U1 : 1 <= usize_max c) by (destruct C; lia).
      destruct (skip_u64_safe _ _ _ _ _ U1 W2 S2 Es) as (Rz & _).
      destruct z as [[]|i| |]; try contradiction; cbn [map_ok map_err] in H; injection H as <- <- <-.
      * right. destruct (skip_u64_sound _ _ _ _ W2 S2 Es) as (bs2 & Lb & D2). pose proof (delivers_pending _ _ _ D2) as P3.
        rewrite P2 in P3.
        split; [rewrite P3, lenN_app; lia|]. split; [reflexivity|]. split; [reflexivity|].
        destruct T as (bs1 & D1 & P1). exists (bs1 ++ bs2). split; [eapply delivers_trans; eauto|].
        rewrite P1, P3, dropN_app_exact by (symmetry; exact Lb). apply app_assoc.
      * left. exists i. split; [reflexivity|]. split.
        { destruct T as (bs1 & D1 & _). eapply faults_delivers; [exact D1|]. eapply skip_u64_faults; eauto. }
        intros G. split; [reflexivity|]. split; [|reflexivity].
        destruct (N.lt_ge_cases (lenN rest) k) as [L|L]; [exact L|].
        destruct (skip_u64_good c k r2) as (r4 & E4 & _); auto; [exact (took_good _ _ _ T G)|rewrite P2; exact L|]. congruence.
    + right. destruct A as [->|(e & -> & He & T)].
      { exfalso. revert Ep. clear. unfold headP.
        intros E. assert (K : settles (Datatypes.S (length (pending r))) headP).
        { unfold headP. apply settles_bind; [apply settles_ilint|]. intros id. destruct (15 <? id); [settle|].
          destruct (_ || _); [settle|]. settle. }
        specialize (K (pending r)). unfold headP in K. rewrite E in K. specialize (K eq_refl). lia. }
      injection H as <- <- <-. exists e. split; [|split; [reflexivity|split; [reflexivity|exact T]]].
      cbn [says tag_flaw] in He. destruct f; cbn [tag_says reported] in *; congruence || contradiction.
Qed.
Print Assumptions C73_any_reader.
(** A well-behaved reader: the call is a function of the bytes ahead. *)
Theorem C73_next_tag : forall c off r, cfg_ok c -> rwf r -> good r -> no_seek r -> off < two64 ->
  exists x off' r', next_tag c (off, r) = (x, (off', r')) /\
  match headP (pending r) with
  | (inl (id, h, n, k), rest) =>
      if overflow_checks c && (two64 <=? off + h + n)
      then x = Panic /\ off' = off /\ pending r' = rest
      else off' = (off + h + n) mod two64 /\
           if k <=? lenN rest
           then x = Ok (Some (RawTagOffset_new id off h n)) /\ pending r' = dropN k rest
           else exists i, x = Err (TagIO i) /\ no_data i
  | (inr f, rest) =>
      off' = off /\ f <> Steps /\
      (f = Short -> exists i, x = Err (TagIO i) /\ no_data i) /\
      (forall err, reported f = Some err -> x = Err err /\ pending r' = rest)
  end.
Proof.
  intros c off r C W G S Ho. destruct (next_tag c (off, r)) as [x [off' r']] eqn:E. exists x, off', r'. split; [reflexivity|].
  destruct (C73_any_reader c off r x off' r' C W S Ho E) as [(i & -> & Fi & Sh)|K].
  - pose proof (good_faults r i G Fi) as Ni. specialize (Sh G). unfold scan_short in Sh.
    destruct (headP (pending r)) as [[[[[id h] n] k]|f] rest].
    + destruct Sh as (-> & L & ->). split; [reflexivity|]. destruct (N.leb_spec k (lenN rest)); [lia|]. eauto.
    + destruct Sh as [-> ->]. split; [reflexivity|]. split; [discriminate|]. split; [eauto|discriminate].
  - unfold scanned in K. destruct (headP (pending r)) as [[[[[id h] n] k]|f] rest].
    + destruct (_ && _).
      * destruct K as (-> & -> & T). pose proof (took_rest _ _ _ T). auto.
      * destruct K as (L & -> & -> & T). pose proof (took_rest _ _ _ T). split; [reflexivity|].
        destruct (N.leb_spec k (lenN rest)); [auto|lia].
    + destruct K as (err & Hr & -> & -> & T). pose proof (took_rest _ _ _ T). split; [reflexivity|].
      split; [intros ->; discriminate|]. split; [intros ->; discriminate|]. intros err' Hr'. split; congruence.
Qed.
Print Assumptions C73_next_tag.
(** A file: the same, except that a skip beyond the end is an error only if the
    position computed stays below 2^64 (C50 has the other cases). *)
Theorem C73_seekable : forall c off s, cfg_ok c -> rwf (RSeek s) -> good (RSeek s) -> lenN (sk_data s) < two64 -> off < two64 ->
  exists x off' r', next_tag c (off, RSeek s) = (x, (off', r')) /\
  match headP (pending (RSeek s)) with
  | (inl (id, h, n, k), rest) =>
      if overflow_checks c && (two64 <=? off + h + n)
      then x = Panic /\ off' = off /\ pending r' = rest
      else off' = (off + h + n) mod two64 /\
           if k <=? lenN rest
           then x = Ok (Some (RawTagOffset_new id off h n)) /\ pending r' = dropN k rest
           else lenN (sk_data s) + k < two64 -> exists i, x = Err (TagIO i) /\ no_data i
  | (inr f, rest) =>
      off' = off /\ f <> Steps /\
      (f = Short -> exists i, x = Err (TagIO i) /\ no_data i) /\
      (forall err, reported f = Some err -> x = Err err /\ pending r' = rest)
  end.
Proof.
  intros c off s C W G Lf Ho. destruct (next_tag c (off, RSeek s)) as [x [off' r']] eqn:H. exists x, off', r'. split; [reflexivity|].
  rewrite next_tag_head in H by assumption.
  destruct (head c (RSeek s)) as [y r2] eqn:Eh.
  assert (Q : fits (faults (RSeek s)) (RSeek s)) by (intros i Hi; exact Hi).
  pose proof (refines_head _ c _ y r2 W Q Eh) as A.
  destruct A as [[->|(i & -> & Fi & Sh)]|A].
  - exfalso. unfold head, bind in Eh. destruct (deserialize_ilint (RSeek s)) as [y1 r1] eqn:E1.
    destruct (safe_deserialize_ilint _ _ _ W E1) as (R1 & W1 & _).
    destruct y1 as [id|e| |]; try contradiction; [|discriminate].
    destruct (extract_tag_size c id r1) as [y2 r3] eqn:E2. destruct (safe_extract c id _ _ _ W1 E2) as (R2 & _).
    destruct y2; try contradiction; discriminate.
  - specialize (Sh G). pose proof (good_faults _ i G Fi) as Ni. injection H as <- <- <-.
    destruct (headP (pending (RSeek s))) as [[p|f] rest]; cbn [fst] in Sh; [discriminate|]. injection Sh as ->.
    split; [reflexivity|]. split; [discriminate|]. split; [eauto|discriminate].
  - destruct (headP (pending (RSeek s))) as [[[[[id h] n] k]|f] rest] eqn:Ep.
    + destruct A as [-> T]. pose proof (took_rest _ _ _ T) as P2.
      destruct (overflow_checks c && (two64 <=? off + h + n)); [injection H as <- <- <-; auto|].
      destruct (took_pending _ _ _ _ W Q T) as (W2 & _ & _). pose proof (took_good _ _ _ T G) as G2.
      assert (F2 : exists s2, r2 = RSeek s2 /\ sk_data s2 = sk_data s /\ sk_pos s2 <= lenN (sk_data s)).
      { destruct T as (bs & D & Pq). destruct r2 as [| | | |s2|]; cbn [delivers] in D; try contradiction. exists s2.
        destruct D as (D1 & D2 & D3 & _). split; [reflexivity|]. split; [exact D1|]. rewrite D2.
        destruct (N.le_gt_cases (sk_pos s) (lenN (sk_data s))) as [Lp|Lp].
        2:{ cbn [pending] in Ep. rewrite dropN_all in Ep by lia. discriminate Ep. }
        destruct D3 as (q & D3). apply (f_equal lenN) in D3. rewrite lenN_app, lenN_dropN in D3. lia. }
      destruct F2 as (s2 & -> & D2 & Lp). assert (U1 : 1 <= usize_max c) by (destruct C; lia).
      destruct (N.leb_spec k (lenN rest)) as [Lk|Lk].
      * destruct (skip_u64_complete c k (RSeek s2) U1 W2 G2) as (r3 & E3 & D3).
        { cbn [file_ok]. now rewrite D2. } { rewrite P2. exact Lk. }
        rewrite E3 in H. cbn [map_ok map_err] in H. injection H as <- <- <-. split; [reflexivity|]. split; [reflexivity|].
        pose proof (delivers_pending _ _ _ D3) as P3. rewrite P2 in P3.
        rewrite <- (takeN_dropN k rest) in P3 at 1. now apply app_inv_head in P3.
      * destruct (skip_u64 c k (RSeek s2)) as [z r3] eqn:E3. injection H as <- <- <-. split; [reflexivity|]. intros Lb.
        cbn [skip_u64] in E3. cbn [good] in G2. destruct (seek_skip_calm c k s2 (proj2 G2) ltac:(lia)) as (s' & _ & K).
        cbn [pending] in P2. apply (f_equal lenN) in P2. rewrite lenN_dropN, D2 in P2. rewrite D2 in K.
        destruct (N.eqb_spec (sk_pos s2) (lenN (sk_data s))) as [Eq|Eq].
        { destruct K as [K _]. rewrite K in E3. injection E3 as <- _. exists EndOfData. split; [reflexivity|now left]. }
        unfold add_u64 in K. destruct (N.ltb_spec (sk_pos s2 + k) two64); [|lia].
        destruct (N.leb_spec (sk_pos s2 + k) (lenN (sk_data s))); [lia|].
        destruct K as [K _]. rewrite K in E3. injection E3 as <- _. exists UnableToReadData. split; [reflexivity|right; now left].
    + destruct A as [->|(e & -> & He & T)].
      { exfalso. revert Ep. clear. intros E.
        assert (K : settles (Datatypes.S (length (pending (RSeek s)))) headP).
        { unfold headP. apply settles_bind; [apply settles_ilint|]. intros id. destruct (15 <? id); [settle|].
          destruct (_ || _); [settle|]. settle. }
        specialize (K (pending (RSeek s))). rewrite E in K. specialize (K eq_refl). lia. }
      injection H as <- <- <-. pose proof (took_rest _ _ _ T) as P2. split; [reflexivity|].
      cbn [says tag_flaw] in He. split; [intros ->; contradiction|]. split; [intros ->; contradiction|].
      intros err Hr. split; [|exact P2]. destruct f; cbn [tag_says reported] in *; congruence.
Qed.
Print Assumptions C73_seekable.
(** Every case occurs. *)
Example C73_cases :
  headP [16; 2; 7; 8; 9] = (inl (16, 2, 2, 2), [7; 8; 9]) /\
  headP [10; 249; 1; 2] = (inl (10, 1, 3, 2), [1; 2]) /\
  headP [5; 1; 2; 3; 4] = (inl (5, 1, 2, 2), [1; 2; 3; 4]) /\
  headP [15; 1] = (inr Invalid, [1]) /\ headP [16; 248] = (inr Short, []) /\
  headP [255; 255; 255; 255; 255; 255; 255; 255; 255; 1] = (inr Overflow, [1]) /\
  next_tag (Cfg true u64_max) (0, ByteArrayReader_new [15; 1]) = (Err CorruptedData, (0, RByteArray [15; 1] 1)) /\
  next_tag (Cfg true u64_max) (0, ByteArrayReader_new [16; 2; 7]) = (Err (TagIO UnableToReadData), (4, RByteArray [16; 2; 7] 2)) /\
  next_tag (Cfg true u64_max) (7, RRead [16; 2; 7; 8] [Chunk 1; Fail WriteZero]) = (Err (TagIO (IOErrorStd WriteZero)), (7, RRead [2; 7; 8] [])).
Proof. repeat split; vm_compute; reflexivity. Qed.

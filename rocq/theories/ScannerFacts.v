(** Proofs about the scanner. *)
From Verif Require Import Base BaseFacts Types Spec SpecFacts IO IOSpec IOFacts Logic ILInt ILIntFacts
  HistFacts PReaders Data DataFacts Tags TagsFacts DeserFacts Scanner.

Ltac okp H := let E := fresh in apply pair_inv in H as [E H]; apply Ok_inv in E; subst.

(** Skips on every kind of reader. *)
Definition file_ok (r : reader) : Prop :=
  match r with RSeek s => lenN (sk_data s) < two64 | _ => True end.
Definition checked_seek (c : cfg) (r : reader) : Prop := no_seek r \/ overflow_checks c = true.

Lemma seek_suffix p s x s' : seek_q p s = (x, s') ->
  sk_data s' = sk_data s /\ sk_sched s' = sk_sched s /\ suffix (sk_seeks s') (sk_seeks s).
Proof.
  destruct s as [d q sc sk]. unfold seek_q, lift_err, seek.
  assert (K : suffix (tl sk) sk). { destruct sk as [|a sk]; [exists []|exists [a]]; reflexivity. }
  destruct (hd None sk) as [k|]; intros E; apply pair_inv in E as [_ <-]; cbn [sk_data sk_sched sk_seeks]; auto.
Qed.
Lemma seek_skip_suffix c n s x s' : seek_skip_u64 c n s = (x, s') ->
  sk_data s' = sk_data s /\ sk_sched s' = sk_sched s /\ suffix (sk_seeks s') (sk_seeks s).
Proof.
  unfold seek_skip_u64. destruct (n =? 0).
  { intros E; apply pair_inv in E as [_ <-]. auto using suffix_refl. }
  unfold bind. destruct (seek_q SeekCurrent0 s) as [y1 s1] eqn:E1. apply seek_suffix in E1 as (D1 & S1 & K1).
  destruct y1; try (intros E; apply pair_inv in E as [_ <-]; auto; fail).
  destruct (seek_q SeekEnd0 s1) as [y2 s2] eqn:E2. apply seek_suffix in E2 as (D2 & S2 & K2).
  assert (K : sk_data s2 = sk_data s /\ sk_sched s2 = sk_sched s /\ suffix (sk_seeks s2) (sk_seeks s)).
  { repeat split; try congruence. destruct K1 as [p1 K1], K2 as [p2 K2]. exists (p1 ++ p2). now rewrite K1, K2, app_assoc. }
  destruct y2; try (intros E; apply pair_inv in E as [_ <-]; auto; fail).
  destruct (a =? a0); [intros E; apply pair_inv in E as [_ <-]; auto|].
  destruct (add_u64 c a n) as [p| | |]; try (intros E; apply pair_inv in E as [_ <-]; auto; fail).
  destruct (p <=? a0); [|intros E; apply pair_inv in E as [_ <-]; auto].
  destruct (seek_q (SeekStart p) s2) as [y3 s3] eqn:E3. apply seek_suffix in E3 as (D3 & S3 & K3).
  assert (K4 : sk_data s3 = sk_data s /\ sk_sched s3 = sk_sched s /\ suffix (sk_seeks s3) (sk_seeks s)).
  { destruct K as (Ka & Kb & [p1 K]). repeat split; try congruence.
    destruct K3 as [p2 K3]. exists (p1 ++ p2). now rewrite K, K3, app_assoc. }
  destruct y3; intros E; apply pair_inv in E as [_ <-]; auto.
Qed.

Lemma skip_u64_complete c n r :
  1 <= usize_max c -> rwf r -> good r -> file_ok r -> n <= lenN (pending r) ->
  exists r', skip_u64 c n r = (Ok tt, r') /\ delivers r (takeN n (pending r)) r'.
Proof.
  intros Hc W G F H.
  destruct r as [a o|a o|s m|d sc|s|sc]; try (apply skip_u64_good; [assumption..|exact I|assumption|assumption]).
  cbn [skip_u64 good pending file_ok] in *. destruct G as [_ G].
  assert (K : exists s', seek_skip_u64 c n s = (Ok tt, s') /\ sk_pos s' = sk_pos s + n).
  { destruct (N.eq_dec n 0) as [->|Hn].
    { exists s. split; [reflexivity|lia]. }
    destruct (seek_skip_calm c n s G ltac:(lia)) as (s' & _ & K).
    rewrite lenN_dropN in H. destruct (N.eqb_spec (sk_pos s) (lenN (sk_data s))); [lia|].
    unfold add_u64 in K. destruct (N.ltb_spec (sk_pos s + n) two64); [|lia]. destruct (N.leb_spec (sk_pos s + n) (lenN (sk_data s))); [|lia].
    exists s'. destruct K as [K (_ & P & _)]. auto. }
  destruct K as (s' & E & P). rewrite E. exists (RSeek s'). split; [reflexivity|].
  destruct (seek_skip_suffix _ _ _ _ _ E) as (D & Sc & Sk).
  cbn [delivers]. rewrite lenN_takeN. rewrite D, Sc. split; [reflexivity|].
  split; [lia|]. split; [|auto using suffix_refl].
  exists (dropN n (dropN (sk_pos s) (sk_data s))). now rewrite takeN_dropN.
Qed.

Lemma skip_u64_sound_any c n r r' :
  rwf r -> checked_seek c r -> skip_u64 c n r = (Ok tt, r') -> exists bs, lenN bs = n /\ delivers r bs r'.
Proof.
  intros W [S|S] H; [now apply (skip_u64_sound c n r r')|].
  destruct r as [a o|a o|s m|d sc|s|sc]; try (apply (skip_u64_sound c n _ r' W I H)).
  cbn [skip_u64] in H. destruct (seek_skip_u64 c n s) as [x s'] eqn:E. apply pair_inv in H as [-> <-].
  pose proof (seek_skip_suffix _ _ _ _ _ E) as (D & Sc & Sk).
  unfold seek_skip_u64 in E. destruct (n =? 0) eqn:Hn.
  { apply N.eqb_eq in Hn. subst n. apply pair_inv in E as [_ <-]. exists []. split; [reflexivity|apply delivers_refl]. }
  apply bind_inv_ok in E as (cur & s1 & E1 & E). apply bind_inv_ok in E as (en & s2 & E2 & E).
  assert (C1 : cur = sk_pos s /\ s1 = Seekable (sk_data s) (sk_pos s) (sk_sched s) (tl (sk_seeks s))).
  { destruct s as [d0 p0 sc0 sk0]. unfold seek_q, lift_err, seek in E1. destruct (hd None sk0); [discriminate|].
    cbn [map_err] in E1. okp E1. auto. }
  destruct C1 as [-> ->].
  assert (C2 : en = lenN (sk_data s)).
  { unfold seek_q, lift_err, seek in E2. destruct (hd None (tl (sk_seeks s))); [discriminate|].
    cbn [map_err] in E2. now okp E2. }
  subst en. destruct (sk_pos s =? lenN (sk_data s)); [discriminate|].
  apply bind_inv_ok in E as (np & s3 & E3 & E). apply pair_inv in E3 as [E3 <-].
  unfold add_u64 in E3. rewrite S in E3. destruct (N.ltb_spec (sk_pos s + n) two64); [|discriminate].
  apply Ok_inv in E3 as <-. destruct (N.leb_spec (sk_pos s + n) (lenN (sk_data s))); [|discriminate].
  apply bind_inv_ok in E as (p4 & s4 & E4 & E). apply pair_inv in E as [_ <-].
  assert (P4 : sk_pos s4 = sk_pos s + n).
  { destruct s2 as [d0 p0 sc0 sk0]. unfold seek_q, lift_err, seek in E4. destruct (hd None sk0); [discriminate|].
    cbn [map_err] in E4. now okp E4. }
  exists (takeN n (dropN (sk_pos s) (sk_data s))). rewrite lenN_takeN, lenN_dropN.
  split; [lia|]. cbn [delivers]. rewrite lenN_takeN, lenN_dropN, D, Sc. split; [reflexivity|].
  split; [lia|]. split; [|auto using suffix_refl].
  exists (dropN n (dropN (sk_pos s) (sk_data s))). now rewrite takeN_dropN.
Qed.

(** ** The bytes of one tag as the scanner sees them
    [framed id hb body h]: header bytes [hb] announce the id [id] and the
    payload [body]; [h] is the size the header would have if the numbers in it
    were minimally encoded. *)
Inductive framed : N -> list N -> list N -> N -> Prop :=
| F_explicit id idb szb body :
    15 < id -> ilint_repr id idb -> ilint_repr (lenN body) szb ->
    framed id (idb ++ szb) body (lenN (ilint id) + lenN (ilint (lenN body)))
| F_fixed id body :
    id <= 14 -> id <> 10 -> id <> 14 -> lenN body = implicit_size id -> framed id [id] body 1
| F_ilint id b body :
    id = 10 \/ id = 14 -> lenN body = (if b <? 248 then 0 else b - 247) -> framed id [id] (b :: body) 1.

(** What [extract_tag_size] consumes. *)
Inductive sized (id : N) : list N -> N * N * N -> Prop :=
| Z_explicit n szb : 15 < id -> ilint_repr n szb -> sized id szb (lenN (ilint n), n, n)
| Z_fixed : id <= 14 -> id <> 10 -> id <> 14 -> sized id [] (0, implicit_size id, implicit_size id)
| Z_ilint b : id = 10 \/ id = 14 -> byte_ok b -> sized id [b] (0, decoded_size b, decoded_size b - 1).

Lemma sub_usize_1 c b : sub_usize (E := tag_error) c (decoded_size b) 1 = Ok (decoded_size b - 1).
Proof.
  unfold sub_usize, decoded_size, ILINT_BASE. destruct (N.ltb_spec b 248); [reflexivity|].
  destruct (N.leb_spec 1 (b - 248 + 2)); [reflexivity|lia].
Qed.
Lemma extract_unfold c id :
  id <> 15 ->
  (15 < id -> extract_tag_size c id = bind deserialize_ilint (fun n => ret (encoded_size n, n, n))) /\
  (id = 10 \/ id = 14 -> extract_tag_size c id = extract_implicit_ilint_tag_size c) /\
  (id <= 14 -> id <> 10 -> id <> 14 -> extract_tag_size c id = ret (0, implicit_size id, implicit_size id)).
Proof.
  intros H. unfold extract_tag_size. rewrite is_implicit_spec.
  change IL_ILINT_TAG_ID with 10. change IL_SIGNED_ILINT_TAG_ID with 14. repeat split.
  - intros L. destruct (N.leb_spec id 15); [lia|reflexivity].
  - intros [-> | ->]; reflexivity.
  - intros. destruct (N.leb_spec id 15); [|lia].
    destruct (N.eqb_spec id 10); [lia|]. destruct (N.eqb_spec id 14); [lia|]. destruct (N.eqb_spec id 15); [lia|].
    cbn [orb]. now rewrite implicit_size_spec.
Qed.

Lemma safe_extract c id : safe (extract_tag_size c id).
Proof.
  unfold extract_tag_size. destruct (is_implicit_tag id).
  - destruct (_ || _)%bool; [|destruct (id =? 15); [apply safe_fail|apply safe_ret]].
    apply safe_bind; [apply safe_lift, safe_read|]. intros b. cbv zeta.
    apply safe_bind; [apply safe_const|intros; apply safe_ret]. rewrite sub_usize_1. exact I.
  - apply safe_bind; [apply safe_deserialize_ilint|intros; apply safe_ret].
Qed.

Lemma sound_extract c id : sound (extract_tag_size c id) (fun z bs => sized id bs z).
Proof.
  destruct (N.eq_dec id 15) as [->|H15].
  { intros r a r' W H. discriminate H. }
  destruct (extract_unfold c id H15) as (U1 & U2 & U3).
  destruct (N.le_gt_cases id 15) as [Hi|Hi].
  - destruct (N.eq_dec id 10) as [E10|E10]; [|destruct (N.eq_dec id 14) as [E14|E14]].
    3:{ rewrite U3 by lia. eapply sound_weaken; [|apply sound_ret]. cbv beta. intros a bs [-> ->]. constructor; lia. }
    all: rewrite U2 by lia; intros r a r' W H; unfold extract_implicit_ilint_tag_size in H;
      apply bind_inv_ok in H as (b & r1 & E1 & H);
      destruct (sound_lift TagIO _ _ sound_read _ _ _ W E1) as (b1 & [-> Bb] & D1);
      cbv zeta in H; unfold bind in H; rewrite sub_usize_1 in H; okp H;
      exists [b]; split; [constructor; auto; lia|assumption].
  - rewrite U1 by lia. intros r a r' W H. apply bind_inv_ok in H as (n & r1 & E1 & H).
    destruct (sound_deserialize_ilint _ _ _ W E1) as (bs & R & D). okp H.
    exists bs. split; [|assumption]. assert (Hn : n < two64).
    { eapply ilint_repr_bound; eauto. }
    rewrite encoded_size_spec by assumption. now constructor.
Qed.

Lemma complete_extract c id bs z : bytes_ok bs -> sized id bs z -> complete (extract_tag_size c id) z bs.
Proof.
  intros B H. revert B. destruct H as [n szb L R|L N10 N14|b L Bb]; intros B.
  - destruct (extract_unfold c id ltac:(lia)) as (U1 & _ & _). rewrite U1 by assumption.
    eapply complete_bind_nil; [apply complete_deserialize_ilint; [exact B|exact R]|].
    rewrite encoded_size_spec by (eapply ilint_repr_bound; eauto). apply complete_ret.
  - destruct (extract_unfold c id ltac:(lia)) as (_ & _ & U3). rewrite U3 by assumption. apply complete_ret.
  - destruct (extract_unfold c id ltac:(lia)) as (_ & U2 & _). rewrite U2 by assumption.
    unfold extract_implicit_ilint_tag_size. eapply complete_bind_nil; [apply complete_lift, complete_read|].
    intros r rest W G P. exists r. cbv zeta. unfold bind. rewrite sub_usize_1. split; [reflexivity|apply delivers_refl].
Qed.

Lemma ilint_small id : id < 248 -> lenN (ilint id) = 1.
Proof. intros H. rewrite lenN_ilint by (unfold two64; lia). destruct (N.ltb_spec id 248); lia. Qed.
Lemma sized_framed id idb zb h n k body :
  ilint_repr id idb -> sized id zb (h, n, k) -> lenN body = k ->
  exists hb bd, idb ++ zb ++ body = hb ++ bd /\ framed id hb bd (lenN (ilint id) + h) /\ lenN bd = n.
Proof.
  intros R Z L. inversion Z as [n' zb' L1 R1|L1 N10 N14|b L1 Bb]; subst.
  - exists (idb ++ zb), body. rewrite app_assoc. split; [reflexivity|]. split; [|reflexivity]. now constructor.
  - exists idb, body. split; [reflexivity|]. split; [|congruence].
    inversion R; subst; [|lia]. rewrite ilint_small, N.add_0_r by assumption. now constructor.
  - exists idb, (b :: body). split; [reflexivity|].
    inversion R; subst; [|lia]. rewrite ilint_small, N.add_0_r by assumption. rewrite lenN_cons.
    unfold decoded_size, ILINT_BASE in *. split; [constructor; [assumption|]|]; destruct (N.ltb_spec b 248); lia.
Qed.
Lemma framed_sized id hb bd h :
  framed id hb bd h -> bytes_ok (hb ++ bd) ->
  exists idb zb body hh k, hb ++ bd = idb ++ zb ++ body /\ ilint_repr id idb /\    sized id zb (hh, lenN bd, k) /\ lenN body = k /\ h = lenN (ilint id) + hh.
Proof.
  intros H B. destruct H as [id idb szb body L Ri Rs|id body L N10 N14 Lb|id b body L Lb].
  - exists idb, szb, body. do 2 eexists. rewrite app_assoc. split; [reflexivity|]. split; [assumption|].
    split; [now constructor|]. auto.
  - exists [id], [], body. do 2 eexists. split; [reflexivity|]. split; [constructor; lia|].
    split; [rewrite Lb; now constructor|]. split; [assumption|]. rewrite ilint_small by lia. now rewrite N.add_0_r.
  - exists [id], [b], body. do 2 eexists. split; [reflexivity|]. split; [constructor; lia|].
    assert (Bb : byte_ok b). { unfold bytes_ok in B. rewrite Forall_forall in B. apply B. cbn. auto. }
    rewrite lenN_cons, Lb. split; [|split; [|rewrite ilint_small by lia; instantiate (1 := 0); reflexivity]].
    + replace (1 + (if b <? 248 then 0 else b - 247)) with (decoded_size b).
      * constructor; assumption.
      * unfold decoded_size, ILINT_BASE. destruct (N.ltb_spec b 248); lia.
    + unfold decoded_size, ILINT_BASE. destruct (N.ltb_spec b 248); lia.
Qed.

(** ** next_tag *)
Lemma add_small c a b : a + b < two64 -> add_u64 (E := tag_error) c a b = Ok (a + b).
Proof. intros H. unfold add_u64. destruct (N.ltb_spec (a + b) two64); [reflexivity|lia]. Qed.
Lemma framed_header id hb bd h : framed id hb bd h -> bytes_ok hb -> h <= lenN hb /\ lenN hb <= 18 /\ 1 <= h.
Proof.
  intros H B. destruct H as [id idb szb body L Ri Rs|id body L N10 N14 Lb|id b body L Lb].
  - rewrite lenN_app. apply bytes_ok_app in B as [Bi Bz].
    assert (Hi : id < two64) by (eapply ilint_repr_bound; eauto).
    assert (Hs : lenN body < two64) by (eapply ilint_repr_bound; eauto).
    pose proof (ilint_minimal _ _ Bi Ri). pose proof (ilint_minimal _ _ Bz Rs).
    pose proof (ilint_repr_len _ _ Ri). pose proof (ilint_repr_len _ _ Rs).
    pose proof (encoded_size_bound id). rewrite encoded_size_spec in * by assumption. lia.
  - rewrite lenN_cons, lenN_nil. lia.
  - rewrite lenN_cons, lenN_nil. lia.
Qed.
(** Where the offset is moved to. *)
Definition advance (c : cfg) (off h n : N) : res tag_error N :=
  and_then (add_u64 c h n) (fun total => add_u64 c off total).

Lemma next_tag_steps c off r id r1 idb zb h n k r2 :
  deserialize_ilint r = (Ok id, r1) -> ilint_repr id idb ->
  extract_tag_size c id r1 = (Ok (h, n, k), r2) -> sized id zb (h, n, k) ->
  next_tag c (off, r) =
    match advance c off (lenN (ilint id) + h) n with
    | Ok off' =>
        let '(x, r3) := skip_u64 c k r2 in
        (map_ok (fun _ => Some (RawTagOffset_new id off (lenN (ilint id) + h) n)) (map_err TagIO x), (off', r3))
    | Err e => (Err e, (off, r2)) | Panic => (Panic, (off, r2)) | OutOfFuel => (OutOfFuel, (off, r2))
    end.
Proof.
  intros E1 R E2 Z. assert (Hi : id < two64) by (eapply ilint_repr_bound; eauto).
  unfold next_tag, on_source, bind. rewrite E1. cbv beta iota. rewrite E2. cbv beta iota.
  rewrite encoded_size_spec by assumption.
  assert (Hh : lenN (ilint id) + h < two64).
  { assert (h <= 9).
    { inversion Z; subst; try lia. match goal with HR : ilint_repr ?m zb |- _ => apply (ilint_repr_len m), ilint_repr_ilint; eapply ilint_repr_bound; exact HR end. }
    pose proof (ilint_repr_len id (ilint id) (ilint_repr_ilint _ Hi)). unfold two64. lia. }
  rewrite add_small by assumption. cbv beta iota. unfold advance, and_then. cbn [fst].
  destruct (add_u64 c (lenN (ilint id) + h) n) as [tot|e| |]; try reflexivity.
  destruct (add_u64 c off tot) as [nx|e| |]; try reflexivity.
  unfold lift_err. destruct (skip_u64 c k r2) as [[[]|e| |] r3]; reflexivity.
Qed.

Lemma next_tag_framed c off r id hb bd h rest :
  cfg_ok c -> rwf r -> good r -> file_ok r ->
  pending r = (hb ++ bd) ++ rest -> framed id hb bd h -> off + h + lenN bd < two64 ->
  exists r', next_tag c (off, r) = (Ok (Some (RawTagOffset_new id off h (lenN bd))), (off + h + lenN bd, r'))
    /\ delivers r (hb ++ bd) r'.
Proof.
  intros C W G Fo P F Ho. pose proof (bytes_ok_pending _ W) as B. rewrite P in B.
  assert (Bb : bytes_ok (hb ++ bd)) by (apply bytes_ok_app in B; tauto).
  destruct (framed_sized _ _ _ _ F Bb) as (idb & zb & body & hh & k & E & R & Z & L & Hh).
  rewrite E in P, Bb |- *. rewrite <- !app_assoc in P.
  apply bytes_ok_app in Bb as [Bi Bb]. apply bytes_ok_app in Bb as [Bz Bb].
  destruct (complete_deserialize_ilint id idb Bi R r _ W G P) as (r1 & E1 & D1).
  destruct (pending_delivers _ _ _ G D1) as [P1 G1]. destruct (delivers_rwf _ _ _ W D1) as [W1 _].
  rewrite P in P1. apply app_inv_head in P1.
  destruct (complete_extract c id zb _ Bz Z r1 _ W1 G1 (eq_sym P1)) as (r2 & E2 & D2).
  destruct (pending_delivers _ _ _ G1 D2) as [P2 G2]. destruct (delivers_rwf _ _ _ W1 D2) as [W2 _].
  rewrite <- P1 in P2. apply app_inv_head in P2.
  assert (F2 : file_ok r2).
  { pose proof (delivers_trans _ _ _ _ _ D1 D2) as D. destruct r, r2; cbn [delivers file_ok] in *; try contradiction; auto.
    destruct D as (-> & _). assumption. }
  destruct (skip_u64_complete c k r2) as (r3 & E3 & D3); auto.
  { destruct C; lia. } { rewrite <- P2, lenN_app. lia. }
  rewrite <- P2, <- L, takeN_app_exact in D3 by reflexivity.
  rewrite (next_tag_steps c off r id r1 idb zb hh (lenN bd) k r2 E1 R E2 Z).
  unfold advance, and_then. rewrite <- Hh, add_small by lia. rewrite add_small by lia. rewrite E3. cbn [map_err map_ok].
  exists r3. rewrite N.add_assoc. split; [reflexivity|].
  eapply delivers_trans; [eassumption|]. eapply delivers_trans; eassumption.
Qed.

Lemma next_tag_sound c off r x off' r' :
  rwf r -> checked_seek c r ->
  next_tag c (off, r) = (Ok x, (off', r')) ->
  exists id hb bd h, x = Some (RawTagOffset_new id off h (lenN bd)) /\ framed id hb bd h
    /\ delivers r (hb ++ bd) r' /\ bytes_ok (hb ++ bd) /\ advance c off h (lenN bd) = Ok off'.
Proof.
  intros W S H. assert (H' := H). unfold next_tag in H'. unfold bind at 1, on_source at 1 in H'.
  destruct (deserialize_ilint r) as [[id|e| |] r1] eqn:E1; try discriminate H'.
  unfold bind at 1, on_source at 1 in H'.
  destruct (extract_tag_size c id r1) as [[[[h n] k]|e| |] r2] eqn:E2; try discriminate H'. clear H'.
  destruct (sound_deserialize_ilint _ _ _ W E1) as (idb & R & D1). destruct (delivers_rwf _ _ _ W D1) as [W1 B1].
  destruct (sound_extract c id _ _ _ W1 E2) as (zb & Z & D2). destruct (delivers_rwf _ _ _ W1 D2) as [W2 B2].
  rewrite (next_tag_steps c off r id r1 idb zb h n k r2 E1 R E2 Z) in H.
  destruct (advance c off (lenN (ilint id) + h) n) as [o'|e| |] eqn:EA; try discriminate H.
  destruct (skip_u64 c k r2) as [[[]|e| |] r3] eqn:E3; try discriminate H.
  cbn [map_err map_ok] in H. apply pair_inv in H as [H H']. apply Ok_inv in H as <-. apply pair_inv in H' as [<- <-].
  assert (S2 : checked_seek c r2).
  { destruct S as [S|S]; [left|now right].
    pose proof (delivers_trans _ _ _ _ _ D1 D2) as D. destruct r, r2; cbn [delivers no_seek] in *; try contradiction; auto. }
  destruct (skip_u64_sound_any c k r2 r3 W2 S2 E3) as (bs & Lb & D3). destruct (delivers_rwf _ _ _ W2 D3) as [W3 B3].
  destruct (sized_framed id idb zb h n k bs R Z Lb) as (hb & bd & Eb & F & Ln).
  exists id, hb, bd, (lenN (ilint id) + h). rewrite Ln, <- Eb. split; [reflexivity|]. split; [assumption|].
  split; [eapply delivers_trans; [eassumption|]; eapply delivers_trans; eassumption|].
  split; [|assumption]. rewrite !bytes_ok_app. auto.
Qed.

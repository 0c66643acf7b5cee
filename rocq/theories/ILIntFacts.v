(** Proofs about the ILInt model. *)
From Verif Require Import Base BaseFacts Types Spec SpecFacts IO IOSpec IOFacts WriterFacts Logic ILInt.

Lemma safe_fetch n : safe (fetch n).
Proof.
  intros r x r' W. unfold fetch. destruct (read_all n r) as [[y got] r1] eqn:Er.
  intros [= <- <-]. destruct (read_all_wf _ _ _ _ _ W Er) as (R & W1 & L & _).
  repeat split; auto. destruct y; auto.
Qed.
Lemma sound_fetch n : sound (fetch n) (fun got bs => got = bs /\ lenN bs = n /\ bytes_ok bs).
Proof.
  intros r a r' W. unfold fetch. destruct (read_all n r) as [[y got] r1] eqn:Er.
  destruct (read_all_wf _ _ _ _ _ W Er) as (R & W1 & L & B).
  destruct y as [[]|e| |]; try discriminate. intros [= <- <-].
  apply read_all_ok in Er as [Hl D]. eauto.
Qed.
Lemma complete_fetch n bs : lenN bs = n -> complete (fetch n) bs bs.
Proof.
  intros L r rest W G P. destruct (read_all_delivered n r bs rest G P L) as (r' & Er & _ & _ & D).
  exists r'. unfold fetch. rewrite Er. auto.
Qed.

(** ** encoded_size *)
Lemma encoded_size_spec v : v < two64 -> encoded_size v = lenN (ilint v).
Proof.
  intros H. rewrite lenN_ilint by assumption. unfold encoded_size, ILINT_BASE.
  destruct (N.ltb_spec v 248); [reflexivity|]. unfold ilint_k.
  assert (A : forall k, v - 248 < 256 ^ k -> (k = 1 \/ (1 < k /\ 256 ^ (k - 1) <= v - 248)) ->
              1 + k = 1 + (N.log2 (v - 248) / 8 + 1)).
  { intros k H1 H2. now rewrite (log2_width _ k H1 H2). }
  repeat match goal with
  | |- (if ?a <=? ?b then _ else _) = _ => destruct (N.leb_spec a b)
  end.
  - apply (A 1); [change (256 ^ 1) with 256; lia|auto].
  - apply (A 2); [change (256 ^ 2) with 65536; lia|right; change (256 ^ (2 - 1)) with 256; lia].
  - apply (A 3); [change (256 ^ 3) with 16777216; lia|right; change (256 ^ (3 - 1)) with 65536; lia].
  - apply (A 4); [change (256 ^ 4) with 4294967296; lia|right; change (256 ^ (4 - 1)) with 16777216; lia].
  - apply (A 5); [change (256 ^ 5) with 1099511627776; lia|right; change (256 ^ (5 - 1)) with 4294967296; lia].
  - apply (A 6); [change (256 ^ 6) with 281474976710656; lia|right; change (256 ^ (6 - 1)) with 1099511627776; lia].
  - apply (A 7); [change (256 ^ 7) with 72057594037927936; lia|right; change (256 ^ (7 - 1)) with 281474976710656; lia].
  - apply (A 8); [change (256 ^ 8) with two64; lia|right; change (256 ^ (8 - 1)) with 72057594037927936; lia].
Qed.
Lemma encoded_size_bound v : 1 <= encoded_size v <= 9.
Proof.
  unfold encoded_size.
  repeat match goal with |- _ <= (if ?c then _ else _) <= _ => destruct c end; lia.
Qed.

(** ** encode *)
Lemma land_255 v : N.land v 255 = v mod 256.
Proof. change 255 with (N.ones 8). rewrite N.land_ones. reflexivity. Qed.
Lemma shiftr_8 v : N.shiftr v 8 = v / 256.
Proof. rewrite N.shiftr_div_pow2. reflexivity. Qed.
Lemma encode_tail_spec n v acc : encode_tail n v acc = be_bytes n v ++ acc.
Proof.
  revert v acc; induction n as [|n IH]; intros v acc; cbn [encode_tail be_bytes]; [reflexivity|].
  rewrite IH, land_255, shiftr_8, <- app_assoc. reflexivity.
Qed.
Lemma encode_spec v w :
  v < two64 -> wwf w -> encode v w = lift_err ILIntIO (write_all (ilint v)) w.
Proof.
  intros H W. unfold encode. rewrite encoded_size_spec, lenN_ilint by assumption.
  unfold ilint. destruct (N.ltb_spec v 248).
  - cbn [N.eqb Pos.eqb]. rewrite land_255, N.mod_small by lia.
    unfold lift_err. now rewrite write_is_write_all.
  - pose proof (ilint_k_bound v H). fold (ilint_k v). destruct (N.eqb_spec (1 + ilint_k v) 1); [lia|].
    rewrite encode_tail_spec, app_nil_r. unfold ILINT_BASE.
    replace (248 + (1 + ilint_k v - 2)) with (247 + ilint_k v) by lia.
    replace (1 + ilint_k v - 1) with (ilint_k v) by lia. reflexivity.
Qed.

(** ** decode_body *)
Lemma u64_land n : N.land n u64_max = n mod two64.
Proof. change u64_max with (N.ones 64). rewrite N.land_ones. reflexivity. Qed.
Lemma decode_fold body :
  bytes_ok body -> lenN body <= 8 ->
  fold_left (fun v x => N.land (N.shiftl v 8) u64_max + x) body 0 = be_value body.
Proof.
  induction body as [|b body IH] using rev_ind_length; intros B L; [reflexivity|].
  apply bytes_ok_app in B as [B1 _]. rewrite lenN_app, lenN_cons, lenN_nil in L.
  rewrite fold_left_app, IH by (assumption || lia). cbn [fold_left].
  rewrite be_value_snoc, u64_land, N.shiftl_mul_pow2. change (2 ^ 8) with 256.
  pose proof (be_value_bound body B1) as U.
  assert (pow256 (length body) <= pow256 7).
  { unfold pow256. apply N.pow_le_mono_r; [lia|]. unfold lenN in L. lia. }
  change (pow256 7) with 72057594037927936 in *. rewrite N.mod_small; [reflexivity|]. unfold two64. lia.
Qed.
Lemma decode_body_spec body :
  bytes_ok body ->
  decode_body body =
    if (1 <=? lenN body) && (lenN body <=? 8)
    then if be_value body + 248 <? two64 then Ok (be_value body + 248) else Err ValueOverflow
    else Err InvalidFormat.
Proof.
  intros B. unfold decode_body.
  destruct (N.eqb_spec (lenN body) 0), (N.ltb_spec 8 (lenN body)),
    (N.leb_spec 1 (lenN body)), (N.leb_spec (lenN body) 8); cbn [orb andb]; try lia; auto.
  rewrite decode_fold by assumption. unfold ILINT_BASE, two64.
  destruct (N.ltb_spec 18446744073709551367 (be_value body)),
    (N.ltb_spec (be_value body + 248) 18446744073709551616); try lia; reflexivity.
Qed.
Lemma decode_body_ok body v :
  bytes_ok body -> decode_body body = Ok v ->
  1 <= lenN body <= 8 /\ v = be_value body + 248 /\ v < two64.
Proof.
  intros B. rewrite decode_body_spec by assumption.
  destruct (N.leb_spec 1 (lenN body)), (N.leb_spec (lenN body) 8); cbn [andb]; try discriminate.
  destruct (N.ltb_spec (be_value body + 248) two64); [|discriminate]. intros [= <-]. lia.
Qed.

Lemma decode_body_returns body : returns (decode_body body).
Proof.
  unfold decode_body. destruct ((lenN body =? 0) || (8 <? lenN body)); [exact I|].
  cbv zeta. set (v := fold_left _ _ _). clearbody v.
  destruct (18446744073709551367 <? v); exact I.
Qed.

(** ** decode *)
Lemma decoded_size_bound h : byte_ok h -> 1 <= decoded_size h <= 9.
Proof. unfold byte_ok, decoded_size, ILINT_BASE. intros. destruct (N.ltb_spec h 248); lia. Qed.

Lemma safe_decode : safe decode.
Proof.
  apply safe_bind; [apply safe_lift, safe_read|]. intros h.
  cbv zeta. destruct (decoded_size h =? 1); [apply safe_ret|].
  apply safe_bind; [apply safe_lift, safe_fetch|]. intros body.
  apply safe_const, decode_body_returns.
Qed.
Lemma sound_decode : sound decode (fun v bs => ilint_repr v bs).
Proof.
  intros r v r' W H. apply bind_inv_ok in H as (h & r1 & E1 & H).
  destruct (sound_lift ILIntIO _ _ sound_read _ _ _ W E1) as (b1 & [-> Bh] & D1).
  destruct (delivers_rwf _ _ _ W D1) as [W1 _].
  unfold decoded_size, ILINT_BASE in H. destruct (N.ltb_spec h 248).
  - cbn [N.eqb Pos.eqb] in H. injection H as <- <-. exists [h]. split; [now constructor|auto].
  - destruct (N.eqb_spec (h - 248 + 2) 1); [lia|].
    apply bind_inv_ok in H as (body & r2 & E2 & H).
    destruct (sound_lift ILIntIO _ _ (sound_fetch _) _ _ _ W1 E2) as (b2 & (-> & L & B) & D2).
    injection H as H <-. apply decode_body_ok in H as (L' & -> & V); [|assumption].
    exists ([h] ++ b2). split; [|eapply delivers_trans; eauto].
    replace h with (247 + lenN b2) by lia. now constructor.
Qed.
Lemma complete_decode v bs : bytes_ok bs -> ilint_repr v bs -> complete decode v bs.
Proof.
  intros B H. revert B. destruct H as [v H|body H1 H2]; intros B; unfold decode.
  - eapply complete_bind_nil; [apply complete_lift, complete_read|].
    unfold decoded_size, ILINT_BASE. destruct (N.ltb_spec v 248); [|lia]. apply complete_ret.
  - change (247 + lenN body :: body) with ([247 + lenN body] ++ body).
    eapply complete_bind; [apply complete_lift, complete_read|].
    unfold decoded_size, ILINT_BASE. destruct (N.ltb_spec (247 + lenN body) 248); [lia|].
    destruct (N.eqb_spec (247 + lenN body - 248 + 2) 1); [lia|].
    eapply complete_bind_nil; [apply complete_lift, complete_fetch; lia|].
    intros r rest W G P. exists r. split; [|apply delivers_refl].
    apply bytes_ok_cons in B as [_ B]. rewrite decode_body_spec by assumption.
    destruct (N.leb_spec 1 (lenN body)), (N.leb_spec (lenN body) 8); try lia. cbn [andb].
    destruct (N.ltb_spec (be_value body + 248) two64); [reflexivity|lia].
Qed.

(** ** Sign folding *)
Lemma as_u64_spec z : i64_range z -> as_u64 z = if (0 <=? z)%Z then Z.to_N z else Z.to_N (z + 18446744073709551616).
Proof.
  unfold i64_range, as_u64. intros H. destruct (Z.leb_spec 0 z).
  - rewrite Z.mod_small by lia. reflexivity.
  - f_equal. symmetry. apply Z.mod_unique with (-1)%Z; lia.
Qed.
Lemma land_top n : n < two64 -> (N.land n 9223372036854775808 =? 0) = (n <? 9223372036854775808).
Proof.
  intros H. change 9223372036854775808 with (2 ^ 63) in *.
  assert (E : N.land n (2 ^ 63) = if N.testbit n 63 then 2 ^ 63 else 0).
  { apply N.bits_inj. intros i. rewrite N.land_spec.
    destruct (N.eq_dec i 63) as [->|Hi].
    - rewrite N.pow2_bits_true, andb_true_r. destruct (N.testbit n 63); [now rewrite N.pow2_bits_true|now rewrite N.bits_0].
    - rewrite N.pow2_bits_false, andb_false_r by congruence.
      destruct (N.testbit n 63); [now rewrite N.pow2_bits_false by congruence|now rewrite N.bits_0]. }
  rewrite E. rewrite N.testbit_eqb.
  change (2 ^ 63) with 9223372036854775808. unfold two64 in H.
  destruct (N.eqb_spec ((n / 9223372036854775808) mod 2) 1), (N.ltb_spec n 9223372036854775808); try lia; reflexivity.
Qed.
Lemma lxor_max n : n < two64 -> N.lxor n u64_max = u64_max - n.
Proof.
  intros H. change u64_max with (N.ones 64).
  change (N.lxor n (N.ones 64)) with (N.lnot n 64).
  destruct (N.eq_dec n 0) as [->|Hn]; [reflexivity|].
  apply N.lnot_sub_low. apply N.log2_lt_pow2; [lia|]. exact H.
Qed.
Lemma land_1 n : N.land n 1 = n mod 2.
Proof. change 1 with (N.ones 1). rewrite N.land_ones. reflexivity. Qed.

Lemma encode_sign_spec z : i64_range z -> encode_sign z = zigzag z.
Proof.
  intros H. unfold encode_sign. rewrite as_u64_spec by assumption. unfold i64_range in H.
  rewrite land_top by (unfold two64; destruct (Z.leb_spec 0 z); lia).
  rewrite !u64_land, !N.shiftl_mul_pow2. change (2 ^ 1) with 2. unfold zigzag.
  destruct (Z.leb_spec 0 z).
  - destruct (N.ltb_spec (Z.to_N z) 9223372036854775808); [|lia].
    rewrite N.mod_small by (unfold two64; lia). lia.
  - destruct (N.ltb_spec (Z.to_N (z + 18446744073709551616)) 9223372036854775808); [lia|].
    rewrite lxor_max by (apply N.mod_lt; discriminate). unfold u64_max, two64.
    replace (Z.to_N (z + 18446744073709551616) * 2) with
      (Z.to_N (2 * z + 18446744073709551616) + 1 * 18446744073709551616) by lia.
    rewrite N.mod_add by lia. rewrite N.mod_small by lia. lia.
Qed.
Lemma zigzag_bound z : i64_range z -> zigzag z < two64.
Proof. unfold i64_range, zigzag, two64. intros. destruct (Z.leb_spec 0 z); lia. Qed.
Lemma decode_sign_zigzag z : i64_range z -> decode_sign (zigzag z) = z.
Proof.
  intros H. unfold decode_sign. rewrite land_1, !N.shiftr_div_pow2. change (2 ^ 1) with 2.
  pose proof (zigzag_bound z H). rewrite lxor_max by (unfold two64 in *; lia).
  unfold zigzag, i64_range, as_i64, u64_max in *. destruct (Z.leb_spec 0 z).
  - destruct (N.eqb_spec (Z.to_N (2 * z) mod 2) 0); [|lia].
    destruct (N.ltb_spec (Z.to_N (2 * z) / 2) 9223372036854775808); lia.
  - destruct (N.eqb_spec (Z.to_N (-2 * z - 1) mod 2) 0); [lia|].
    destruct (N.ltb_spec (18446744073709551615 - Z.to_N (-2 * z - 1) / 2) 9223372036854775808); lia.
Qed.
Lemma zigzag_decode_sign n : n < two64 -> zigzag (decode_sign n) = n /\ i64_range (decode_sign n).
Proof.
  intros H. unfold decode_sign. rewrite land_1, !N.shiftr_div_pow2. change (2 ^ 1) with 2.
  unfold two64 in H. rewrite lxor_max by (unfold two64; lia).
  unfold zigzag, i64_range, as_i64, u64_max.
  destruct (N.eqb_spec (n mod 2) 0).
  - destruct (N.ltb_spec (n / 2) 9223372036854775808); [|lia].
    destruct (Z.leb_spec 0 (Z.of_N (n / 2))); lia.
  - destruct (N.ltb_spec (18446744073709551615 - n / 2) 9223372036854775808); [lia|].
    destruct (Z.leb_spec 0 (Z.of_N (18446744073709551615 - n / 2) - 18446744073709551616)); lia.
Qed.

Lemma safe_signed_decode : safe signed_decode.
Proof. apply safe_bind; [apply safe_decode|]. intros. apply safe_ret. Qed.
Lemma sound_signed_decode :
  sound signed_decode (fun z bs => i64_range z /\ ilint_repr (zigzag z) bs).
Proof.
  intros r z r' W H. apply bind_inv_ok in H as (n & r1 & E1 & H).
  injection H as <- <-. destruct (sound_decode _ _ _ W E1) as (bs & R & D).
  exists bs. split; [|assumption].
  destruct (zigzag_decode_sign n (ilint_repr_bound _ _ R)) as [-> Z]. auto.
Qed.
Lemma complete_signed_decode z bs :
  i64_range z -> bytes_ok bs -> ilint_repr (zigzag z) bs -> complete signed_decode z bs.
Proof.
  intros H B R. eapply complete_bind_nil; [apply complete_decode; eauto|].
  rewrite decode_sign_zigzag by assumption. apply complete_ret.
Qed.

(** ** decode on a well-behaved reader, by cases on what is pending *)
Lemma decode_good_nil r :
  rwf r -> good r -> pending r = [] -> exists e r', decode r = (Err (ILIntIO e), r').
Proof.
  intros W G P. destruct (read_good_nil r W G P) as (e & r' & E).
  exists e, r'. unfold decode, bind, lift_err. now rewrite E.
Qed.
Lemma decode_good_short r h rest :
  rwf r -> good r -> pending r = h :: rest -> 248 <= h -> lenN rest < h - 247 ->
  exists e r', decode r = (Err (ILIntIO e), r').
Proof.
  intros W G P Hh Hl. destruct (complete_read h r rest W G P) as (r1 & E1 & D1).
  destruct (pending_delivers _ _ _ G D1) as [P1 G1]. destruct (delivers_rwf _ _ _ W D1) as [W1 _].
  rewrite P in P1. cbn [app] in P1. apply cons_inv in P1 as [_ P1].
  unfold decode, bind at 1, lift_err at 1. rewrite E1. cbn [map_err].
  unfold decoded_size, ILINT_BASE. destruct (N.ltb_spec h 248); [lia|].
  destruct (N.eqb_spec (h - 248 + 2) 1); [lia|].
  destruct (read_all_short (h - 248 + 2 - 1) r1 G1) as (e & got & r2 & E2).
  { rewrite <- P1. lia. }
  exists e, r2. unfold bind, lift_err, fetch. rewrite E2. reflexivity.
Qed.
Lemma decode_good_overflow r h body rest :
  rwf r -> good r -> pending r = (h :: body) ++ rest -> 248 <= h -> h < 256 -> lenN body = h - 247 ->
  two64 <= be_value body + 248 ->
  exists r', decode r = (Err ValueOverflow, r') /\ pending r' = rest.
Proof.
  intros W G P Hh Hb Hl Ho. change (pending r = [h] ++ (body ++ rest)) in P.
  destruct (complete_read h r _ W G P) as (r1 & E1 & D1).
  destruct (pending_delivers _ _ _ G D1) as [P1 G1]. destruct (delivers_rwf _ _ _ W D1) as [W1 _].
  rewrite P in P1. apply app_inv_head in P1.
  destruct (complete_fetch (h - 248 + 2 - 1) body) with (r := r1) (rest := rest) as (r2 & E2 & D2); auto; [lia|].
  destruct (pending_delivers _ _ _ G1 D2) as [P2 G2]. destruct (delivers_rwf _ _ _ W1 D2) as [_ B].
  exists r2. split; [|rewrite <- P1 in P2; now apply app_inv_head in P2].
  unfold decode, bind at 1, lift_err at 1. rewrite E1. cbn [map_err].
  unfold decoded_size, ILINT_BASE. destruct (N.ltb_spec h 248); [lia|].
  destruct (N.eqb_spec (h - 248 + 2) 1); [lia|].
  unfold bind, lift_err. rewrite E2. cbn [map_err]. f_equal.
  rewrite decode_body_spec by assumption.
  destruct (N.leb_spec 1 (lenN body)), (N.leb_spec (lenN body) 8); try lia. cbn [andb].
  destruct (N.ltb_spec (be_value body + 248) two64); [lia|reflexivity].
Qed.

(** ** decode_from_bytes *)
Lemma decode_from_bytes_cons h rest :
  bytes_ok (h :: rest) ->
  decode_from_bytes (h :: rest) =
    if h <? 248 then Ok (h, 1)
    else if lenN rest <? h - 247 then Err InvalidFormat
    else map_ok (fun v => (v, 1 + (h - 247))) (decode_body (takeN (h - 247) rest)).
Proof.
  intros B. apply bytes_ok_cons in B as [Hb _]. unfold decode_from_bytes, decoded_size, ILINT_BASE.
  destruct (N.ltb_spec h 248); [reflexivity|].
  destruct (N.eqb_spec (h - 248 + 2) 1); [lia|]. rewrite lenN_cons.
  destruct (N.ltb_spec (1 + lenN rest) (h - 248 + 2)), (N.ltb_spec (lenN rest) (h - 247)); try lia; [reflexivity|].
  rewrite slice_ok; [|lia|rewrite lenN_cons; lia].
  replace (h - 248 + 2 - 1) with (h - 247) by lia. replace (h - 248 + 2) with (1 + (h - 247)) by lia.
  do 2 f_equal. cbn [dropN]. change (1 =? 0) with false. cbn iota. change (N.pred 1) with 0. now rewrite dropN_0.
Qed.
Lemma decode_from_bytes_ok bs v n :
  bytes_ok bs -> decode_from_bytes bs = Ok (v, n) ->
  exists b rest, bs = b ++ rest /\ ilint_repr v b /\ lenN b = n.
Proof.
  intros B. destruct bs as [|h rest]; [discriminate|]. rewrite decode_from_bytes_cons by assumption.
  apply bytes_ok_cons in B as [Hb B].
  destruct (N.ltb_spec h 248).
  - intros [= <- <-]. exists [h], rest. repeat split. now constructor.
  - destruct (N.ltb_spec (lenN rest) (h - 247)); [discriminate|].
    destruct (decode_body (takeN (h - 247) rest)) as [x|e| |] eqn:E; try discriminate.
    cbn [map_ok]. intros H1. apply Ok_pair_inv in H1 as [<- <-].
    apply decode_body_ok in E as (L & -> & V); [|now apply Forall_takeN].
    exists (h :: takeN (h - 247) rest), (dropN (h - 247) rest).
    cbn [app]. rewrite takeN_dropN, lenN_cons.
    assert (Lt : lenN (takeN (h - 247) rest) = h - 247) by (rewrite lenN_takeN; lia).
    repeat split; [|lia].
    replace h with (247 + lenN (takeN (h - 247) rest)) at 2 by lia.
    now constructor.
Qed.
Lemma decode_from_bytes_repr v b rest :
  bytes_ok (b ++ rest) -> ilint_repr v b -> decode_from_bytes (b ++ rest) = Ok (v, lenN b).
Proof.
  intros B H. destruct H as [v H|body H1 H2]; cbn [app] in *; rewrite decode_from_bytes_cons by assumption.
  - destruct (N.ltb_spec v 248); [reflexivity|lia].
  - apply bytes_ok_cons in B as [Hb B]. apply bytes_ok_app in B as [B _].
    destruct (N.ltb_spec (247 + lenN body) 248); [lia|]. rewrite lenN_app.
    destruct (N.ltb_spec (lenN body + lenN rest) (247 + lenN body - 247)); [lia|].
    rewrite takeN_app_exact by lia. rewrite decode_body_spec by assumption.
    destruct (N.leb_spec 1 (lenN body)), (N.leb_spec (lenN body) 8); try lia. cbn [andb].
    destruct (N.ltb_spec (be_value body + 248) two64); [|lia].
    cbn [map_ok]. rewrite lenN_cons. do 2 f_equal. lia.
Qed.
Lemma decode_from_bytes_returns bs : bytes_ok bs -> returns (decode_from_bytes bs).
Proof.
  destruct bs as [|h rest]; [exact (fun _ => I)|]. intros B. rewrite decode_from_bytes_cons by assumption.
  destruct (h <? 248); [exact I|]. destruct (lenN rest <? h - 247); [exact I|].
  pose proof (decode_body_returns (takeN (h - 247) rest)) as R.
  destruct (decode_body _); exact R.
Qed.

(** The slice decoder and the stream decoder agree. *)
Lemma decode_agree bs :
  bytes_ok bs ->
  match decode_from_bytes bs with
  | Ok (v, n) => decode (ByteArrayReader_new bs) = (Ok v, RByteArray bs n)
  | Err InvalidFormat => exists e r', decode (ByteArrayReader_new bs) = (Err (ILIntIO e), r')
  | Err e => exists r', decode (ByteArrayReader_new bs) = (Err e, r') /\ e = ValueOverflow
  | _ => False
  end.
Proof.
  intros B. set (r := ByteArrayReader_new bs).
  assert (W : rwf r) by (cbn; split; [assumption|lia]).
  assert (G : good r) by (cbn; lia).
  assert (P : pending r = bs) by (cbn; apply dropN_0).
  destruct bs as [|h rest]. { cbn [decode_from_bytes]. now apply decode_good_nil. }
  pose proof B as B0. apply bytes_ok_cons in B as [Hb B].
  destruct (decode_from_bytes (h :: rest)) as [[v n]|e| |] eqn:E.
  - pose proof E as E0. apply decode_from_bytes_ok in E0 as (b & k & Hs & R & L); [|assumption].
    assert (Bb : bytes_ok b) by (rewrite Hs in B0; now apply bytes_ok_app in B0).
    destruct (complete_decode v b Bb R r k W G) as (r' & -> & D).
    { now rewrite P. }
    f_equal. destruct r'; cbn [delivers r] in D; try contradiction.
    destruct D as (-> & -> & _). f_equal. lia.
  - rewrite decode_from_bytes_cons in E by assumption. destruct (N.ltb_spec h 248); [discriminate|].
    destruct (N.ltb_spec (lenN rest) (h - 247)).
    { injection E as <-. eapply decode_good_short; eauto. }
    assert (L : lenN (takeN (h - 247) rest) = h - 247) by (rewrite lenN_takeN; lia).
    rewrite decode_body_spec in E by now apply Forall_takeN. rewrite L in E.
    destruct (N.leb_spec 1 (h - 247)), (N.leb_spec (h - 247) 8); try lia.
    cbn [andb] in E. destruct (N.ltb_spec (be_value (takeN (h - 247) rest) + 248) two64); [discriminate|].
    injection E as <-.
    destruct (decode_good_overflow r h (takeN (h - 247) rest) (dropN (h - 247) rest)) as (r' & E' & _); auto.
    { cbn [app]. now rewrite takeN_dropN. }
    exists r'. auto.
  - pose proof (decode_from_bytes_returns _ B0) as R. now rewrite E in R.
  - pose proof (decode_from_bytes_returns _ B0) as R. now rewrite E in R.
Qed.

(** ** Padding: the exact set of accepted encodings *)
Lemma be_bytes_pad k z n :
  n < pow256 k -> be_bytes (z + k) n = repeat 0 z ++ be_bytes k n.
Proof.
  revert n z; induction k as [|k IH]; intros n z H.
  - rewrite Nat.add_0_r. cbn [be_bytes]. rewrite app_nil_r.
    unfold pow256 in H. cbn in H. assert (n = 0) by lia. subst. clear.
    induction z as [|z IH]; [reflexivity|]. cbn [be_bytes]. change (0 / 256) with 0. change (0 mod 256) with 0.
    rewrite IH. cbn [repeat]. clear. induction z as [|z IH]; [reflexivity|]. cbn. now rewrite IH.
  - rewrite Nat.add_succ_r. cbn [be_bytes]. rewrite pow256_S in H.
    rewrite IH by lia. now rewrite app_assoc.
Qed.
Lemma ilint_k_pos v : 1 <= ilint_k v. Proof. unfold ilint_k. lia. Qed.
Lemma ilint_repr_padding v bs :
  v < two64 -> bytes_ok bs ->
  (ilint_repr v bs <->
   bs = ilint v \/
   exists h body z, 248 <= v /\ ilint v = h :: body /\ 1 <= z /\ lenN body + z <= 8
                    /\ bs = (h + z) :: repeatN 0 z ++ body).
Proof.
  intros V B. split.
  - intros R. pose proof (ilint_minimal v bs B R) as M. rewrite lenN_ilint in M by assumption.
    destruct R as [v H|body H1 H2].
    + left. unfold ilint. destruct (N.ltb_spec v 248); [reflexivity|lia].
    + set (v := be_value body + 248) in *. destruct (N.ltb_spec v 248); [lia|]. rewrite lenN_cons in M.
      apply bytes_ok_cons in B as [_ B].
      assert (Ev : v - 248 = be_value body) by lia.
      assert (Eb : body = repeatN 0 (lenN body - ilint_k v) ++ be_bytes (N.to_nat (ilint_k v)) (v - 248)).
      { unfold repeatN. rewrite <- be_bytes_pad by apply ilint_k_fits. rewrite Ev.
        rewrite <- (be_bytes_be_value body B) at 1. f_equal. unfold lenN in *. lia. }
      assert (Ei : ilint v = (247 + ilint_k v) :: be_bytes (N.to_nat (ilint_k v)) (v - 248)).
      { unfold ilint. destruct (N.ltb_spec v 248); [lia|reflexivity]. }
      destruct (N.eq_dec (lenN body) (ilint_k v)) as [Hl|Hl].
      * left. rewrite Ei. f_equal; [lia|]. rewrite Eb at 1. rewrite Hl, N.sub_diag. reflexivity.
      * right. exists (247 + ilint_k v), (be_bytes (N.to_nat (ilint_k v)) (v - 248)), (lenN body - ilint_k v).
        rewrite lenN_be_bytes, Nnat.N2Nat.id. repeat split; auto; try lia.
        f_equal; [lia|exact Eb].
  - intros [->|(h & body & z & Hv & Ei & Hz & Hl & ->)]; [now apply ilint_repr_ilint|].
    unfold ilint in Ei. destruct (N.ltb_spec v 248); [lia|]. apply cons_inv in Ei as [Eh Eb].
    fold (ilint_k v) in Eh, Eb. pose proof (lenN_be_bytes (N.to_nat (ilint_k v)) (v - 248)) as Lb.
    rewrite Eb, Nnat.N2Nat.id in Lb.
    assert (Ev : be_value (repeatN 0 z ++ body) = v - 248).
    { rewrite <- Eb. unfold repeatN. rewrite <- be_bytes_pad by apply ilint_k_fits.
      apply be_value_be_bytes. eapply N.lt_le_trans; [apply ilint_k_fits|].
      unfold pow256. apply N.pow_le_mono_r; lia. }
    replace v with (be_value (repeatN 0 z ++ body) + 248) by lia.
    assert (Ll : lenN (repeatN 0 z ++ body) = z + lenN body) by (rewrite lenN_app, lenN_repeatN; reflexivity).
    replace (h + z) with (247 + lenN (repeatN 0 z ++ body)) by lia.
    pose proof (ilint_k_pos v). constructor; lia.
Qed.

(** Monotone sizes. *)
Lemma encoded_size_mono v w : v <= w -> w < two64 -> encoded_size v <= encoded_size w.
Proof.
  intros H Hw. rewrite !encoded_size_spec, !lenN_ilint by lia.
  pose proof (ilint_k_le v w _ H eq_refl). pose proof (ilint_k_pos w).
  destruct (N.ltb_spec v 248), (N.ltb_spec w 248); lia.
Qed.

Lemma encode_ok_puts v w w' : v < two64 -> wwf w -> encode v w = (Ok tt, w') -> puts w (ilint v) w'.
Proof.
  intros Hv W E. rewrite encode_spec in E by assumption.
  unfold lift_err in E. destruct (write_all (ilint v) w) as [x w1] eqn:Ew.
  apply pair_inv in E as [Ex <-]. destruct x as [[]|e| |]; try discriminate.
  apply write_all_spec in Ew as (_ & p & _ & P & O); [|assumption]. now rewrite (O eq_refl) in P.
Qed.
Lemma encode_accepts v w : v < two64 -> accepts (encoded_size v) w -> exists w', encode v w = (Ok tt, w').
Proof.
  intros Hv A. rewrite encode_spec by (assumption || eapply accepts_wwf; eauto).
  destruct (write_all_accepts _ (ilint v) w A) as (w' & E & _).
  { rewrite encoded_size_spec by assumption. lia. }
  exists w'. unfold lift_err. now rewrite E.
Qed.

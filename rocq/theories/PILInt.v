(** Properties C01-C07: ILInt.
    Vocabulary: [ilint], [ilint_repr], [zigzag], [i64_range] are in Spec.v;
    [rwf], [good], [pending], [delivers], [wwf], [puts], [accepts] in IOSpec.v. *)
From Verif Require Import Base BaseFacts Types Spec SpecFacts IO IOSpec IOFacts WriterFacts Logic ILInt ILIntFacts.

(** ** C01.  Whatever [encode] wrote when it succeeded, on any writer, decodes
    back: through every reader about to deliver it (followed by anything) and
    through the slice decoder; and [encode] succeeds when there is room. *)
Theorem C01_ilint_round_trip :
  forall v, v < two64 ->
  (forall w, accepts (encoded_size v) w -> exists w', encode v w = (Ok tt, w')) /\
  (forall w w', wwf w -> encode v w = (Ok tt, w') ->
   exists bs, puts w bs w' /\ lenN bs = encoded_size v /\
     (forall r rest, rwf r -> good r -> pending r = bs ++ rest ->
        exists r', decode r = (Ok v, r') /\ pending r' = rest /\ delivers r bs r') /\
     (forall rest, bytes_ok rest -> decode_from_bytes (bs ++ rest) = Ok (v, lenN bs))).
Proof.
  intros v Hv. split; [intros w; now apply encode_accepts|].
  - intros w w' W E. exists (ilint v). split; [now apply encode_ok_puts|].
    split; [symmetry; now apply encoded_size_spec|].
    pose proof (ilint_repr_ilint v Hv) as R. pose proof (ilint_bytes_ok v Hv) as B. split.
    + intros r rest Wr G Pd. destruct (complete_decode v _ B R r rest Wr G Pd) as (r' & Ed & D).
      exists r'. repeat split; auto.
      destruct (pending_delivers _ _ _ G D) as [P' _]. rewrite Pd in P'. now apply app_inv_head in P'.
    + intros rest Br. apply decode_from_bytes_repr; [|assumption]. apply bytes_ok_app. auto.
Qed.
Print Assumptions C01_ilint_round_trip.
(** A value of five bytes written into the middle of a slice, then read through
    a fragmented stream with data behind it. *)
Example C01_instance :
  encode 100000000 (WArray [1;2;3;4;5;6;7] 1) = (Ok tt, WArray [1;251;5;245;224;8;7] 6)
  /\ decode (RRead ([251;5;245;224;8] ++ [9;9]) [Chunk 2; Interrupt; Chunk 1])
     = (Ok 100000000, RRead [9;9] [])
  /\ decode_from_bytes [251;5;245;224;8;77] = Ok (100000000, 5).
Proof. vm_compute. auto. Qed.

(** ** C02.  [encoded_size] is the number of bytes written, between 1 and 9,
    monotone, and no shorter byte string decodes to the value. *)
Theorem C02_ilint_size :
  (forall v w w', v < two64 -> wwf w -> encode v w = (Ok tt, w') ->
     exists bs, puts w bs w' /\ lenN bs = encoded_size v) /\
  (forall v, 1 <= encoded_size v <= 9) /\
  (forall v w, v <= w -> w < two64 -> encoded_size v <= encoded_size w) /\
  (forall r v r' bs, rwf r -> decode r = (Ok v, r') -> delivers r bs r' -> encoded_size v <= lenN bs) /\
  (forall bs v n, bytes_ok bs -> decode_from_bytes bs = Ok (v, n) -> encoded_size v <= n).
Proof.
  split; [|split; [|split; [|split]]].
  - intros v w w' Hv W E. exists (ilint v). split; [now apply encode_ok_puts|].
    symmetry. now apply encoded_size_spec.
  - exact encoded_size_bound.
  - exact encoded_size_mono.
  - intros r v r' bs W E D. destruct (sound_decode r v r' W E) as (b & R & D').
    pose proof (delivers_left _ _ _ D) as L. pose proof (delivers_left _ _ _ D') as L'.
    destruct (delivers_rwf _ _ _ W D') as [_ B].
    rewrite encoded_size_spec by (eapply ilint_repr_bound; eauto).
    pose proof (ilint_minimal v b B R). unfold lenN in *. lia.
  - intros bs v n B E. apply decode_from_bytes_ok in E as (b & k & -> & R & <-); [|assumption].
    apply bytes_ok_app in B as [B _].
    rewrite encoded_size_spec by (eapply ilint_repr_bound; eauto). now apply ilint_minimal.
Qed.
Print Assumptions C02_ilint_size.
Example C02_instance :
  map encoded_size [247; 248; 503; 504; 65783; 65784; u64_max] = [1; 2; 2; 3; 3; 4; 9].
Proof. reflexivity. Qed.

(** ** C03.  Soundness on every reader, completeness on every well-behaved one,
    the meaning of each error, absence of panics, and agreement of the two
    decoders. *)
Theorem C03_ilint_decoder_exact :
  (** never panics or diverges, on any reachable reader *)
  (forall r, rwf r -> returns (fst (decode r))) /\
  (** every success consumed exactly one well-formed ILInt of that value *)
  (forall r v r', rwf r -> decode r = (Ok v, r') ->
     exists bs, ilint_repr v bs /\ delivers r bs r') /\
  (** every well-formed ILInt about to be delivered is accepted *)
  (forall r v bs rest, rwf r -> good r -> pending r = bs ++ rest -> ilint_repr v bs ->
     exists r', decode r = (Ok v, r') /\ pending r' = rest) /\
  (** on a well-behaved reader, failures are: a body that overflows u64, or a
      stream that ends too early; nothing else *)
  (forall r e r', rwf r -> good r -> decode r = (Err e, r') ->
     (e = ValueOverflow /\ exists h body rest, pending r = h :: body ++ rest /\ lenN body = h - 247
                             /\ 248 <= h /\ two64 <= be_value body + 248) \/
     (exists io, e = ILIntIO io /\
        (pending r = [] \/ exists h rest, pending r = h :: rest /\ 248 <= h /\ lenN rest < h - 247))) /\
  (** the slice decoder gives the same answers *)
  (forall bs, bytes_ok bs ->
     match decode_from_bytes bs with
     | Ok (v, n) => decode (ByteArrayReader_new bs) = (Ok v, RByteArray bs n)
     | Err InvalidFormat => exists e r', decode (ByteArrayReader_new bs) = (Err (ILIntIO e), r')
     | Err e => exists r', decode (ByteArrayReader_new bs) = (Err e, r') /\ e = ValueOverflow
     | _ => False
     end).
Proof.
  split; [|split; [|split; [|split]]].
  - intros r W. destruct (decode r) as [x r'] eqn:E. now destruct (safe_decode r x r' W E).
  - exact sound_decode.
  - intros r v bs rest W G P R.
    assert (B : bytes_ok bs).
    { pose proof (bytes_ok_pending r W) as B. rewrite P in B. now apply bytes_ok_app in B. }
    destruct (complete_decode v bs B R r rest W G P) as (r' & E & D). exists r'. split; [assumption|].
    destruct (pending_delivers _ _ _ G D) as [P' _]. rewrite P in P'. now apply app_inv_head in P'.
  - intros r e r' W G E. pose proof (bytes_ok_pending r W) as B.
    destruct (pending r) as [|h rest] eqn:P.
    { destruct (decode_good_nil r W G P) as (io & r1 & E1). rewrite E1 in E.
      apply pair_inv in E as [E _]. injection E as <-. right. eauto. }
    apply bytes_ok_cons in B as [Hh B].
    destruct (N.lt_ge_cases h 248) as [Hs|Hs].
    { destruct (complete_decode h [h]) with (r := r) (rest := rest) as (r1 & E1 & _); auto;
        [repeat constructor; unfold byte_ok; lia|now constructor|]. rewrite E1 in E. discriminate. }
    destruct (N.lt_ge_cases (lenN rest) (h - 247)) as [Hl|Hl].
    { destruct (decode_good_short r h rest W G P Hs Hl) as (io & r1 & E1). rewrite E1 in E.
      apply pair_inv in E as [E _]. injection E as <-. right. exists io. split; [reflexivity|]. right. eauto. }
    assert (Lt : lenN (takeN (h - 247) rest) = h - 247) by (rewrite lenN_takeN; lia).
    assert (Sp : pending r = (h :: takeN (h - 247) rest) ++ dropN (h - 247) rest).
    { cbn [app]. now rewrite takeN_dropN. }
    destruct (N.lt_ge_cases (be_value (takeN (h - 247) rest) + 248) two64) as [Ho|Ho].
    + assert (R : ilint_repr (be_value (takeN (h - 247) rest) + 248) (h :: takeN (h - 247) rest)).
      { replace h with (247 + lenN (takeN (h - 247) rest)) at 2 by lia. constructor; lia. }
      assert (Bb : bytes_ok (h :: takeN (h - 247) rest)).
      { apply bytes_ok_cons. split; [assumption|now apply Forall_takeN]. }
      destruct (complete_decode _ _ Bb R r _ W G Sp) as (r1 & E1 & _). rewrite E1 in E. discriminate.
    + destruct (decode_good_overflow r h _ _ W G Sp Hs Hh Lt Ho) as (r1 & E1 & _). rewrite E1 in E.
      apply pair_inv in E as [E _]. injection E as <-. left. split; [reflexivity|].
      exists h, (takeN (h - 247) rest), (dropN (h - 247) rest). rewrite takeN_dropN. auto.
  - exact decode_agree.
Qed.
Print Assumptions C03_ilint_decoder_exact.
Example C03_instance_overflow :
  decode (VecReader_new [255;255;255;255;255;255;255;255;8;1]) =
    (Err ValueOverflow, RVec [255;255;255;255;255;255;255;255;8;1] 9)
  /\ decode (VecReader_new [255;255;255;255;255;255;255;255;7;1]) =
    (Ok u64_max, RVec [255;255;255;255;255;255;255;255;7;1] 9)
  /\ decode (VecReader_new [250;1;2]) = (Err (ILIntIO UnableToReadData), RVec [250;1;2] 1).
Proof. vm_compute. auto. Qed.

(** ** C04.  Prefix freedom, and unique splitting of concatenations. *)
Theorem C04_ilint_prefix_free :
  (forall v w, v < two64 -> w < two64 -> prefix (ilint v) (ilint w) -> v = w) /\
  (forall v bs w bs', ilint_repr v bs -> ilint_repr w bs' -> prefix bs bs' -> v = w /\ bs = bs') /\
  (forall l l' bs, ilints l bs -> ilints l' bs -> l = l').
Proof.
  split; [|split].
  - intros v w Hv Hw [k Hk].
    destruct (ilint_repr_prefix v (ilint v) k w (ilint w) []) as [? _]; auto using ilint_repr_ilint.
    now rewrite app_nil_r.
  - intros v bs w bs' R R' [k Hk].
    destruct (ilint_repr_prefix v bs k w bs' []) as (? & ? & _); auto. now rewrite app_nil_r.
  - intros l l' bs H. revert l'. induction H as [|v b l bs R H IH]; intros l' H'.
    + inversion H' as [|? b ? bs' R]; [reflexivity|]. pose proof (ilint_repr_len _ _ R) as L.
      match goal with E : b ++ bs' = [] |- _ => apply app_eq_nil in E as [-> _] end.
      rewrite lenN_nil in L. lia.
    + inversion H' as [E1 E2|v' b' l2 bs2 R' H2 E1 E2].
      * pose proof (ilint_repr_len _ _ R) as L. symmetry in E2. apply app_eq_nil in E2 as [-> _].
        rewrite lenN_nil in L. lia.
      * destruct (ilint_repr_prefix _ _ _ _ _ _ R R' (eq_sym E2)) as (-> & -> & ->).
        f_equal. now apply IH.
Qed.
Print Assumptions C04_ilint_prefix_free.
Example C04_instance : ilint_repr 248 [248; 0] /\ ilint_repr 248 [249; 0; 0] /\ ilint_repr 249 [248; 1]
  /\ ilint 300 = [248; 52].
Proof.
  repeat split; try reflexivity.
  - apply (repr_long [0]); [rewrite lenN_cons, lenN_nil; lia|reflexivity].
  - apply (repr_long [0; 0]); [rewrite !lenN_cons, lenN_nil; lia|reflexivity].
  - apply (repr_long [1]); [rewrite lenN_cons, lenN_nil; lia|reflexivity].
Qed.

(** ** C05.  The claim "decode only accepts what encode produces" is false. *)
Theorem C05_canonical_ilint_enforced_refuted :
  ~ (forall bs v r', bytes_ok bs -> decode (ByteArrayReader_new bs) = (Ok v, r') ->
       pending r' = [] -> bs = ilint v).
Proof.
  intros H. specialize (H [249;0;0] 248 (RByteArray [249;0;0] 3)).
  assert (E : [249;0;0] = ilint 248); [|discriminate]. apply H; [|reflexivity..].
  repeat constructor.
Qed.
Print Assumptions C05_canonical_ilint_enforced_refuted.
(** The exact set: the encoder's output, and that output with [z] leading zero
    bytes inserted in the body and the header adjusted. *)
Theorem C05_accepted_encodings_exact :
  forall v bs, v < two64 -> bytes_ok bs ->
  ((exists r', decode (ByteArrayReader_new bs) = (Ok v, r') /\ pending r' = []) <->
   bs = ilint v \/
   exists h body z, 248 <= v /\ ilint v = h :: body /\ 1 <= z /\ lenN body + z <= 8
                    /\ bs = (h + z) :: repeatN 0 z ++ body).
Proof.
  intros v bs Hv B. rewrite <- ilint_repr_padding by assumption.
  assert (W : rwf (ByteArrayReader_new bs)) by (cbn; split; [assumption|lia]).
  assert (G : good (ByteArrayReader_new bs)) by (cbn; lia).
  assert (P : pending (ByteArrayReader_new bs) = bs) by (cbn; apply dropN_0).
  split.
  - intros (r' & E & Pe). destruct (sound_decode _ _ _ W E) as (b & R & D).
    destruct (pending_delivers _ _ _ G D) as [P' _]. rewrite Pe, app_nil_r, P in P'. now subst.
  - intros R. destruct (complete_decode v bs B R _ [] W G) as (r' & E & D).
    { now rewrite P, app_nil_r. }
    exists r'. split; [assumption|]. destruct (pending_delivers _ _ _ G D) as [P' _].
    rewrite P in P'. rewrite <- (app_nil_r bs) in P' at 1. now apply app_inv_head in P'.
Qed.
Print Assumptions C05_accepted_encodings_exact.
Example C05_instance : decode (ByteArrayReader_new [251;0;0;1;44]) = (Ok 548, RByteArray [251;0;0;1;44] 5)
  /\ ilint 548 = [249;1;44].
Proof. vm_compute. auto. Qed.

(** ** C06.  Sign folding is a bijection between i64 and u64. *)
Theorem C06_sign_folding_bijection :
  (forall z, i64_range z ->
     encode_sign z = (if (0 <=? z)%Z then Z.to_N (2 * z) else Z.to_N (-2 * z - 1))
     /\ encode_sign z < two64 /\ decode_sign (encode_sign z) = z) /\
  (forall n, n < two64 -> i64_range (decode_sign n) /\ encode_sign (decode_sign n) = n).
Proof.
  split.
  - intros z H. rewrite encode_sign_spec by assumption.
    auto using zigzag_bound, decode_sign_zigzag.
  - intros n H. destruct (zigzag_decode_sign n H) as [E R]. split; [assumption|].
    now rewrite encode_sign_spec.
Qed.
Print Assumptions C06_sign_folding_bijection.
Example C06_instance :
  map encode_sign [0; -1; 1; -2; 9223372036854775807; -9223372036854775808]%Z
  = [0; 1; 2; 3; 18446744073709551614; 18446744073709551615]
  /\ decode_sign 18446744073709551615 = (-9223372036854775808)%Z.
Proof. vm_compute. auto. Qed.

(** ** C07.  Signed ILInt round trip; smaller magnitudes never take more bytes. *)
Theorem C07_signed_ilint_round_trip :
  (forall z, i64_range z ->
   (forall w, accepts (signed_encoded_size z) w -> exists w', signed_encode z w = (Ok tt, w')) /\
   (forall w w', wwf w -> signed_encode z w = (Ok tt, w') ->
     exists bs, puts w bs w' /\ lenN bs = signed_encoded_size z /\
       forall r rest, rwf r -> good r -> pending r = bs ++ rest ->
         exists r', signed_decode r = (Ok z, r') /\ pending r' = rest)) /\
  (forall a b, i64_range a -> i64_range b -> (Z.abs a < Z.abs b)%Z ->
     signed_encoded_size a <= signed_encoded_size b).
Proof.
  split.
  - intros z Hz. pose proof (zigzag_bound z Hz) as Hb.
    unfold signed_encode, signed_encoded_size. rewrite encode_sign_spec by assumption.
    split; [intros w; now apply encode_accepts|].
    intros w w' W E. exists (ilint (zigzag z)). split; [now apply encode_ok_puts|].
    split; [symmetry; now apply encoded_size_spec|]. intros r rest Wr G P.
    destruct (complete_signed_decode z (ilint (zigzag z))) with (r := r) (rest := rest)
      as (r' & E' & D); auto using ilint_bytes_ok, ilint_repr_ilint.
    exists r'. split; [assumption|].
    destruct (pending_delivers _ _ _ G D) as [P' _]. rewrite P in P'. now apply app_inv_head in P'.
  - intros a b Ha Hb Hab. unfold signed_encoded_size. rewrite !encode_sign_spec by assumption.
    apply encoded_size_mono; [|now apply zigzag_bound].
    unfold zigzag. destruct (Z.leb_spec 0 a), (Z.leb_spec 0 b); lia.
Qed.
Print Assumptions C07_signed_ilint_round_trip.
Example C07_instance :
  signed_encode (-200)%Z VecWriter_new = (Ok tt, WVec [248; 151] 2 false)
  /\ signed_decode (VecReader_new [248; 151; 5]) = (Ok (-200)%Z, RVec [248; 151; 5] 2)
  /\ signed_encoded_size (-9223372036854775808)%Z = 9.
Proof. vm_compute. auto. Qed.

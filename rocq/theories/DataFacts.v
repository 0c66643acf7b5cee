(** Proofs about Data.v: conversions, UTF-8 validation, value readers and
    writers. *)
From Verif Require Import Base BaseFacts Types Spec SpecFacts IO IOSpec IOFacts WriterFacts Logic WLogic ILInt ILIntFacts Data.

(** ** Conversions *)
Lemma wmod_bits w : wmod w = 2 ^ wbits w.
Proof. destruct w; reflexivity. Qed.

Lemma byte_at_spec v i : byte_at v i = (v / 256 ^ i) mod 256.
Proof.
  unfold byte_at. rewrite N.shiftr_div_pow2. change 255 with (N.ones 8). rewrite N.land_ones.
  replace (256 ^ i) with (2 ^ (8 * i)); [reflexivity|]. rewrite N.pow_mul_r. reflexivity.
Qed.
Lemma to_be_bytes_spec w v : to_be_bytes w v = be_bytes (wbytes w) v.
Proof.
  unfold to_be_bytes.
  assert (D : forall i j, j = i + 1 -> v / 256 ^ j = (v / 256 ^ i) / 256).
  { intros i j ->. rewrite N.div_div by (try apply N.pow_nonzero; lia). f_equal.
    rewrite N.pow_add_r. f_equal. }
  destruct w; cbn [wbytes be_bytes map app]; rewrite !byte_at_spec.
  - change (256 ^ 0) with 1. now rewrite N.div_1_r.
  - rewrite (D 0 1 eq_refl). change (256 ^ 0) with 1. now rewrite N.div_1_r.
  - rewrite (D 2 3 eq_refl), (D 1 2 eq_refl), (D 0 1 eq_refl). change (256 ^ 0) with 1. now rewrite N.div_1_r.
  - rewrite (D 6 7 eq_refl), (D 5 6 eq_refl), (D 4 5 eq_refl), (D 3 4 eq_refl), (D 2 3 eq_refl), (D 1 2 eq_refl), (D 0 1 eq_refl). change (256 ^ 0) with 1. now rewrite N.div_1_r.
Qed.
Lemma lor_shiftl_add v x : x < 256 -> N.lor (N.shiftl v 8) x = v * 256 + x.
Proof.
  intros H. rewrite N.shiftl_mul_pow2. change (2 ^ 8) with 256.
  assert (Z : N.land (v * 256) x = 0).
  { apply N.bits_inj. intros i. rewrite N.land_spec, N.bits_0.
    destruct (N.lt_ge_cases i 8) as [L|L].
    - change 256 with (2 ^ 8). now rewrite N.mul_pow2_bits_low.
    - replace x with (x mod 2 ^ 8) by (apply N.mod_small; exact H).
      rewrite N.mod_pow2_bits_high by exact L. apply andb_false_r. }
  rewrite <- N.lxor_lor by assumption. now rewrite <- N.add_nocarry_lxor.
Qed.
Lemma from_be_bytes_spec bs : bytes_ok bs -> from_be_bytes bs = be_value bs.
Proof.
  unfold from_be_bytes, be_value. generalize 0. induction bs as [|b bs IH]; intros a B; cbn [fold_left]; [reflexivity|].
  apply bytes_ok_cons in B as [Hb B]. rewrite lor_shiftl_add by assumption. now apply IH.
Qed.
Lemma cast_unsigned_spec w z : cast_unsigned w z = of_signed w z.
Proof.
  unfold cast_unsigned, of_signed. rewrite Z.land_ones by lia. f_equal. f_equal.
  destruct w; reflexivity.
Qed.
Lemma cast_signed_spec w n : n < wmod w -> cast_signed w n = to_signed w n.
Proof.
  intros H. unfold cast_signed, to_signed.
  assert (T : N.testbit n (wbits w - 1) = negb (n <? wmod w / 2)).
  { rewrite N.testbit_eqb. destruct w; cbn [wbits wmod] in *;
      match goal with |- context [2 ^ ?k] => let v := eval vm_compute in (2 ^ k) in change (2 ^ k) with v end;
      unfold two64 in *; lia. }
  rewrite T. destruct (n <? wmod w / 2); cbn [negb]; [reflexivity|].
  destruct w; reflexivity.
Qed.

(** ** UTF-8 *)
Lemma utf8_nil : utf8 [].
Proof. exists []. split; [constructor|reflexivity]. Qed.
Lemma utf8_app_char c bs : scalar c -> utf8 bs -> utf8 (utf8_char c ++ bs).
Proof. intros H (cs & F & ->). exists (c :: cs). split; [constructor; auto|reflexivity]. Qed.

Ltac unb := repeat match goal with
  | H : (_ && _) = true |- _ => apply andb_prop in H; destruct H
  | H : (_ || _) = true |- _ => apply orb_prop in H; destruct H
  end.

Lemma utf8_char_2 b0 b1 : 194 <= b0 <= 223 -> 128 <= b1 <= 191 ->
  let c := (b0 - 192) * 64 + (b1 - 128) in scalar c /\ utf8_char c = [b0; b1].
Proof.
  intros H0 H1 c. split; [left; unfold c; lia|]. unfold utf8_char.
  destruct (N.ltb_spec c 128); [unfold c in *; lia|]. destruct (N.ltb_spec c 2048); [|unfold c in *; lia].
  assert (c / 64 = b0 - 192 /\ c mod 64 = b1 - 128) as [-> ->]; [unfold c; clear - H0 H1; lia|].
  repeat (f_equal; try lia).
Qed.
Lemma utf8_char_3 b0 b1 b2 : 224 <= b0 <= 239 -> 128 <= b1 <= 191 -> 128 <= b2 <= 191 ->
  (b0 = 224 -> 160 <= b1) -> (b0 = 237 -> b1 <= 159) ->
  let c := (b0 - 224) * 4096 + (b1 - 128) * 64 + (b2 - 128) in scalar c /\ utf8_char c = [b0; b1; b2].
Proof.
  intros H0 H1 H2 E1 E2 c. split.
  { unfold scalar, c. lia. }
  unfold utf8_char.
  destruct (N.ltb_spec c 128); [unfold c in *; lia|]. destruct (N.ltb_spec c 2048); [unfold c in *; lia|].
  destruct (N.ltb_spec c 65536); [|unfold c in *; lia].
  assert (c / 4096 = b0 - 224 /\ (c / 64) mod 64 = b1 - 128 /\ c mod 64 = b2 - 128) as (-> & -> & ->);
    [unfold c; clear - H0 H1 H2; lia|].
  repeat (f_equal; try lia).
Qed.
Lemma utf8_char_4 b0 b1 b2 b3 : 240 <= b0 <= 244 -> 128 <= b1 <= 191 -> 128 <= b2 <= 191 -> 128 <= b3 <= 191 ->
  (b0 = 240 -> 144 <= b1) -> (b0 = 244 -> b1 <= 143) ->
  let c := (b0 - 240) * 262144 + (b1 - 128) * 4096 + (b2 - 128) * 64 + (b3 - 128) in
  scalar c /\ utf8_char c = [b0; b1; b2; b3].
Proof.
  intros H0 H1 H2 H3 E1 E2 c. split.
  { unfold scalar, c. lia. }
  unfold utf8_char.
  destruct (N.ltb_spec c 128); [unfold c in *; lia|]. destruct (N.ltb_spec c 2048); [unfold c in *; lia|].
  destruct (N.ltb_spec c 65536); [unfold c in *; lia|].
  assert (c / 262144 = b0 - 240 /\ (c / 4096) mod 64 = b1 - 128 /\ (c / 64) mod 64 = b2 - 128 /\ c mod 64 = b3 - 128)
    as (-> & -> & -> & ->); [unfold c; clear - H0 H1 H2 H3; lia|].
  repeat (f_equal; try lia).
Qed.

Lemma from_utf8_sound bs : from_utf8 bs = true -> utf8 bs.
Proof.
  remember (length bs) as n eqn:E. assert (L : (length bs <= n)%nat) by lia. clear E. revert bs L.
  induction n as [|n IH]; intros bs L H.
  { destruct bs; [apply utf8_nil|cbn in L; lia]. }
  destruct bs as [|b0 r0]; [apply utf8_nil|]. cbn [from_utf8] in H. cbn [length] in L.
  destruct (N.ltb_spec b0 128) as [Hb|Hb].
  { assert (U : utf8_char b0 = [b0]) by (unfold utf8_char; destruct (N.ltb_spec b0 128); [reflexivity|lia]).
    change (b0 :: r0) with ([b0] ++ r0). rewrite <- U.
    apply utf8_app_char; [left; lia|]. apply IH; [lia|assumption]. }
  destruct r0 as [|b1 r1]; [discriminate|]. cbn [length] in L. unfold between, cont in H.
  destruct ((194 <=? b0) && (b0 <=? 223)) eqn:E2.
  { apply andb_prop in H as [H Hr]. destruct (utf8_char_2 b0 b1) as [S U]; [lia|lia|].
    change (b0 :: b1 :: r1) with ([b0; b1] ++ r1). rewrite <- U.
    apply utf8_app_char; [assumption|]. apply IH; [lia|assumption]. }
  destruct r1 as [|b2 r2]; [discriminate|]. cbn [length] in L.
  destruct ((224 <=? b0) && (b0 <=? 239)) eqn:E3.
  { apply andb_prop in H as [H Hr]. apply andb_prop in H as [H H2].
    destruct (utf8_char_3 b0 b1 b2) as [S U]; [lia..|].
    change (b0 :: b1 :: b2 :: r2) with ([b0; b1; b2] ++ r2). rewrite <- U.
    apply utf8_app_char; [assumption|]. apply IH; [lia|assumption]. }
  destruct r2 as [|b3 r3]; [discriminate|]. cbn [length] in L.
  apply andb_prop in H as [H Hr]. apply andb_prop in H as [H H3]. apply andb_prop in H as [H H2].
  destruct (utf8_char_4 b0 b1 b2 b3) as [S U]; [lia..|].
  change (b0 :: b1 :: b2 :: b3 :: r3) with ([b0; b1; b2; b3] ++ r3). rewrite <- U.
  apply utf8_app_char; [assumption|]. apply IH; [lia|assumption].
Qed.
Lemma from_utf8_char c bs : scalar c -> from_utf8 (utf8_char c ++ bs) = from_utf8 bs.
Proof.
  intros S. unfold utf8_char.
  destruct (N.ltb_spec c 128) as [H1|H1].
  { cbn [app from_utf8]. destruct (N.ltb_spec c 128); [reflexivity|lia]. }
  destruct (N.ltb_spec c 2048) as [H2|H2].
  { cbn [app from_utf8].
    assert (A : 2 <= c / 64 <= 31) by lia. assert (B : c mod 64 < 64) by lia. clear S.
    destruct (N.ltb_spec (192 + c / 64) 128); [lia|].
    unfold between, cont.
    replace ((194 <=? 192 + c / 64) && (192 + c / 64 <=? 223)) with true by lia.
    replace ((128 <=? 128 + c mod 64) && (128 + c mod 64 <=? 191)) with true by lia. reflexivity. }
  destruct (N.ltb_spec c 65536) as [H3|H3].
  { cbn [app from_utf8].
    assert (A : c / 4096 <= 15 /\ (c / 64) mod 64 < 64 /\ c mod 64 < 64 /\ (c / 4096 = 0 -> 32 <= (c / 64) mod 64)
                /\ (c / 4096 = 13 -> (c / 64) mod 64 <= 31)).
    { unfold scalar in S. repeat split; try lia. }
    destruct A as (A & B & C & D & E). clear S H1 H2 H3.
    set (x := c / 4096) in *. set (y := (c / 64) mod 64) in *. set (z := c mod 64) in *. clearbody x y z.
    unfold between, cont.
    replace (224 + x <? 128) with false by lia.
    replace ((194 <=? 224 + x) && (224 + x <=? 223)) with false by lia.
    replace ((224 <=? 224 + x) && (224 + x <=? 239)) with true by lia.
    replace ((128 <=? 128 + z) && (128 + z <=? 191)) with true by lia.
    rewrite andb_true_r.
    match goal with |- ?b && _ = _ => replace b with true by lia end. reflexivity. }
  cbn [app from_utf8].
  assert (A : c / 262144 <= 4 /\ (c / 4096) mod 64 < 64 /\ (c / 64) mod 64 < 64 /\ c mod 64 < 64
              /\ (c / 262144 = 0 -> 16 <= (c / 4096) mod 64)
              /\ (c / 262144 = 4 -> (c / 4096) mod 64 <= 15)).
  { unfold scalar in S. repeat split; try lia. }
  destruct A as (A & B & C & D & E & F). clear S H1 H2 H3.
  set (x := c / 262144) in *. set (y := (c / 4096) mod 64) in *. set (z := (c / 64) mod 64) in *. set (u := c mod 64) in *.
  clearbody x y z u. unfold between, cont.
  replace (240 + x <? 128) with false by lia.
  replace ((194 <=? 240 + x) && (240 + x <=? 223)) with false by lia.
  replace ((224 <=? 240 + x) && (240 + x <=? 239)) with false by lia.
  replace ((128 <=? 128 + z) && (128 + z <=? 191)) with true by lia.
  replace ((128 <=? 128 + u) && (128 + u <=? 191)) with true by lia.
  rewrite !andb_true_r.
  match goal with |- ?b && _ = _ => replace b with true by lia end. reflexivity.
Qed.
Lemma from_utf8_complete bs : utf8 bs -> from_utf8 bs = true.
Proof.
  intros (cs & F & ->). induction F as [|c cs S F IH]; [reflexivity|].
  change (utf8_encode (c :: cs)) with (utf8_char c ++ utf8_encode cs). now rewrite from_utf8_char.
Qed.
Lemma from_utf8_spec bs : from_utf8 bs = true <-> utf8 bs.
Proof. split; [apply from_utf8_sound|apply from_utf8_complete]. Qed.
Lemma utf8_char_bytes c : scalar c -> bytes_ok (utf8_char c).
Proof.
  intros S. unfold utf8_char, scalar in *.
  destruct (N.ltb_spec c 128); [|destruct (N.ltb_spec c 2048); [|destruct (N.ltb_spec c 65536)]];
    repeat constructor; unfold byte_ok; lia.
Qed.
Lemma utf8_bytes_ok bs : utf8 bs -> bytes_ok bs.
Proof.
  intros (cs & F & ->). induction F as [|c cs S F IH]; [constructor|].
  apply bytes_ok_app. split; [now apply utf8_char_bytes|assumption].
Qed.

(** ** Value readers *)
Lemma be_value_single b : be_value [b] = b.
Proof. unfold be_value. cbn [fold_left]. lia. Qed.
Lemma length_wbytes w (bs : list N) : length bs = wbytes w <-> lenN bs = N.of_nat (wbytes w).
Proof. unfold lenN. lia. Qed.
Lemma be_value_width w bs : bytes_ok bs -> length bs = wbytes w -> be_value bs < wmod w.
Proof.
  intros B L. pose proof (be_value_bound bs B) as H. rewrite L in H. now rewrite wmod_pow.
Qed.
Lemma safe_read_uint w : safe (read_uint w).
Proof.
  destruct w; cbn [read_uint]; try apply safe_read; (apply safe_bind; [apply safe_fetch|intros; apply safe_ret]).
Qed.
Lemma sound_read_uint w : sound (read_uint w) (fun v bs => v = be_value bs /\ length bs = wbytes w).
Proof.
  assert (K : forall n, sound (tmp <- fetch n ;; ret (from_be_bytes tmp)) (fun v bs => v = be_value bs /\ lenN bs = n)).
  { intros n r v r' W H. apply bind_inv_ok in H as (tmp & r1 & E1 & H). injection H as <- <-.
    destruct (sound_fetch n _ _ _ W E1) as (bs & (-> & L & B) & D). exists bs.
    rewrite from_be_bytes_spec by assumption. auto. }
  destruct w; cbn [read_uint].
  - eapply sound_weaken; [|apply sound_read]. intros v bs [-> _]. now rewrite be_value_single.
  - eapply sound_weaken; [|apply K]. intros v bs [-> L]. now rewrite length_wbytes.
  - eapply sound_weaken; [|apply K]. intros v bs [-> L]. now rewrite length_wbytes.
  - eapply sound_weaken; [|apply K]. intros v bs [-> L]. now rewrite length_wbytes.
Qed.
Lemma complete_read_uint w bs : bytes_ok bs -> length bs = wbytes w -> complete (read_uint w) (be_value bs) bs.
Proof.
  intros B L. destruct w; cbn [read_uint].
  - destruct bs as [|b [|b' bs]]; try discriminate L. rewrite be_value_single. apply complete_read.
  - eapply complete_bind_nil; [apply complete_fetch; now apply length_wbytes|].
    rewrite from_be_bytes_spec by assumption. apply complete_ret.
  - eapply complete_bind_nil; [apply complete_fetch; now apply length_wbytes|].
    rewrite from_be_bytes_spec by assumption. apply complete_ret.
  - eapply complete_bind_nil; [apply complete_fetch; now apply length_wbytes|].
    rewrite from_be_bytes_spec by assumption. apply complete_ret.
Qed.
Lemma safe_read_sint w : safe (read_sint w).
Proof.
  destruct w; cbn [read_sint]; (apply safe_bind; [apply safe_read || apply safe_fetch|intros; apply safe_ret]).
Qed.
Lemma sound_read_sint w :
  sound (read_sint w) (fun z bs => z = to_signed w (be_value bs) /\ length bs = wbytes w).
Proof.
  assert (K : forall w, sound (tmp <- fetch (N.of_nat (wbytes w)) ;; ret (cast_signed w (from_be_bytes tmp)))
                (fun z bs => z = to_signed w (be_value bs) /\ length bs = wbytes w)).
  { intros w' r v r' W H. apply bind_inv_ok in H as (tmp & r1 & E1 & H). injection H as <- <-.
    destruct (sound_fetch _ _ _ _ W E1) as (bs & (-> & L & B) & D). exists bs.
    apply length_wbytes in L.
    rewrite from_be_bytes_spec, cast_signed_spec by (assumption || now apply be_value_width). auto. }
  destruct w; cbn [read_sint]; try apply K.
  intros r v r' W H. apply bind_inv_ok in H as (b & r1 & E1 & H). injection H as <- <-.
  destruct (sound_read _ _ _ W E1) as (bs & (-> & B) & D). exists [b].
  rewrite cast_signed_spec by exact B. now rewrite be_value_single.
Qed.
Lemma complete_read_sint w bs :
  bytes_ok bs -> length bs = wbytes w -> complete (read_sint w) (to_signed w (be_value bs)) bs.
Proof.
  intros B L. assert (H : be_value bs < wmod w) by now apply be_value_width.
  destruct w; cbn [read_sint].
  - destruct bs as [|b [|b' bs]]; try discriminate L. rewrite be_value_single in *.
    eapply complete_bind_nil; [apply complete_read|]. rewrite cast_signed_spec by assumption. apply complete_ret.
  - eapply complete_bind_nil; [apply complete_fetch; now apply length_wbytes|].
    rewrite from_be_bytes_spec, cast_signed_spec by assumption. apply complete_ret.
  - eapply complete_bind_nil; [apply complete_fetch; now apply length_wbytes|].
    rewrite from_be_bytes_spec, cast_signed_spec by assumption. apply complete_ret.
  - eapply complete_bind_nil; [apply complete_fetch; now apply length_wbytes|].
    rewrite from_be_bytes_spec, cast_signed_spec by assumption. apply complete_ret.
Qed.
Lemma bind_ret_r {S E A} (m : S -> res E A * S) s : (x <- m ;; ret x) s = m s.
Proof. unfold bind, ret. destruct (m s) as [[a|e| |] s']; reflexivity. Qed.
Lemma read_f32_eq r : read_f32 r = read_uint W32 r.
Proof. apply bind_ret_r. Qed.
Lemma read_f64_eq r : read_f64 r = read_uint W64 r.
Proof. apply bind_ret_r. Qed.

Lemma safe_read_string n : safe (read_string n).
Proof.
  apply safe_bind; [apply safe_fetch|]. intros s. destruct (from_utf8 s); [apply safe_ret|apply safe_fail].
Qed.
Lemma sound_read_string n : sound (read_string n) (fun s bs => s = bs /\ lenN bs = n /\ utf8 bs).
Proof.
  intros r s r' W H. apply bind_inv_ok in H as (tmp & r1 & E1 & H).
  destruct (sound_fetch _ _ _ _ W E1) as (bs & (-> & L & B) & D).
  destruct (from_utf8 bs) eqn:U; [|discriminate]. injection H as <- <-.
  exists bs. apply from_utf8_spec in U. auto.
Qed.
Lemma complete_read_string n s : lenN s = n -> utf8 s -> complete (read_string n) s s.
Proof.
  intros L U. eapply complete_bind_nil; [now apply complete_fetch|].
  rewrite from_utf8_complete by assumption. apply complete_ret.
Qed.

(** The same with the error conversion of the tag layer. *)
Lemma safe_deserialize_uint w : safe (deserialize_uint w).
Proof. apply safe_lift, safe_read_uint. Qed.
Lemma sound_deserialize_uint w : sound (deserialize_uint w) (fun v bs => v = be_value bs /\ length bs = wbytes w).
Proof. apply sound_lift, sound_read_uint. Qed.
Lemma complete_deserialize_uint w bs : bytes_ok bs -> length bs = wbytes w -> complete (deserialize_uint w) (be_value bs) bs.
Proof. intros. apply complete_lift. now apply complete_read_uint. Qed.
Lemma safe_deserialize_sint w : safe (deserialize_sint w).
Proof. apply safe_lift, safe_read_sint. Qed.
Lemma sound_deserialize_sint w :
  sound (deserialize_sint w) (fun z bs => z = to_signed w (be_value bs) /\ length bs = wbytes w).
Proof. apply sound_lift, sound_read_sint. Qed.
Lemma complete_deserialize_sint w bs :
  bytes_ok bs -> length bs = wbytes w -> complete (deserialize_sint w) (to_signed w (be_value bs)) bs.
Proof. intros. apply complete_lift. now apply complete_read_sint. Qed.
Lemma safe_deserialize_ilint : safe deserialize_ilint.
Proof. apply safe_lift, safe_lift, safe_decode. Qed.
Lemma sound_deserialize_ilint : sound deserialize_ilint (fun v bs => ilint_repr v bs).
Proof. apply sound_lift, sound_lift, sound_decode. Qed.
Lemma complete_deserialize_ilint v bs : bytes_ok bs -> ilint_repr v bs -> complete deserialize_ilint v bs.
Proof. intros. apply complete_lift, complete_lift. now apply complete_decode. Qed.
Lemma safe_deserialize_signed_ilint : safe deserialize_signed_ilint.
Proof. apply safe_lift, safe_lift, safe_signed_decode. Qed.
Lemma sound_deserialize_signed_ilint :
  sound deserialize_signed_ilint (fun z bs => i64_range z /\ ilint_repr (zigzag z) bs).
Proof. apply sound_lift, sound_lift, sound_signed_decode. Qed.
Lemma complete_deserialize_signed_ilint z bs :
  i64_range z -> bytes_ok bs -> ilint_repr (zigzag z) bs -> complete deserialize_signed_ilint z bs.
Proof. intros. apply complete_lift, complete_lift. now apply complete_signed_decode. Qed.
Lemma safe_deserialize_bytes n : safe (deserialize_bytes n).
Proof. apply safe_lift, safe_fetch. Qed.
Lemma sound_deserialize_bytes n : sound (deserialize_bytes n) (fun got bs => got = bs /\ lenN bs = n /\ bytes_ok bs).
Proof. apply sound_lift, sound_fetch. Qed.
Lemma complete_deserialize_bytes n bs : lenN bs = n -> complete (deserialize_bytes n) bs bs.
Proof. intros. apply complete_lift. now apply complete_fetch. Qed.

(** ** Value writers *)
Lemma emits_write_uint w v : v < wmod w -> emits (write_uint w v) (be_bytes (wbytes w) v).
Proof.
  intros H. destruct w; cbn [write_uint]; rewrite ?to_be_bytes_spec; try apply emits_write_all.
  cbn [wbytes be_bytes app]. cbn [wmod] in H. rewrite N.mod_small by assumption. apply emits_write.
Qed.
Lemma emits_write_sint w z : emits (write_sint w z) (be_bytes (wbytes w) (of_signed w z)).
Proof.
  pose proof (of_signed_bound w z) as H.
  destruct w; cbn [write_sint]; rewrite ?to_be_bytes_spec, ?cast_unsigned_spec; try apply emits_write_all.
  cbn [wbytes be_bytes app]. cbn [wmod] in H. rewrite N.mod_small by assumption. apply emits_write.
Qed.
Lemma emits_encode v : v < two64 -> emits (encode v) (ilint v).
Proof.
  intros H. eapply emits_ext; [intros w W; now apply encode_spec|]. apply emits_lift, emits_write_all.
Qed.
Lemma emits_write_ilint v : v < two64 -> emits (write_ilint v) (ilint v).
Proof. intros H. apply emits_lift. now apply emits_encode. Qed.
Lemma emits_write_signed_ilint z : i64_range z -> emits (write_signed_ilint z) (ilint (zigzag z)).
Proof.
  intros H. apply emits_lift. unfold signed_encode. rewrite encode_sign_spec by assumption.
  apply emits_encode. now apply zigzag_bound.
Qed.
Lemma emits_serialize_uint w v : v < wmod w -> emits (serialize_uint w v) (be_bytes (wbytes w) v).
Proof. intros. apply emits_lift. now apply emits_write_uint. Qed.
Lemma emits_serialize_sint w z : emits (serialize_sint w z) (be_bytes (wbytes w) (of_signed w z)).
Proof. apply emits_lift. apply emits_write_sint. Qed.
Lemma emits_serialize_ilint v : v < two64 -> emits (serialize_ilint v) (ilint v).
Proof. intros. apply emits_lift. now apply emits_write_ilint. Qed.
Lemma emits_serialize_signed_ilint z : i64_range z -> emits (serialize_signed_ilint z) (ilint (zigzag z)).
Proof. intros. apply emits_lift. now apply emits_write_signed_ilint. Qed.
Lemma emits_serialize_f32 bits : emits (serialize_f32 bits) (be_bytes 4 bits).
Proof. apply emits_lift. unfold write_f32. rewrite to_be_bytes_spec. apply emits_write_all. Qed.
Lemma emits_serialize_f64 bits : emits (serialize_f64 bits) (be_bytes 8 bits).
Proof. apply emits_lift. unfold write_f64. rewrite to_be_bytes_spec. apply emits_write_all. Qed.
Lemma emits_serialize_bytes bs : emits (serialize_bytes bs) bs.
Proof. apply emits_lift, emits_write_all. Qed.
Lemma emits_serialize_str bs : emits (serialize_str bs) bs.
Proof. apply emits_lift, emits_write_all. Qed.

(** ** Reading into an existing vector *)
Lemma read_custom_all_len k sc x got sc' : read_custom_all k sc = (x, got, sc') -> (length got <= k)%nat.
Proof.
  revert sc x got sc'; induction k as [|k IH]; intros sc x got sc'; cbn [read_custom_all].
  { intros [= <- <- <-]. auto. }
  destruct sc as [|[e|b] sc]; try (intros [= <- <- <-]; cbn; lia).
  destruct (read_custom_all k sc) as [[y g'] s'] eqn:E. intros [= <- <- <-].
  apply IH in E. cbn [length]. lia.
Qed.
Lemma read_all_len n r x got r' : read_all n r = (x, got, r') -> lenN got <= n.
Proof.
  assert (M : forall d o y g o', mem_read_all n d o = (y, g, o') -> lenN g <= n).
  { intros d o y g o'. unfold mem_read_all. destruct (mem_can_read _ _ _); try (intros [= _ <- _]; rewrite lenN_nil; lia).
    unfold slice. destruct (_ && _)%bool; intros [= _ <- _]; rewrite ?lenN_nil, ?lenN_takeN; lia. }
  revert x got r'; induction r as [a o|v o|s IH m|d sc|s|sc]; intros x got r'; cbn [read_all];
    rewrite ?vecr_read_all_eq.
  - destruct (mem_read_all n a o) as [[y g] o'] eqn:E. intros [= -> <- <-]. eauto.
  - destruct (mem_read_all n v o) as [[y g] o'] eqn:E. intros [= -> <- <-]. eauto.
  - destruct (N.ltb_spec m n); [intros [= <- <- <-]; rewrite lenN_nil; lia|].
    destruct (read_all n s) as [[y g] s'] eqn:E. intros [= -> <- <-]. eauto.
  - destruct (read_exact n d sc) as [[[y g] d'] sc'] eqn:E. intros [= <- <- <-].
    now pose proof (read_exact_spec _ _ _ _ _ _ _ E) as (Hd & Hs & Hl & Ho & Hr).
  - destruct s as [d p sc k]. unfold seek_read_all.
    destruct (read_exact n (dropN p d) sc) as [[[y g] d'] sc'] eqn:E. intros [= <- <- <-].
    now pose proof (read_exact_spec _ _ _ _ _ _ _ E) as (Hd & Hs & Hl & Ho & Hr).
  - destruct (read_custom_all _ sc) as [[y g] sc'] eqn:E. intros [= -> <- <-].
    apply read_custom_all_len in E. unfold lenN. lia.
Qed.
Lemma into_slice_spec buff r x buff' r' :
  rwf r -> into_slice buff r = (x, buff', r') ->
  returns x /\ rwf r' /\ (left r' <= left r)%nat /\ lenN buff' = lenN buff
  /\ (bytes_ok buff -> bytes_ok buff')
  /\ (x = Ok tt -> bytes_ok buff' /\ delivers r buff' r').
Proof.
  intros W. unfold into_slice. destruct (read_all (lenN buff) r) as [[y got] r1] eqn:E. intros [= <- <- <-].
  destruct (read_all_wf _ _ _ _ _ W E) as (R & W1 & L & B).
  assert (Lg : lenN got <= lenN buff) by (eapply read_all_len; eauto).
  repeat split; auto.
  - destruct y; auto.
  - rewrite lenN_app, lenN_dropN. lia.
  - intros Bb. apply bytes_ok_app. split; [assumption|]. now apply Forall_dropN.
  - destruct y as [[]|e| |]; try discriminate. apply read_all_ok in E as [Lk D].
    rewrite dropN_all, app_nil_r by lia. assumption.
  - destruct y as [[]|e| |]; try discriminate. apply read_all_ok in E as [Lk D].
    rewrite dropN_all, app_nil_r by lia. assumption.
Qed.

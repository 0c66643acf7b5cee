(** Facts about the specification: numbers, ILInt. *)
From Verif Require Import Base BaseFacts Types Spec.

(** ** Big-endian *)
Lemma be_value_snoc bs b : be_value (bs ++ [b]) = be_value bs * 256 + b.
Proof. unfold be_value. now rewrite fold_left_app. Qed.
Lemma be_value_nil : be_value [] = 0. Proof. reflexivity. Qed.
Lemma be_bytes_length w n : length (be_bytes w n) = w.
Proof.
  revert n; induction w as [|w IH]; intros n; cbn [be_bytes]; [reflexivity|].
  rewrite app_length, IH. cbn. lia.
Qed.
Lemma lenN_be_bytes w n : lenN (be_bytes w n) = N.of_nat w.
Proof. unfold lenN. now rewrite be_bytes_length. Qed.
Lemma be_bytes_ok w n : bytes_ok (be_bytes w n).
Proof.
  revert n; induction w as [|w IH]; intros n; cbn [be_bytes]; [constructor|].
  apply bytes_ok_app. split; [apply IH|]. apply bytes_ok_cons. split; [lia|constructor].
Qed.
Definition pow256 (w : nat) : N := 256 ^ N.of_nat w.
Lemma pow256_S w : pow256 (S w) = 256 * pow256 w.
Proof. unfold pow256. rewrite Nnat.Nat2N.inj_succ, N.pow_succ_r'. reflexivity. Qed.
Lemma pow256_pos w : 0 < pow256 w.
Proof. unfold pow256. apply N.neq_0_lt_0, N.pow_nonzero. lia. Qed.
Lemma be_value_be_bytes w n : n < pow256 w -> be_value (be_bytes w n) = n.
Proof.
  revert n; induction w as [|w IH]; intros n H; cbn [be_bytes].
  - unfold pow256 in H. cbn in H. unfold be_value. cbn. lia.
  - rewrite pow256_S in H. rewrite be_value_snoc, IH by lia. lia.
Qed.
Lemma rev_ind_length {A} (P : list A -> Prop) :
  P [] -> (forall x l, P l -> P (l ++ [x])) -> forall l, P l.
Proof. intros; now apply rev_ind. Qed.
Lemma be_value_bound bs : bytes_ok bs -> be_value bs < pow256 (length bs).
Proof.
  induction bs as [|b bs IH] using rev_ind_length; intros H; [reflexivity|].
  apply bytes_ok_app in H as [H1 H2]. apply bytes_ok_cons in H2 as [H2 _].
  rewrite be_value_snoc, app_length. cbn [length]. rewrite Nat.add_1_r, pow256_S.
  specialize (IH H1). lia.
Qed.
Lemma be_bytes_be_value bs : bytes_ok bs -> be_bytes (length bs) (be_value bs) = bs.
Proof.
  induction bs as [|b bs IH] using rev_ind_length; intros H; [reflexivity|].
  apply bytes_ok_app in H as [H1 H2]. apply bytes_ok_cons in H2 as [H2 _].
  rewrite be_value_snoc, app_length. cbn [length]. rewrite Nat.add_1_r. cbn [be_bytes].
  replace ((be_value bs * 256 + b) / 256) with (be_value bs) by lia.
  replace ((be_value bs * 256 + b) mod 256) with b by lia. now rewrite IH.
Qed.
Lemma be_value_inj a b :
  bytes_ok a -> bytes_ok b -> length a = length b -> be_value a = be_value b -> a = b.
Proof.
  intros Ha Hb L E. rewrite <- (be_bytes_be_value a Ha), <- (be_bytes_be_value b Hb). congruence.
Qed.
Lemma be_value_cons b bs : be_value (b :: bs) = b * pow256 (length bs) + be_value bs.
Proof.
  induction bs as [|x bs IH] using rev_ind_length.
  - unfold be_value, pow256. cbn. lia.
  - change (b :: bs ++ [x]) with ((b :: bs) ++ [x]). rewrite !be_value_snoc, IH, app_length.
    cbn [length]. rewrite Nat.add_1_r, pow256_S. lia.
Qed.

Lemma wmod_pow w : wmod w = pow256 (wbytes w).
Proof. destruct w; reflexivity. Qed.
Lemma wmod_even w : wmod w = 2 * (wmod w / 2).
Proof. destruct w; reflexivity. Qed.
Lemma of_signed_bound w z : of_signed w z < wmod w.
Proof.
  unfold of_signed. pose proof (wmod_even w). assert (0 < wmod w) by (destruct w; reflexivity).
  pose proof (Z.mod_pos_bound z (Z.of_N (wmod w))). lia.
Qed.
Lemma to_of_signed w z : signed_range w z -> to_signed w (of_signed w z) = z.
Proof.
  unfold signed_range, to_signed, of_signed. intros H.
  pose proof (wmod_even w) as E. assert (0 < wmod w) by (destruct w; reflexivity).
  set (m := wmod w) in *. set (h := m / 2) in *. clearbody h. clearbody m. subst m.
  destruct (Z.leb_spec 0 z).
  - rewrite Z.mod_small by lia. destruct (N.ltb_spec (Z.to_N z) h); lia.
  - replace (z mod Z.of_N (2 * h))%Z with (z + Z.of_N (2 * h))%Z.
    + destruct (N.ltb_spec (Z.to_N (z + Z.of_N (2 * h))) h); lia.
    + apply Z.mod_unique with (-1)%Z; lia.
Qed.
Lemma of_to_signed w n : n < wmod w -> of_signed w (to_signed w n) = n.
Proof.
  unfold to_signed, of_signed. intros H.
  pose proof (wmod_even w) as E. assert (0 < wmod w) by (destruct w; reflexivity).
  set (m := wmod w) in *. set (h := m / 2) in *. clearbody h. clearbody m. subst m.
  destruct (N.ltb_spec n h).
  - rewrite Z.mod_small by lia. lia.
  - replace ((Z.of_N n - Z.of_N (2 * h)) mod Z.of_N (2 * h))%Z with (Z.of_N n); [lia|].
    apply Z.mod_unique with (-1)%Z; lia.
Qed.
Lemma to_signed_range w n : n < wmod w -> signed_range w (to_signed w n).
Proof.
  unfold to_signed, signed_range. intros H.
  pose proof (wmod_even w) as E. 
  set (m := wmod w) in *. set (h := m / 2) in *. clearbody h. clearbody m. subst m.
  destruct (N.ltb_spec n h); lia.
Qed.

(** ** ILInt *)
(** Number of bytes after the header. *)
Definition ilint_k (v : N) : N := N.log2 (v - 248) / 8 + 1.

Lemma log2_width x k : x < 256 ^ k -> (k = 1 \/ (1 < k /\ 256 ^ (k - 1) <= x)) -> N.log2 x / 8 + 1 = k.
Proof.
  intros H Hk. destruct (N.eq_dec x 0) as [->|Hx].
  - destruct Hk as [->|[Hk Hl]]; [reflexivity|].
    assert (256 ^ (k - 1) <> 0) by (apply N.pow_nonzero; lia). lia.
  - change 256 with (2 ^ 8) in *. rewrite <- !N.pow_mul_r in *.
    assert (U : N.log2 x < 8 * k) by (apply N.log2_lt_pow2; lia).
    destruct Hk as [->|[Hk Hl]]; [lia|].
    assert (L : 8 * (k - 1) <= N.log2 x) by (apply N.log2_le_pow2; lia). lia.
Qed.
Lemma ilint_k_bound v : v < two64 -> 1 <= ilint_k v <= 8.
Proof.
  intros H. unfold ilint_k. assert (N.log2 (v - 248) < 64).
  { destruct (N.eq_dec (v - 248) 0) as [->|]; [reflexivity|].
    apply N.log2_lt_pow2; [lia|]. change (2 ^ 64) with two64. lia. }
  lia.
Qed.
Lemma ilint_k_fits v : v - 248 < pow256 (N.to_nat (ilint_k v)).
Proof.
  unfold ilint_k, pow256. rewrite Nnat.N2Nat.id. change 256 with (2 ^ 8). rewrite <- N.pow_mul_r.
  destruct (N.eq_dec (v - 248) 0) as [->|Hx]. { reflexivity. }
  apply N.log2_lt_pow2; [lia|]. pose proof (N.div_lt_upper_bound). lia.
Qed.
Lemma lenN_ilint v : v < two64 -> lenN (ilint v) = if v <? 248 then 1 else 1 + ilint_k v.
Proof.
  intros H. unfold ilint. destruct (v <? 248); [reflexivity|].
  rewrite lenN_cons, lenN_be_bytes, Nnat.N2Nat.id. reflexivity.
Qed.
Lemma lenN_ilint_pos v : 1 <= lenN (ilint v).
Proof. unfold ilint. destruct (v <? 248); rewrite lenN_cons; lia. Qed.
Lemma ilint_bytes_ok v : v < two64 -> bytes_ok (ilint v).
Proof.
  intros H. unfold ilint. destruct (N.ltb_spec v 248).
  - repeat constructor. unfold byte_ok. lia.
  - apply bytes_ok_cons. split; [|apply be_bytes_ok].
    pose proof (ilint_k_bound v H). unfold ilint_k in *. lia.
Qed.
Lemma ilint_repr_ilint v : v < two64 -> ilint_repr v (ilint v).
Proof.
  intros H. unfold ilint. destruct (N.ltb_spec v 248); [now constructor|].
  pose proof (ilint_k_bound v H) as B. pose proof (ilint_k_fits v) as F.
  fold (ilint_k v). set (k := ilint_k v) in *.
  pose proof (be_value_be_bytes (N.to_nat k) (v - 248) F) as V.
  pose proof (lenN_be_bytes (N.to_nat k) (v - 248)) as L. rewrite Nnat.N2Nat.id in L.
  replace v with (be_value (be_bytes (N.to_nat k) (v - 248)) + 248) at 1 by lia.
  rewrite <- L at 2. constructor; lia.
Qed.
Lemma ilint_repr_len v bs : ilint_repr v bs -> 1 <= lenN bs <= 9.
Proof. intros []; rewrite lenN_cons, ?lenN_nil; lia. Qed.
Lemma ilint_repr_bound v bs : ilint_repr v bs -> v < two64.
Proof. intros []; unfold two64 in *; lia. Qed.
(** A representation fixes its own length: unique parsing. *)
Lemma ilint_repr_prefix v bs k v' bs' k' :
  ilint_repr v bs -> ilint_repr v' bs' -> bs ++ k = bs' ++ k' -> v = v' /\ bs = bs' /\ k = k'.
Proof.
  intros [v1 H1|body H1 H2] [v2 H3|body' H3 H4] E; cbn [app] in E;
    apply cons_inv in E as [E1 E2].
  - subst. auto.
  - lia.
  - lia.
  - assert (L : lenN body = lenN body') by lia.
    destruct (app_eq_app_len _ _ _ _ E2 L) as [-> ->]. auto.
Qed.
(** The canonical representation is the shortest. *)
Lemma ilint_k_le v w w' : v <= w -> w' = ilint_k w -> ilint_k v <= w'.
Proof.
  intros H ->. unfold ilint_k. assert (N.log2 (v - 248) <= N.log2 (w - 248)) by (apply N.log2_le_mono; lia). lia.
Qed.
Lemma ilint_minimal v bs : bytes_ok bs -> ilint_repr v bs -> lenN (ilint v) <= lenN bs.
Proof.
  intros B H. revert B. destruct H as [v1 H1|body H1 H2]; intros B.
  - unfold ilint. destruct (N.ltb_spec v1 248); [rewrite !lenN_cons; lia|lia].
  - rewrite lenN_ilint by assumption. destruct (N.ltb_spec (be_value body + 248) 248); [lia|].
    apply bytes_ok_cons in B as [_ B]. pose proof (be_value_bound body B) as U.
    rewrite lenN_cons. unfold ilint_k. replace (be_value body + 248 - 248) with (be_value body) by lia.
    enough (N.log2 (be_value body) < 8 * lenN body) by lia.
    destruct (N.eq_dec (be_value body) 0) as [->|Hz]; [change (N.log2 0) with 0; lia|].
    apply N.log2_lt_pow2; [lia|]. unfold pow256 in U. change 256 with (2 ^ 8) in U.
    now rewrite <- N.pow_mul_r in U.
Qed.

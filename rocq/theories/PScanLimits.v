(** The tag scanner, continued: C50-C52. *)
From Verif Require Import Base BaseFacts Types Spec SpecFacts IO IOSpec IOFacts Logic ILInt ILIntFacts HistFacts PReaders
  Data DataFacts Tags TagsFacts Factory DeserFacts EngineFacts WireFacts StableFacts FromFacts Scanner ScannerFacts PScanner.

(** ** C50.  The arithmetic of the scanner. *)
Lemma advance_panic c off h n : advance c off h n = Panic -> overflow_checks c = true /\ two64 <= off + h + n.
Proof.
  unfold advance, and_then, add_u64. destruct (N.ltb_spec (h + n) two64).
  - destruct (N.ltb_spec (off + (h + n)) two64); [discriminate|]. destruct (overflow_checks c); [|discriminate].
    intros _. split; [reflexivity|lia].
  - destruct (overflow_checks c); [intros _; split; [reflexivity|lia]|].
    destruct (off + (h + n - two64) <? two64); discriminate.
Qed.
Lemma advance_cases c off h n :
  (exists o, advance c off h n = Ok o) \/ advance c off h n = Panic.
Proof.
  unfold advance, and_then, add_u64. destruct (N.ltb_spec (h + n) two64).
  - destruct (off + (h + n) <? two64); eauto. destruct (overflow_checks c); eauto.
  - destruct (overflow_checks c); eauto. destruct (off + (h + n - two64) <? two64); eauto.
Qed.
Lemma skip_u64_returns c n r x r' :
  1 <= usize_max c -> rwf r -> (no_seek r \/ overflow_checks c = false) -> skip_u64 c n r = (x, r') -> returns x.
Proof.
  intros Hc W S H.
  assert (K : no_seek r \/ exists s, r = RSeek s /\ overflow_checks c = false).
  { destruct S as [S|S]; [now left|]. destruct r; cbn [no_seek]; eauto. }
  destruct K as [K|(s & -> & K)]; [now apply (skip_u64_safe c n r x r' Hc W K H)|].
  cbn [skip_u64] in H. destruct (seek_skip_u64 c n s) as [y s'] eqn:E. apply pair_inv in H as [-> _].
  unfold seek_skip_u64 in E. destruct (n =? 0); [apply pair_inv in E as [<- _]; exact I|].
  assert (Q : forall p q, exists z q', seek_q p q = (z, q') /\ returns z).
  { intros p [d0 p0 sc0 sk0]. unfold seek_q, lift_err, seek. destruct (hd None sk0); cbn [map_err]; do 2 eexists; split; try reflexivity; exact I. }
  unfold bind in E. destruct (Q SeekCurrent0 s) as (z1 & s1 & E1 & R1). rewrite E1 in E.
  destruct z1 as [cur|e| |]; try contradiction; [|apply pair_inv in E as [<- _]; exact I].
  destruct (Q SeekEnd0 s1) as (z2 & s2 & E2 & R2). rewrite E2 in E.
  destruct z2 as [en|e| |]; try contradiction; [|apply pair_inv in E as [<- _]; exact I].
  destruct (cur =? en); [apply pair_inv in E as [<- _]; exact I|].
  unfold add_u64 in E. rewrite K in E.
  assert (T : forall np, (if np <=? en then (fun s0 => match seek_q (SeekStart np) s0 with
            | (Ok a, s'0) => ret tt s'0 | (Err e, s'0) => (Err e, s'0) | (Panic, s'0) => (Panic, s'0)
            | (OutOfFuel, s'0) => (OutOfFuel, s'0) end) else fail UnableToReadData) s2 = (x, s') -> returns x).
  { intros np Ex. destruct (np <=? en); [|apply pair_inv in Ex as [<- _]; exact I].
    destruct (Q (SeekStart np) s2) as (z3 & s3 & E3 & R3). rewrite E3 in Ex.
    destruct z3; try contradiction; apply pair_inv in Ex as [<- _]; exact I. }
  destruct (cur + n <? two64); eapply T; exact E.
Qed.

(** Panics come only from overflow checks, on a declared size too large for the
    offset to stay below 2^64, and never without overflow checks. *)
Theorem C50_only_overflow_panics : forall c off r x off' r',
  cfg_ok c -> rwf r -> no_seek r \/ overflow_checks c = false ->
  next_tag c (off, r) = (x, (off', r')) ->
  x <> OutOfFuel /\
  (x = Panic -> overflow_checks c = true /\
     exists id idb zb h n k, ilint_repr id idb /\ sized id zb (h, n, k) /\ delivers r (idb ++ zb) r' /\
       two64 <= off + (lenN (ilint id) + h) + n).
Proof.
  intros c off r x off' r' C W S H. assert (H' := H). unfold next_tag in H'. unfold bind at 1, on_source at 1 in H'.
  destruct (deserialize_ilint r) as [y1 r1] eqn:E1.
  destruct (safe_deserialize_ilint _ _ _ W E1) as (R1 & W1 & _).
  destruct y1 as [id|e| |]; try contradiction; [|apply pair_inv in H' as [<- _]; split; discriminate].
  unfold bind at 1, on_source at 1 in H'. destruct (extract_tag_size c id r1) as [y2 r2] eqn:E2.
  destruct (safe_extract c id _ _ _ W1 E2) as (R2 & W2 & _).
  destruct y2 as [[[h n] k]|e| |]; try contradiction; [|apply pair_inv in H' as [<- _]; split; discriminate].
  clear H'. destruct (sound_deserialize_ilint _ _ _ W E1) as (idb & R & D1).
  destruct (sound_extract c id _ _ _ W1 E2) as (zb & Z & D2).
  rewrite (next_tag_steps c off r id r1 idb zb h n k r2 E1 R E2 Z) in H.
  pose proof (delivers_trans _ _ _ _ _ D1 D2) as D.
  destruct (advance_cases c off (lenN (ilint id) + h) n) as [[o EA]|EA]; rewrite EA in H.
  - destruct (skip_u64 c k r2) as [y r3] eqn:E3.
    assert (S2 : no_seek r2 \/ overflow_checks c = false).
    { destruct S as [S|S]; [left|now right]. destruct r, r2; cbn [delivers no_seek] in *; try contradiction; auto. }
    assert (R3 : returns y) by (apply (skip_u64_returns c k r2 y r3); auto; destruct C; lia).
    apply pair_inv in H as [<- _]. destruct y; try contradiction; split; discriminate.
  - apply pair_inv in H as [<- H]. apply pair_inv in H as [_ <-]. split; [discriminate|]. intros _.
    destruct (advance_panic _ _ _ _ EA) as [Oc Lo]. split; [assumption|]. exists id, idb, zb, h, n, k. auto.
Qed.
Print Assumptions C50_only_overflow_panics.
(** A seekable source adds one more such sum: its position plus the size skipped. *)
Lemma seek_skip_panics c n s x s' : seek_skip_u64 c n s = (x, s') ->
  x <> OutOfFuel /\ (x = Panic -> overflow_checks c = true /\ two64 <= sk_pos s + n).
Proof.
  unfold seek_skip_u64. destruct (n =? 0); [intros H; apply pair_inv in H as [<- _]; split; discriminate|].
  destruct s as [d p sc sk]. unfold bind, seek_q, lift_err, seek. cbn [sk_pos].
  destruct (hd None sk) as [e|]; cbn [map_err]; [intros H; apply pair_inv in H as [<- _]; split; discriminate|].
  destruct (hd None (tl sk)) as [e|]; cbn [map_err]; [intros H; apply pair_inv in H as [<- _]; split; discriminate|].
  destruct (p =? lenN d); [intros H; apply pair_inv in H as [<- _]; split; discriminate|].
  unfold add_u64. destruct (N.ltb_spec (p + n) two64) as [L|L].
  - destruct (p + n <=? lenN d); [|intros H; apply pair_inv in H as [<- _]; split; discriminate].
    destruct (hd None (tl (tl sk))); cbn [map_err ret]; intros H; apply pair_inv in H as [<- _]; split; discriminate.
  - destruct (overflow_checks c); [intros H; apply pair_inv in H as [<- _]; split; [discriminate|auto]|].
    destruct (_ <=? lenN d); [|intros H; apply pair_inv in H as [<- _]; split; discriminate].
    destruct (hd None (tl (tl sk))); cbn [map_err ret]; intros H; apply pair_inv in H as [<- _]; split; discriminate.
Qed.
Theorem C50_seekable_only_overflow_panics : forall c off s x off' r',
  cfg_ok c -> rwf (RSeek s) -> next_tag c (off, RSeek s) = (x, (off', r')) ->
  x <> OutOfFuel /\
  (x = Panic -> overflow_checks c = true /\
     exists id idb zb h n k s1, ilint_repr id idb /\ sized id zb (h, n, k) /\ delivers (RSeek s) (idb ++ zb) (RSeek s1) /\
       (two64 <= off + (lenN (ilint id) + h) + n \/ two64 <= sk_pos s1 + k)).
Proof.
  intros c off s x off' r' C W H. assert (H' := H). unfold next_tag in H'. unfold bind at 1, on_source at 1 in H'.
  destruct (deserialize_ilint (RSeek s)) as [y1 r1] eqn:E1.
  destruct (safe_deserialize_ilint _ _ _ W E1) as (R1 & W1 & _).
  destruct y1 as [id|e| |]; try contradiction; [|apply pair_inv in H' as [<- _]; split; discriminate].
  unfold bind at 1, on_source at 1 in H'. destruct (extract_tag_size c id r1) as [y2 r2] eqn:E2.
  destruct (safe_extract c id _ _ _ W1 E2) as (R2 & W2 & _).
  destruct y2 as [[[h n] k]|e| |]; try contradiction; [|apply pair_inv in H' as [<- _]; split; discriminate].
  clear H'. destruct (sound_deserialize_ilint _ _ _ W E1) as (idb & R & D1).
  destruct (sound_extract c id _ _ _ W1 E2) as (zb & Z & D2).
  rewrite (next_tag_steps c off (RSeek s) id r1 idb zb h n k r2 E1 R E2 Z) in H.
  pose proof (delivers_trans _ _ _ _ _ D1 D2) as D.
  assert (K : exists s1, r2 = RSeek s1) by (destruct r2; cbn [delivers] in D; try contradiction; eauto).
  destruct K as [s1 ->].
  destruct (advance_cases c off (lenN (ilint id) + h) n) as [[o EA]|EA]; rewrite EA in H.
  - destruct (skip_u64 c k (RSeek s1)) as [y r3] eqn:E3. cbn [skip_u64] in E3.
    destruct (seek_skip_u64 c k s1) as [z s3] eqn:E4. apply pair_inv in E3 as [-> _].
    apply seek_skip_panics in E4 as [K1 K2].
    apply pair_inv in H as [<- _]. destruct y; try (split; discriminate); [|congruence].
    split; [discriminate|]. intros _. destruct (K2 eq_refl) as [Oc Lo]. split; [assumption|].
    exists id, idb, zb, h, n, k, s1. auto.
  - apply pair_inv in H as [<- _]. split; [discriminate|]. intros _.
    destruct (advance_panic _ _ _ _ EA) as [Oc Lo]. split; [assumption|]. exists id, idb, zb, h, n, k, s1. auto.
Qed.
Print Assumptions C50_seekable_only_overflow_panics.
(** A scanner that starts in the middle of a file: its own offset is far from
    2^64 but the position of the source is not far enough. *)
Example C50_seekable_instance : exists s',
  next_tag (Cfg true u64_max) (0, RSeek (Seekable ([0; 0; 0; 0; 0; 0; 0; 0; 0; 0; 0] ++ [16; 255; 255; 255; 255; 255; 255; 255; 254; 249; 7]) 11 [] []))
  = (Panic, s').
Proof. eexists. reflexivity. Qed.

(** And they do happen: any explicit header declaring such a size panics,
    whatever the reader and even if nothing follows the header. *)
Theorem C50_overflow_panics : forall c off r id idb n szb rest,
  cfg_ok c -> overflow_checks c = true -> rwf r -> good r -> off < two64 ->
  15 < id -> ilint_repr id idb -> ilint_repr n szb -> pending r = idb ++ szb ++ rest ->
  two64 <= off + lenN (ilint id) + lenN (ilint n) + n ->
  exists s', next_tag c (off, r) = (Panic, s').
Proof.
  intros c off r id idb n szb rest C Oc W G Lo Hi Ri Rn P L. pose proof (bytes_ok_pending _ W) as B.
  rewrite P in B. apply bytes_ok_app in B as [Bi B]. apply bytes_ok_app in B as [Bz _].
  destruct (complete_deserialize_ilint id idb Bi Ri r _ W G P) as (r1 & E1 & D1).
  destruct (pending_delivers _ _ _ G D1) as [P1 G1]. destruct (delivers_rwf _ _ _ W D1) as [W1 _].
  rewrite P in P1. apply app_inv_head in P1.
  pose proof (Z_explicit id n szb Hi Rn) as Z.
  destruct (complete_extract c id szb _ Bz Z r1 _ W1 G1 (eq_sym P1)) as (r2 & E2 & D2).
  rewrite (next_tag_steps c off r id r1 idb szb _ n n r2 E1 Ri E2 Z).
  replace (advance c off (lenN (ilint id) + lenN (ilint n)) n) with (@Panic tag_error N); [eauto|].
  unfold advance, and_then, add_u64. rewrite Oc. destruct (N.ltb_spec (lenN (ilint id) + lenN (ilint n) + n) two64); [|reflexivity].
  destruct (N.ltb_spec (off + (lenN (ilint id) + lenN (ilint n) + n)) two64); [lia|reflexivity].
Qed.
Print Assumptions C50_overflow_panics.
Theorem C50_never_panics_refuted : exists bs, lenN bs = 10 /\ forall c, cfg_ok c -> overflow_checks c = true ->
  exists s', next_tag c (RawTagScanner_new (ByteArrayReader_new bs)) = (Panic, s').
Proof.
  exists (16 :: ilint 18446744073709551615). split; [reflexivity|]. intros c C Oc.
  assert (B : bytes_ok (16 :: ilint 18446744073709551615)) by (repeat constructor).
  destruct (mem_reader _ B) as (W & G & P).
  apply (C50_overflow_panics c 0 _ 16 [16] 18446744073709551615 (ilint 18446744073709551615) []); auto; try reflexivity.
  - apply (ilint_repr_ilint 16). reflexivity.
  - apply ilint_repr_ilint. reflexivity.
Qed.
Print Assumptions C50_never_panics_refuted.

(** Without overflow checks, on a seekable source: this 11-byte file sends the
    scanner back to its start, so that it returns the same tag, at the same
    offset, for ever. *)
Definition C50_file : list N := 16 :: ilint 18446744073709551606 ++ [0].
Theorem C50_scan_ends_refuted : forall c n, cfg_ok c -> overflow_checks c = false ->
  lenN C50_file = 11 /\
  exists s', next_tags c n (RawTagScanner_new (RSeek (Seekable C50_file 0 [] [])))
    = (Ok (repeat (RawTagOffset_new 16 0 10 18446744073709551606) n), s').
Proof.
  intros c n C Oc. split; [reflexivity|].
  assert (E : next_tag c (0, RSeek (Seekable C50_file 0 [] []))
    = (Ok (Some (RawTagOffset_new 16 0 10 18446744073709551606)), (0, RSeek (Seekable C50_file 0 [] [])))).
  { destruct c as [oc um]. cbn in Oc. subst oc. vm_compute. reflexivity. }
  exists (0, RSeek (Seekable C50_file 0 [] [])). unfold RawTagScanner_new.
  induction n as [|n IH]; [reflexivity|]. cbn [next_tags repeat].
  rewrite (bind_ok _ _ _ _ _ E), (bind_ok _ _ _ _ _ IH). reflexivity.
Qed.
Print Assumptions C50_scan_ends_refuted.

(** Otherwise every tag returned consumes at least one byte, so a scan of
    finite data ends. *)
Theorem C50_progress : forall c n off r l off' r',
  rwf r -> checked_seek c r ->
  next_tags c n (off, r) = (Ok l, (off', r')) ->
  length l = n /\ exists bs, delivers r bs r' /\ N.of_nat n <= lenN bs /\
    (good r -> N.of_nat n <= lenN (pending r)).
Proof.
  intros c n. induction n as [|n IH]; intros off r l off' r' W S H.
  - apply pair_inv in H as [H Hs]. apply Ok_inv in H as <-. apply pair_inv in Hs as [_ <-]. split; [reflexivity|].
    exists []. split; [apply delivers_refl|]. lia.
  - cbn [next_tags] in H. apply bind_inv_ok in H as (x & [o1 r1] & E1 & H).
    destruct (next_tag_sound _ _ _ _ _ _ W S E1) as (id & hb & bd & h & -> & F & D & B & A).
    cbv beta iota in H. apply bind_inv_ok in H as (l2 & [o2 r2] & E2 & H).
    apply pair_inv in H as [H Hs]. apply Ok_inv in H as <-. apply pair_inv in Hs as [<- <-].
    destruct (delivers_rwf _ _ _ W D) as [W1 _].
    assert (S1 : checked_seek c r1).
    { destruct S as [S|S]; [left|now right]. destruct r, r1; cbn [delivers no_seek] in *; try contradiction; auto. }
    destruct (IH _ _ _ _ _ W1 S1 E2) as (Ll & bs & D2 & Lb & _). cbn [length]. split; [lia|].
    pose proof (delivers_trans _ _ _ _ _ D D2) as D3. exists ((hb ++ bd) ++ bs). split; [assumption|].
    apply bytes_ok_app in B as [Bh _]. pose proof (framed_header _ _ _ _ F Bh).
    assert (K : N.of_nat (Datatypes.S n) <= lenN ((hb ++ bd) ++ bs)) by (rewrite !lenN_app; lia).
    split; [exact K|]. intros G. destruct (pending_delivers _ _ _ G D3) as [-> _]. rewrite lenN_app. lia.
Qed.
Print Assumptions C50_progress.
Example C50_progress_example : exists l s',
  next_tags (Cfg true u64_max) 2 (RawTagScanner_new (ByteArrayReader_new [1; 1; 16; 2; 7; 8])) = (Ok l, s') /\
  checked_seek (Cfg true u64_max) (ByteArrayReader_new [1; 1; 16; 2; 7; 8]).
Proof. do 2 eexists. split; [vm_compute; reflexivity|left; exact I]. Qed.

(** A call that fails for lack of data has moved the offset all the same. *)
Theorem C50_failed_call_moves_offset : forall c off r id idb n szb rest,
  cfg_ok c -> rwf r -> good r -> no_seek r -> 15 < id -> ilint_repr id idb -> ilint_repr n szb ->
  pending r = idb ++ szb ++ rest -> lenN rest < n -> off + lenN (ilint id) + lenN (ilint n) + n < two64 ->
  exists e r', next_tag c (off, r) = (Err (TagIO e), (off + lenN (ilint id) + lenN (ilint n) + n, r')).
Proof.
  intros c off r id idb n szb rest C W G Sk Hi Ri Rn P Lr L. pose proof (bytes_ok_pending _ W) as B.
  rewrite P in B. apply bytes_ok_app in B as [Bi B]. apply bytes_ok_app in B as [Bz _].
  destruct (complete_deserialize_ilint id idb Bi Ri r _ W G P) as (r1 & E1 & D1).
  destruct (pending_delivers _ _ _ G D1) as [P1 G1]. destruct (delivers_rwf _ _ _ W D1) as [W1 _].
  rewrite P in P1. apply app_inv_head in P1.
  pose proof (Z_explicit id n szb Hi Rn) as Z.
  destruct (complete_extract c id szb _ Bz Z r1 _ W1 G1 (eq_sym P1)) as (r2 & E2 & D2).
  destruct (pending_delivers _ _ _ G1 D2) as [P2 G2]. destruct (delivers_rwf _ _ _ W1 D2) as [W2 _].
  rewrite <- P1 in P2. apply app_inv_head in P2.
  assert (S2 : no_seek r2).
  { pose proof (delivers_trans _ _ _ _ _ D1 D2) as D. destruct r, r2; cbn [delivers no_seek] in *; try contradiction; auto. }
  destruct (skip_u64_short c n r2) as (e & r3 & E3); auto.
  { destruct C; lia. } { rewrite <- P2. assumption. }
  rewrite (next_tag_steps c off r id r1 idb szb _ n n r2 E1 Ri E2 Z).
  unfold advance, and_then. rewrite !add_small by lia. rewrite E3.
  exists e, r3. rewrite !N.add_assoc. reflexivity.
Qed.
Print Assumptions C50_failed_call_moves_offset.
Example C50_failed_call_example :
  next_tag (Cfg true u64_max) (RawTagScanner_new (ByteArrayReader_new [16; 100; 1]))
  = (Err (TagIO UnableToReadData), (102, RByteArray [16; 100; 1] 2)).
Proof. vm_compute. reflexivity. Qed.

(** ** C51.  Agreement with the factory. *)
(** [minimal_header id bs]: [bs] starts with a minimally encoded header for
    [id]. *)
Definition minimal_header (id : N) (bs : list N) : Prop :=
  exists n rest, n < two64 /\ bs = enc_header id n ++ rest.
Lemma wire_framed mk bs t :
  keeps_ids mk -> bytes_ok bs -> wire mk bs t -> minimal_header (tag_id t) bs ->
  exists hb bd, bs = hb ++ bd /\ framed (tag_id t) hb bd (lenN hb).
Proof.
  intros Kp B H (n & rest & Hn & E). destruct H as [wid idb szb m body id k v Ri Sz Lm M Pl Fit]. cbn [tag_id] in *.
  destruct (Kp _ _ _ M) as [-> Std].
  inversion Sz as [Hi|m' szb' Hi Rs]; subst.
  - specialize (Std Hi). cbn [app] in *. inversion Ri; subst; [|lia].
    exists [wid], body. split; [reflexivity|]. change (lenN [wid]) with 1.
    destruct (N.eq_dec wid 10) as [->|N10]; [|destruct (N.eq_dec wid 14) as [->|N14]].
    + injection Std as <-. inversion Pl; subst.
      match goal with Rb : ilint_repr _ body |- _ => apply ilint_repr_shape in Rb as (b & l & -> & Lb) end. apply F_ilint; auto.
    + injection Std as <-. inversion Pl; subst.
      match goal with Rb : ilint_repr _ body |- _ => apply ilint_repr_shape in Rb as (b & l & -> & Lb) end. apply F_ilint; auto.
    + destruct (N.eq_dec wid 15) as [->|]; [discriminate Std|]. constructor; try lia.
  - exists (idb ++ szb), body. rewrite app_assoc. split; [reflexivity|].
    unfold enc_header in E. destruct (N.leb_spec wid 15); [lia|]. rewrite <- app_assoc in E.
    assert (Hw : wid < two64) by (eapply ilint_repr_bound; eauto).
    destruct (ilint_repr_prefix _ _ _ _ _ _ Ri (ilint_repr_ilint wid Hw) E) as (_ & -> & E').
    destruct (ilint_repr_prefix _ _ _ _ _ _ Rs (ilint_repr_ilint n Hn) E') as (-> & -> & _).
    assert (Fb : lenN body = n) by lia. subst n. rewrite lenN_app. now constructor.
Qed.

Theorem C51_agrees : forall c e off r t r' bs,
  cfg_ok c -> engine_ok e -> keeps_ids (mk_of e) -> rwf r -> good r -> file_ok r ->
  deserialize e r = (Ok t, r') -> delivers r bs r' -> minimal_header (tag_id t) bs ->
  off + lenN bs < two64 ->
  exists o r2, next_tag c (off, r) = (Ok (Some o), (off + lenN bs, r2)) /\
    ro_id o = tag_id t /\ ro_offset o = off /\ ro_header_size o + ro_value_size o = lenN bs /\
    delivers r bs r2 /\ pending r2 = pending r'.
Proof.
  intros c e off r t r' bs C He Kp W G F H D Mh L.
  destruct (pending_delivers _ _ _ G D) as [P G']. destruct (delivers_rwf _ _ _ W D) as [W' B].
  assert (Hw : wire (mk_of e) bs t) by (apply (accepts_iff e r t bs He W G); eauto).
  destruct (wire_framed _ _ _ Kp B Hw Mh) as (hb & bd & -> & Fr). rewrite lenN_app in L.
  destruct (next_tag_framed c off r _ _ _ _ _ C W G F P Fr) as (r2 & E2 & D2); [lia|].
  eexists _, r2. rewrite lenN_app, N.add_assoc. split; [exact E2|]. cbn [ro_id ro_offset ro_header_size ro_value_size].
  split; [reflexivity|]. split; [reflexivity|]. split; [reflexivity|]. split; [assumption|].
  destruct (pending_delivers _ _ _ G D2) as [P2 _]. rewrite P in P2. now apply app_inv_head in P2.
Qed.
Print Assumptions C51_agrees.
Theorem C51_standard_factory : forall c strict off r t r' bs,
  cfg_ok c -> rwf r -> good r -> file_ok r ->
  deserialize (create_std_engine strict) r = (Ok t, r') -> delivers r bs r' -> minimal_header (tag_id t) bs ->
  off + lenN bs < two64 ->
  exists o r2, next_tag c (off, r) = (Ok (Some o), (off + lenN bs, r2)) /\
    ro_id o = tag_id t /\ ro_offset o = off /\ ro_header_size o + ro_value_size o = lenN bs /\
    delivers r bs r2 /\ pending r2 = pending r'.
Proof.
  intros c strict off r t r' bs C W G F H D M L.
  apply (C51_agrees c (create_std_engine strict) off r t r' bs); auto using std_engine_ok.
  intros wid id k Hm. rewrite mk_of_std in Hm. now apply standard_keeps_ids in Hm.
Qed.
Print Assumptions C51_standard_factory.
Example C51_example : exists t r',
  deserialize (create_std_engine true) (ByteArrayReader_new [17; 2; 104; 105; 9]) = (Ok t, r') /\
  delivers (ByteArrayReader_new [17; 2; 104; 105; 9]) [17; 2; 104; 105] r' /\
  minimal_header (tag_id t) [17; 2; 104; 105].
Proof.
  exists (Tag 17 (VString [104; 105])), (RByteArray [17; 2; 104; 105; 9] 4). split; [vm_compute; reflexivity|].
  split; [cbn [delivers ByteArrayReader_new]; split; [reflexivity|]; split; [reflexivity|]; exists [9]; reflexivity|].
  exists 2, [104; 105]. split; reflexivity.
Qed.
(** The converse is not true: the scanner only looks at headers. *)
Theorem C51_scanner_validates_refuted : exists bs,
  (forall strict t, from_bytes (create_std_engine strict) bs <> Ok t) /\
  forall c, cfg_ok c -> exists o s', next_tag c (RawTagScanner_new (ByteArrayReader_new bs)) = (Ok (Some o), s') /\ ro_id o = 1.
Proof.
  exists [1; 2]. split.
  - intros [] t; vm_compute; discriminate.
  - intros c C. assert (B : bytes_ok [1; 2]) by (repeat constructor). destruct (mem_reader _ B) as (W & G & P).
    destruct (next_tag_framed c 0 _ 1 [1] [2] 1 [] C W G I P) as (r' & E & _).
    + apply F_fixed; try discriminate; reflexivity.
    + reflexivity.
    + exists (RawTagOffset_new 1 0 1 1). eexists. split; [exact E|reflexivity].
Qed.
Print Assumptions C51_scanner_validates_refuted.

(** ** C52.  From the space of a value to the space of its buffer. *)
Definition tag_end (o : raw_tag_offset) : N := ro_offset o + ro_header_size o + ro_value_size o.
Lemma next_tag_offset_small c o : tag_end o < two64 -> ro_next_tag_offset c o = Ok (tag_end o).
Proof.
  intros H. unfold tag_end in *. unfold ro_next_tag_offset, ro_size, and_then. rewrite !add_small by lia. f_equal. lia.
Qed.
Theorem C52_corrupted_iff_outside : forall c o parent,
  tag_end o < two64 -> tag_end parent < two64 ->
  (ro_value_size parent < tag_end o -> map_to_parent_space c o parent = Err CorruptedData) /\
  (tag_end o <= ro_value_size parent ->
     map_to_parent_space c o parent =
       Ok (RawTagOffset_new (ro_id o) (ro_offset parent + ro_header_size parent + ro_offset o) (ro_header_size o) (ro_value_size o))).
Proof.
  intros c o parent Ho Hp. unfold map_to_parent_space. rewrite next_tag_offset_small by assumption. cbn [and_then]. split.
  - intros H. destruct (N.ltb_spec (ro_value_size parent) (tag_end o)); [reflexivity|lia].
  - intros H. destruct (N.ltb_spec (ro_value_size parent) (tag_end o)); [lia|].
    unfold ro_value_offset. unfold tag_end in *. rewrite add_small by lia. cbn [and_then]. rewrite add_small by lia. reflexivity.
Qed.
Print Assumptions C52_corrupted_iff_outside.
Lemma inner_slice {A} n m p (l : list A) : m + n <= p -> takeN n (dropN m (takeN p l)) = takeN n (dropN m l).
Proof. intros H. rewrite !takeN_dropN_comm, takeN_takeN. do 2 f_equal. lia. Qed.
Theorem C52_same_bytes : forall c o parent mapped raw value,
  cfg_ok c -> tag_end o < two64 -> tag_end parent <= lenN raw -> lenN raw <= usize_max c ->
  ro_value_slice c parent raw = Ok value ->
  map_to_parent_space c o parent = Ok mapped ->
  ro_id mapped = ro_id o /\
  exists tb vb, ro_tag_slice c o value = Ok tb /\ ro_tag_slice c mapped raw = Ok tb /\
                ro_value_slice c o value = Ok vb /\ ro_value_slice c mapped raw = Ok vb.
Proof.
  intros c o parent mapped raw value C Ho Hp Hr Hv Hm.
  assert (U : usize_max c < two64). { destruct C. unfold u64_max, two64 in *. lia. }
  destruct (C52_corrupted_iff_outside c o parent Ho ltac:(lia)) as [M1 M2].
  destruct (N.lt_ge_cases (ro_value_size parent) (tag_end o)) as [Hlt|Hle].
  { rewrite M1 in Hm by assumption. discriminate. }
  rewrite M2 in Hm by assumption. apply Ok_inv in Hm as <-. split; [reflexivity|].
  unfold tag_end in *. destruct (slices c parent raw C Hp Hr) as [_ Ep]. rewrite Ep in Hv. apply Ok_inv in Hv as <-.
  set (voff := ro_offset parent + ro_header_size parent) in *.
  destruct (slices c o (takeN (ro_value_size parent) (dropN voff raw)) C) as [-> ->].
  { rewrite lenN_takeN, lenN_dropN. lia. } { rewrite lenN_takeN, lenN_dropN. lia. }
  match goal with |- context [ro_tag_slice c ?m raw] => destruct (slices c m raw C) as [-> ->] end;
    cbn [ro_offset ro_header_size ro_value_size]; [lia|assumption|].
  do 2 eexists. split; [reflexivity|]. split; [f_equal|]. 2: split; [reflexivity|f_equal].
  all: rewrite inner_slice by lia; rewrite dropN_dropN; f_equal; f_equal; lia.
Qed.
Print Assumptions C52_same_bytes.
(** A child scanned in the value of its parent, both scanned. *)
Example C52_example :
  let raw := [16; 5; 9; 1; 1; 3; 7] in
  let parent := RawTagOffset_new 16 0 2 5 in
  let child := RawTagOffset_new 3 3 1 1 in
  map_to_parent_space (Cfg true u64_max) child parent = Ok (RawTagOffset_new 3 5 1 1) /\
  ro_value_slice (Cfg true u64_max) parent raw = Ok [9; 1; 1; 3; 7] /\
  ro_tag_slice (Cfg true u64_max) child [9; 1; 1; 3; 7] = Ok [3; 7] /\
  map_to_parent_space (Cfg true u64_max) (RawTagOffset_new 3 3 1 2) parent = Err CorruptedData.
Proof. vm_compute. auto. Qed.
(** Without the bound on the end of the child the check can be passed by
    overflowing: a panic with overflow checks, a wrong result without. *)
Theorem C52_outside_is_refused_refuted : exists o parent,
  ro_value_size parent < tag_end o /\
  (forall c, overflow_checks c = true -> map_to_parent_space c o parent = Panic) /\
  (forall c, overflow_checks c = false -> exists mapped, map_to_parent_space c o parent = Ok mapped).
Proof.
  exists (RawTagOffset_new 16 1 10 18446744073709551610), (RawTagOffset_new 16 0 2 5). split; [reflexivity|].
  split; intros [oc um] H; cbn in H; subst oc; [reflexivity|eexists; vm_compute; reflexivity].
Qed.
Print Assumptions C52_outside_is_refused_refuted.

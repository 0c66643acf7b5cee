(** The tag scanner: C48-C52. *)
From Verif Require Import Base BaseFacts Types Spec SpecFacts IO IOSpec IOFacts Logic ILInt ILIntFacts HistFacts PReaders
  Data DataFacts Tags TagsFacts Factory DeserFacts EngineFacts StableFacts FromFacts Scanner ScannerFacts.

(** ** C48.  Scanning a sequence of serialized tags. *)
(** Tags whose end the scanner can find: explicit ones, implicit ones of the
    fixed size of their id, and ILInts under the two ILInt ids. *)
Definition scannable (t : tag) : Prop :=
  match t with
  | Tag id v =>
      15 < id \/ (id <= 14 /\ id <> 10 /\ id <> 14 /\ lenN (encv v) = implicit_size id)
      \/ ((id = 10 \/ id = 14) /\ (kind_of v = KILInt \/ kind_of v = KSILInt))
  end.
Definition enc_all (ts : list tag) : list N := concat (map enc ts).
(** Where each tag is: its id, position, header size and payload size. *)
Fixpoint layout (off : N) (ts : list tag) : list raw_tag_offset :=
  match ts with
  | [] => []
  | Tag id v :: ts' =>
      RawTagOffset_new id off (lenN (enc_header id (lenN (encv v)))) (lenN (encv v))
      :: layout (off + lenN (enc (Tag id v))) ts'
  end.

Lemma ilint_repr_shape v bs : ilint_repr v bs ->
  exists b l, bs = b :: l /\ lenN l = (if b <? 248 then 0 else b - 247).
Proof.
  intros [v1 H|body H1 H2].
  - exists v1, []. rewrite lenN_nil. destruct (N.ltb_spec v1 248); [auto|lia].
  - exists (247 + lenN body), body. split; [reflexivity|]. destruct (N.ltb_spec (247 + lenN body) 248); lia.
Qed.
Lemma enc_unfold id v : enc (Tag id v) = enc_header id (lenN (encv v)) ++ encv v.
Proof. reflexivity. Qed.
Lemma enc_header_small id n : id <= 15 -> enc_header id n = [id].
Proof.
  intros H. unfold enc_header. destruct (N.leb_spec id 15); [|lia]. rewrite app_nil_r.
  unfold ilint. destruct (N.ltb_spec id 248); [reflexivity|lia].
Qed.
Lemma tag_framed id v :
  wf (Tag id v) -> scannable (Tag id v) -> lenN (encv v) < two64 ->
  framed id (enc_header id (lenN (encv v))) (encv v) (lenN (enc_header id (lenN (encv v)))).
Proof.
  intros [Hi W] S L. destruct S as [S|[(S1 & S2 & S3 & S4)|[S K]]].
  - unfold enc_header. destruct (N.leb_spec id 15); [lia|]. rewrite lenN_app.
    constructor; auto using ilint_repr_ilint.
  - rewrite enc_header_small by lia. now constructor.
  - rewrite enc_header_small by lia.
    assert (R : exists n, ilint_repr n (encv v)).
    { destruct v; destruct K as [K|K]; try discriminate K; cbn [encv wfv] in *;
        eexists; apply ilint_repr_ilint; auto using zigzag_bound. }
    destruct R as [n R]. apply ilint_repr_shape in R as (b & l & -> & Lb). now constructor.
Qed.

Theorem C48_layout : forall c off r ts rest,
  cfg_ok c -> rwf r -> good r -> file_ok r ->
  Forall wf ts -> Forall scannable ts -> off + lenN (enc_all ts) < two64 ->
  pending r = enc_all ts ++ rest ->
  exists r', next_tags c (length ts) (off, r) = (Ok (layout off ts), (off + lenN (enc_all ts), r'))
    /\ delivers r (enc_all ts) r' /\ pending r' = rest.
Proof.
  intros c off r ts rest C W G F Hw Hs. revert off r W G F. induction ts as [|[id v] ts IH]; intros off r W G F L P.
  - exists r. cbn [next_tags enc_all map concat length layout app] in *. rewrite lenN_nil, N.add_0_r.
    split; [reflexivity|]. split; [apply delivers_refl|assumption].
  - inversion Hw as [|? ? W1 W2]; subst. inversion Hs as [|? ? S1 S2]; subst.
    unfold enc_all in *. cbn [map concat] in *. rewrite lenN_app in L. rewrite <- app_assoc in P.
    rewrite enc_unfold, lenN_app in L.
    rewrite enc_unfold in P.     pose proof (tag_framed id v W1 S1 ltac:(lia)) as Fr.
    destruct (next_tag_framed c off r id _ _ _ _ C W G F P Fr) as (r1 & E1 & D1); [lia|].
    destruct (pending_delivers _ _ _ G D1) as [P1 G1]. destruct (delivers_rwf _ _ _ W D1) as [Wr1 _].
    rewrite P in P1. apply app_inv_head in P1.
    assert (F1 : file_ok r1).
    { destruct r, r1; cbn [delivers file_ok] in *; try contradiction; auto. destruct D1 as (-> & _). assumption. }
    destruct (IH W2 S2 (off + lenN (enc_header id (lenN (encv v))) + lenN (encv v)) r1 Wr1 G1 F1)
      as (r2 & E2 & D2 & P2); [lia|auto|].
    exists r2. cbn [length next_tags layout]. rewrite (bind_ok _ _ _ _ _ E1), (bind_ok _ _ _ _ _ E2).
    unfold ret. rewrite !enc_unfold, !lenN_app, !N.add_assoc. split; [reflexivity|].
    split; [|assumption]. eapply delivers_trans; eassumption.
Qed.
Print Assumptions C48_layout.

(** Every tag written by this library under a standard id can be scanned. *)
Theorem C48_standard_tags : forall strict t, wf t -> standard strict t -> scannable t.
Proof.
  intros strict [id v] W S. destruct (standard_conforms strict _ W S) as (M & Ft & _).
  destruct Ft as [Ft|[Ft|Ft]]; [left; exact Ft| |right; right; exact Ft].
  destruct S as [[S|(_ & _ & S & _)] _]; [|left; exact S].
  destruct (N.le_gt_cases id 15) as [Hi|Hi]; [|left; lia]. right.
  destruct (N.eq_dec id 10) as [->|N10].
  { right. split; [auto|]. injection S as S. rewrite <- S. auto. }
  destruct (N.eq_dec id 14) as [->|N14].
  { right. split; [auto|]. injection S as S. rewrite <- S. auto. }
  left. destruct (N.eq_dec id 15) as [->|]; [discriminate S|]. repeat split; auto. lia.
Qed.
Print Assumptions C48_standard_tags.

(** The slices taken with the reported offsets are the tags and the payloads. *)
Lemma layout_nth pre t post off :
  nth_error (layout off (pre ++ t :: post)) (length pre) =
  match t with Tag id v =>
    Some (RawTagOffset_new id (off + lenN (enc_all pre)) (lenN (enc_header id (lenN (encv v)))) (lenN (encv v)))
  end.
Proof.
  revert off; induction pre as [|[i x] pre IH]; intros off; cbn [app layout length nth_error].
  - destruct t as [id v]. unfold enc_all. cbn [map concat layout nth_error]. rewrite lenN_nil, N.add_0_r. reflexivity.
  - rewrite IH. unfold enc_all. cbn [map concat]. rewrite lenN_app, N.add_assoc. reflexivity.
Qed.
Lemma as_usize_small c n : n <= usize_max c -> as_usize c n = n.
Proof. intros H. unfold as_usize. apply N.mod_small. lia. Qed.
Lemma slices c o raw :
  cfg_ok c -> ro_offset o + ro_header_size o + ro_value_size o <= lenN raw -> lenN raw <= usize_max c ->
  ro_tag_slice c o raw = Ok (takeN (ro_header_size o + ro_value_size o) (dropN (ro_offset o) raw)) /\
  ro_value_slice c o raw = Ok (takeN (ro_value_size o) (dropN (ro_offset o + ro_header_size o) raw)).
Proof.
  intros C H Hu. destruct o as [id off h n]. cbn [ro_offset ro_header_size ro_value_size] in *.
  assert (U : usize_max c < two64). { destruct C. unfold u64_max, two64 in *. lia. }
  unfold ro_tag_slice, ro_value_slice, ro_tag_end, ro_value_end, ro_value_start, ro_tag_start, ro_next_tag_offset,
    ro_value_offset, ro_size. cbn [ro_offset ro_header_size ro_value_size].
  rewrite !add_small by lia. cbn [and_then map_ok]. rewrite !add_small by lia. cbn [and_then map_ok].
  rewrite !as_usize_small by lia. cbn [and_then].
  rewrite !slice_ok by lia. split; do 2 f_equal; lia.
Qed.

Theorem C48_slices : forall c ts pre t post l s',
  cfg_ok c -> Forall wf ts -> Forall scannable ts -> lenN (enc_all ts) <= usize_max c -> ts = pre ++ t :: post ->
  lenN (enc_all ts) < two64 - 1 ->
  next_tags c (length ts) (RawTagScanner_new (ByteArrayReader_new (enc_all ts))) = (Ok l, s') ->
  exists o, nth_error l (length pre) = Some o /\ ro_id o = tag_id t
    /\ ro_tag_slice c o (enc_all ts) = Ok (enc t) /\ ro_value_slice c o (enc_all ts) = Ok (encv (tag_val t)).
Proof.
  intros c ts pre t post l s' C W S L E Lt H.
  assert (B : bytes_ok (enc_all ts)).
  { assert (K : forall us, Forall wf us -> lenN (enc_all us) < two64 -> bytes_ok (enc_all us)).
    { induction us as [|u us IH]; intros Wu Lu; [constructor|]. inversion Wu; subst. unfold enc_all in *. cbn [map concat] in *.
      rewrite lenN_app in Lu. apply bytes_ok_app. split; [apply enc_bytes_ok; auto; lia|apply IH; auto; lia]. }
    apply K; auto. lia. }
  destruct (mem_reader _ B) as (Wr & G & P).
  destruct (C48_layout c 0 (ByteArrayReader_new (enc_all ts)) ts [] C Wr G I W S ltac:(lia)) as (r' & E' & _ & _).
  { now rewrite app_nil_r. }
  unfold RawTagScanner_new in H. rewrite E' in H. apply pair_inv in H as [H _]. apply Ok_inv in H as <-.
  subst ts. rewrite layout_nth. destruct t as [id v]. eexists. split; [reflexivity|]. cbn [ro_id tag_id tag_val].
  split; [reflexivity|].
  assert (Ea : enc_all (pre ++ Tag id v :: post) = enc_all pre ++ (enc_header id (lenN (encv v)) ++ encv v) ++ enc_all post).
  { unfold enc_all. rewrite map_app, concat_app. cbn [map concat]. rewrite enc_unfold. reflexivity. }
  rewrite N.add_0_l.
  match goal with |- ro_tag_slice c ?o ?raw = _ /\ _ => destruct (slices c o raw C) as [-> ->] end; cbn [ro_offset ro_header_size ro_value_size].
  - rewrite Ea, !lenN_app. lia.
  - assumption.
  - rewrite Ea. rewrite dropN_app_exact by reflexivity.
    rewrite takeN_app_exact by (rewrite lenN_app; reflexivity). split; [reflexivity|].
    rewrite <- app_assoc, app_assoc. rewrite dropN_app_exact by (rewrite lenN_app; reflexivity).
    now rewrite takeN_app_exact.
Qed.
Print Assumptions C48_slices.

(** The accessors of an offset whose tag ends below 2^64; on targets where that
    end does not fit in a usize the last four keep its low bits. *)
Theorem C48_accessors : forall c o, let tag_end := ro_offset o + ro_header_size o + ro_value_size o in
  tag_end < two64 ->
  ro_size c o = Ok (ro_header_size o + ro_value_size o) /\
  ro_value_offset c o = Ok (ro_offset o + ro_header_size o) /\
  ro_next_tag_offset c o = Ok tag_end /\
  ro_tag_start c o = ro_offset o mod (usize_max c + 1) /\
  ro_value_start c o = Ok ((ro_offset o + ro_header_size o) mod (usize_max c + 1)) /\
  ro_value_end c o = Ok (tag_end mod (usize_max c + 1)) /\
  ro_tag_end c o = ro_value_end c o.
Proof.
  intros c o e L. destruct o as [id off h n]. subst e. cbn [ro_offset ro_header_size ro_value_size] in *.
  unfold ro_tag_end, ro_value_end, ro_value_start, ro_tag_start, ro_next_tag_offset, ro_value_offset, ro_size.
  cbn [ro_offset ro_header_size ro_value_size]. rewrite !add_small by lia. cbn [and_then map_ok].
  rewrite !add_small by lia. cbn [and_then map_ok]. rewrite N.add_assoc. unfold as_usize. auto 8.
Qed.
Print Assumptions C48_accessors.
(** Slices of data that does not contain the tag panic. *)
Theorem C48_slices_outside : forall c o raw, let tag_end := ro_offset o + ro_header_size o + ro_value_size o in
  cfg_ok c -> tag_end <= usize_max c -> lenN raw < tag_end -> ro_tag_slice c o raw = Panic /\ ro_value_slice c o raw = Panic.
Proof.
  intros c o raw e C Lu Lr. assert (U : usize_max c < two64). { destruct C. unfold u64_max, two64 in *. lia. }
  destruct (C48_accessors c o) as (_ & _ & _ & E1 & E2 & E3 & E4); [fold e; lia|]. fold e in E3.
  unfold ro_tag_slice, ro_value_slice. rewrite E4, E2, E3, E1. cbn [and_then].
  rewrite !N.mod_small by (unfold e in *; lia).
  unfold slice. unfold e in *. split; repeat match goal with |- context [if ?b then _ else _] => destruct b eqn:? end; try reflexivity; lia.
Qed.
Print Assumptions C48_slices_outside.
(** "A slice is where the offset says, or panics" is false where usize has 32
    bits: the low bits of the offset are used. *)
Theorem C48_slices_checked_refuted : exists c o, cfg_ok c /\ ro_offset o = 4294967296 /\
  forall raw, 2 <= lenN raw -> ro_tag_slice c o raw = Ok (takeN 2 raw).
Proof.
  exists (Cfg true 4294967295), (RawTagOffset_new 22 4294967296 2 0). split; [unfold cfg_ok, u64_max; cbn; lia|]. split; [reflexivity|].
  intros raw L. destruct (C48_accessors (Cfg true 4294967295) (RawTagOffset_new 22 4294967296 2 0) eq_refl) as (_ & _ & _ & E1 & _ & E3 & E4).
  unfold ro_tag_slice. rewrite E4, E3, E1. cbn [and_then ro_offset ro_header_size ro_value_size usize_max].
  change (4294967296 mod (4294967295 + 1)) with 0. change ((4294967296 + 2 + 0) mod (4294967295 + 1)) with 2.
  rewrite slice_ok by lia. now rewrite dropN_0.
Qed.
Print Assumptions C48_slices_checked_refuted.
(** RawTagOffset::default() is the empty range at the start. *)
Theorem C48_default : forall c raw,
  ro_id RawTagOffset_default = 0 /\ ro_offset RawTagOffset_default = 0 /\
  ro_header_size RawTagOffset_default = 0 /\ ro_value_size RawTagOffset_default = 0 /\
  ro_next_tag_offset c RawTagOffset_default = Ok 0 /\
  ro_tag_slice c RawTagOffset_default raw = Ok [] /\ ro_value_slice c RawTagOffset_default raw = Ok [].
Proof.
  intros c raw. destruct (C48_accessors c RawTagOffset_default eq_refl) as (_ & _ & E0 & E1 & E2 & E3 & E4).
  unfold ro_tag_slice, ro_value_slice. rewrite E4, E2, E3, E1, E0. cbn [and_then ro_offset ro_header_size ro_value_size RawTagOffset_default N.add].
  rewrite !N.mod_0_l by lia. rewrite !slice_ok by lia. cbn [N.sub]. rewrite takeN_0. auto 8.
Qed.
Print Assumptions C48_default.
Example C48_offset_22 : let c := Cfg true u64_max in let o := RawTagOffset_new 22 1 2 3 in
  (ro_size c o, ro_value_offset c o, ro_next_tag_offset c o, ro_tag_start c o, ro_value_start c o, ro_value_end c o, ro_tag_end c o)
  = (Ok 5, Ok 3, Ok 6, 1, Ok 3, Ok 6, Ok 6) /\
  ro_value_slice c o [10; 11; 12; 13; 14; 15; 16] = Ok [13; 14; 15] /\ ro_tag_slice c o [10; 11; 12; 13; 14] = Panic.
Proof. vm_compute. auto. Qed.

(** At the end of the data, [next_tag] reports an I/O error, [EndOfData] for
    readers over memory; it never returns [None]. *)
Theorem C48_end : forall c off r,
  rwf r -> good r -> pending r = [] ->
  exists e r', next_tag c (off, r) = (Err (TagIO e), (off, r')) /\
    (forall raw o, r = RByteArray raw o \/ r = RVec raw o -> e = EndOfData).
Proof.
  intros c off r W G P. destruct (read_good_nil r W G P) as (e & r' & E).
  assert (Ei : deserialize_ilint r = (Err (TagIO e), r')).
  { unfold deserialize_ilint, read_ilint, decode. unfold bind, lift_err. rewrite E. reflexivity. }
  exists e, r'. split; [unfold next_tag, bind, on_source; now rewrite Ei|].
  intros raw o [-> | ->]; cbn [pending rwf good] in *.
  all: assert (Ho : o = lenN raw) by (apply (f_equal lenN) in P; rewrite lenN_dropN, lenN_nil in P; lia).
  all: subst o; cbn [read] in E; rewrite ?vecr_read_eq in E; unfold mem_read in E;
    rewrite mem_can_read_cases in E by lia; rewrite N.eqb_refl in E; cbn in E; injection E as <- _; reflexivity.
Qed.
Print Assumptions C48_end.
Theorem C48_never_none : forall c s s', next_tag c s <> (Ok None, s').
Proof.
  intros c [off r] s' H. unfold next_tag in H.
  repeat (apply bind_inv_ok in H as (? & ? & _ & H); try match type of H with context [let '(_, _) := ?x in _] => destruct x as [[? ?] ?] end).
  discriminate H.
Qed.
Print Assumptions C48_never_none.
(** Whatever the reader, a success means that the bytes of one tag have been
    consumed, and the report describes them (see C49 for the header size). *)
Theorem C48_success : forall c off r x off' r',
  rwf r -> checked_seek c r -> next_tag c (off, r) = (Ok x, (off', r')) ->
  exists id hb bd h, x = Some (RawTagOffset_new id off h (lenN bd)) /\ framed id hb bd h /\
    delivers r (hb ++ bd) r' /\ bytes_ok (hb ++ bd) /\
    (off + h + lenN bd < two64 -> off' = off + h + lenN bd).
Proof.
  intros c off r x off' r' W S H. destruct (next_tag_sound _ _ _ _ _ _ W S H) as (id & hb & bd & h & E & F & D & B & A).
  exists id, hb, bd, h. repeat (split; [assumption|]). intros L. unfold advance, and_then in A.
  rewrite !add_small in A by lia. apply Ok_inv in A. lia.
Qed.
Print Assumptions C48_success.
(** [next_tag_if_id] returns the next tag if it has that id; otherwise it fails
    with the tag already consumed. *)
Theorem C48_if_id : forall c expected s x s',
  next_tag_if_id c expected s = (x, s') ->
  (forall o, x = Ok o <-> exists t, o = Some t /\ ro_id t = expected /\ next_tag c s = (Ok (Some t), s')) /\
  (forall t s2, next_tag c s = (Ok (Some t), s2) -> ro_id t <> expected -> x = Err UnexpectedTagType /\ s' = s2) /\
  (forall e s2, next_tag c s = (Err e, s2) -> x = Err e /\ s' = s2).
Proof.
  intros c expected s x s' H. unfold next_tag_if_id, bind in H.
  destruct (next_tag c s) as [[[t|]|e| |] s2] eqn:E.
  - destruct (N.eqb_spec (ro_id t) expected) as [Ei|Ei]; apply pair_inv in H as [<- <-].
    + split; [|split].
      * intros o. split; [intros H; apply Ok_inv in H as <-; eauto|].
        intros (t' & -> & _ & Et). apply pair_inv in Et as [Et _]. congruence.
      * intros t' s' Et. apply pair_inv in Et as [Et _]. apply Ok_inv in Et. congruence.
      * intros e s' Et. discriminate Et.
    + split; [|split].
      * intros o. split; [discriminate|]. intros (t' & -> & Et & Et'). apply pair_inv in Et' as [Et' _].
        apply Ok_inv in Et'. congruence.
      * intros t' s' Et _. apply pair_inv in Et as [_ Et]. auto.
      * intros e s' Et. discriminate Et.
  - now apply C48_never_none in E.
  - apply pair_inv in H as [<- <-]. split; [|split].
    + intros o. split; [discriminate|]. intros (t' & _ & _ & Et). discriminate Et.
    + intros t' s' Et. discriminate Et.
    + intros e' s' Et. apply pair_inv in Et as [Et <-]. split; congruence.
  - apply pair_inv in H as [<- <-]. split; [|split].
    + intros o. split; [discriminate|]. intros (t' & _ & _ & Et). discriminate Et.
    + intros t' s' Et. discriminate Et.
    + intros e' s' Et. discriminate Et.
  - apply pair_inv in H as [<- <-]. split; [|split].
    + intros o. split; [discriminate|]. intros (t' & _ & _ & Et). discriminate Et.
    + intros t' s' Et. discriminate Et.
    + intros e' s' Et. discriminate Et.
Qed.
Print Assumptions C48_if_id.

(** Non-vacuity: three tags of different shapes (an explicit one, an ILInt and a
    boolean). *)
Definition C48_tags : list tag := [Tag 300 (VRaw [104; 105]); Tag 10 (VILInt 300); Tag 1 (VBool true)].
Example C48_tags_ok : Forall wf C48_tags /\ Forall scannable C48_tags.
Proof.
  split; unfold C48_tags.
  - repeat constructor; vm_compute; reflexivity.
  - constructor; [left; reflexivity|]. constructor; [right; right; cbn; auto|].
    constructor; [|constructor]. right; left. repeat split; try discriminate; vm_compute; reflexivity.
Qed.
Example C48_tags_scanned : forall r', r' = RByteArray (enc_all C48_tags) 10 ->
  next_tags (Cfg true u64_max) 3 (RawTagScanner_new (ByteArrayReader_new (enc_all C48_tags)))
  = (Ok [RawTagOffset_new 300 0 3 2; RawTagOffset_new 10 5 1 2; RawTagOffset_new 1 8 1 1], (10, r')).
Proof. intros r' ->. vm_compute. reflexivity. Qed.

(** ** C49.  Headers that are not minimally encoded. *)
Lemma ilint_repr_same_len v bs : bytes_ok bs -> ilint_repr v bs -> lenN bs = lenN (ilint v) -> bs = ilint v.
Proof.
  intros B R L. assert (V : v < two64) by (eapply ilint_repr_bound; eauto).
  apply (ilint_repr_padding v bs V B) in R as [R|(h & body & z & H1 & H2 & H3 & H4 & ->)]; [assumption|].
  rewrite H2 in L. rewrite !lenN_cons, lenN_app, lenN_repeatN in L. lia.
Qed.
(** The header size reported is the size of the minimal header, so it is right
    exactly when the header is minimally encoded, and too small by the padding
    of the id and of the size otherwise. *)
Theorem C49_reported_header : forall c off r x off' r',
  rwf r -> checked_seek c r -> next_tag c (off, r) = (Ok x, (off', r')) ->
  exists o hb bd, x = Some o /\ delivers r (hb ++ bd) r' /\ framed (ro_id o) hb bd (ro_header_size o) /\
    ro_value_size o = lenN bd /\
    ro_header_size o = lenN (enc_header (ro_id o) (lenN bd)) /\
    ro_header_size o <= lenN hb /\
    (ro_header_size o = lenN hb <-> hb = enc_header (ro_id o) (lenN bd)).
Proof.
  intros c off r x off' r' W S H. destruct (next_tag_sound _ _ _ _ _ _ W S H) as (id & hb & bd & h & E & F & D & B & A).
  exists (RawTagOffset_new id off h (lenN bd)), hb, bd. cbn [ro_id ro_header_size ro_value_size].
  apply bytes_ok_app in B as [Bh Bb]. pose proof (framed_header _ _ _ _ F Bh) as (Hh & _ & _).
  split; [assumption|]. split; [assumption|]. split; [assumption|]. split; [reflexivity|].
  destruct F as [id idb szb body L Ri Rs|id body L N10 N14 Lb|id b body L Lb].
  - unfold enc_header. destruct (N.leb_spec id 15); [lia|]. rewrite !lenN_app. split; [reflexivity|].
    apply bytes_ok_app in Bh as [Bi Bz].
    pose proof (ilint_minimal _ _ Bi Ri). pose proof (ilint_minimal _ _ Bz Rs). split; [lia|]. split.
    + intros Eh. rewrite (ilint_repr_same_len _ _ Bi Ri) by lia. rewrite (ilint_repr_same_len _ _ Bz Rs) by lia. reflexivity.
    + intros Eh. apply (f_equal lenN) in Eh. rewrite !lenN_app in Eh. lia.
  - rewrite enc_header_small by lia. change (lenN [id]) with 1. split; [reflexivity|]. split; [reflexivity|]. split; reflexivity.
  - rewrite enc_header_small by lia. change (lenN [id]) with 1. split; [reflexivity|]. split; [reflexivity|]. split; reflexivity.
Qed.
Print Assumptions C49_reported_header.
(** The error stays: every tag after a padded one is reported that much too
    early. *)
Theorem C49_later_offsets : forall c r id hb bd h ts rest,
  cfg_ok c -> rwf r -> good r -> file_ok r -> Forall wf ts -> Forall scannable ts ->
  framed id hb bd h -> pending r = (hb ++ bd) ++ enc_all ts ++ rest ->
  h + lenN bd + lenN (enc_all ts) < two64 ->
  exists s', next_tags c (S (length ts)) (RawTagScanner_new r)
             = (Ok (RawTagOffset_new id 0 h (lenN bd) :: layout (h + lenN bd) ts), s').
Proof.
  intros c r id hb bd h ts rest C W G F Wt St Fr P L.
  destruct (next_tag_framed c 0 r id _ _ _ _ C W G F P Fr) as (r1 & E1 & D1); [lia|].
  destruct (pending_delivers _ _ _ G D1) as [P1 G1]. destruct (delivers_rwf _ _ _ W D1) as [Wr1 _].
  rewrite P in P1. apply app_inv_head in P1.
  assert (F1 : file_ok r1).
  { destruct r, r1; cbn [delivers file_ok] in *; try contradiction; auto. destruct D1 as (-> & _). assumption. }
  destruct (C48_layout c (0 + h + lenN bd) r1 ts rest C Wr1 G1 F1 Wt St) as (r2 & E2 & _); [lia|auto|].
  cbn [next_tags]. unfold RawTagScanner_new. rewrite (bind_ok _ _ _ _ _ E1), (bind_ok _ _ _ _ _ E2).
  eexists. unfold ret. rewrite N.add_0_l. reflexivity.
Qed.
Print Assumptions C49_later_offsets.
(** Bytes both factories accept tag by tag, for which the slice of the second tag
    reported by the scanner is not that tag. *)
Theorem C49_offsets_right_refuted : exists bs t1 t2 n,
  n = 5 /\ bs = [249; 0; 8; 1; 7; 1; 1] /\
  from_bytes (create_std_engine false) (takeN n bs) = Ok t1 /\
  (forall strict, from_bytes (create_std_engine strict) (dropN n bs) = Ok t2) /\
  forall c, cfg_ok c ->
  exists o1 o2 s', next_tags c 2 (RawTagScanner_new (ByteArrayReader_new bs)) = (Ok [o1; o2], s') /\
    ro_offset o2 = 4 /\ ro_tag_slice c o2 bs = Ok [7; 1] /\ ro_tag_slice c o1 bs = Ok [249; 0; 8; 1].
Proof.
  exists [249; 0; 8; 1; 7; 1; 1], (Tag 256 (VRaw [7])), (Tag 1 (VBool true)), 5.
  split; [reflexivity|]. split; [reflexivity|]. split; [vm_compute; reflexivity|].
  split; [intros []; vm_compute; reflexivity|]. intros c C.
  exists (RawTagOffset_new 256 0 3 1), (RawTagOffset_new 1 4 1 1).
  assert (B : bytes_ok [249; 0; 8; 1; 7; 1; 1]) by (repeat constructor).
  destruct (mem_reader _ B) as (W & G & P).
  destruct (C49_later_offsets c (ByteArrayReader_new [249; 0; 8; 1; 7; 1; 1]) 256 [249; 0; 8; 1] [7] 3
              [Tag 1 (VBool true)] [] C W G I) as (s' & E).
  - repeat constructor.
  - constructor; [|constructor]. right; left. repeat split; try discriminate; vm_compute; reflexivity.
  - change 3 with (lenN (ilint 256) + lenN (ilint (lenN [7]))).
    apply (F_explicit 256 [249; 0; 8] [1] [7]); [reflexivity| |constructor; reflexivity].
    apply (repr_long [0; 8]); vm_compute; auto; split; discriminate.
  - rewrite P. reflexivity.
  - vm_compute. reflexivity.
  - exists s'. split; [exact E|]. split; [reflexivity|].
    assert (L : lenN [249; 0; 8; 1; 7; 1; 1] <= usize_max c) by (destruct C; change (lenN [249; 0; 8; 1; 7; 1; 1]) with 7; lia).
    split.
    + destruct (slices c (RawTagOffset_new 1 4 1 1) [249; 0; 8; 1; 7; 1; 1] C) as [-> _]; [discriminate|exact L|reflexivity].
    + destruct (slices c (RawTagOffset_new 256 0 3 1) [249; 0; 8; 1; 7; 1; 1] C) as [-> _]; [discriminate|exact L|reflexivity].
Qed.
Print Assumptions C49_offsets_right_refuted.

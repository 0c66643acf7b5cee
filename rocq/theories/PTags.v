(** Properties of tag sizes, serialization and tag ids: C23, C24, C30, C43,
    C44, C46, C56.

    [enc], [encv] (Spec.v) give the ILTags format; [wf] holds of every tag Rust's
    types allow; [lenN (enc t) < two64] of every tag that fits in memory. *)
From Coq Require Import Sorted Permutation.
From Verif Require Import Base BaseFacts Types Spec SpecFacts IO IOSpec IOFacts WriterFacts WLogic
  ILInt ILIntFacts Data DataFacts Tags SortFacts TagsFacts SameFacts CallFacts.

(** A dictionary holding an array, used in the examples. *)
Definition sample : tag :=
  Tag 30 (VDict [([98], Tag 21 (VArr [Tag 3 (VUInt W8 7); Tag 10 (VILInt 300)]));
                 ([97], Tag 1000 (VRaw [1; 2; 3]))]).
Definition sample_bytes : list N :=
  [30; 22; 2; 17; 1; 97; 249; 2; 240; 3; 1; 2; 3; 17; 1; 98; 21; 6; 2; 3; 7; 10; 248; 52].
Lemma utf8_ascii c : c < 128 -> utf8 [c].
Proof.
  intros H. exists [c]. split; [constructor; [unfold scalar; lia|constructor]|].
  cbn [utf8_encode flat_map]. unfold utf8_char. destruct (N.ltb_spec c 128); [reflexivity|lia].
Qed.
Lemma sample_wf : wf sample /\ enc sample = sample_bytes /\ lenN (enc sample) < two64.
Proof.
  split; [|split; vm_compute; reflexivity].
  cbn [wf wfv sample all fold_right map fst snd]. split; [unfold two64; lia|]. split.
  { constructor; [intros [H|[]]; discriminate|]. constructor; [intros []|constructor]. }
  split; [repeat constructor; apply utf8_ascii; lia|].
  unfold two64, bytes_ok, byte_ok, wmod, two64. repeat split; try lia. repeat constructor; lia.
Qed.

(** ** C23.  [size] and [value_size]. *)
Theorem C23_size_is_bytes_written :
  (forall t w w', wf t -> lenN (enc t) < two64 -> wwf w -> serialize t w = (Ok tt, w') ->
     exists bs, puts w bs w' /\ lenN bs = size t) /\
  (forall v w w', wfv v -> lenN (encv v) < two64 -> wwf w -> serialize_value v w = (Ok tt, w') ->
     exists bs, puts w bs w' /\ lenN bs = value_size v) /\
  (forall t, wf t -> lenN (enc t) < two64 -> exists bs, to_bytes t = Ok bs /\ lenN bs = size t).
Proof.
  split; [|split].
  - intros t w w' Wt L W E. destruct (serialize_emits t Wt L w _ _ W E) as (_ & (p & _ & Q & O) & _).
    exists p. split; [exact Q|]. rewrite (O eq_refl). symmetry. now apply size_spec.
  - intros v w w' Wt L W E. destruct (serialize_value_emits v Wt L w _ _ W E) as (_ & (p & _ & Q & O) & _).
    exists p. split; [exact Q|]. rewrite (O eq_refl). symmetry. now apply value_size_spec.
  - intros t Wt L. exists (enc t). split; [now apply to_bytes_spec|]. symmetry. now apply size_spec.
Qed.
Print Assumptions C23_size_is_bytes_written.
Example C23_instance :
  size sample = 24 /\ to_bytes sample = Ok sample_bytes /\ value_size (tag_val sample) = 22.
Proof. vm_compute. auto. Qed.

(** ** C24.  Layout. *)
Theorem C24_layout : forall id v w w',
  wf (Tag id v) -> lenN (enc (Tag id v)) < two64 -> wwf w -> serialize (Tag id v) w = (Ok tt, w') ->
  puts w (ilint id ++ (if 16 <=? id then ilint (lenN (encv v)) else []) ++ encv v) w' /\
  to_bytes (Tag id v) = Ok (ilint id ++ (if 16 <=? id then ilint (lenN (encv v)) else []) ++ encv v).
Proof.
  intros id v w w' Wt L W E.
  assert (K : ilint id ++ (if 16 <=? id then ilint (lenN (encv v)) else []) ++ encv v = enc (Tag id v)).
  { cbn [enc]. unfold enc_header. rewrite <- app_assoc.
    destruct (N.leb_spec 16 id), (N.leb_spec id 15); try lia; reflexivity. }
  rewrite K. split; [|now apply to_bytes_spec].
  destruct (serialize_emits _ Wt L w _ _ W E) as (_ & (p & _ & Q & O) & _). now rewrite <- (O eq_refl).
Qed.
Print Assumptions C24_layout.
Example C24_instance :
  wf sample /\ lenN (enc sample) < two64 /\
  serialize sample (WArray (repeatN 9 26) 1) = (Ok tt, WArray ([9] ++ sample_bytes ++ [9]) 25).
Proof.
  destruct sample_wf as (W & _ & L). split; [exact W|]. split; [exact L|]. vm_compute. reflexivity.
Qed.

(** ** C30.  Dictionaries. *)
(** Tags holding the same data, whatever the order in which their dictionaries
    (at any depth) iterate, serialize the same on every writer. *)
Theorem C30_hash_order : forall t t', wf t -> same_tag t t' ->
  (forall w, serialize t w = serialize t' w) /\ size t = size t' /\ to_bytes t = to_bytes t'.
Proof.
  intros t t' W S. destruct (proj1 same_ser_eq t t' S W) as [E Z]. split; [exact E|]. split; [exact Z|].
  unfold to_bytes. now rewrite E.
Qed.
Print Assumptions C30_hash_order.
(** The entries are written in increasing order of their keys. *)
Theorem C30_sorted_entries :
  (forall id l w w', wf (Tag id (VDict l)) -> lenN (enc (Tag id (VDict l))) < two64 -> wwf w ->
     serialize_value (VDict l) w = (Ok tt, w') ->
     exists es, Permutation l es /\ StronglySorted (fun a b => lex_lt (fst a) (fst b)) es /\
       puts w (ilint (lenN l) ++ concat (map (fun e => enc_string (fst e) ++ enc (snd e)) es)) w') /\
  (forall id l w w', wf (Tag id (VStrDict l)) -> lenN (enc (Tag id (VStrDict l))) < two64 -> wwf w ->
     serialize_value (VStrDict l) w = (Ok tt, w') ->
     exists es, Permutation l es /\ StronglySorted (fun a b => lex_lt (fst a) (fst b)) es /\
       puts w (ilint (lenN l) ++ concat (map (fun e => enc_string (fst e) ++ enc_string (snd e)) es)) w').
Proof.
  assert (P : forall id v, lenN (enc (Tag id v)) < two64 -> lenN (encv v) < two64).
  { intros id v. cbn [enc]. rewrite lenN_app. lia. }
  split; intros id l w w' [_ Wv] L W E; exists (sort_entries l); (split; [apply sort_entries_perm|]);
    (split; [apply sort_entries_sorted; apply Wv|]);
    destruct (serialize_value_emits _ Wv (P _ _ L) w _ _ W E) as (_ & (p & _ & Q & O) & _);
    rewrite (O eq_refl) in Q; cbn [encv] in Q.
  - rewrite sort_entries_map in Q. rewrite map_map in Q. exact Q.
  - exact Q.
Qed.
Print Assumptions C30_sorted_entries.
(** Byte order of UTF-8 strings is the order of their code points. *)
Theorem C30_byte_order_is_code_point_order : forall cs ds, Forall scalar cs -> Forall scalar ds ->
  (lex_lt (utf8_encode cs) (utf8_encode ds) <-> lex_lt cs ds).
Proof. exact utf8_lex. Qed.
Print Assumptions C30_byte_order_is_code_point_order.
Example C30_instance :
  let t l := Tag 30 (VDict l) in
  let a := ([195; 169], Tag 0 VNull) in let b := ([122], Tag 1 (VBool true)) in
  let s x y := Tag 31 (VStrDict [x; y]) in
  to_bytes (t [a; b]) = to_bytes (t [b; a]) /\
  to_bytes (t [a; b]) = Ok [30; 11; 2; 17; 1; 122; 1; 1; 17; 2; 195; 169; 0] /\
  same_tag (t [([120], s ([97], []) ([98], [])); a]) (t [a; ([120], s ([98], []) ([97], []))]) /\
  lex_lt [122] [233] /\ lex_lt (utf8_encode [122]) (utf8_encode [233]).
Proof.
  cbv zeta. split; [vm_compute; reflexivity|]. split; [vm_compute; reflexivity|].
  split; [|split; reflexivity].
  constructor. eapply same_dict; [apply perm_swap|reflexivity|].
  cbn [map snd]. constructor; [constructor; constructor|]. constructor; [|constructor].
  constructor. apply same_strdict. apply perm_swap.
Qed.

(** ** C43.  A failed [serialize]. *)
Theorem C43_failed_serialize_leaves_prefix : forall t w x w',
  wf t -> lenN (enc t) < two64 -> wwf w -> serialize t w = (x, w') ->
  x <> Panic /\ x <> OutOfFuel /\
  exists p, prefix p (enc t) /\ puts w p w' /\ (x = Ok tt -> p = enc t).
Proof.
  intros t w x w' Wt L W E. destruct (serialize_emits t Wt L w _ _ W E) as (R & K & _).
  split; [|split; [|exact K]]; intros ->; exact R.
Qed.
Print Assumptions C43_failed_serialize_leaves_prefix.
Example C43_instance :
  serialize sample (WArray (repeatN 0 21) 0)
  = (Err (TagIO (UnableToWriteData)), WArray (takeN 21 sample_bytes) 21).
Proof. vm_compute. reflexivity. Qed.

(** The calls made do not depend on the writer: one [write_all] for each piece
    of the encoding, in order, up to the first that fails. *)
Theorem C43_calls : forall t,
  wf t -> lenN (enc t) < two64 ->
  exists pieces, concat pieces = enc t /\
  forall w, wwf w -> serialize t w = put_pieces TagIO pieces w.
Proof. intros t W L. exact (serialize_pieces t W L). Qed.
Print Assumptions C43_calls.
(** So the error returned is the error of a write, as [TagIO], and that write
    was the last one. *)
Theorem C43_error_is_the_writers : forall t w x w',
  wf t -> lenN (enc t) < two64 -> wwf w -> serialize t w = (Err x, w') ->
  exists before piece after w1 e,
    enc t = before ++ piece ++ after /\ puts w before w1 /\
    write_all piece w1 = (Err e, w') /\ x = TagIO e.
Proof.
  intros t w x w' Wt L W E. destruct (serialize_pieces t Wt L) as (pieces & C & H).
  rewrite (H w W) in E. rewrite <- C. clear C H L Wt t. revert w W E.
  induction pieces as [|p rest IH]; intros w W; cbn [put_pieces concat]; [discriminate|].
  destruct (write_all p w) as [y w1] eqn:E1.
  destruct (write_all_spec _ _ _ _ W E1) as (_ & q & _ & Q & O).
  destruct y as [[]|e| |]; [|intros K|discriminate..].
  - intros E'. rewrite (O eq_refl) in Q. destruct (IH w1 (puts_wwf _ _ _ W Q) E') as (b & c & a & w2 & e & Eb & Qb & Ec & ->).
    exists (p ++ b), c, a, w2, e. rewrite Eb, <- app_assoc. split; [reflexivity|].
    split; [eapply puts_trans; eauto|]. split; [exact Ec|reflexivity].
  - assert (x = TagIO e /\ w1 = w') as [-> ->] by (split; congruence).
    exists [], p, (concat rest), w, e. split; [reflexivity|]. split; [exact (puts_refl _ W)|].
    split; [exact E1|reflexivity].
Qed.
Print Assumptions C43_error_is_the_writers.
Example C43_kind_of_a_failing_write :
  serialize sample (WWrite [] [Chunk 1; Chunk 1; Chunk 9; Chunk 1; Fail (OtherKind 7); Chunk 9])
  = (Err (TagIO (IOErrorStd (OtherKind 7))), WWrite (takeN 4 sample_bytes) [Chunk 9]).
Proof. vm_compute. reflexivity. Qed.

(** ** C44.  Every writer gets the same bytes. *)
Theorem C44_writer_independent : forall t w, wf t -> lenN (enc t) < two64 ->
  accepts (size t) w -> exists w', serialize t w = (Ok tt, w') /\ puts w (enc t) w'.
Proof.
  intros t w Wt L A. destruct (serialize t w) as [x w'] eqn:E. rewrite size_spec in A by assumption.
  destruct (serialize_emits t Wt L w _ _ (accepts_wwf _ _ A) E) as (_ & (p & _ & Q & O) & Ac).
  rewrite (Ac A). exists w'. split; [reflexivity|]. now rewrite <- (O (Ac A)).
Qed.
Print Assumptions C44_writer_independent.
Theorem C44_byte_array_exact : forall t a o, wf t -> lenN (enc t) < two64 -> o <= lenN a ->
  ((exists w', serialize t (WArray a o) = (Ok tt, w')) <-> o + size t <= lenN a).
Proof.
  intros t a o Wt L Ho. split.
  - intros (w' & E). destruct (serialize_emits t Wt L (WArray a o) _ _ Ho E) as (_ & (p & _ & Q & O) & _).
    rewrite (O eq_refl) in Q. destruct w'; cbn [puts] in Q; try contradiction.
    rewrite size_spec by assumption. lia.
  - intros H. destruct (C44_writer_independent t (WArray a o) Wt L H) as (w' & E & _). eauto.
Qed.
Print Assumptions C44_byte_array_exact.
Example C44_instance :
  accepts (size sample) (WSeek [5] 3 [Chunk 1; Interrupt; Chunk 2]) /\ accepts (size sample) (WVec [9; 9] 1 false) /\
  serialize sample (WVec [9; 9] 1 false) = (Ok tt, WVec (9 :: sample_bytes) 25 false) /\
  serialize sample (WSeek [5] 3 [Chunk 1; Interrupt; Chunk 2]) = (Ok tt, WSeek ([5; 0; 0] ++ sample_bytes) 27 []).
Proof.
  split; [repeat constructor|]. split; [split; [unfold lenN; cbn; lia|reflexivity]|].
  split; vm_compute; reflexivity.
Qed.

(** ** C46.  Downcasts. *)
Lemma kind_eqb_eq a b : kind_eqb a b = true <-> a = b.
Proof.
  split.
  - destruct a, b; cbn [kind_eqb]; try discriminate; auto; destruct w, w0; cbn [width_eqb]; congruence.
  - intros <-. destruct a; cbn [kind_eqb]; auto; destruct w; reflexivity.
Qed.
Theorem C46_downcasts : forall k id t,
  (kind_of (tag_val t) = k -> tag_downcast k t = Some t) /\
  (kind_of (tag_val t) <> k -> tag_downcast k t = None) /\
  (tag_id t = id -> kind_of (tag_val t) = k ->
     tag_downcast_with_id k id t = Some t /\ tag_id_downcast k id t = Ok t /\ assert_tag_id_and_type k id t = Ok tt /\
     forall e, assert_tag_id_and_type_or_error k id t e = Ok tt) /\
  (tag_id t <> id \/ kind_of (tag_val t) <> k ->
     tag_downcast_with_id k id t = None /\ tag_id_downcast k id t = Err UnexpectedTagType /\
     assert_tag_id_and_type k id t = Err UnexpectedTagType /\
     forall e, assert_tag_id_and_type_or_error k id t e = Err e).
Proof.
  intros k id t.
  unfold tag_downcast_with_id, tag_id_downcast, assert_tag_id_and_type, assert_tag_id_and_type_or_error, tag_downcast.
  destruct (kind_eqb (kind_of (tag_val t)) k) eqn:K.
  - apply kind_eqb_eq in K. destruct (N.eqb_spec (tag_id t) id); repeat split; auto; try tauto; intros []; contradiction.
  - assert (kind_of (tag_val t) <> k) by (intros H; apply kind_eqb_eq in H; congruence).
    destruct (N.eqb_spec (tag_id t) id); repeat split; auto; try tauto; contradiction.
Qed.
Print Assumptions C46_downcasts.
Example C46_instance :
  tag_id_downcast KString 17 (Tag 17 (VString [97])) = Ok (Tag 17 (VString [97])) /\
  tag_id_downcast KString 17 (Tag 17 (VRaw [97])) = Err UnexpectedTagType /\
  tag_downcast_with_id KString 18 (Tag 17 (VString [97])) = None.
Proof. vm_compute. auto. Qed.

(** ** C56.  Implicit and reserved ids. *)
Lemma uint_len w v : lenN (be_bytes (wbytes w) v) = N.of_nat (wbytes w).
Proof. apply lenN_be_bytes. Qed.
Theorem C56_implicit_ids :
  (forall id, is_implicit_tag id = true <-> id <= 15) /\
  (forall id, is_reserved_tag id = true <-> id <= 31) /\
  (forall id v, id <= 15 -> id <> 10 -> id <> 14 -> standard_kind id = Some (kind_of v) -> wfv v ->
     lenN (encv v) = implicit_tag_size id) /\
  (forall id v, id = 10 \/ id = 14 -> standard_kind id = Some (kind_of v) -> wfv v ->
     lenN (encv v) <= implicit_tag_size id) /\
  (exists v, wfv v /\ kind_of v = KILInt /\ lenN (encv v) = implicit_tag_size 10) /\
  (exists v, wfv v /\ kind_of v = KSILInt /\ lenN (encv v) = implicit_tag_size 14) /\
  (forall id, 15 <= id -> implicit_tag_size id = 0).
Proof.
  split; [intros id; apply N.leb_le|]. split; [intros id; apply N.leb_le|].
  split; [|split; [|split; [|split]]].
  - intros id v H H1 H2 K W.
    assert (C : In id [0;1;2;3;4;5;6;7;8;9;11;12;13;15]).
    { cbn [In]. lia. }
    cbn [In] in C.
    repeat destruct C as [<-|C]; try contradiction; try discriminate K; vm_compute in K;
      destruct v; try discriminate K; try (injection K as <-); cbn [encv];
      rewrite ?lenN_be_bytes; try reflexivity; try (destruct b; reflexivity).
    destruct W as [-> _]. reflexivity.
  - intros id v H K W.
    destruct H as [->| ->]; vm_compute in K; destruct v; try discriminate K; cbn [encv wfv] in *.
    + change (implicit_tag_size 10) with 9. apply (ilint_repr_len n). now apply ilint_repr_ilint.
    + change (implicit_tag_size 14) with 9. apply (ilint_repr_len (zigzag z)).
      apply ilint_repr_ilint. now apply zigzag_bound.
  - exists (VILInt u64_max). cbn [wfv]. split; [unfold u64_max, two64; lia|]. split; vm_compute; reflexivity.
  - exists (VSILInt (-9223372036854775808)%Z). cbn [wfv]. split; [unfold i64_range; lia|]. split; vm_compute; reflexivity.
  - intros id H. unfold implicit_tag_size.
    repeat match goal with |- context [?a =? ?b] => destruct (N.eqb_spec a b) as [->|_]; [exfalso; apply H; reflexivity|] end. reflexivity.
Qed.
Print Assumptions C56_implicit_ids.
Example C56_instance :
  implicit_tag_size 13 = 16 /\ is_implicit_tag 16 = false /\ is_reserved_tag 32 = false
  /\ wfv (VBin128 (repeatN 1 16)) /\ standard_kind 13 = Some (kind_of (VBin128 (repeatN 1 16))).
Proof.
  repeat split; try (vm_compute; reflexivity). unfold bytes_ok, byte_ok. vm_compute repeatN. repeat constructor; lia.
Qed.

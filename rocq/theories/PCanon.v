(** Property C80: which accepted inputs re-serialize to themselves.

    [wire] (Spec.v) is the grammar of the accepted inputs; [canonical] (Canon.v)
    is its sub-grammar in which every ILInt is as short as it can be and every
    dictionary lists distinct keys in increasing order.  [tight false] drops the
    condition on the order. *)
From Coq Require Import Sorted Permutation.
From Verif Require Import Base BaseFacts Types Spec SpecFacts Canon IO IOSpec IOFacts ILInt ILIntFacts Data Tags
  SortFacts TagsFacts SameFacts Factory FactoryFacts DecodeFacts DeserFacts EngineFacts WireFacts StableFacts FromFacts
  CanonFacts PTags PDecode PUtil.

(** What is known of an accepted word. *)
Lemma accepted_facts e bs t : engine_ok e -> keeps_ids (mk_of e) -> bytes_ok bs -> wire (mk_of e) bs t ->
  wf t /\ lenN (enc t) <= lenN bs /\ lenN (enc t) < two64 /\ wire (mk_of e) (enc t) (norm t).
Proof.
  intros He Hk B Hw. pose proof (engine_mk_ok e He) as Hm. pose proof (wire_wf _ _ _ Hm Hw B) as Wt.
  destruct (stable_all _ Hm Hk) as (St & _). destruct (St _ _ Hw B) as (L & C & Lp).
  pose proof (payload_size_u64 t Lp Wt) as Lu. split; [exact Wt|]. split; [exact L|]. split; [exact Lu|]. now apply enc_wire.
Qed.

(** ** C80.  From any reader: re-serialization gives the bytes that were read
    exactly when they are canonical.  Otherwise it gives fewer bytes, or, when
    only the order of dictionary entries is at fault, the same bytes in another
    order. *)
Theorem C80_reserialize : forall e r t r', engine_ok e -> keeps_ids (mk_of e) -> rwf r -> deserialize e r = (Ok t, r') ->
  exists bs bs2, delivers r bs r' /\ to_bytes t = Ok bs2 /\ wire (mk_of e) bs t /\ lenN bs2 <= lenN bs /\
    (bs2 = bs <-> canonical (mk_of e) bs t) /\
    (lenN bs2 = lenN bs <-> tight false (mk_of e) bs t) /\
    (lenN bs2 = lenN bs -> Permutation bs2 bs).
Proof.
  intros e r t r' He Hk W E. destruct (deserialize_sound e He _ _ _ W E) as (bs & Hw & D).
  destruct (delivers_rwf _ _ _ W D) as [_ B]. pose proof (engine_mk_ok e He) as Hm.
  destruct (accepted_facts e bs t He Hk B Hw) as (Wt & L & Lu & Hn).
  exists bs, (enc t). split; [exact D|]. split; [now apply to_bytes_spec|]. split; [exact Hw|]. split; [exact L|].
  pose proof (canonical_iff e bs t He Hk B Hw) as Ci. pose proof (tight_iff (mk_of e) bs t Hm Hk B Hw) as Ti.
  split; [|split].
  - rewrite Ci. split; auto.
  - rewrite Ti. split; auto.
  - intros Le. assert (T : tight false (mk_of e) bs t) by (apply Ti; auto).
    symmetry. exact (proj1 (tight_enc_all false (mk_of e) Hk) bs t T B).
Qed.
Print Assumptions C80_reserialize.

(** The same for a buffer: [from_bytes] followed by [to_bytes] is the identity
    on the canonical buffers and on no other accepted one. *)
Theorem C80_from_bytes : forall e bs t, engine_ok e -> keeps_ids (mk_of e) -> bytes_ok bs -> from_bytes e bs = Ok t ->
  (to_bytes t = Ok bs <-> canonical (mk_of e) bs t) /\
  (canonical (mk_of e) bs t \/
   (tight false (mk_of e) bs t /\ exists bs2, to_bytes t = Ok bs2 /\ bs2 <> bs /\ Permutation bs2 bs) \/
   (~ tight false (mk_of e) bs t /\ exists bs2, to_bytes t = Ok bs2 /\ lenN bs2 < lenN bs)).
Proof.
  intros e bs t He Hk B F. apply (from_bytes_iff e bs t He B) in F as Hw. pose proof (engine_mk_ok e He) as Hm.
  destruct (accepted_facts e bs t He Hk B Hw) as (Wt & L & Lu & Hn).
  pose proof (canonical_iff e bs t He Hk B Hw) as Ci. pose proof (tight_iff (mk_of e) bs t Hm Hk B Hw) as Ti.
  pose proof (to_bytes_spec t Wt Lu) as Tb. split.
  - rewrite Ci, Tb. split; congruence.
  - destruct (N.eq_dec (lenN bs) (lenN (enc t))) as [El|Nl].
    + destruct (list_eq_dec N.eq_dec bs (enc t)) as [Eb|Nb]; [left; now apply Ci|]. right. left.
      assert (T : tight false (mk_of e) bs t) by (now apply Ti). split; [exact T|]. exists (enc t).
      split; [exact Tb|]. split; [congruence|].
      symmetry. exact (proj1 (tight_enc_all false (mk_of e) Hk) bs t T B).
    + right. right. split; [now rewrite Ti|]. exists (enc t). split; [exact Tb|]. lia.
Qed.
Print Assumptions C80_from_bytes.

(** Every accepted document has exactly one canonical encoding, and it is what
    [to_bytes] returns. *)
Theorem C80_exactly_one : forall e bs t, engine_ok e -> keeps_ids (mk_of e) -> bytes_ok bs -> from_bytes e bs = Ok t ->
  exists bs2 t2, to_bytes t = Ok bs2 /\ from_bytes e bs2 = Ok t2 /\ same_tag t t2 /\ canonical (mk_of e) bs2 t2 /\
    forall bs3 t3, bytes_ok bs3 -> canonical (mk_of e) bs3 t3 -> same_tag t t3 -> bs3 = bs2 /\ t3 = t2.
Proof.
  intros e bs t He Hk B F. apply (from_bytes_iff e bs t He B) in F as Hw.
  destruct (accepted_facts e bs t He Hk B Hw) as (Wt & L & Lu & Hn).
  pose proof (enc_bytes_ok t Wt Lu) as Be.
  exists (enc t), (norm t). split; [now apply to_bytes_spec|]. split; [now apply (from_bytes_iff e (enc t) (norm t) He Be)|].
  split; [apply same_norm|]. split.
  - apply (canonical_iff e (enc t) (norm t) He Hk Be Hn). now rewrite enc_norm.
  - intros bs3 t3 B3 C3 S3. pose proof (tight_wire _ _ _ _ C3) as H3.
    destruct (accepted_facts e bs3 t3 He Hk B3 H3) as (Wt3 & L3 & Lu3 & Hn3).
    apply (canonical_iff e bs3 t3 He Hk B3 H3) in C3.
    assert (E : bs3 = enc t) by (rewrite C3; symmetry; now apply same_enc). split; [exact E|].
    subst bs3. rewrite E in H3. assert (B' : bytes_ok (enc t ++ [])) by now rewrite app_nil_r.
    now destruct (wire_det e _ _ _ _ [] [] He B' H3 Hn eq_refl).
Qed.
Print Assumptions C80_exactly_one.

(** Two accepted inputs are the same document exactly when they re-serialize to
    the same bytes. *)
Theorem C80_same_document : forall e bs t bs' t', engine_ok e -> keeps_ids (mk_of e) -> bytes_ok bs -> bytes_ok bs' ->
  from_bytes e bs = Ok t -> from_bytes e bs' = Ok t' -> (same_tag t t' <-> to_bytes t = to_bytes t').
Proof.
  intros e bs t bs' t' He Hk B B' F F'.
  apply (from_bytes_iff e bs t He B) in F as Hw. apply (from_bytes_iff e bs' t' He B') in F' as Hw'.
  destruct (accepted_facts e bs t He Hk B Hw) as (Wt & _ & Lu & Hn).
  destruct (accepted_facts e bs' t' He Hk B' Hw') as (Wt' & _ & Lu' & Hn').
  rewrite (to_bytes_spec t Wt Lu), (to_bytes_spec t' Wt' Lu'). split.
  - intros S. f_equal. now apply same_enc.
  - intros E. assert (Ee : enc t = enc t') by congruence. apply norm_same.
    rewrite <- Ee in Hn'. pose proof (enc_bytes_ok t Wt Lu) as Be.
    assert (B0 : bytes_ok (enc t ++ [])) by now rewrite app_nil_r.
    now destruct (wire_det e _ _ _ _ [] [] He B0 Hn Hn' eq_refl).
Qed.
Print Assumptions C80_same_document.

(** The standard factories keep ids. *)
Theorem C80_standard : forall strict bs t, bytes_ok bs -> from_bytes (create_std_engine strict) bs = Ok t ->
  (to_bytes t = Ok bs <-> canonical (mk_of (create_std_engine strict)) bs t).
Proof.
  intros strict bs t B F. apply C80_from_bytes; auto; [apply std_engine_ok|].
  intros wid id k H. rewrite mk_of_std in H. now apply (standard_keeps_ids strict) in H.
Qed.
Print Assumptions C80_standard.

(** The deserializer does not insist on canonical input.  One counterexample per
    clause of the sub-grammar: a padded id, a padded size, a padded count, a
    padded element, a repeated key, keys out of order. *)
Theorem C80_canonical_input_enforced_refuted :
  ~ (forall bs t, bytes_ok bs -> from_bytes (create_std_engine false) bs = Ok t ->
       canonical (mk_of (create_std_engine false)) bs t).
Proof.
  intros H. specialize (H [249; 0; 2; 1; 5] (Tag 250 (VRaw [5]))).
  assert (F : from_bytes (create_std_engine false) [249; 0; 2; 1; 5] = Ok (Tag 250 (VRaw [5]))) by reflexivity.
  assert (B : bytes_ok [249; 0; 2; 1; 5]) by (repeat constructor).
  specialize (H B F). apply (C80_standard false _ _ B F) in H. discriminate H.
Qed.
Print Assumptions C80_canonical_input_enforced_refuted.
Definition reserialized (bs : list N) : option (list N) :=
  match from_bytes (create_std_engine false) bs with
  | Ok t => match to_bytes t with Ok bs2 => Some bs2 | _ => None end
  | _ => None
  end.
Example C80_each_clause :
  (* id *)      reserialized [249; 0; 2; 1; 5] = Some [248; 2; 1; 5] /\
  (* size *)    reserialized [16; 248; 0] = None /\
                reserialized (16 :: [249; 0; 0] ++ repeat 7 248) = Some (16 :: [248; 0] ++ repeat 7 248) /\
  (* count *)   reserialized (20 :: [248; 3] ++ [249; 0; 0] ++ repeat 7 248)
                = Some (20 :: [248; 2] ++ [248; 0] ++ repeat 7 248) /\
  (* implicit payload *) reserialized [10; 249; 0; 0] = Some [10; 248; 0] /\
  (* element *) reserialized [20; 5; 1; 250; 0; 0; 7] = Some [20; 3; 1; 248; 7] /\
  (* repeated key *)
     reserialized [30; 9; 2; 17; 1; 97; 0; 17; 1; 97; 0] = Some [30; 5; 1; 17; 1; 97; 0] /\
  (* order *)
     reserialized [30; 9; 2; 17; 1; 98; 0; 17; 1; 97; 0] = Some [30; 9; 2; 17; 1; 97; 0; 17; 1; 98; 0].
Proof. vm_compute. repeat split. Qed.
(** A canonical document with a dictionary inside a sequence. *)
Example C80_canonical_instance :
  canonical (mk_of (create_std_engine true)) [22; 14; 10; 248; 0; 30; 9; 2; 17; 1; 97; 0; 17; 1; 98; 0]
    (Tag 22 (VSeq [Tag 10 (VILInt 248); Tag 30 (VDict [([97], Tag 0 VNull); ([98], Tag 0 VNull)])])).
Proof.
  apply C80_standard; [repeat constructor|reflexivity|reflexivity].
Qed.
(** Out of order only: tight, not canonical. *)
Example C80_order_instance :
  tight false (mk_of (create_std_engine true)) [30; 9; 2; 17; 1; 98; 0; 17; 1; 97; 0]
    (Tag 30 (VDict [([98], Tag 0 VNull); ([97], Tag 0 VNull)])) /\
  ~ canonical (mk_of (create_std_engine true)) [30; 9; 2; 17; 1; 98; 0; 17; 1; 97; 0]
    (Tag 30 (VDict [([98], Tag 0 VNull); ([97], Tag 0 VNull)])).
Proof.
  assert (B : bytes_ok [30; 9; 2; 17; 1; 98; 0; 17; 1; 97; 0]) by (repeat constructor).
  assert (F : from_bytes (create_std_engine true) [30; 9; 2; 17; 1; 98; 0; 17; 1; 97; 0]
              = Ok (Tag 30 (VDict [([98], Tag 0 VNull); ([97], Tag 0 VNull)]))) by reflexivity.
  split.
  - assert (K : keeps_ids (mk_of (create_std_engine true))).
    { intros wid id k H. rewrite mk_of_std in H. now apply (standard_keeps_ids true) in H. }
    destruct (C80_from_bytes _ _ _ (std_engine_ok true) K B F) as [_ [C|[[T _]|[_ (bs2 & E & L)]]]].
    + apply (C80_standard true _ _ B F) in C. discriminate C.
    + exact T.
    + vm_compute in E. injection E as <-. discriminate L.
  - intros C. apply (C80_standard true _ _ B F) in C. discriminate C.
Qed.

(** Capacity overflow while deserializing: C79. *)
From Verif Require Import Base BaseFacts Types Spec SpecFacts IO IOSpec IOFacts Logic ILInt ILIntFacts Data DataFacts Tags TagsFacts
  Factory FactoryFacts DecodeFacts DeserFacts EngineFacts WireFacts StableFacts FromFacts Trace TraceFacts PTrace Alloc AllocFacts.

(** A vector may take up to [isize::MAX] bytes; a u64 takes 8 and a
    [Box<dyn ILTag>] two pointers. *)
Definition isize_max (c : cfg) : N := usize_max c / 2.
Definition fits (c : cfg) (ev : event) : Prop :=
  match ev with
  | EvTag _ => True
  | EvBytes n => n <= isize_max c
  | EvElements U64 n => 8 * n <= isize_max c
  | EvElements BoxedTag n => (if usize_max c <? 2 ^ 32 then 8 else 16) * n <= isize_max c
  end.
Lemma granted_fits c ev : granted c ev = true <-> fits c ev.
Proof.
  unfold granted, fits, isize_max, element_bytes, pointer_bytes. change (2 ^ 32) with 4294967296.
  destruct ev as [id|n|[] n]; [split; auto| | |]; rewrite negb_true_iff, N.ltb_ge; [lia|lia|].
  destruct (N.leb_spec (usize_max c) 4294967295); destruct (N.ltb_spec (usize_max c) 4294967296); lia.
Qed.
Lemma granted_all c l : forallb (granted c) l = true <-> Forall (fits c) l.
Proof. rewrite forallb_forall, Forall_forall. split; intros H ev I; apply granted_fits; auto. Qed.
Lemma granted_not c l : forallb (granted c) l = false <-> ~ Forall (fits c) l.
Proof. rewrite <- granted_all. destruct (forallb (granted c) l); split; congruence. Qed.

Lemma forallb_false {A} (p : A -> bool) l : forallb p l = false -> exists x, In x l /\ p x = false.
Proof.
  induction l as [|x l IH]; cbn [forallb]; [discriminate|]. destruct (p x) eqn:H; cbn [andb]; [|eauto using in_eq].
  intros K. destruct (IH K) as (y & I & Hy). eauto using in_cons.
Qed.

(** ** Exactly when *)
(** [l] lists what the call asks for (C55).  If all of it can be had the call does
    what C25 to C28 say; if some of it cannot, the call panics. *)
Theorem C79_exactly : forall c e r x r' l, t_deserialize e r = (x, r', l) ->
  (Forall (fits c) l -> deserialize_k c e r = deserialize e r) /\
  (~ Forall (fits c) l -> fst (deserialize_k c e r) = Panic).
Proof.
  intros c e r x r' l E. pose proof (capped_deserialize_fuel c e (S (left r)) r) as K.
  unfold t_deserialize in E. rewrite E in K. cbn [fst snd] in K. fold (deserialize_k c e r) in K. split; intros H.
  - apply granted_all in H. rewrite H in K. rewrite K, <- C55_traced_program. unfold t_deserialize. now rewrite E.
  - apply granted_not in H. now rewrite H in K.
Qed.
Print Assumptions C79_exactly.
Theorem C79_exactly_into : forall c e r t x t' r' l, t_deserialize_into e r t = (x, t', r', l) ->
  (Forall (fits c) l -> deserialize_into_k c e r t = deserialize_into e r t) /\
  (~ Forall (fits c) l -> fst (fst (deserialize_into_k c e r t)) = Panic).
Proof.
  intros c e r t x t' r' l E.
  assert (K : if forallb (granted c) l then deserialize_into_k c e r t = (x, t', r') else fst (fst (deserialize_into_k c e r t)) = Panic).
  { unfold t_deserialize_into, deserialize_into_k in *. destruct (deserialize_ilint r) as [[id|er| |] r1]; try (injection E as <- <- <- <-; reflexivity).
    destruct (negb (id =? tag_id t)); [injection E as <- <- <- <-; reflexivity|].
    destruct (deserialize_tag_size id r1) as [[n|er| |] r2]; try (injection E as <- <- <- <-; reflexivity).
    pose proof (capped_tag_value_into c _ _ (capped_deserialize_fuel c e (S (left r2))) n t r2) as K. cbv zeta in K.
    rewrite E in K. exact K. }
  split; intros H.
  - apply granted_all in H. rewrite H in K. rewrite K, <- erases_deserialize_into. now rewrite E.
  - apply granted_not in H. now rewrite H in K.
Qed.
Print Assumptions C79_exactly_into.

(** So the target makes no other difference: a call that returns, returns what
    it returns on any target. *)
Theorem C79_same_results : forall c e r,
  fst (deserialize_k c e r) <> Panic -> deserialize_k c e r = deserialize e r.
Proof.
  intros c e r H. destruct (t_deserialize e r) as [[x r'] l] eqn:E. destruct (C79_exactly c e r x r' l E) as [A B].
  destruct (forallb (granted c) l) eqn:G; [apply A; now apply granted_all|]. apply granted_not in G. now specialize (B G).
Qed.
Print Assumptions C79_same_results.
Theorem C79_same_results_into : forall c e r t,
  fst (fst (deserialize_into_k c e r t)) <> Panic -> deserialize_into_k c e r t = deserialize_into e r t.
Proof.
  intros c e r t H. destruct (t_deserialize_into e r t) as [[[x t'] r'] l] eqn:E. destruct (C79_exactly_into c e r t x t' r' l E) as [A B].
  destruct (forallb (granted c) l) eqn:G; [apply A; now apply granted_all|]. apply granted_not in G. now specialize (B G).
Qed.
Print Assumptions C79_same_results_into.
Lemma from_bytes_k_eq c e bs : deserialize_k c e (ByteArrayReader_new bs) = deserialize e (ByteArrayReader_new bs) ->
  from_bytes_k c e bs = from_bytes e bs.
Proof. intros H. unfold from_bytes_k, from_bytes. now rewrite H. Qed.
Theorem C79_same_results_from_bytes : forall c e bs,
  from_bytes_k c e bs <> Panic -> from_bytes_k c e bs = from_bytes e bs.
Proof.
  intros c e bs H. apply from_bytes_k_eq, C79_same_results. intros P. apply H. unfold from_bytes_k.
  destruct (deserialize_k c e (ByteArrayReader_new bs)) as [x r']. cbn [fst] in P. now subst x.
Qed.
Print Assumptions C79_same_results_from_bytes.

(** ** 64-bit targets *)
Lemma allowed_fits c ev : 2 ^ 34 <= usize_max c -> allowed ev -> fits c ev.
Proof.
  change (2 ^ 34) with 17179869184. unfold allowed, fits, isize_max. change (2 ^ 32) with 4294967296.
  destruct ev as [id|n|[] n]; intros H L; auto; [lia|lia|].
  destruct (N.ltb_spec (usize_max c) 4294967296); lia.
Qed.
(** No request of any input reaches the limit. *)
Theorem C79_64_bits : forall c e, 2 ^ 34 <= usize_max c ->
  (forall r, rwf r -> deserialize_k c e r = deserialize e r) /\
  (forall r t, rwf r -> deserialize_into_k c e r t = deserialize_into e r t) /\
  (forall bs, bytes_ok bs -> from_bytes_k c e bs = from_bytes e bs).
Proof.
  intros c e Hc.
  assert (D : forall r, rwf r -> deserialize_k c e r = deserialize e r).
  { intros r W. destruct (t_deserialize e r) as [[x r'] l] eqn:E. apply (proj1 (C79_exactly c e r x r' l E)).
    destruct (rpaid_deserialize_fuel e _ r x r' l W E) as (_ & _ & F & _). eapply Forall_impl; [|exact F].
    intros ev. now apply allowed_fits. }
  split; [exact D|split].
  - intros r t W. destruct (t_deserialize_into e r t) as [[[x t'] r'] l] eqn:E. apply (proj1 (C79_exactly_into c e r t x t' r' l E)).
    destruct (paid_deserialize_into e r t x t' r' l W E) as (_ & _ & F & _). eapply Forall_impl; [|exact F].
    intros ev. now apply allowed_fits.
  - intros bs B. apply from_bytes_k_eq, D. exact (proj1 (mem_reader bs B)).
Qed.
Print Assumptions C79_64_bits.
Example C79_64_bits_instance : 2 ^ 34 <= usize_max (Cfg true u64_max) /\
  from_bytes_k (Cfg true u64_max) (create_std_engine true) (ilint 20 ++ ilint 536870912 ++ ilint 268435456) = Err (TagIO EndOfData).
Proof.
  split; [discriminate|]. rewrite (proj2 (proj2 (C79_64_bits (Cfg true u64_max) (create_std_engine true) ltac:(discriminate)))).
  - vm_compute. reflexivity.
  - rewrite !bytes_ok_app. repeat split; apply ilint_bytes_ok; reflexivity.
Qed.

(** ** 32-bit targets *)
(** Only the two [reserve] calls can overflow, and only for 2^28 elements. *)
Theorem C79_32_bits : forall c e r x r' l, usize_max c = 2 ^ 32 - 1 -> engine_ok e -> engine_total e -> rwf r ->
  t_deserialize e r = (x, r', l) ->
  (fst (deserialize_k c e r) = Panic <-> exists k n, In (EvElements k n) l /\ 2 ^ 28 <= n).
Proof.
  intros c e r x r' l Hc He Ht W E. change (2 ^ 32 - 1) with 4294967295 in Hc. change (2 ^ 28) with 268435456.
  destruct (C79_exactly c e r x r' l E) as [A B]. destruct (rpaid_deserialize_fuel e _ r x r' l W E) as (_ & _ & F & _).
  rewrite Forall_forall in F. split.
  - intros P. destruct (forallb (granted c) l) eqn:G.
    + apply granted_all in G. rewrite (A G) in P. destruct (deserialize e r) as [y r1] eqn:Ed. cbn [fst] in P.
      destruct (deserialize_safe e He Ht _ _ _ W Ed) as (R & _). subst y. contradiction.
    + apply forallb_false in G. destruct G as (ev & I & Hg). specialize (F ev I).
      assert (N : ~ fits c ev) by (rewrite <- granted_fits; congruence).
      unfold fits, isize_max in N. rewrite Hc in N. change (4294967295 / 2) with 2147483647 in N.
      destruct ev as [id|n|k n]; cbn [allowed] in F; [tauto|lia|]. exists k, n. split; [exact I|].
      change (4294967295 <? 2 ^ 32) with true in N. cbv iota in N. destruct k; lia.
  - intros (k & n & I & Hn). apply B. intros G. rewrite Forall_forall in G. specialize (G _ I). unfold fits, isize_max in G.
    rewrite Hc in G. change (4294967295 / 2) with 2147483647 in G. change (4294967295 <? 2 ^ 32) with true in G. cbv iota in G.
    destruct k; lia.
Qed.
Print Assumptions C79_32_bits.

(** An accepted tag shorter than 2^28 bytes is accepted on both kinds of target,
    with the same result. *)
Theorem C79_accepted : forall c e r t r', usize_max c = 2 ^ 32 - 1 \/ usize_max c = 2 ^ 64 - 1 -> rwf r ->
  deserialize e r = (Ok t, r') -> N.of_nat (left r - left r') < 2 ^ 28 -> deserialize_k c e r = (Ok t, r').
Proof.
  intros c e r t r' Hc W E L. change (2 ^ 28) with 268435456 in L.
  change (2 ^ 32 - 1) with 4294967295 in Hc. change (2 ^ 64 - 1) with 18446744073709551615 in Hc.
  destruct (t_deserialize e r) as [[x r1] l] eqn:Et. pose proof (C55_traced_program e r) as T. rewrite Et, E in T.
  injection T as -> ->. rewrite <- E. apply (proj1 (C79_exactly c e r _ _ _ Et)).
  destruct (rpaid_deserialize_fuel e _ r _ _ _ W Et) as (_ & _ & F & _).
  destruct (proj1 (rcovers_deserialize_fuel e _) _ _ _ _ W Et) as (_ & _ & F2).
  rewrite Forall_forall in *. intros ev I. specialize (F ev I). specialize (F2 ev I). unfold fits, isize_max.
  change (2 ^ 32) with 4294967296.
  destruct ev as [id|n|[] n]; cbn [allowed within] in *; auto; [lia|lia|].
  destruct (N.ltb_spec (usize_max c) 4294967296); lia.
Qed.
Print Assumptions C79_accepted.
Example C79_accepted_instance :
  let r := ByteArrayReader_new [21; 8; 2; 16; 1; 7; 20; 2; 1; 5] in
  let t := Tag 21 (VArr [Tag 16 (VBytes [7]); Tag 20 (VILIntArray [5])]) in
  let r' := RByteArray [21; 8; 2; 16; 1; 7; 20; 2; 1; 5] 10 in
  deserialize (create_std_engine true) r = (Ok t, r') /\ N.of_nat (left r - left r') < 2 ^ 28 /\
  deserialize_k (Cfg true 4294967295) (create_std_engine true) r = (Ok t, r').
Proof. vm_compute. auto. Qed.

(** The header of an ILInt array, of an object identifier or of a tag array with
    a count from 2^28 up to the declared size, which the size check lets pass. *)
Theorem C79_panics : forall c strict id n k rest r, usize_max c = 2 ^ 32 - 1 ->
  id = 20 \/ id = 21 \/ id = 25 -> 2 ^ 28 <= k <= n -> n <= 2 ^ 29 -> rwf r -> good r ->
  pending r = ilint id ++ ilint n ++ ilint k ++ rest ->
  fst (deserialize_k c (create_std_engine strict) r) = Panic.
Proof.
  intros c s id n k rest r Hc Hid Hk Hn W G P. change (2 ^ 32 - 1) with 4294967295 in Hc.
  change (2 ^ 28) with 268435456 in Hk. change (2 ^ 29) with 536870912 in Hn.
  destruct (read_header id n r (ilint k ++ rest)) as (r1 & r2 & E1 & E2 & W2 & G2 & P2); auto; [unfold two64; lia|lia|].
  unfold deserialize_k. cbn [deserialize_fuel_k]. unfold bind. rewrite E1, E2.
  set (lr := RLimited (RLimited r2 n) n).
  assert (Lk : lenN (ilint k) <= n) by (pose proof (ilint_29 k ltac:(lia)); lia).
  assert (exists rest', pending lr = ilint k ++ rest') as (rest' & Pl).
  { unfold lr. cbn [pending]. rewrite P2. rewrite takeN_takeN, N.min_id, takeN_app_r by exact Lk. eauto. }
  assert (Wl : rwf lr) by exact W2. assert (Gl : good lr) by exact G2.
  assert (K64 : k < two64) by (unfold two64; lia).
  destruct (complete_deserialize_ilint k (ilint k) (ilint_bytes_ok k K64) (ilint_repr_ilint k K64) lr rest' Wl Gl Pl) as (r3 & E3 & _).
  assert (Q1 : (n <? k) = false) by (apply N.ltb_ge; lia).
  assert (Q2 : forall el, (usize_max c <? 2 * (element_bytes c el * k)) = true).
  { intros el. apply N.ltb_lt. unfold element_bytes, pointer_bytes. rewrite Hc. change (4294967295 <=? 4294967295) with true. cbv iota.
    destruct el; lia. }
  destruct Hid as [-> | [-> | ->]].
  - replace (create_tag (create_std_engine s) 20) with (@Ok tag_error _ (Some (Tag 20 (VILIntArray [])))) by (destruct s; reflexivity).
    unfold tag_value_into_k. cbn [tag_val tag_id deserialize_value_k]. unfold run, ilintarray_deserialize_k, limited, LimitedReader_new, bind, on_reader.
    fold lr. rewrite E3, Q1. unfold ret, modify, allocate. rewrite Q2. reflexivity.
  - replace (create_tag (create_std_engine s) 21) with (@Ok tag_error _ (Some (Tag 21 (VArr [])))) by (destruct s; reflexivity).
    unfold tag_value_into_k. cbn [tag_val tag_id deserialize_value_k]. unfold run, arr_deserialize_k, limited, LimitedReader_new, bind, on_reader.
    fold lr. rewrite E3, Q1. unfold ret, modify, allocate. rewrite Q2. reflexivity.
  - replace (create_tag (create_std_engine s) 25) with (@Ok tag_error _ (Some (Tag 25 (VOID [])))) by (destruct s; reflexivity).
    unfold tag_value_into_k. cbn [tag_val tag_id deserialize_value_k]. unfold run, ilintarray_deserialize_k, limited, LimitedReader_new, bind, on_reader.
    fold lr. rewrite E3, Q1. unfold ret, modify, allocate. rewrite Q2. reflexivity.
Qed.
Print Assumptions C79_panics.
(** "Deserialization never panics", on a 32-bit target: eleven bytes. *)
Theorem C79_never_panics_refuted : forall c strict, usize_max c = 2 ^ 32 - 1 -> exists bs,
  bytes_ok bs /\ lenN bs = 11 /\ from_bytes_k c (create_std_engine strict) bs = Panic /\
  from_bytes (create_std_engine strict) bs = Err (TagIO EndOfData).
Proof.
  intros c s Hc. exists (ilint 20 ++ ilint 268435456 ++ ilint 268435456 ++ []).
  assert (B : bytes_ok (ilint 20 ++ ilint 268435456 ++ ilint 268435456 ++ [])).
  { rewrite !bytes_ok_app. repeat split; try (apply ilint_bytes_ok; reflexivity). apply Forall_nil. }
  split; [exact B|]. split; [reflexivity|]. destruct (mem_reader _ B) as (W & G & P). split.
  - pose proof (C79_panics c s 20 268435456 268435456 [] _ Hc (or_introl eq_refl) ltac:(split; discriminate) ltac:(discriminate) W G P) as K.
    unfold from_bytes_k. destruct (deserialize_k c (create_std_engine s) _) as [y r']. cbn [fst] in K. now subst y.
  - destruct s; vm_compute; reflexivity.
Qed.
Print Assumptions C79_never_panics_refuted.
(** Inside a sequence, and one element below the limit. *)
Example C79_nested :
  let try n := from_bytes_k (Cfg true 4294967295) (create_std_engine true) ([22; 12] ++ ilint 21 ++ ilint 536870912 ++ ilint n ++ [0]) in
  try 268435455 = Err (TagIO UnableToReadData) /\ try 268435456 = Panic.
Proof. vm_compute. auto. Qed.

(** ** The reading functions that take a size *)
(** read_string and deserialize_bytes allocate before they read: a size above
    [isize::MAX] panics, any other behaves as C08 to C18 say.  (Sizes read from
    the wire are at most 2^29.) *)
Theorem C79_sizes_of_callers : forall c n r,
  (n <= isize_max c -> read_string_k c n r = read_string n r /\ deserialize_bytes_k c n r = deserialize_bytes n r) /\
  (isize_max c < n -> read_string_k c n r = (Panic, r) /\ deserialize_bytes_k c n r = (Panic, r)).
Proof.
  intros c n r. unfold isize_max, read_string_k, deserialize_bytes_k, bind, allocate. split; intros H.
  - replace (usize_max c <? 2 * n) with false by (symmetry; apply N.ltb_ge; lia).
    replace (usize_max c <? 2 * (1 * n)) with false by (symmetry; apply N.ltb_ge; lia). auto.
  - replace (usize_max c <? 2 * n) with true by (symmetry; apply N.ltb_lt; lia).
    replace (usize_max c <? 2 * (1 * n)) with true by (symmetry; apply N.ltb_lt; lia). auto.
Qed.
Print Assumptions C79_sizes_of_callers.
Theorem C79_string_tag : forall c r, cfg_ok c -> string_tag_k c r = deserialize_string_tag_from_value r.
Proof.
  intros c r [Hc _]. pose proof (capped_string_tag c r) as K. pose proof (erases_string_tag r) as T.
  destruct (t_string_tag r) as [[x r'] l] eqn:E. cbn [fst snd] in *.
  enough (Q : forallb (granted c) l = true) by (rewrite Q in K; congruence).
  apply granted_all. unfold t_string_tag, t_string_tag_into, t_bytes, tbind, quiet, on_reader, tell, tfail, tret, modify in E.
  destruct (deserialize_ilint r) as [[id|er| |] r1]; try (injection E as _ _ <-; constructor).
  destruct (negb (id =? IL_STRING_TAG_ID)); [injection E as _ _ <-; constructor|].
  destruct (deserialize_ilint r1) as [[n|er| |] r2]; try (injection E as _ _ <-; constructor).
  unfold tag_size_to_usize in E. destruct (N.ltb_spec MAX_TAG_SIZE n) as [|Hn]; [injection E as _ _ <-; constructor|].
  assert (F : fits c (EvBytes n)) by (unfold fits, isize_max; change MAX_TAG_SIZE with 536870912 in Hn; lia).
  destruct (deserialize_bytes n r2) as [[bs|er| |] r3]; [destruct (from_utf8 bs)| | |]; injection E as _ _ <-; cbn [app]; repeat constructor; exact F.
Qed.
Print Assumptions C79_string_tag.

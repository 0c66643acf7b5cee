(** How deep deserialization recurses and how much memory it requests: C54, C55. *)
From Verif Require Import Base BaseFacts Types Spec SpecFacts IO IOSpec IOFacts Logic ILInt ILIntFacts Data DataFacts Tags TagsFacts
  Factory FactoryFacts DecodeFacts DeserFacts EngineFacts WireFacts StableFacts FromFacts DepthFacts Trace TraceFacts CostFacts PCost.

(** ** C54: depth *)
(** Sixty times the number of levels in an encoding of [x] bytes, roughly. *)
Definition depth60 (x : N) : N :=
  30 * N.min x 247 + 20 * (N.min x 503 - 247) + 15 * (N.min x 65783 - 503) + 12 * (N.min x 16777463 - 65783) + 10 * (x - 16777463).
Lemma depth60_le x : depth60 x <= 5402466380 -> x <= 536870912.
Proof. unfold depth60. lia. Qed.
Lemma depth60_step x : x <= 536870912 -> depth60 (x + 1 + encoded_size x) <= depth60 x + 60.
Proof.
  intros H. unfold depth60, encoded_size, ILINT_BASE.
  repeat match goal with |- context [if ?c then _ else _] => destruct c eqn:? end; lia.
Qed.
Lemma nest_len d : lenN (enc (nest (N.succ d) (Tag 0 VNull))) =
  lenN (enc (nest d (Tag 0 VNull))) + 1 + lenN (ilint (lenN (enc (nest d (Tag 0 VNull))))).
Proof. rewrite nest_enc, lenN_cons, lenN_app. lia. Qed.
Lemma nest_depth60 d : d <= 90041105 -> depth60 (lenN (enc (nest d (Tag 0 VNull)))) <= 60 * d + 30.
Proof.
  induction d as [|d IH] using N.peano_ind; intros L; [vm_compute; discriminate|]. rewrite nest_len.
  specialize (IH ltac:(lia)). pose proof (depth60_le _ ltac:(etransitivity; [exact IH|lia])) as Lx.
  rewrite <- encoded_size_spec by (unfold two64; lia). pose proof (depth60_step _ Lx). lia.
Qed.
Lemma nest_fits d : d <= 90041105 -> lenN (enc (nest d (Tag 0 VNull))) <= 536870912.
Proof. intros L. apply depth60_le. pose proof (nest_depth60 d L). lia. Qed.
Lemma ilint_29 n : n <= 536870912 -> lenN (ilint n) <= 5.
Proof. intros H. exact (lenN_ilint_mono n 536870912 H eq_refl). Qed.
Lemma nest_len_6 d : d <= 90041106 -> lenN (enc (nest d (Tag 0 VNull))) <= 6 * d + 1.
Proof.
  induction d as [|d IH] using N.peano_ind; intros L; [vm_compute; discriminate|]. rewrite nest_len.
  specialize (IH ltac:(lia)). pose proof (ilint_29 _ (nest_fits d ltac:(lia))). lia.
Qed.
Lemma nest_norm d : norm (nest d (Tag 0 VNull)) = nest d (Tag 0 VNull).
Proof. induction d as [|d IH] using N.peano_ind; [reflexivity|]. rewrite nest_succ. cbn [norm normv map]. now rewrite IH. Qed.
Lemma nest_standard s d : standard s (nest d (Tag 0 VNull)).
Proof.
  induction d as [|d IH] using N.peano_ind; [cbn; auto|]. rewrite nest_succ. cbn [standard standardv all fold_right].
  split; [left; reflexivity|]. split; [exact IH|exact I].
Qed.
Lemma nest_payload d : d <= 90041106 -> lenN (encv (tag_val (nest d (Tag 0 VNull)))) <= 536870912.
Proof.
  destruct d as [|d] using N.peano_ind; intros L; [vm_compute; discriminate|]. rewrite nest_succ.
  replace (encv _) with (enc (nest d (Tag 0 VNull)) ++ []) by reflexivity. rewrite app_nil_r. apply nest_fits. lia.
Qed.
Lemma nest_wire s d : d <= 90041106 -> wire (mk_of (create_std_engine s)) (enc (nest d (Tag 0 VNull))) (nest d (Tag 0 VNull)).
Proof.
  intros L. apply wire_std. rewrite <- (nest_norm d) at 2. apply enc_wire; [apply nest_wf| |].
  - apply standard_conforms; [apply nest_wf|apply nest_standard].
  - now apply nest_payload.
Qed.
Lemma nest_bytes d : d <= 90041106 -> bytes_ok (enc (nest d (Tag 0 VNull))).
Proof. intros L. apply enc_bytes_ok; [apply nest_wf|]. pose proof (nest_len_6 d L). unfold two64. lia. Qed.

(** Reading the header of a sequence. *)
Lemma read_header id n r rest : id < two64 -> 15 < id -> n <= 536870912 -> rwf r -> good r ->
  pending r = ilint id ++ ilint n ++ rest ->
  exists r1 r2, deserialize_ilint r = (Ok id, r1) /\ deserialize_tag_size id r1 = (Ok n, r2) /\
    rwf r2 /\ good r2 /\ pending r2 = rest.
Proof.
  intros Hi Ex Hn W G P.
  destruct (complete_deserialize_ilint id (ilint id) (ilint_bytes_ok id Hi) (ilint_repr_ilint id Hi) r _ W G P) as (r1 & E1 & D1).
  destruct (pending_delivers _ _ _ G D1) as [P1 G1]. destruct (delivers_rwf _ _ _ W D1) as [W1 _].
  rewrite P in P1. apply app_inv_head in P1. assert (Hn' : n < two64) by (unfold two64; lia).
  destruct (complete_tag_size id n (ilint n) (ilint_bytes_ok n Hn')
    (size_explicit id n _ Ex (ilint_repr_ilint n Hn')) Hn r1 _ W1 G1 (eq_sym P1)) as (r2 & E2 & D2).
  destruct (pending_delivers _ _ _ G1 D2) as [P2 G2]. destruct (delivers_rwf _ _ _ W1 D2) as [W2 _].
  rewrite <- P1 in P2. apply app_inv_head in P2. exists r1, r2. auto.
Qed.
(** The recursion goes at least as deep as the sequences are nested: with less
    fuel, that is with fewer nested calls of [deserialize], there is no result. *)
Lemma nest_needs s d : forall f r rest, (N.of_nat f <= d) -> d <= 90041106 -> rwf r -> good r ->
  pending r = enc (nest d (Tag 0 VNull)) ++ rest -> fst (deserialize_fuel f (create_std_engine s) r) = OutOfFuel.
Proof.
  induction d as [|d IH] using N.peano_ind; intros f r rest Hf L W G P.
  { replace f with O by lia. reflexivity. }
  destruct f as [|f]; [reflexivity|]. rewrite nest_enc in P. cbn [app] in P. rewrite <- app_assoc in P.
  pose proof (nest_fits d ltac:(lia)) as Ln. set (body := enc (nest d (Tag 0 VNull))) in *.
  destruct (read_header 22 (lenN body) r (body ++ rest)) as (r1 & r2 & E1 & E2 & W2 & G2 & P2); auto; try reflexivity.
  cbn [deserialize_fuel]. rewrite (bind_ok _ _ _ _ _ E1), (bind_ok _ _ _ _ _ E2). unfold bind.
  replace (create_tag (create_std_engine s) 22) with (@Ok tag_error _ (Some (Tag 22 (VSeq [])))) by (destruct s; reflexivity).
  unfold deserialize_tag_value_into. cbn [tag_val tag_id deserialize_value].
  unfold run, seq_deserialize, limited, LimitedReader_new, bind, modify, fuelled. cbn [snd while_read limit_empty].
  assert (Lb : lenN body <> 0). { unfold body. destruct (nest d (Tag 0 VNull)). cbn [enc]. unfold enc_header. rewrite !lenN_app. pose proof (lenN_ilint_pos id). lia. }
  destruct (lenN body =? 0) eqn:Ez; [lia|]. unfold bind, on_reader.
  specialize (IH f (RLimited (RLimited r2 (lenN body)) (lenN body)) []).
  destruct (deserialize_fuel f (create_std_engine s) (RLimited (RLimited r2 (lenN body)) (lenN body))) as [y r3] eqn:Ed.
  cbn [fst] in IH. rewrite IH; [reflexivity|lia|lia|exact W2|exact G2|].
  cbn [pending]. rewrite P2, app_nil_r. fold body. rewrite takeN_app_exact by reflexivity. now rewrite takeN_all by lia.
Qed.

(** For every depth up to 90041106 there is an input of at most six bytes a level
    that is accepted after that many nested calls. *)
Theorem C54_reached : forall strict d, d <= 90041106 -> exists bs t,
  lenN bs <= 6 * d + 1 /\ bytes_ok bs /\ from_bytes (create_std_engine strict) bs = Ok t /\ nesting t = d /\
  forall r rest, rwf r -> good r -> pending r = bs ++ rest ->
    (forall f, N.of_nat f <= d -> fst (deserialize_fuel f (create_std_engine strict) r) = OutOfFuel) /\
    fst (deserialize (create_std_engine strict) r) = Ok t.
Proof.
  intros s d L. exists (enc (nest d (Tag 0 VNull))), (nest d (Tag 0 VNull)).
  split; [now apply nest_len_6|]. split; [now apply nest_bytes|].
  split; [apply from_bytes_iff; auto using std_engine_ok, nest_bytes, nest_wire|]. split; [apply nest_nesting|].
  intros r rest W G P. split; [intros f Hf; eapply nest_needs; eauto|].
  destruct (deserialize_complete _ (std_engine_ok s) _ _ (nest_bytes d L) (nest_wire s d L) r rest W G P) as (r' & E & _).
  now rewrite E.
Qed.
Print Assumptions C54_reached.
(** "deserialize never nests more than [bound] calls", for any bound up to 90041106. *)
Theorem C54_bounded_refuted : forall strict bound, bound <= 90041106 -> exists bs t,
  bytes_ok bs /\ from_bytes (create_std_engine strict) bs = Ok t /\
  fst (deserialize_fuel (N.to_nat bound) (create_std_engine strict) (ByteArrayReader_new bs)) = OutOfFuel.
Proof.
  intros s bound H. destruct (C54_reached s bound) as (bs & t & _ & B & E & _ & K); [lia|].
  exists bs, t. split; [exact B|]. split; [exact E|].
  destruct (mem_reader bs B) as (W & G & P).
  apply (K (ByteArrayReader_new bs) []); [exact W|exact G|now rewrite app_nil_r|lia].
Qed.
Print Assumptions C54_bounded_refuted.
(** Whatever the factory, the reader and the input, accepted or not, allowing
    90041126 nested calls is as good as allowing any number. *)
Theorem C54_bounded : forall e f r, engine_ok e -> rwf r -> 90041126 <= N.of_nat f -> deserialize_fuel f e r = deserialize e r.
Proof. intros e f r He W L. apply deserialize_depth; auto. pose proof (depth_limit_max r). lia. Qed.
Print Assumptions C54_bounded.
(** Smaller inputs allow less: one call for every two bytes, and 18 more. *)
Theorem C54_bounded_by_input : forall e f bs, engine_ok e -> bytes_ok bs -> lenN bs / 2 + 18 <= N.of_nat f ->
  deserialize_fuel f e (ByteArrayReader_new bs) = deserialize e (ByteArrayReader_new bs).
Proof.
  intros e f bs He B L. destruct (mem_reader bs B) as (W & _ & _). apply deserialize_depth; [exact He|exact W|].
  unfold depth_limit, levels, levels60, ByteArrayReader_new. cbn [room left].
  assert (H : N.of_nat (length (dropN 0 bs)) = lenN bs) by (rewrite dropN_0; reflexivity). unfold lenN in *.
  lia.
Qed.
Print Assumptions C54_bounded_by_input.
(** Two bytes a level: every one of the calls is needed. *)
Example C54_tight :
  let nested := fix go n := match n with O => [0] | Datatypes.S k => let b := go k in 22 :: lenN b :: b end in
  let out f bs := match fst (deserialize_fuel f (create_std_engine true) (ByteArrayReader_new bs)) with
                  | OutOfFuel => 0 | Ok _ => 1 | _ => 2 end in
  lenN (nested 100%nat) = 201 /\ out 100%nat (nested 100%nat) = 0 /\ out 101%nat (nested 100%nat) = 1.
Proof. vm_compute. auto. Qed.
Example C54_small :
  map (fun f => match fst (deserialize_fuel f (create_std_engine true) (ByteArrayReader_new [22; 4; 22; 2; 22; 0])) with
                | OutOfFuel => 0 | Ok _ => 1 | _ => 2 end) [0; 1; 2; 3; 4]%nat = [0; 0; 0; 1; 1].
Proof. vm_compute. reflexivity. Qed.

(** ** C55: memory *)
(** The traced functions return what the real ones do. *)
Theorem C55_traced_program : forall e r, fst (t_deserialize e r) = deserialize e r.
Proof. intros e r. apply erases_deserialize_fuel. Qed.
Print Assumptions C55_traced_program.

(** Bytes and elements requested. *)
Definition requested (l : list event) : N :=
  fold_right (fun ev a => match ev with EvTag _ => 0 | EvBytes n => n | EvElements _ n => n end + a) 0 l.
Lemma requested_app l l' : requested (l ++ l') = requested l + requested l'.
Proof. induction l as [|ev l IH]; cbn [app requested fold_right]; [reflexivity|]. fold (requested (l ++ l')) (requested l). lia. Qed.
Lemma requested_le l : Forall allowed l -> requested l <= 536870912 * lenN l.
Proof.
  induction 1 as [|ev l H _ IH]; cbn [requested fold_right]; [cbn; lia|]. fold (requested l). rewrite lenN_cons.
  destruct ev; cbn [allowed] in H; lia.
Qed.

(** No request is above 512 M, at most two are made for each byte read (creating
    a tag is one of them), and so the total is at most 2^30 for each byte read.
    For every factory, reader and input, accepted or not. *)
Theorem C55_requests : forall e r x r' l, rwf r -> t_deserialize e r = (x, r', l) ->
  (forall ev, In ev l -> match ev with EvTag _ => True | EvBytes n => n <= 2 ^ 29 | EvElements _ n => n <= 2 ^ 29 end) /\
  (left r' <= left r)%nat /\ (length l <= 2 * (left r - left r'))%nat /\
  requested l <= 2 ^ 30 * N.of_nat (left r - left r').
Proof.
  intros e r x r' l W E. destruct (rpaid_deserialize_fuel e _ r x r' l W E) as (_ & L & F & B).
  assert (B' : (length l <= 2 * (left r - left r'))%nat) by (destruct x; cbn [credit] in B; lia).
  split; [|split; [exact L|split; [exact B'|]]].
  - rewrite Forall_forall in F. intros ev H. exact (F ev H).
  - pose proof (requested_le l F). unfold lenN in *. change (2 ^ 30) with 1073741824. lia.
Qed.
Print Assumptions C55_requests.
(** For a byte array that is the whole input. *)
Theorem C55_requests_bytes : forall e bs x r' l, bytes_ok bs -> t_deserialize e (ByteArrayReader_new bs) = (x, r', l) ->
  lenN l <= 2 * lenN bs /\ requested l <= 2 ^ 30 * lenN bs.
Proof.
  intros e bs x r' l B E. destruct (C55_requests e _ x r' l (proj1 (mem_reader bs B)) E) as (_ & L & H1 & H2).
  cbn [left ByteArrayReader_new] in *. unfold lenN. change (2 ^ 30) with 1073741824 in *. split; lia.
Qed.
Print Assumptions C55_requests_bytes.

(** The same for deserialize_into, whatever the tag given. *)
Theorem C55_requests_into : forall e r t x t' r' l, rwf r -> t_deserialize_into e r t = (x, t', r', l) ->
  deserialize_into e r t = (x, t', r') /\
  (forall ev, In ev l -> match ev with EvTag _ => True | EvBytes n => n <= 2 ^ 29 | EvElements _ n => n <= 2 ^ 29 end) /\
  (left r' <= left r)%nat /\ (length l <= 2 * (left r - left r'))%nat /\
  requested l <= 2 ^ 30 * N.of_nat (left r - left r').
Proof.
  intros e r t x t' r' l W E. split; [rewrite <- erases_deserialize_into, E; reflexivity|].
  destruct (paid_deserialize_into e r t x t' r' l W E) as (_ & L & F & B).
  assert (B' : (length l <= 2 * (left r - left r'))%nat) by lia.
  split; [|split; [exact L|split; [exact B'|]]].
  - rewrite Forall_forall in F. intros ev H. exact (F ev H).
  - pose proof (requested_le l F). unfold lenN in *. change (2 ^ 30) with 1073741824. lia.
Qed.
Print Assumptions C55_requests_into.
Example C55_into_case : t_deserialize_into (create_std_engine true) (ByteArrayReader_new [21; 8; 2; 16; 1; 7; 20; 2; 1; 5])
    (Tag 21 (VArr [Tag 0 VNull])) =
  (Ok tt, Tag 21 (VArr [Tag 16 (VBytes [7]); Tag 20 (VILIntArray [5])]), RByteArray [21; 8; 2; 16; 1; 7; 20; 2; 1; 5] 10,
   [EvElements BoxedTag 2; EvTag 16; EvBytes 1; EvTag 20; EvElements U64 1]).
Proof. vm_compute. reflexivity. Qed.

(** Array inside array inside array ..., each with the largest size and count,
    of which only the headers are present. *)
Definition bomb_header : list N := ilint 21 ++ ilint 536870912 ++ ilint 536870912.
Definition bomb (d : nat) : list N := concat (repeat bomb_header d).
Lemma bomb_len d : lenN (bomb d) = 11 * N.of_nat d.
Proof.
  unfold bomb. induction d as [|d IH]; [reflexivity|]. cbn [repeat concat]. rewrite lenN_app, IH.
  change (lenN bomb_header) with 11. lia.
Qed.
Lemma bomb_bytes d : bytes_ok (bomb d).
Proof.
  unfold bomb. induction d as [|d IH]; [constructor|]. cbn [repeat concat]. rewrite bytes_ok_app. split; [|exact IH].
  unfold bomb_header. rewrite !bytes_ok_app. repeat split; apply ilint_bytes_ok; reflexivity.
Qed.
Definition bomb_trace (d : nat) : list event := concat (repeat [EvTag 21; EvElements BoxedTag 536870912] d).
Lemma ilint_of_nothing r : rwf r -> good r -> pending r = [] -> exists err r', deserialize_ilint r = (Err err, r').
Proof.
  intros W G P. destruct (deserialize_ilint r) as [y r'] eqn:E. destruct (safe_deserialize_ilint _ _ _ W E) as (R & _).
  destruct y as [v|err| |]; try contradiction; eauto.
  destruct (sound_deserialize_ilint _ _ _ W E) as (bs & Hb & D). destruct (pending_delivers _ _ _ G D) as [P' _].
  rewrite P in P'. pose proof (ilint_repr_len _ _ Hb) as K. destruct bs; [change (lenN (@nil N)) with 0 in K; lia|discriminate P'].
Qed.
Lemma pending_both r n : (length (pending r) <= N.to_nat n)%nat -> pending (RLimited (RLimited r n) n) = pending r.
Proof. intros H. cbn [pending]. rewrite !takeN_all; auto; unfold lenN; rewrite ?takeN_all by (unfold lenN; lia); lia. Qed.
Lemma bomb_runs s d : forall f r, (d < f)%nat -> 11 * N.of_nat d <= 536870912 -> rwf r -> good r -> pending r = bomb d ->
  exists err r', t_deserialize_fuel f (create_std_engine s) r = (Err err, r', bomb_trace d).
Proof.
  induction d as [|d IH]; intros f r Hf L W G P; (destruct f as [|f]; [lia|]).
  - destruct (ilint_of_nothing r W G P) as (err & r' & E). exists err, r'. cbn [t_deserialize_fuel].
    unfold tbind at 1, quiet at 1. now rewrite E.
  - unfold bomb in P. cbn [repeat concat] in P. fold (bomb d) in P. unfold bomb_header in P. repeat rewrite <- app_assoc in P.
    destruct (read_header 21 536870912 r (ilint 536870912 ++ bomb d)) as (r1 & r2 & E1 & E2 & W2 & G2 & P2); auto; try reflexivity; try lia.
    cbn [t_deserialize_fuel]. unfold tbind, quiet, tell. rewrite E1, E2.
    replace (create_tag (create_std_engine s) 21) with (@Ok tag_error _ (Some (Tag 21 (VArr [])))) by (destruct s; reflexivity).
    unfold t_deserialize_tag_value_into. cbn [tag_val tag_id t_deserialize_value].
    unfold t_run, t_arr, t_limited, LimitedReader_new, tbind, quiet, on_reader.
    set (lr := RLimited (RLimited r2 536870912) 536870912).
    assert (Wl : rwf lr) by exact W2. assert (Gl : good lr) by exact G2.
    pose proof (bomb_len d) as Lb.
    assert (Pl : pending lr = ilint 536870912 ++ bomb d).
    { unfold lr. rewrite pending_both; [exact P2|]. rewrite P2. rewrite app_length.
      assert (K : lenN (ilint 536870912) = 5) by reflexivity. unfold lenN in *. lia. }
    destruct (complete_deserialize_ilint 536870912 (ilint 536870912) (ilint_bytes_ok 536870912 eq_refl)
      (ilint_repr_ilint 536870912 eq_refl) lr (bomb d) Wl Gl Pl) as (r3 & E3 & D3).
    destruct (pending_delivers _ _ _ Gl D3) as [P3 G3]. destruct (delivers_rwf _ _ _ Wl D3) as [W3 _].
    rewrite Pl in P3. apply app_inv_head in P3. rewrite E3.
    change (536870912 <? 536870912) with false. cbv iota. unfold tret, modify, tell, t_fuelled. cbn [snd t_repeat_read].
    change (536870912 =? 0) with false. cbv iota. unfold tbind, t_on_reader.
    destruct (IH f r3 ltac:(lia) ltac:(lia) W3 G3 (eq_sym P3)) as (err & r4 & E4). rewrite E4.
    cbn [map_ok app]. eexists _, _. reflexivity.
Qed.
(** "The memory requested is at most [c] times the input", for any [c] below 48
    million: the same input 11 bytes longer makes the library reserve room for
    another 2^29 boxed tags (2^33 bytes) before it fails. *)
Theorem C55_proportional_refuted : forall strict d, 0 < N.of_nat d <= 48000000 -> exists bs err r' l,
  lenN bs = 11 * N.of_nat d /\ bytes_ok bs /\
  t_deserialize (create_std_engine strict) (ByteArrayReader_new bs) = (Err err, r', l) /\
  requested l = 2 ^ 29 * N.of_nat d /\ 48000000 * lenN bs < requested l.
Proof.
  intros s d H. destruct (mem_reader (bomb d) (bomb_bytes d)) as (W & G & P).
  pose proof (bomb_len d) as Lb.
  assert (Lf : (d < S (left (ByteArrayReader_new (bomb d))))%nat).
  { cbn [left ByteArrayReader_new]. unfold lenN in Lb. lia. }
  destruct (bomb_runs s d _ _ Lf ltac:(lia) W G P) as (err & r' & E).
  exists (bomb d), err, r', (bomb_trace d).
  assert (Q : requested (bomb_trace d) = 536870912 * N.of_nat d).
  { unfold bomb_trace. clear. induction d as [|d IH]; [reflexivity|]. cbn [repeat concat]. rewrite requested_app, IH. cbn [requested fold_right]. lia. }
  split; [exact Lb|]. split; [apply bomb_bytes|]. split; [exact E|]. change (2 ^ 29) with 536870912. split; [exact Q|lia].
Qed.
Print Assumptions C55_proportional_refuted.
(** One header: a byte array of [n] bytes is requested before any of them is read. *)
Theorem C55_header_alone : forall strict n rest r, n <= 2 ^ 29 -> rwf r -> good r ->
  pending r = ilint 16 ++ ilint n ++ rest ->
  exists x r', t_deserialize (create_std_engine strict) r = (x, r', [EvTag 16; EvBytes n]).
Proof.
  intros s n rest r Hn W G P. change (2 ^ 29) with 536870912 in Hn.
  destruct (read_header 16 n r rest) as (r1 & r2 & E1 & E2 & W2 & G2 & P2); auto; try reflexivity.
  unfold t_deserialize. cbn [t_deserialize_fuel]. unfold tbind, quiet, tell. rewrite E1, E2.
  replace (create_tag (create_std_engine s) 16) with (@Ok tag_error _ (Some (Tag 16 (VBytes [])))) by (destruct s; reflexivity).
  unfold t_deserialize_tag_value_into. cbn [tag_val tag_id t_deserialize_value].
  unfold t_run, t_raw, tbind, tell, quiet. destruct (raw_deserialize n _) as [y [v lr]]. cbn [app]. eauto.
Qed.
Print Assumptions C55_header_alone.
Example C55_six_bytes : exists bs, lenN bs = 6 /\
  exists x r', t_deserialize (create_std_engine true) (ByteArrayReader_new bs) = (x, r', [EvTag 16; EvBytes 536870912]).
Proof.
  exists (ilint 16 ++ ilint 536870912 ++ []). split; [reflexivity|].
  destruct (mem_reader (ilint 16 ++ ilint 536870912 ++ [])) as (W & G & P).
  { rewrite !bytes_ok_app. split; [apply ilint_bytes_ok; reflexivity|]. split; [apply ilint_bytes_ok; reflexivity|apply Forall_nil]. }
  exact (C55_header_alone true 536870912 [] _ ltac:(discriminate) W G P).
Qed.
(** A dictionary with two entries: the keys, the values and the tags. *)
Example C55_trace_case : snd (t_deserialize (create_std_engine true) (ByteArrayReader_new
    [30; 12; 2; 17; 1; 65; 20; 3; 2; 5; 6; 17; 1; 66])) = [EvTag 30; EvBytes 1; EvTag 20; EvElements U64 2; EvBytes 1].
Proof. vm_compute. reflexivity. Qed.

(** Readers of the user, whatever their [read_all] does: C69-C71. *)
From Verif Require Import Base BaseFacts Types Spec IO IOSpec IOFacts Logic ILInt ILIntFacts Data DataFacts Tags TagsFacts
  Factory FactoryFacts DecodeFacts DeserFacts IntoFacts EngineFacts FromFacts PDecode Any AnyFacts.

(** ** C69.  Deserialization ends, with bounded work, on any implementation. *)
(** [x] was reached by calls [tr] on the object: none failed before a success;
    before an error at most one did, the last, and the error is its error. *)
Theorem C69_deserialize : forall U (M : reader_impl U) e u x r',
  impl_ok M -> engine_ok e -> engine_total e -> a_deserialize M e (ABase u) = (x, r') ->
  exists u' tr, r' = ABase u' /\ urun M u tr u' /\ bytes_ok (bytes_of tr) /\
    lenN (bytes_of tr) <= 18 + 536870912 /\ lenN tr <= 2 * lenN (bytes_of tr) + 1 /\
    ((exists t, x = Ok t /\ Forall call_ok tr /\ 1 <= lenN (bytes_of tr) /\ lenN tr <= 2 * lenN (bytes_of tr)) \/
     (exists err, x = Err err /\
        (Forall call_ok tr \/ exists tr0 c i, tr = tr0 ++ [c] /\ Forall call_ok tr0 /\ failure c = Some i /\ err = TagIO i))).
Proof.
  intros U M e u x r' HM He Ht E. destruct (deserialize_good M HM e He Ht 0 (ABase u) x r' E) as (R & tr & Hm & Hb & Ho & (Hq & Hd) & _).
  destruct r' as [u'|]; [|contradiction]. exists u', tr. split; [reflexivity|]. split; [exact Hm|]. split; [exact Hb|]. split; [lia|].
  unfold K in Hq. destruct x as [t|err| |]; cbn [is_ok returns] in *; try contradiction.
  - split; [lia|]. left. exists t. split; [reflexivity|]. split; [exact Ho|]. lia.
  - split; [lia|]. right. exists err. split; [reflexivity|exact Ho].
Qed.
Print Assumptions C69_deserialize.

Theorem C69_deserialize_into : forall U (M : reader_impl U) e u t x t' r',
  impl_ok M -> engine_ok e -> engine_total e -> wf t -> a_deserialize_into M e (ABase u) t = (x, t', r') ->
  exists u' tr, r' = ABase u' /\ urun M u tr u' /\ bytes_ok (bytes_of tr) /\
    lenN (bytes_of tr) <= 18 + 536870912 /\ lenN tr <= 2 * lenN (bytes_of tr) + 1 /\
    ((x = Ok tt /\ Forall call_ok tr /\ 1 <= lenN (bytes_of tr) /\ lenN tr <= 2 * lenN (bytes_of tr)) \/
     (exists err, x = Err err /\
        (Forall call_ok tr \/ exists tr0 c i, tr = tr0 ++ [c] /\ Forall call_ok tr0 /\ failure c = Some i /\ err = TagIO i))).
Proof.
  intros U M e u t x t' r' HM He Ht Wt E.
  destruct (into_good M HM e He Ht 0 t (ABase u) (wf_vbytes t Wt) x t' r' E) as (R & tr & Hm & Hb & Ho & (Hq & Hd) & _).
  destruct r' as [u'|]; [|contradiction]. exists u', tr. split; [reflexivity|]. split; [exact Hm|]. split; [exact Hb|]. split; [lia|].
  unfold K in Hq. destruct x as [[]|err| |]; cbn [is_ok returns] in *; try contradiction.
  - split; [lia|]. left. split; [reflexivity|]. split; [exact Ho|]. lia.
  - split; [lia|]. right. exists err. split; [reflexivity|exact Ho].
Qed.
Print Assumptions C69_deserialize_into.

(** An ILInt takes at most nine bytes from any reader. *)
Theorem C69_ilint : forall U (M : reader_impl U) u x r', impl_ok M -> a_decode M (ABase u) = (x, r') ->
  exists u' tr, r' = ABase u' /\ urun M u tr u' /\ lenN (bytes_of tr) <= 9 /\ lenN tr <= lenN (bytes_of tr) + 1 /\
    ((exists v, x = Ok v /\ Forall call_ok tr /\ 1 <= lenN (bytes_of tr)) \/
     (exists err, x = Err err /\
        (Forall call_ok tr \/ exists tr0 c i, tr = tr0 ++ [c] /\ Forall call_ok tr0 /\ failure c = Some i /\ err = ILIntIO i))).
Proof.
  intros U M u x r' HM E. destruct (decode_good M HM (ABase u) x r' E) as (R & tr & Hm & Hb & Ho & (Hd & Hq) & _).
  destruct r' as [u'|]; [|contradiction]. exists u', tr. split; [reflexivity|]. split; [exact Hm|]. split; [lia|].
  destruct x as [t|err| |]; cbn [is_ok returns] in *; try contradiction.
  - split; [lia|]. left. exists t. split; [reflexivity|]. split; [exact Ho|]. lia.
  - split; [lia|]. right. exists err. split; [reflexivity|exact Ho].
Qed.
Print Assumptions C69_ilint.

(** A reader that never ends: [read] gives 17 for ever, and [read_all] says it
    has filled the buffer and has not. *)
Definition liar : reader_impl unit := ReaderImpl _ (fun u => (Ok 17, u)) (fun buff u => (Ok tt, buff, u)).
Lemma liar_ok : impl_ok liar.
Proof.
  constructor; cbn; [intros u x u' [= <- <-]|intros buff u x b u' [= <- <- <-]]; (split; [exact I|]); [|auto].
  intros b [= <-]. reflexivity.
Qed.
Example C69_nonvacuous : impl_ok liar /\
  a_deserialize liar (create_std_engine true) (ABase tt) = (Ok (Tag 17 (VString (repeatN 0 17))), ABase tt).
Proof. split; [exact liar_ok|vm_compute; reflexivity]. Qed.
(** One that fails at the third call, in [read_all], after changing the buffer. *)
Definition breaking : reader_impl N :=
  ReaderImpl _ (fun k => if k =? 2 then (Err EndOfData, k) else (Ok 18, k + 1)) (fun buff k => (Err UnableToReadData, map (fun _ => 7) buff, k + 1)).
Example C69_fails :
  a_deserialize breaking (create_std_engine true) (ABase 0) = (Err (TagIO UnableToReadData), ABase 3) /\
  a_deserialize breaking (create_std_engine true) (ABase 2) = (Err (TagIO EndOfData), ABase 2) /\
  a_deserialize_into breaking (create_std_engine true) (ABase 0) (Tag 18 (VBigInt [1])) = (Err (TagIO UnableToReadData), Tag 18 (VBigInt (repeatN 7 18)), ABase 3).
Proof. vm_compute. repeat split. Qed.

(** ** C70.  The result is a function of the answers. *)
Lemma big : exists F, N.of_nat F = 1073741900.
Proof. exists (N.to_nat 1073741900). apply N2Nat.id. Qed.
(** With no failing call, the code reads the bytes handed out as it would from a
    reader holding exactly these. *)
Theorem C70_answers : forall U (M : reader_impl U) e u x r',
  impl_ok M -> engine_ok e -> engine_total e -> a_deserialize M e (ABase u) = (x, r') ->
  exists u' tr, r' = ABase u' /\ urun M u tr u' /\ bytes_ok (bytes_of tr) /\ ends x tr /\
    (Forall (fun c => ~ hollow c) tr -> deserialize e (RCustom (flat_map answers tr)) = (x, RCustom [])).
Proof.
  intros U M e u x r' HM He Ht E. destruct big as [F HF].
  destruct (deserialize_good M HM e He Ht F (ABase u) x r' E) as (R & tr & Hm & Hb & Ho & (Hq & Hd) & Hz).
  destruct r' as [u'|]; [|contradiction]. exists u', tr. split; [reflexivity|]. split; [exact Hm|]. split; [exact Hb|].
  split; [exact Ho|]. intros Hh. pose proof (replay M u tr u' HM Hm Hh []) as Hr. rewrite app_nil_r in Hr.
  specialize (Hz _ _ Hr). cbn [flat] in Hz. pose proof (script_bytes tr Hb) as W. pose proof (script_len tr) as L.
  assert (Lc : lenN tr <= 2 * lenN (bytes_of tr) + 1) by (unfold K in Hq; destruct (is_ok x); lia).
  assert (Ls : (length (script_of tr) < S F)%nat).
  { assert (length (script_of tr) <= length (bytes_of tr) + 1)%nat; [|unfold lenN in *; lia].
    assert (Hs : clean tr \/ exists tr0 c i, tr = tr0 ++ [c] /\ clean tr0 /\ failure c = Some i).
    { destruct x; cbn [ends] in Ho; auto. destruct Ho as [Ho|(tr0 & c & i & A & B & C & _)]; [now left|right; eauto 8]. }
    destruct Hs as [Hs|(tr0 & c & i & -> & Hs & Hc)]; [rewrite (script_clean _ Hs), map_length; lia|].
    unfold script_of. rewrite flat_map_app, bytes_of_app, !app_length. change (flat_map answers tr0) with (script_of tr0).
    rewrite (script_clean _ Hs), map_length. destruct c as [[?|?]|? [?|?]]; try discriminate; cbn; lia. }
  change (flat_map answers tr) with (script_of tr).
  rewrite (deserialize_fuel_eq e (S F) (RCustom (script_of tr)) He W Ls) in Hz.
  destruct (deserialize e (RCustom (script_of tr))) as [z w] eqn:Ez.
  destruct Hz as [->|(-> & -> & _)]; [|reflexivity]. now destruct (deserialize_terminates _ _ _ _ He W Ez).
Qed.
Print Assumptions C70_answers.

Lemma clean_solid tr : clean tr -> Forall (fun c => ~ hollow c) tr.
Proof. apply Forall_impl. intros [[?|?]|n [?|?]]; cbn; try contradiction; destruct n; tauto. Qed.
(** An accepted tag is the one the bytes handed out encode. *)
Theorem C70_accepted : forall U (M : reader_impl U) e u t r',
  impl_ok M -> engine_ok e -> engine_total e -> a_deserialize M e (ABase u) = (Ok t, r') ->
  exists u' tr, r' = ABase u' /\ urun M u tr u' /\ Forall call_ok tr /\ bytes_ok (bytes_of tr) /\
    wire (mk_of e) (bytes_of tr) t /\ wf t /\ from_bytes e (bytes_of tr) = Ok t.
Proof.
  intros U M e u t r' HM He Ht E. destruct (C70_answers U M e u _ _ HM He Ht E) as (u' & tr & -> & Hu & Hb & Ho & Hd).
  exists u', tr. split; [reflexivity|]. split; [exact Hu|]. split; [exact Ho|]. split; [exact Hb|].
  specialize (Hd (clean_solid _ Ho)). pose proof (script_bytes tr Hb) as W. change (flat_map answers tr) with (script_of tr) in Hd.
  destruct (C26_success_on_any_reader e _ t _ He W Hd) as (bs & Hw & D & _ & Wt).
  cbn [delivers] in D. rewrite app_nil_r, (script_clean _ Ho) in D.
  assert (bytes_of tr = bs) as <-. { apply (f_equal (map (fun y : io_error + N => match y with inr b => b | inl _ => 0 end))) in D.
    rewrite !map_map, !map_id in D. exact D. }
  split; [exact Hw|]. split; [exact Wt|]. now apply from_bytes_iff.
Qed.
Print Assumptions C70_accepted.
(** A rejection without a failing call is the rejection of those bytes. *)
Theorem C70_rejected : forall U (M : reader_impl U) e u err r',
  impl_ok M -> engine_ok e -> engine_total e -> a_deserialize M e (ABase u) = (Err err, r') ->
  exists u' tr, r' = ABase u' /\ urun M u tr u' /\ bytes_ok (bytes_of tr) /\
    ((Forall call_ok tr /\ deserialize e (RCustom (map inr (bytes_of tr))) = (Err err, RCustom [])) \/
     (exists tr0 c i, tr = tr0 ++ [c] /\ Forall call_ok tr0 /\ failure c = Some i /\ err = TagIO i /\
        (~ hollow c -> deserialize e (RCustom (map inr (bytes_of tr0) ++ [inl i])) = (Err err, RCustom [])))).
Proof.
  intros U M e u err r' HM He Ht E. destruct (C70_answers U M e u _ _ HM He Ht E) as (u' & tr & -> & Hu & Hb & Ho & Hd).
  exists u', tr. split; [reflexivity|]. split; [exact Hu|]. split; [exact Hb|]. cbn [ends] in Ho.
  destruct Ho as [Ho|(tr0 & c & i & -> & H0 & Hc & ->)].
  - left. split; [exact Ho|]. rewrite <- (script_clean _ Ho). exact (Hd (clean_solid _ Ho)).
  - right. exists tr0, c, i. split; [reflexivity|]. split; [exact H0|]. split; [exact Hc|]. split; [reflexivity|]. intros Hh.
    rewrite <- (script_clean _ H0). rewrite <- Hd; [|apply Forall_app; split; [now apply clean_solid|constructor; [exact Hh|constructor]]].
    rewrite flat_map_app. do 3 f_equal. destruct c as [[?|?]|? [?|?]]; try discriminate; cbn in *; congruence.
Qed.
Print Assumptions C70_rejected.
(** For a type that provides [read] only there is no condition on the calls. *)
Theorem C70_read_only : forall U (rd : U -> res io_error N * U) e u x r',
  (forall u x u', rd u = (x, u') -> returns x /\ (forall b, x = Ok b -> byte_ok b)) ->
  engine_ok e -> engine_total e -> a_deserialize (default_impl rd) e (ABase u) = (x, r') ->
  exists u' tr, r' = ABase u' /\ urun (default_impl rd) u tr u' /\ ends x tr /\
    deserialize e (RCustom (flat_map answers tr)) = (x, RCustom []).
Proof.
  intros U rd e u x r' H He Ht E.
  destruct (C70_answers U _ e u _ _ (default_impl_ok rd H) He Ht E) as (u' & tr & -> & Hu & _ & Ho & Hd).
  exists u', tr. split; [reflexivity|]. split; [exact Hu|]. split; [exact Ho|]. apply Hd. clear - Hu.
  induction Hu as [u|u b u1 tr u2 E1 _ IH|u i u1 tr u2 E1 _ IH|u buff bs u1 tr u2 E1 _ IH|u buff i bs u1 tr u2 E1 _ IH];
    constructor; try assumption; try (cbn; tauto).
  - destruct (lenN buff); cbn; tauto.
  - destruct buff; [discriminate|]. rewrite lenN_cons. destruct (1 + lenN buff) eqn:L; [lia|]. cbn. tauto.
Qed.
Print Assumptions C70_read_only.
Example C70_nonvacuous :
  urun liar tt [CRead (inr 17); CRead (inr 17); CFill 17 (inr (repeatN 0 17))] tt /\
  from_bytes (create_std_engine true) ([17; 17] ++ repeatN 0 17) = Ok (Tag 17 (VString (repeatN 0 17))).
Proof.
  split; [|vm_compute; reflexivity]. do 2 (apply urun_read with (u1 := tt); [reflexivity|]).
  apply (urun_fill liar tt (repeatN 0 17) _ tt); [reflexivity|constructor].
Qed.

(** ** C71.  Readers that answer alike. *)
(** An object that gives the answers of a reader of the library is read as this
    one is, whatever the code behind the answers. *)
Theorem C71_same_answers : forall U (M : reader_impl U) R e u rr x r',
  impl_ok M -> same_answers M R -> engine_ok e -> engine_total e -> R u rr -> rwf rr ->
  a_deserialize M e (ABase u) = (x, r') ->
  exists u' rr', r' = ABase u' /\ deserialize e rr = (x, rr') /\ R u' rr'.
Proof.
  intros U M R e u rr x r' HM HS He Ht HR W E.
  destruct (deserialize_good M HM e He Ht (left rr) (ABase u) x r' E) as (Rx & tr & Hm & Hb & Ho & _ & Hz).
  destruct r' as [u'|]; [|contradiction]. destruct (same_run M R u tr u' HS Hm rr HR) as (rr' & Hr & HR').
  exists u', rr'. split; [reflexivity|]. split; [|exact HR']. specialize (Hz _ _ Hr). cbn [flat] in Hz.
  rewrite (deserialize_fuel_eq e (S (left rr)) rr He W) in Hz by lia.
  destruct (deserialize e rr) as [z w] eqn:Ez. destruct Hz as [->|(-> & -> & _)]; [|reflexivity].
  now destruct (deserialize_terminates _ _ _ _ He W Ez).
Qed.
Print Assumptions C71_same_answers.
Lemma into_terminates e r t x t' r' : engine_ok e -> rwf r -> deserialize_into e r t = (x, t', r') -> x <> OutOfFuel.
Proof.
  intros He W H. unfold deserialize_into in H. destruct (deserialize_ilint r) as [y r1] eqn:E1.
  destruct (safe_deserialize_ilint _ _ _ W E1) as (R1 & W1 & _).
  destruct y as [wid|err| |]; try contradiction; [|intros ->; discriminate].
  destruct (negb _); [intros ->; discriminate|]. destruct (deserialize_tag_size wid r1) as [y r2] eqn:E2.
  destruct (safe_tag_size _ _ _ _ W1 E2) as (R2 & W2 & _).
  destruct y as [n|err| |]; try contradiction; [|intros ->; discriminate].
  destruct (tag_value_into_safe True (S (left r2)) (deserialize_fuel (S (left r2)) e) n t r2 x t' r') as (R & _); auto.
  - intros q z q' Wq Lq Eq. apply (deserialize_fuel_safe True e (S (left r2)) He (create_tag_terminates e) q z q' Wq); [exact Lq|exact Eq].
  - now apply progress_deserialize.
  - intros ->. exact R.
Qed.
Theorem C71_same_answers_into : forall U (M : reader_impl U) R e u rr t x t' r',
  impl_ok M -> same_answers M R -> engine_ok e -> engine_total e -> wf t -> R u rr -> rwf rr ->
  a_deserialize_into M e (ABase u) t = (x, t', r') ->
  exists u' rr' t'', r' = ABase u' /\ deserialize_into e rr t = (x, t'', rr') /\ (x = Ok tt -> t'' = t') /\ R u' rr'.
Proof.
  intros U M R e u rr t x t' r' HM HS He Ht Wt HR W E.
  destruct (into_good M HM e He Ht (S (left rr)) t (ABase u) (wf_vbytes t Wt) x t' r' E) as (Rx & tr & Hm & Hb & Ho & _ & Hz).
  destruct r' as [u'|]; [|contradiction]. destruct (same_run M R u tr u' HS Hm rr HR) as (rr' & Hr & HR').
  specialize (Hz _ _ Hr). cbn [flat] in Hz. rewrite (into_with_eq e (S (left rr)) rr t He W) in Hz by lia.
  destruct (deserialize_into e rr t) as [[z v] w] eqn:Ez. exists u', rr', v. split; [reflexivity|].
  destruct Hz as [->|(-> & -> & Hs)]; [|].
  - exfalso. exact (into_terminates e rr t _ _ _ He W Ez eq_refl).
  - split; [reflexivity|]. split; [|exact HR']. intros ->. now apply Hs.
Qed.
Print Assumptions C71_same_answers_into.
(** In particular the readers of the library: the functions of Any.v and those
    of Factory.v agree on them. *)
Theorem C71_library_readers : forall e r (W : rwf r), engine_ok e -> engine_total e ->
  exists W', a_deserialize reader_as_impl e (ABase (exist _ r W)) = (fst (deserialize e r), ABase (exist _ (snd (deserialize e r)) W')).
Proof.
  intros e r W He Ht. destruct (a_deserialize reader_as_impl e (ABase (exist _ r W))) as [x r'] eqn:E.
  destruct (C71_same_answers _ _ same_reader e (exist _ r W) r _ _ reader_as_impl_ok reader_as_impl_same He Ht eq_refl W E) as ([q Wq] & rr & -> & -> & Hs).
  unfold same_reader in Hs. cbn [proj1_sig] in Hs. subst rr. cbn [fst snd]. now exists Wq.
Qed.
Print Assumptions C71_library_readers.
(** A queue with a bulk [read_all] of its own answers as a reader that has only
    the default one. *)
Definition low (b : N) : N := b mod 256.
Definition queue : reader_impl (list N) :=
  ReaderImpl _
    (fun u => match u with [] => (Err EndOfData, []) | b :: u' => (Ok (low b), u') end)
    (fun buff u => if lenN buff <=? lenN u then (Ok tt, map low (takeN (lenN buff) u), dropN (lenN buff) u)
                   else (Err EndOfData, map low u ++ dropN (lenN u) buff, [])).
Lemma low_ok u : bytes_ok (map low u).
Proof. induction u; constructor; [|assumption]. unfold byte_ok, low. lia. Qed.
Lemma low_id u : bytes_ok u -> map low u = u.
Proof. induction 1 as [|b u H _ IH]; [reflexivity|]. cbn [map]. rewrite IH. f_equal. unfold byte_ok, low in *. lia. Qed.
Lemma lenN_map {A B} (f : A -> B) l : lenN (map f l) = lenN l.
Proof. unfold lenN. now rewrite map_length. Qed.
Lemma queue_ok : impl_ok queue.
Proof.
  constructor; cbn [queue u_read u_read_all].
  - intros u x u' E. destruct u as [|b u]; apply pair_inv in E; destruct E as [<- _]; (split; [exact I|]); [discriminate|].
    intros c Hc. apply Ok_inv in Hc. subst c. unfold byte_ok, low. lia.
  - intros buff u x buff' u' E. destruct (N.leb_spec (lenN buff) (lenN u)).
    + injection E as <- <- <-. split; [exact I|]. rewrite lenN_map, lenN_takeN. split; [lia|]. intros _. apply low_ok.
    + injection E as <- <- <-. split; [exact I|]. rewrite lenN_app, lenN_map, lenN_dropN. split; [lia|].
      intros Hb. apply Forall_app. split; [apply low_ok|now apply Forall_dropN].
Qed.
Lemma custom_all_short (u : list N) n : (length u < n)%nat -> read_custom_all n (map inr u) = (Err EndOfData, u, []).
Proof.
  revert n. induction u as [|b u IH]; intros [|n] L; cbn [length] in L; try lia; [reflexivity|].
  cbn [map read_custom_all]. now rewrite IH by lia.
Qed.
Lemma queue_same : same_answers queue (fun u rr => bytes_ok u /\ rr = RCustom (map inr u)).
Proof.
  constructor.
  - intros u rr x u' [B ->] E. cbn [queue u_read] in E. destruct u as [|b u]; apply pair_inv in E; destruct E as [<- <-]; cbn [map read].
    + exists (RCustom []). repeat split; constructor.
    + inversion B as [|? ? Hb B']; subst. unfold byte_ok in Hb. exists (RCustom (map inr u)). repeat split; [|exact B'].
      do 2 f_equal. unfold low. symmetry. now apply N.mod_small.
  - intros u rr buff x buff' u' [B ->] E. cbn [queue u_read_all] in E. cbn [read_all]. destruct (N.leb_spec (lenN buff) (lenN u)).
    + injection E as <- <- <-. exists (takeN (lenN buff) u), (RCustom (map inr (dropN (lenN buff) u))).
      rewrite low_id by (now apply Forall_takeN). split; [|split; [reflexivity|]; split; [now apply Forall_dropN|reflexivity]].
      replace (N.to_nat (N.min (lenN buff) (lenN (map inr u) + 1))) with (length (takeN (lenN buff) u)).
      2:{ pose proof (lenN_takeN (lenN buff) u) as L. unfold lenN in *. rewrite map_length. lia. }
      rewrite <- (takeN_dropN (lenN buff) u) at 2. rewrite map_app. now rewrite custom_all_map.
    + injection E as <- <- <-. exists u, (RCustom []). split; [|split; [discriminate|]; split; [constructor|reflexivity]].
      rewrite custom_all_short; [reflexivity|]. unfold lenN in *. rewrite map_length. lia.
Qed.
Example C71_nonvacuous :
  impl_ok queue /\ same_answers queue (fun u rr => bytes_ok u /\ rr = RCustom (map inr u)) /\
  a_deserialize queue (create_std_engine true) (ABase [22; 6; 10; 5; 17; 2; 65; 66; 9]) =
    (Ok (Tag 22 (VSeq [Tag 10 (VILInt 5); Tag 17 (VString [65; 66])])), ABase [9]) /\
  deserialize (create_std_engine true) (RCustom (map inr [22; 6; 10; 5; 17; 2; 65; 66; 9])) =
    (Ok (Tag 22 (VSeq [Tag 10 (VILInt 5); Tag 17 (VString [65; 66])])), RCustom [inr 9]).
Proof. split; [exact queue_ok|]. split; [exact queue_same|]. vm_compute. split; reflexivity. Qed.

(** User types of tags on readers of the user: C82. *)
From Verif Require Import Base BaseFacts Types Spec SpecFacts IO IOSpec IOFacts Logic HistFacts ILInt ILIntFacts Data DataFacts Tags TagsFacts
  Factory FactoryFacts DecodeFacts DeserFacts IntoFacts EngineFacts ClosedFacts Open KinFacts OpenFacts POpen Prog ProgFacts ProgWire
  Any AnyFacts PAny AnyScan AnyProg AnyProgFacts PProg.

(** ** C82.  Deserialization with user types of tags, each with any program as its
    deserialize_value, from any implementation of Reader. *)
(** It ends, without a panic, after a run of calls on the reader; those that
    succeed hand out at most 18 + 512 MB, whatever the failing ones do. *)
Theorem C82_total : forall U (M : reader_impl U) T c (D : user_impl T) (S : script T) e u,
  impl_ok M -> cfg_ok c -> (forall n x, calm (S n x)) -> (forall id, u_create D id <> Some None) -> engine_ok e -> engine_total e ->
  (exists x u' tr, ao_deserialize M c D S e (ABase u) = (x, ABase u') /\ returns x /\ prun M u tr u' /\ bytes_ok (pbytes tr) /\
     lenN (pbytes tr) <= 18 + 536870912 /\ (is_ok x = true -> 1 <= lenN (pbytes tr))) /\
  (forall t, fit t ->
   exists x t' u' tr, ao_deserialize_into M c D S e (ABase u) t = (x, t', ABase u') /\ returns x /\ prun M u tr u' /\ bytes_ok (pbytes tr) /\
     lenN (pbytes tr) <= 18 + 536870912 /\ (is_ok x = true -> 1 <= lenN (pbytes tr))).
Proof.
  intros U M T c D S e u HM Hc Hp Hn He Ht. split.
  - destruct (ao_deserialize M c D S e (ABase u)) as [x r'] eqn:E.
    destruct (p_deserialize M HM False (J := nat) c D S Hc Hp (fun f => match f with end) e He Ht Hn (fun f => f) (ABase u) x r' E)
      as (R & tr & Hm & Hb & _ & [Hq Hd] & _).
    destruct r' as [u'|]; [|contradiction]. exists x, u', tr. split; [reflexivity|]. do 3 (split; [assumption|]). split; [lia|exact Hq].
  - intros t Hf. destruct (ao_deserialize_into M c D S e (ABase u) t) as [[x t'] r'] eqn:E.
    destruct (p_into M HM False c D S e t (ABase u) Hc Hp (fun f => match f with end) He Ht Hn Hf x t' r' E)
      as (R & tr & Hm & Hb & _ & [Hq Hd] & _).
    destruct r' as [u'|]; [|contradiction]. exists x, t', u', tr. split; [reflexivity|]. do 3 (split; [assumption|]). split; [lia|exact Hq].
Qed.
Print Assumptions C82_total.

(** The result depends on the answers of the reader only: a reader of the library
    that gives the answers of the run, bytes, errors and contents of the buffers,
    leads to the same result and is left where the run leaves it. *)
Theorem C82_answers : forall U (M : reader_impl U) T c (D : user_impl T) (S : script T) e u x r',
  impl_ok M -> cfg_ok c -> (forall n x, calm (S n x)) -> (forall id, u_create D id <> Some None) -> engine_ok e -> engine_total e ->
  ao_deserialize M c D S e (ABase u) = (x, r') ->
  exists u' tr, r' = ABase u' /\ prun M u tr u' /\
    forall rr rr', rwf rr -> mrun rr tr rr' -> o_deserialize (scripted c D S) e rr = (x, rr').
Proof.
  intros U M T c D S e u x r' HM Hc Hp Hn He Ht E.
  destruct (p_deserialize M HM False (J := nat) c D S Hc Hp (fun f => match f with end) e He Ht Hn (fun f => f) (ABase u) x r' E)
    as (R & tr & Hm & Hb & _ & _ & Hz).
  destruct r' as [u'|]; [|contradiction]. exists u', tr. split; [reflexivity|]. split; [exact Hm|]. intros rr rr' W Hr.
  specialize (Hz (left rr) rr rr' Hr). unfold o_deserialize.
  destruct (C81_total T c D S e rr Hc Hp Hn Ht W) as [(z & w & Ez & Rz & _) _]. unfold o_deserialize in Ez. cbn [flat] in Hz. rewrite Ez in *.
  destruct Hz as [->|(-> & -> & _)]; [contradiction|reflexivity].
Qed.
Print Assumptions C82_answers.
Theorem C82_answers_into : forall U (M : reader_impl U) T c (D : user_impl T) (S : script T) e u t x t' r',
  impl_ok M -> cfg_ok c -> (forall n x, calm (S n x)) -> (forall id, u_create D id <> Some None) -> engine_ok e -> engine_total e -> fit t ->
  ao_deserialize_into M c D S e (ABase u) t = (x, t', r') ->
  exists u' tr, r' = ABase u' /\ prun M u tr u' /\
    forall rr rr', rwf rr -> mrun rr tr rr' ->
      exists t'', o_deserialize_into (scripted c D S) e rr t = (x, t'', rr') /\ (x = Ok tt -> t'' = t').
Proof.
  intros U M T c D S e u t x t' r' HM Hc Hp Hn He Ht Hf E.
  destruct (p_into M HM False c D S e t (ABase u) Hc Hp (fun f => match f with end) He Ht Hn Hf x t' r' E) as (R & tr & Hm & Hb & _ & _ & Hz).
  destruct r' as [u'|]; [|contradiction]. exists u', tr. split; [reflexivity|]. split; [exact Hm|]. intros rr rr' W Hr.
  specialize (Hz O rr rr' Hr). cbn [flat] in Hz.
  destruct (C81_total T c D S e rr Hc Hp Hn Ht W) as [_ K].
  destruct (K t ltac:(destruct t; cbn in *; tauto)) as (z & v & w & Ez & Rz & _). rewrite Ez in *.
  destruct Hz as [->|(-> & -> & Hs)]; [contradiction|]. exists v. split; [reflexivity|]. intros ->. now apply Hs.
Qed.
Print Assumptions C82_answers_into.

Lemma custom_rwf bs rest : bytes_ok bs -> rwf (RCustom rest) -> rwf (RCustom (map inr bs ++ rest)).
Proof. cbn [rwf]. intros H K. apply Forall_app. split; [|exact K]. apply Forall_map. exact H. Qed.
(** If no call fails, then that is what deserialization from the bytes handed out
    does, with none left over. *)
Theorem C82_bytes : forall U (M : reader_impl U) T c (D : user_impl T) (S : script T) e u x r',
  impl_ok M -> cfg_ok c -> (forall n x, calm (S n x)) -> (forall id, u_create D id <> Some None) -> engine_ok e -> engine_total e ->
  ao_deserialize M c D S e (ABase u) = (x, r') ->
  exists u' tr, r' = ABase u' /\ prun M u tr u' /\
    (Forall pcall_ok tr -> forall rest, rwf (RCustom rest) ->
       o_deserialize (scripted c D S) e (RCustom (map inr (pbytes tr) ++ rest)) = (x, RCustom rest)).
Proof.
  intros U M T c D S e u x r' HM Hc Hp Hn He Ht E.
  destruct (p_deserialize M HM False (J := nat) c D S Hc Hp (fun f => match f with end) e He Ht Hn (fun f => f) (ABase u) x r' E)
    as (R & tr & Hm & Hb & _ & _ & Hz).
  destruct r' as [u'|]; [|contradiction]. exists u', tr. split; [reflexivity|]. split; [exact Hm|]. intros Ho rest Hrest.
  pose proof (clean_replay M HM u tr u' rest Hm Ho) as Hr.
  specialize (Hz (left (RCustom (map inr (pbytes tr) ++ rest))) _ _ Hr). unfold o_deserialize.
  assert (W : rwf (RCustom (map inr (pbytes tr) ++ rest))) by now apply custom_rwf.
  destruct (C81_total T c D S e _ Hc Hp Hn Ht W) as [(z & w & Ez & Rz & _) _]. unfold o_deserialize in Ez. cbn [flat] in Hz. rewrite Ez in *.
  destruct Hz as [->|(-> & -> & _)]; [contradiction|reflexivity].
Qed.
Print Assumptions C82_bytes.

(** Programs that propagate failures: a tag is accepted only if no call has
    failed, and then the bytes handed out are that tag, in the language of C81. *)
Theorem C82_accepted : forall U (M : reader_impl U) T c (D : user_impl T) (S : script T) e u t r',
  impl_ok M -> cfg_ok c -> (forall n x, calm (S n x)) -> (forall n x, strict (S n x) is_error) ->
  (forall id, u_create D id <> Some None) -> engine_ok e -> engine_total e ->
  ao_deserialize M c D S e (ABase u) = (Ok t, r') ->
  exists u' tr, r' = ABase u' /\ prun M u tr u' /\ Forall pcall_ok tr /\ bytes_ok (pbytes tr) /\ spoken D S e (pbytes tr) t.
Proof.
  intros U M T c D S e u t r' HM Hc Hp Hs Hn He Ht E.
  destruct (p_deserialize M HM True (J := nat) c D S Hc Hp (fun _ => Hs) e He Ht Hn (fun f => f) (ABase u) (Ok t) r' E)
    as (R & tr & Hm & Hb & Ho & _ & Hz). specialize (Ho I eq_refl).
  destruct r' as [u'|]; [|contradiction]. exists u', tr. split; [reflexivity|]. do 3 (split; [assumption|]).
  pose proof (clean_replay M HM u tr u' [] Hm Ho) as Hr.
  assert (W : rwf (RCustom (map inr (pbytes tr) ++ []))) by (apply custom_rwf; [exact Hb|constructor]).
  specialize (Hz (left (RCustom (map inr (pbytes tr) ++ []))) _ _ Hr).
  destruct (C81_total T c D S e _ Hc Hp Hn Ht W) as [(z & w & Ez & Rz & _) _]. unfold o_deserialize in Ez. cbn [flat] in Hz. rewrite Ez in Hz.
  destruct Hz as [->|(-> & -> & _)]; [contradiction|].
  destruct (C81_accepted T c D S e _ t _ He Hs W Ez) as (bs & Hsp & Hd). cbn [delivers] in Hd.
  rewrite !app_nil_r in Hd. assert (pbytes tr = bs) as ->; [|exact Hsp].
  clear - Hd. revert bs Hd. induction (pbytes tr) as [|b l IH]; intros [|b' bs] H; try discriminate; [reflexivity|].
  cbn [map] in H. injection H as -> H. f_equal. auto.
Qed.
Print Assumptions C82_accepted.

(** Against a reader of the library which a user type imitates, buffers included,
    whatever fails and whatever the programs do about it. *)
Theorem C82_same_answers : forall U (M : reader_impl U) R T c (D : user_impl T) (S : script T) e u rr x r',
  impl_ok M -> same_buffers M R -> cfg_ok c -> (forall n x, calm (S n x)) -> (forall id, u_create D id <> Some None) ->
  engine_ok e -> engine_total e -> R u rr -> rwf rr ->
  ao_deserialize M c D S e (ABase u) = (x, r') ->
  exists u' rr', r' = ABase u' /\ o_deserialize (scripted c D S) e rr = (x, rr') /\ R u' rr'.
Proof.
  intros U M R T c D S e u rr x r' HM HS Hc Hp Hn He Ht HR W E.
  destruct (C82_answers U M T c D S e u x r' HM Hc Hp Hn He Ht E) as (u' & tr & -> & Hm & Ha).
  destruct (same_buffers_run M R u tr u' rr HS Hm HR) as (rr' & Hr & HR'). exists u', rr'. eauto.
Qed.
Print Assumptions C82_same_answers.
Theorem C82_library_readers : forall T c (D : user_impl T) (S : script T) e r (W : rwf r),
  cfg_ok c -> (forall n x, calm (S n x)) -> (forall id, u_create D id <> Some None) -> engine_ok e -> engine_total e ->
  exists W', ao_deserialize reader_as_impl c D S e (ABase (exist _ r W)) =
    (fst (o_deserialize (scripted c D S) e r), ABase (exist _ (snd (o_deserialize (scripted c D S) e r)) W')).
Proof.
  intros T c D S e r W Hc Hp Hn He Ht. destruct (ao_deserialize reader_as_impl c D S e (ABase (exist _ r W))) as [x r'] eqn:E.
  destruct (C82_same_answers _ _ same_reader T c D S e (exist _ r W) r _ _ reader_as_impl_ok reader_as_impl_buffers Hc Hp Hn He Ht eq_refl W E)
    as ([q Wq] & rr & -> & -> & Hs).
  unfold same_reader in Hs. cbn [proj1_sig] in Hs. subst rr. cbn [fst snd]. now exists Wq.
Qed.
Print Assumptions C82_library_readers.

(** Whatever the program and the reader do, the LimitedReader that the library
    gives to the program has counted what the reader has handed out, and that is
    at most the size of the tag. *)
Theorem C82_confined : forall U (M : reader_impl U) T c (D : user_impl T) (S : script T) e f n x0 u y x lr,
  impl_ok M -> cfg_ok c -> (forall n x, calm (S n x)) -> (forall id, u_create D id <> Some None) -> engine_ok e -> engine_total e ->
  (N.to_nat n < f)%nat ->
  ao_user M c S (ao_fuel M c D S f e) n (x0, ALimited (ABase u) n) = (y, (x, lr)) ->
  returns y /\ exists u' tr, lr = ALimited (ABase u') (n - lenN (pbytes tr)) /\ lenN (pbytes tr) <= n /\ prun M u tr u'.
Proof.
  intros U M T c D S e f n x0 u y x lr HM Hc Hp Hn He Ht Lf E.
  destruct (p_user M HM False (J := nat) c D S Hc Hp (fun f => match f with end) (ao_fuel M c D S f e)
    (fun j => o_deserialize_fuel (scripted c D S) j e) (within f) n x0 (ALimited (ABase u) n) (stable_within M f) (deep_within f))
    with (y := y) (x' := (x, lr)) as (R & tr & Hm & _); [| | |exact E|].
  - intros r W. eapply pgood_weaken; [now apply p_fuel with (F := fun f => f)|]. unfold PD. tauto.
  - left. exact Lf.
  - exact I.
  - split; [exact R|]. cbn [snd] in Hm. destruct lr as [|[u'|] a]; cbn [pmoved] in Hm; try contradiction; [|destruct Hm; contradiction].
    destruct Hm as [Hm Ha]. exists u', tr. split; [f_equal; lia|]. split; [lia|exact Hm].
Qed.
Print Assumptions C82_confined.

(** ** Concrete cases *)
(** A reader whose requests for more than one byte fail every other time, having
    scribbled over the buffer, without taking any data. *)
Definition flaky : reader_impl (list N * bool) :=
  ReaderImpl _
    (fun st : list N * bool => let '(l, b) := st in match l with [] => (Err EndOfData, (l, b)) | x :: l' => (Ok (low x), (l', b)) end)
    (fun buff (st : list N * bool) => let '(l, b) := st in
       if b then (Err UnableToReadData, map (fun _ => 7) buff, (l, false))
       else if lenN buff <=? lenN l then (Ok tt, map low (takeN (lenN buff) l), (dropN (lenN buff) l, 1 <? lenN buff))
       else (Err EndOfData, buff, (l, b))).
Lemma flaky_ok : impl_ok flaky.
Proof.
  constructor; cbn [flaky u_read u_read_all].
  - intros [u b] x u' E. destruct u as [|y u]; apply pair_inv in E; destruct E as [<- _]; (split; [exact I|]); [discriminate|].
    intros k Hk. apply Ok_inv in Hk. subst k. unfold byte_ok, low. lia.
  - intros buff [u b] x buff' u' E. destruct b; [|destruct (N.leb_spec (lenN buff) (lenN u))]; injection E as <- <- <-; (split; [exact I|]).
    + rewrite lenN_map. split; [reflexivity|]. intros _. apply Forall_map, Forall_forall. intros. unfold byte_ok. lia.
    + rewrite lenN_map, lenN_takeN. split; [lia|]. intros _. apply low_ok.
    + auto.
Qed.
(** A program that ignores failures and keeps what they leave in its buffer. *)
Definition careless : script (list N) := fun n _ =>
  DoReadAll (repeatN 0 n) (fun x got => match x with
    | Ok _ => Done (None, got)
    | _ => DoReadAll (repeatN 0 n) (fun y got2 => Done (None, got ++ got2))
    end).
Lemma careless_calm n x : calm (careless n x).
Proof. cbn. intros [[]|e| |] got R; try contradiction; cbn; auto. Qed.
Lemma bytes_created id : u_create bytes_user id <> Some None.
Proof. cbn [u_create bytes_user]. destruct (id =? 2000); discriminate. Qed.
Lemma boxed_no_panic id : u_create boxed_user id <> Some None.
Proof. cbn [u_create boxed_user]. destruct (id =? 2000); discriminate. Qed.
Lemma c64_ok : cfg_ok c64.
Proof. split; vm_compute; discriminate. Qed.
Example C82_total_instance : exists x u' tr,
  ao_deserialize flaky c64 boxed_user boxed_program (create_std_engine false) (ABase (boxed_bytes, true)) = (x, ABase u') /\ returns x /\
  prun flaky (boxed_bytes, true) tr u' /\ lenN (pbytes tr) <= 18 + 536870912.
Proof.
  destruct (C82_total _ flaky _ c64 boxed_user boxed_program (create_std_engine false) (boxed_bytes, true)) as [(x & u' & tr & E & R & Hr & _ & L & _) _].
  - exact flaky_ok.
  - exact c64_ok.
  - exact boxed_calm.
  - exact boxed_no_panic.
  - apply std_engine_ok.
  - apply std_engine_total.
  - eauto 8.
Qed.
(** The first request of the program fails after the header [249; 6; 216]; the
    second succeeds; the tag is accepted with the remains of the first. *)
Example C82_answers_instance :
  ao_deserialize flaky c64 bytes_user careless (create_std_engine false) (ABase ([249; 6; 216; 2; 1; 2; 9], false)) =
    (Ok (OUser [7; 7; 1; 2]), ABase ([9], true)) /\
  prun flaky ([249; 6; 216; 2; 1; 2; 9], false)
    [PRead (inr 249); PFill [0; 0] (inr tt) [6; 216]; PRead (inr 2); PFill [0; 0] (inl UnableToReadData) [7; 7]; PFill [0; 0] (inr tt) [1; 2]] ([9], true).
Proof. split; [vm_compute; reflexivity|]. repeat (econstructor; [reflexivity|]). constructor. Qed.
Example C82_bytes_instance :
  o_deserialize (scripted c64 boxed_user boxed_program) (create_std_engine false) (RCustom (map inr boxed_bytes ++ [inl EndOfData])) =
    (Ok boxed_tree, RCustom [inl EndOfData]) /\
  ao_deserialize queue c64 boxed_user boxed_program (create_std_engine false) (ABase (boxed_bytes ++ [99])) = (Ok boxed_tree, ABase [99]).
Proof. vm_compute. split; reflexivity. Qed.
Example C82_accepted_instance : exists u' tr, prun queue (boxed_bytes ++ [99]) tr u' /\ Forall pcall_ok tr /\
  spoken boxed_user boxed_program (create_std_engine false) (pbytes tr) boxed_tree.
Proof.
  destruct (C82_accepted _ queue _ c64 boxed_user boxed_program (create_std_engine false) (boxed_bytes ++ [99]) boxed_tree (ABase [99]))
    as (u' & tr & _ & Hr & Ho & _ & Hs).
  - exact queue_ok.
  - exact c64_ok.
  - exact boxed_calm.
  - exact boxed_strict.
  - exact boxed_no_panic.
  - apply std_engine_ok.
  - apply std_engine_total.
  - exact (proj2 C82_bytes_instance).
  - eauto.
Qed.
Lemma queue_buffers : same_buffers queue (fun u rr => bytes_ok u /\ rr = RCustom (map inr u)).
Proof.
  constructor; [exact (sa_read _ _ queue_same)|].
  intros u rr buff x buff' u' [B ->] E. cbn [queue u_read_all] in E. cbn [read_all]. destruct (N.leb_spec (lenN buff) (lenN u)).
  - injection E as <- <- <-. exists (takeN (lenN buff) u), (RCustom (map inr (dropN (lenN buff) u))).
    rewrite low_id by (now apply Forall_takeN). split; [|split; [|split; [now apply Forall_dropN|reflexivity]]].
    + replace (N.to_nat (N.min (lenN buff) (lenN (map inr u) + 1))) with (length (takeN (lenN buff) u)).
      2:{ pose proof (lenN_takeN (lenN buff) u) as L. unfold lenN in *. rewrite map_length. lia. }
      rewrite <- (takeN_dropN (lenN buff) u) at 2. rewrite map_app. now rewrite custom_all_map.
    + rewrite (dropN_all _ buff), app_nil_r by (rewrite lenN_takeN; lia). reflexivity.
  - injection E as <- <- <-. exists u, (RCustom []). rewrite low_id by exact B. split; [|split; [reflexivity|]; split; [constructor|reflexivity]].
    rewrite custom_all_short; [reflexivity|]. unfold lenN in *. rewrite map_length. lia.
Qed.
(** A queue that ends in the middle of a tag, and a program that does not mind. *)
Example C82_same_answers_instance :
  same_buffers queue (fun u rr => bytes_ok u /\ rr = RCustom (map inr u)) /\
  ao_deserialize queue c64 bytes_user careless (create_std_engine false) (ABase [249; 6; 216; 3; 1; 2]) =
    (Err CorruptedData, ABase []) /\
  o_deserialize (scripted c64 bytes_user careless) (create_std_engine false) (RCustom (map inr [249; 6; 216; 3; 1; 2])) =
    (Err CorruptedData, RCustom []).
Proof. split; [exact queue_buffers|]. vm_compute. split; reflexivity. Qed.
Example C82_confined_instance : exists u' tr,
  snd (snd (ao_user flaky c64 careless (ao_fuel flaky c64 bytes_user careless 9 (create_std_engine false)) 2 ([], ALimited (ABase ([1; 2; 3], true)) 2)))
    = ALimited (ABase u') (2 - lenN (pbytes tr)) /\ lenN (pbytes tr) = 2 /\ prun flaky ([1; 2; 3], true) tr u'.
Proof.
  exists ([3], true), [PFill [0; 0] (inl UnableToReadData) [7; 7]; PFill [0; 0] (inr tt) [1; 2]].
  split; [vm_compute; reflexivity|]. split; [reflexivity|]. repeat (econstructor; [reflexivity|]). constructor.
Qed.

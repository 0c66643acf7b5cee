(** User types whose deserialize_value makes every call, on readers of the user:
    C87. *)
From Verif Require Import Base BaseFacts Types Spec SpecFacts IO IOSpec IOFacts Logic HistFacts ILInt ILIntFacts Data DataFacts Tags TagsFacts
  Factory FactoryFacts DecodeFacts DeserFacts IntoFacts EngineFacts ClosedFacts Open KinFacts OpenFacts POpen Prog ProgFacts ProgWire
  IntoProg IntoProgFacts IntoCallFacts OtherProg OtherProgFacts FullProg FullProgFacts
  Any AnyFacts PAny AnyScan AnyProg AnyProgFacts PProg PAnyProg PFull AnyFull AnyFullFacts AnyFullRuns.

(** ** C87.  Deserialization with user types of tags, each with any program as its
    deserialize_value, calls of both methods of the factory included, from any
    implementation of Reader. *)
(** The bound on the depth of the calls does not matter: a deeper one gives the
    same answer, and leaves the same behind. *)
Theorem C87_determined : forall U (M : reader_impl U) T c (D : user_impl T) (Y : yscript T) e f g u, (f <= g)%nat ->
  (forall x r', ay_deserialize M c D Y e f (ABase u) = (x, r') -> x <> OutOfFuel -> ay_deserialize M c D Y e g (ABase u) = (x, r')) /\
  (forall t x t' r', ay_deserialize_into M c D Y e f (ABase u) t = (x, t', r') -> x <> OutOfFuel ->
     ay_deserialize_into M c D Y e g (ABase u) t = (x, t', r')).
Proof. intros U M T c D Y e f g u L. destruct (ay_fuel_mono M c D Y e f g L) as [H1 H2]. split; [apply H1|intros t; apply H2]. Qed.
Print Assumptions C87_determined.

(** Programs that do not panic give no panic, at whatever depth; what ends has made
    a run of calls on the reader, and those that succeed have handed out at most
    18 + 512 MB, whatever the failing ones do. *)
Theorem C87_no_panic : forall U (M : reader_impl U) T c (D : user_impl T) (Y : yscript T) e f u,
  impl_ok M -> cfg_ok c -> (forall n x, ycalm (Y n x)) -> (forall n x, yaims (Y n x)) -> (forall id, u_create D id <> Some None) ->
  engine_total e -> engine_bytes e ->
  (forall x r', ay_deserialize M c D Y e f (ABase u) = (x, r') ->
     x <> Panic /\ (returns x -> exists u' tr, r' = ABase u' /\ prun M u tr u' /\ bytes_ok (pbytes tr) /\
       lenN (pbytes tr) <= 18 + 536870912 /\ (is_ok x = true -> 1 <= lenN (pbytes tr)))) /\
  (forall t x t' r', target t -> ay_deserialize_into M c D Y e f (ABase u) t = (x, t', r') ->
     x <> Panic /\ (returns x -> exists u' tr, r' = ABase u' /\ prun M u tr u' /\ bytes_ok (pbytes tr) /\
       lenN (pbytes tr) <= 18 + 536870912 /\ (is_ok x = true -> 1 <= lenN (pbytes tr)))).
Proof.
  intros U M T c D Y e f u HM Hc Hp Ha Hn Ht He.
  destruct (x_any_depth M HM False True c D Y e Hc Hp Ha (fun f => match f with end) Hn Ht He f I (ABase u)) as [G1 G2]. split.
  - intros x r' E. destruct (G1 x r' E) as (Np & _ & H). split; [exact Np|]. intros R. destruct (H R) as (tr & Hm & Hb & _ & [Hq Hd] & _).
    destruct r' as [u'|]; [|contradiction]. exists u', tr. split; [reflexivity|]. do 2 (split; [assumption|]). split; [lia|exact Hq].
  - intros t x t' r' Tt E. destruct (G2 t Tt x t' r' E) as (Np & _ & H). split; [exact Np|]. intros R. destruct (H R) as (tr & Hm & Hb & _ & [Hq Hd] & _).
    destruct r' as [u'|]; [|contradiction]. exists u', tr. split; [reflexivity|]. do 2 (split; [assumption|]). split; [lia|exact Hq].
Qed.
Print Assumptions C87_no_panic.

(** If no program makes a reader with more bytes than it has got by then from its
    own, deserialization ends, on every implementation of Reader, and the depth of
    the calls is bounded by the largest size of a tag. *)
Theorem C87_total : forall U (M : reader_impl U) T c (D : user_impl T) (Y : yscript T) e u,
  impl_ok M -> cfg_ok c -> (forall n x, ycalm (Y n x)) -> (forall n x, yaims (Y n x)) -> (forall n x, yfrugal 0 (Y n x) 0) ->
  (forall id, u_create D id <> Some None) -> engine_total e -> engine_bytes e ->
  (exists x u', returns x /\ forall f, 536870913 < N.of_nat f -> ay_deserialize M c D Y e f (ABase u) = (x, ABase u')) /\
  (forall t, target t -> exists x t' u', returns x /\ forall f, 536870913 < N.of_nat f -> ay_deserialize_into M c D Y e f (ABase u) t = (x, t', ABase u')).
Proof.
  intros U M T c D Y e u HM Hc Hp Ha Hf Hn Ht He.
  assert (F : exists f0, 536870913 < N.of_nat f0) by (exists (N.to_nat 536870914); rewrite N2Nat.id; reflexivity).
  destruct F as [f0 L0].
  assert (G : forall f, 536870913 < N.of_nat f -> _) by
    exact (fun f L => x_enough_any M HM False False c D Y e Hc Hp Ha (fun f => match f with end) Hn Ht He f Hf L (ABase u)).
  split.
  - destruct (ay_deserialize M c D Y e f0 (ABase u)) as [x r'] eqn:E.
    destruct (proj1 (G f0 L0) x r' E) as (Np & Nf & H). assert (R : returns x) by (destruct x; cbn; auto).
    destruct (H R) as (tr & Hm & _). destruct r' as [u'|]; [|contradiction]. exists x, u'. split; [exact R|]. intros f L.
    destruct (ay_deserialize M c D Y e f (ABase u)) as [x1 r1] eqn:E1. destruct (proj1 (G f L) x1 r1 E1) as (_ & Nf1 & _).
    pose proof (proj1 (C87_determined U M T c D Y e f (Nat.max f f0) u ltac:(lia)) _ _ E1 Nf1) as K1.
    pose proof (proj1 (C87_determined U M T c D Y e f0 (Nat.max f f0) u ltac:(lia)) _ _ E Nf) as K2. congruence.
  - intros t Tt. destruct (ay_deserialize_into M c D Y e f0 (ABase u) t) as [[x t'] r'] eqn:E.
    destruct (proj2 (G f0 L0) t Tt x t' r' E) as (Np & Nf & H). assert (R : returns x) by (destruct x; cbn; auto).
    destruct (H R) as (tr & Hm & _). destruct r' as [u'|]; [|contradiction]. exists x, t', u'. split; [exact R|]. intros f L.
    destruct (ay_deserialize_into M c D Y e f (ABase u) t) as [[x1 t1] r1] eqn:E1. destruct (proj2 (G f L) t Tt x1 t1 r1 E1) as (_ & Nf1 & _).
    pose proof (proj2 (C87_determined U M T c D Y e f (Nat.max f f0) u ltac:(lia)) _ _ _ _ E1 Nf1) as K1.
    pose proof (proj2 (C87_determined U M T c D Y e f0 (Nat.max f f0) u ltac:(lia)) _ _ _ _ E Nf) as K2. congruence.
Qed.
Print Assumptions C87_total.

(** The result depends on the answers of the reader only: a reader of the library
    that gives the answers of the run, bytes, errors and contents of the buffers,
    leads to the same result, at the same depth, and is left where the run leaves
    it; a target is left with the same contents, on failure too. *)
Theorem C87_answers : forall U (M : reader_impl U) T c (D : user_impl T) (Y : yscript T) e f u x r',
  impl_ok M -> cfg_ok c -> (forall n x, ycalm (Y n x)) -> (forall n x, yaims (Y n x)) -> (forall id, u_create D id <> Some None) ->
  engine_total e -> engine_bytes e ->
  ay_deserialize M c D Y e f (ABase u) = (x, r') -> returns x ->
  exists u' tr, r' = ABase u' /\ prun M u tr u' /\
    forall rr rr', rwf rr -> mrun rr tr rr' -> y_deserialize c D Y e f rr = (x, rr').
Proof.
  intros U M T c D Y e f u x r' HM Hc Hp Ha Hn Ht He E R.
  destruct (x_any_depth M HM False True c D Y e Hc Hp Ha (fun f => match f with end) Hn Ht He f I (ABase u)) as [G1 _].
  destruct (G1 x r' E) as (_ & _ & H). destruct (H R) as (tr & Hm & _ & _ & _ & Hz).
  destruct r' as [u'|]; [|contradiction]. exists u', tr. split; [reflexivity|]. split; [exact Hm|exact Hz].
Qed.
Print Assumptions C87_answers.
Theorem C87_answers_into : forall U (M : reader_impl U) T c (D : user_impl T) (Y : yscript T) e f u t x t' r',
  impl_ok M -> cfg_ok c -> (forall n x, ycalm (Y n x)) -> (forall n x, yaims (Y n x)) -> (forall id, u_create D id <> Some None) ->
  engine_total e -> engine_bytes e -> target t ->
  ay_deserialize_into M c D Y e f (ABase u) t = (x, t', r') -> returns x ->
  exists u' tr, r' = ABase u' /\ prun M u tr u' /\
    forall rr rr', rwf rr -> mrun rr tr rr' -> y_deserialize_into c D Y e f rr t = (x, t', rr').
Proof.
  intros U M T c D Y e f u t x t' r' HM Hc Hp Ha Hn Ht He Tt E R.
  destruct (x_any_depth M HM False True c D Y e Hc Hp Ha (fun f => match f with end) Hn Ht He f I (ABase u)) as [_ G2].
  destruct (G2 t Tt x t' r' E) as (_ & _ & H). destruct (H R) as (tr & Hm & _ & _ & _ & Hz).
  destruct r' as [u'|]; [|contradiction]. exists u', tr. split; [reflexivity|]. split; [exact Hm|exact Hz].
Qed.
Print Assumptions C87_answers_into.

(** If no call fails, then that is what deserialization from the bytes handed out
    does, with none left over. *)
Theorem C87_bytes : forall U (M : reader_impl U) T c (D : user_impl T) (Y : yscript T) e f u x r',
  impl_ok M -> cfg_ok c -> (forall n x, ycalm (Y n x)) -> (forall n x, yaims (Y n x)) -> (forall id, u_create D id <> Some None) ->
  engine_total e -> engine_bytes e ->
  ay_deserialize M c D Y e f (ABase u) = (x, r') -> returns x ->
  exists u' tr, r' = ABase u' /\ prun M u tr u' /\
    (Forall pcall_ok tr -> forall rest, rwf (RCustom rest) ->
       y_deserialize c D Y e f (RCustom (map inr (pbytes tr) ++ rest)) = (x, RCustom rest)).
Proof.
  intros U M T c D Y e f u x r' HM Hc Hp Ha Hn Ht He E R.
  destruct (x_any_depth M HM False True c D Y e Hc Hp Ha (fun f => match f with end) Hn Ht He f I (ABase u)) as [G1 _].
  destruct (G1 x r' E) as (_ & _ & H). destruct (H R) as (tr & Hm & Hb & _ & _ & Hz).
  destruct r' as [u'|]; [|contradiction]. exists u', tr. split; [reflexivity|]. split; [exact Hm|]. intros Ho rest Hrest.
  apply (Hz _ _ (custom_rwf _ _ Hb Hrest)). exact (clean_replay M HM u tr u' rest Hm Ho).
Qed.
Print Assumptions C87_bytes.

(** Programs that propagate the failures of their own reader: a tag is accepted
    only if no call on the reader has failed, and then the bytes handed out are
    that tag, in the language of C85. *)
Theorem C87_accepted : forall U (M : reader_impl U) T c (D : user_impl T) (Y : yscript T) e f u t r',
  impl_ok M -> cfg_ok c -> (forall n x, ycalm (Y n x)) -> (forall n x, yaims (Y n x)) -> (forall n x, ystrict (Y n x) is_error) ->
  (forall id, u_create D id <> Some None) -> engine_ok e -> engine_total e ->
  ay_deserialize M c D Y e f (ABase u) = (Ok t, r') ->
  exists u' tr, r' = ABase u' /\ prun M u tr u' /\ Forall pcall_ok tr /\ bytes_ok (pbytes tr) /\
    spoken D (full_language c D Y e f) e (pbytes tr) t.
Proof.
  intros U M T c D Y e f u t r' HM Hc Hp Ha Hs Hn He Ht E.
  destruct (x_any_depth M HM True True c D Y e Hc Hp Ha (fun _ => Hs) Hn Ht (engine_ok_bytes e He) f I (ABase u)) as [G1 _].
  destruct (G1 _ r' E) as (_ & _ & H). destruct (H I) as (tr & Hm & Hb & Ho & _ & Hz). specialize (Ho I eq_refl).
  destruct r' as [u'|]; [|contradiction]. exists u', tr. split; [reflexivity|]. do 3 (split; [assumption|]).
  assert (W : rwf (RCustom (map inr (pbytes tr) ++ []))) by (apply custom_rwf; [exact Hb|constructor]).
  specialize (Hz _ _ W (clean_replay M HM u tr u' [] Hm Ho)). cbn [flat] in Hz.
  destruct (C85_accepted T c D Y e f _ t _ Hc Ha He Hs W Hz) as (bs & Hsp & Hd). cbn [delivers] in Hd.
  rewrite !app_nil_r in Hd. assert (pbytes tr = bs) as ->; [|exact Hsp].
  clear - Hd. revert bs Hd. induction (pbytes tr) as [|b l IH]; intros [|b' bs] K; try discriminate; [reflexivity|].
  cbn [map] in K. injection K as -> K. f_equal. auto.
Qed.
Print Assumptions C87_accepted.

(** Against a reader of the library which a user type imitates, buffers included,
    whatever fails and whatever the programs do about it. *)
Theorem C87_same_answers : forall U (M : reader_impl U) R T c (D : user_impl T) (Y : yscript T) e f u rr,
  impl_ok M -> same_buffers M R -> cfg_ok c -> (forall n x, ycalm (Y n x)) -> (forall n x, yaims (Y n x)) ->
  (forall id, u_create D id <> Some None) -> engine_total e -> engine_bytes e -> R u rr -> rwf rr ->
  (forall x r', ay_deserialize M c D Y e f (ABase u) = (x, r') -> returns x ->
     exists u' rr', r' = ABase u' /\ y_deserialize c D Y e f rr = (x, rr') /\ R u' rr') /\
  (forall t x t' r', target t -> ay_deserialize_into M c D Y e f (ABase u) t = (x, t', r') -> returns x ->
     exists u' rr', r' = ABase u' /\ y_deserialize_into c D Y e f rr t = (x, t', rr') /\ R u' rr').
Proof.
  intros U M R T c D Y e f u rr HM HS Hc Hp Ha Hn Ht He HR W. split.
  - intros x r' E Rx. destruct (C87_answers U M T c D Y e f u x r' HM Hc Hp Ha Hn Ht He E Rx) as (u' & tr & -> & Hm & K).
    destruct (same_buffers_run M R u tr u' rr HS Hm HR) as (rr' & Hr & HR'). exists u', rr'. eauto.
  - intros t x t' r' Tt E Rx. destruct (C87_answers_into U M T c D Y e f u t x t' r' HM Hc Hp Ha Hn Ht He Tt E Rx) as (u' & tr & -> & Hm & K).
    destruct (same_buffers_run M R u tr u' rr HS Hm HR) as (rr' & Hr & HR'). exists u', rr'. eauto.
Qed.
Print Assumptions C87_same_answers.
(** In particular the library's own readers: C85 and this are the same function
    there. *)
Theorem C87_library_readers : forall T c (D : user_impl T) (Y : yscript T) e f r (W : rwf r) x r',
  cfg_ok c -> (forall n x, ycalm (Y n x)) -> (forall n x, yaims (Y n x)) -> (forall id, u_create D id <> Some None) ->
  engine_total e -> engine_bytes e ->
  ay_deserialize reader_as_impl c D Y e f (ABase (exist _ r W)) = (x, r') -> returns x ->
  exists q W', r' = ABase (exist _ q W') /\ y_deserialize c D Y e f r = (x, q).
Proof.
  intros T c D Y e f r W x r' Hc Hp Ha Hn Ht He E R.
  destruct (C87_same_answers _ _ same_reader T c D Y e f (exist _ r W) r reader_as_impl_ok reader_as_impl_buffers Hc Hp Ha Hn Ht He eq_refl W) as [K _].
  destruct (K _ _ E R) as ([q Wq] & rr & -> & E1 & Hs). unfold same_reader in Hs. cbn [proj1_sig] in Hs. subst rr. exists q, Wq. auto.
Qed.
Print Assumptions C87_library_readers.

(** Whatever the program and the reader do, the LimitedReader that the library
    gives to the program has counted what the reader has handed out, and that is
    at most the size of the tag. *)
Theorem C87_confined : forall U (M : reader_impl U) T c (D : user_impl T) (Y : yscript T) e f n x0 u y x lr,
  impl_ok M -> cfg_ok c -> (forall n x, ycalm (Y n x)) -> (forall n x, yaims (Y n x)) -> (forall id, u_create D id <> Some None) ->
  engine_total e -> engine_bytes e ->
  ay_user M c (ay_deserialize M c D Y e f) (ay_deserialize_into M c D Y e f) (y_deserialize c D Y e f) (y_deserialize_into c D Y e f) Y n
    (x0, ALimited (ABase u) n) = (y, (x, lr)) ->
  y <> Panic /\ (returns y -> exists u' tr, lr = ALimited (ABase u') (n - lenN (pbytes tr)) /\ lenN (pbytes tr) <= n /\ prun M u tr u').
Proof.
  intros U M T c D Y e f n x0 u y x lr HM Hc Hp Ha Hn Ht He E.
  destruct (x_user_any_depth M HM False True c D Y e Hc Hp Ha (fun f => match f with end) Hn Ht He f I n x0 (ALimited (ABase u) n) I y (x, lr) E) as (Np & _ & H).
  split; [exact Np|]. intros R. destruct (H R) as (tr & Hm & _). cbn [snd] in Hm.
  destruct lr as [|[u'|] a]; cbn [pmoved] in Hm; try contradiction; [|destruct Hm; contradiction].
  destruct Hm as [Hm Hl]. exists u', tr. split; [f_equal; lia|]. split; [lia|exact Hm].
Qed.
Print Assumptions C87_confined.

(** ** Concrete cases *)
(** The reader of C82 whose requests for more than one byte fail every other time:
    the request of the vault for its label does, and the vault gives up.  From the
    queue, which has all the bytes, the vaults of C85 are read. *)
Example C87_determined_instance : forall g, (9 <= g)%nat ->
  ay_deserialize queue c64 vault_user vault_program std g (ABase (vault_bytes ++ [1; 2])) = (Ok vault_tree, ABase [1; 2]) /\
  ay_deserialize flaky c64 vault_user vault_program std g (ABase (vault_bytes, false)) =
    (Err (TagIO UnableToReadData), ABase ([26; 172; 83; 141; 92; 68; 87; 52; 55; 81; 10; 7; 10; 9; 172; 83; 141; 92; 68; 87; 52; 55; 81; 10; 7; 10; 9; 0], false)) /\
  ay_deserialize_into queue c64 vault_user vault_program std g (ABase [17; 1; 65; 9]) (OStd 17 (VString [66; 67]))
  = (Ok tt, OStd 17 (VString [65]), ABase [9]).
Proof. intros g L. repeat split; (eapply C87_determined; [exact L|vm_compute; reflexivity|discriminate]). Qed.
Example C87_no_panic_instance : forall f b,
  fst (ay_deserialize flaky c64 vault_user vault_program std f (ABase (vault_bytes, b))) <> Panic.
Proof.
  intros f b. destruct (ay_deserialize _ _ _ _ _ f _) as [x r'] eqn:E. cbn [fst].
  apply (C87_no_panic _ flaky _ c64 vault_user vault_program std f (vault_bytes, b)) in E as [N _]; [exact N|..].
  - exact flaky_ok.
  - exact c64_ok.
  - apply vault_calm.
  - apply vault_aims.
  - apply vault_made.
  - apply std_engine_total.
  - apply engine_ok_bytes, std_engine_ok.
Qed.
(** Whatever the bytes, and whatever fails. *)
Example C87_total_instance : forall bytes b, exists x u', returns x /\ forall f, 536870913 < N.of_nat f ->
  ay_deserialize flaky c64 vault_user vault_program std f (ABase (bytes, b)) = (x, ABase u').
Proof.
  intros bytes b. apply (C87_total _ flaky _ c64 vault_user vault_program std (bytes, b)).
  - exact flaky_ok.
  - exact c64_ok.
  - apply vault_calm.
  - apply vault_aims.
  - apply vault_frugal.
  - apply vault_made.
  - apply std_engine_total.
  - apply engine_ok_bytes, std_engine_ok.
Qed.
(** A program that asks again when a request has failed, and keeps what both have
    left in its buffers.  The tag is accepted with the scribbles of the first. *)
Definition patient : yscript (list N) := fun _ _ =>
  YReadAll [0; 0] (fun _ a => YReadAll [0; 0] (fun x b => match x with
    | Ok _ => YDone (None, a ++ b) | Err e => YDone (Some (TagIO e), []) | _ => YAbort end)).
Lemma patient_calm n x : ycalm (patient n x).
Proof. intros y a Hy z b Hz. destruct z; try contradiction; exact I. Qed.
Lemma patient_aims n x : yaims (patient n x).
Proof. intros y a z b. destruct z; exact I. Qed.
Definition patient_calls : list pcall :=
  [PRead (inr 249); PFill [0; 0] (inr tt) [6; 216]; PRead (inr 2); PFill [0; 0] (inl UnableToReadData) [7; 7]; PFill [0; 0] (inr tt) [1; 2]].
Example C87_answers_instance :
  ay_deserialize flaky c64 bytes_user patient std 3 (ABase ([249; 6; 216; 2; 1; 2; 9], false)) = (Ok (OUser [7; 7; 1; 2]), ABase ([9], true)) /\
  prun flaky ([249; 6; 216; 2; 1; 2; 9], false) patient_calls ([9], true) /\
  exists u' tr, prun flaky ([249; 6; 216; 2; 1; 2; 9], false) tr u' /\
    forall rr rr', rwf rr -> mrun rr tr rr' -> y_deserialize c64 bytes_user patient std 3 rr = (Ok (OUser [7; 7; 1; 2]), rr').
Proof.
  assert (E : ay_deserialize flaky c64 bytes_user patient std 3 (ABase ([249; 6; 216; 2; 1; 2; 9], false)) = (Ok (OUser [7; 7; 1; 2]), ABase ([9], true)))
    by (vm_compute; reflexivity).
  split; [exact E|]. split; [repeat (econstructor; [reflexivity|]); constructor|].
  apply C87_answers in E as (u' & tr & _ & Hr & K); [exists u', tr; split; [exact Hr|exact K]|..].
  - exact flaky_ok.
  - exact c64_ok.
  - apply patient_calm.
  - apply patient_aims.
  - apply bytes_created.
  - apply std_engine_total.
  - apply engine_ok_bytes, std_engine_ok.
  - exact I.
Qed.
(** The target keeps the scribbles when the second request ends in an error. *)
Definition forgetful : yscript (list N) := fun _ _ =>
  YReadAll [0; 0] (fun x a => match x with Ok _ => YDone (None, a) | Err e => YDone (Some (TagIO e), a) | _ => YAbort end).
Example C87_answers_into_instance :
  ay_deserialize_into flaky c64 bytes_user forgetful std 3 (ABase ([249; 6; 216; 2; 1; 2; 9], false)) (OUser [4])
    = (Err (TagIO UnableToReadData), OUser [7; 7], ABase ([1; 2; 9], false)) /\
  exists u' tr, prun flaky ([249; 6; 216; 2; 1; 2; 9], false) tr u' /\
    forall rr rr', rwf rr -> mrun rr tr rr' ->
      y_deserialize_into c64 bytes_user forgetful std 3 rr (OUser [4]) = (Err (TagIO UnableToReadData), OUser [7; 7], rr').
Proof.
  assert (E : ay_deserialize_into flaky c64 bytes_user forgetful std 3 (ABase ([249; 6; 216; 2; 1; 2; 9], false)) (OUser [4])
    = (Err (TagIO UnableToReadData), OUser [7; 7], ABase ([1; 2; 9], false))) by (vm_compute; reflexivity).
  split; [exact E|].
  apply C87_answers_into in E as (u' & tr & _ & Hr & K); [exists u', tr; split; [exact Hr|exact K]|..].
  - exact flaky_ok.
  - exact c64_ok.
  - intros n x y a Hy. destruct y; try contradiction; exact I.
  - intros n x y a. destruct y; exact I.
  - apply bytes_created.
  - apply std_engine_total.
  - apply engine_ok_bytes, std_engine_ok.
  - exact I.
  - exact I.
Qed.
Example C87_bytes_instance : exists u' tr, ABase [1; 2] = ABase u' /\ prun queue (vault_bytes ++ [1; 2]) tr u' /\
  (Forall pcall_ok tr -> forall rest, rwf (RCustom rest) ->
     y_deserialize c64 vault_user vault_program std 9 (RCustom (map inr (pbytes tr) ++ rest)) = (Ok vault_tree, RCustom rest)).
Proof.
  apply C87_bytes.
  - exact queue_ok.
  - exact c64_ok.
  - apply vault_calm.
  - apply vault_aims.
  - apply vault_made.
  - apply std_engine_total.
  - apply engine_ok_bytes, std_engine_ok.
  - apply (C87_determined_instance 9). lia.
  - exact I.
Qed.
Example C87_accepted_instance : exists u' tr, prun queue (vault_bytes ++ [1; 2]) tr u' /\ Forall pcall_ok tr /\
  spoken vault_user (full_language c64 vault_user vault_program std 9) std (pbytes tr) vault_tree.
Proof.
  destruct (C87_accepted _ queue _ c64 vault_user vault_program std 9 (vault_bytes ++ [1; 2]) vault_tree (ABase [1; 2])) as (u' & tr & _ & Hr & Ho & _ & Hs).
  - exact queue_ok.
  - exact c64_ok.
  - apply vault_calm.
  - apply vault_aims.
  - apply vault_strict.
  - apply vault_made.
  - apply std_engine_ok.
  - apply std_engine_total.
  - apply (C87_determined_instance 9). lia.
  - eauto.
Qed.
(** A queue that ends in the middle of a tag. *)
Example C87_same_answers_instance : exists u' rr', ABase [] = ABase u' /\
  y_deserialize c64 vault_user vault_program std 9 (RCustom (map inr (firstn 30 vault_bytes))) = (Err (TagIO EndOfData), rr') /\
  bytes_ok u' /\ rr' = RCustom (map inr u').
Proof.
  destruct (C87_same_answers _ queue (fun u rr => bytes_ok u /\ rr = RCustom (map inr u)) _ c64 vault_user vault_program std 9
    (firstn 30 vault_bytes) (RCustom (map inr (firstn 30 vault_bytes)))) as [K _].
  - exact queue_ok.
  - exact queue_buffers.
  - exact c64_ok.
  - apply vault_calm.
  - apply vault_aims.
  - apply vault_made.
  - apply std_engine_total.
  - apply engine_ok_bytes, std_engine_ok.
  - split; [repeat constructor; lia|reflexivity].
  - repeat constructor; lia.
  - apply K; [vm_compute; reflexivity|exact I].
Qed.
Lemma vault_stream : rwf (RRead vault_bytes [Chunk 2; Interrupt]).
Proof. repeat constructor; lia. Qed.
Example C87_library_readers_instance : exists x r', returns x /\
  ay_deserialize reader_as_impl c64 vault_user vault_program std (N.to_nat 536870914) (ABase (exist _ _ vault_stream)) = (x, r') /\
  exists q W', r' = ABase (exist _ q W') /\
    y_deserialize c64 vault_user vault_program std (N.to_nat 536870914) (RRead vault_bytes [Chunk 2; Interrupt]) = (x, q).
Proof.
  destruct (C87_total _ reader_as_impl _ c64 vault_user vault_program std (exist _ _ vault_stream)) as [(x & u' & R & E) _].
  - exact reader_as_impl_ok.
  - exact c64_ok.
  - apply vault_calm.
  - apply vault_aims.
  - apply vault_frugal.
  - apply vault_made.
  - apply std_engine_total.
  - apply engine_ok_bytes, std_engine_ok.
  - assert (E' := E (N.to_nat 536870914) ltac:(rewrite N2Nat.id; reflexivity)). exists x, (ABase u'). split; [exact R|]. split; [exact E'|].
    revert E' R. apply C87_library_readers.
    + exact c64_ok.
    + apply vault_calm.
    + apply vault_aims.
    + apply vault_made.
    + apply std_engine_total.
    + apply engine_ok_bytes, std_engine_ok.
Qed.
Example C87_confined_instance : exists u' tr,
  ALimited (ABase ([9], true)) 1 = ALimited (ABase u') (3 - lenN (pbytes tr)) /\ lenN (pbytes tr) <= 3 /\ prun flaky ([1; 2; 9], true) tr u'.
Proof.
  refine (proj2 (C87_confined _ flaky _ c64 bytes_user patient std 3 3 [] ([1; 2; 9], true) (Ok tt) [7; 7; 1; 2] (ALimited (ABase ([9], true)) 1) _ _ _ _ _ _ _ _) I).
  - exact flaky_ok.
  - exact c64_ok.
  - apply patient_calm.
  - apply patient_aims.
  - apply bytes_created.
  - apply std_engine_total.
  - apply engine_ok_bytes, std_engine_ok.
  - vm_compute. reflexivity.
Qed.

(** User types whose deserialize_value also calls the factory on readers of its
    own: C84. *)
From Verif Require Import Base BaseFacts Types Spec SpecFacts IO IOSpec IOFacts Logic HistFacts ILInt ILIntFacts Data DataFacts Tags
  Factory FactoryFacts DecodeFacts DeserFacts EngineFacts ClosedFacts Open KinFacts OpenFacts POpen Prog ProgFacts ProgWire PProg
  OtherProg OtherProgFacts.

(** The bound on the depth of the calls does not matter: a deeper one gives the
    same answer. *)
Theorem C84_determined : forall T c (U : user_impl T) (P : xscript T) e f g r x r',
  (f <= g)%nat -> x_deserialize c U P e f r = (x, r') -> x <> OutOfFuel -> x_deserialize c U P e g r = (x, r').
Proof.
  intros T c U P e f g r x r' L E N. rewrite (x_mono True c U P e f g L r); rewrite E; auto. destruct x; cbn; auto.
Qed.
Print Assumptions C84_determined.

(** Programs that do not panic give no panic, at whatever depth, and what is left
    to read does not grow. *)
Theorem C84_no_panic : forall T c (U : user_impl T) (P : xscript T) e f r x r',
  cfg_ok c -> (forall n x, xcalm (P n x)) -> (forall id, u_create U id <> Some None) -> engine_total e -> rwf r ->
  x_deserialize c U P e f r = (x, r') -> x <> Panic /\ (returns x -> rwf r' /\ (left r' <= left r)%nat).
Proof.
  intros T c U P e f r x r' Hc Hp Hn Ht W E. eapply x_no_panic; eauto. unfold cfg_ok in Hc. lia.
Qed.
Print Assumptions C84_no_panic.

(** If no program makes a reader with more bytes than it has got by then from its
    own, deserialization ends, on every reader, and the calls are no deeper than
    the data. *)
Theorem C84_total : forall T c (U : user_impl T) (P : xscript T) e r,
  cfg_ok c -> (forall n x, xcalm (P n x)) -> (forall n x, frugal 0 (P n x) 0) ->
  (forall id, u_create U id <> Some None) -> engine_total e -> rwf r ->
  (exists x r', x_deserialize c U P e (S (left r)) r = (x, r') /\ returns x /\ rwf r' /\ (left r' <= left r)%nat) /\
  (forall t, leaf_tag t ->
   exists x t' r', o_deserialize_into (xscripted c U P) e r t = (x, t', r') /\ returns x /\ rwf r' /\ (left r' <= left r)%nat).
Proof.
  intros T c U P e r Hc Hp Hf Hn Ht W. apply (C63_total T (xscripted c U P) e r); auto.
  apply xscripted_behaves; [unfold cfg_ok in Hc; lia|now right|exact Hf].
Qed.
Print Assumptions C84_total.
(** One byte more is too many: a type with an implicit id that puts the id before
    its payload and decodes that.  There is no bound on the depth: the program
    overflows its stack. *)
Definition echo_user : user_impl unit := {|
  u_id := fun _ => 1; u_size := fun _ => 2; u_serialize := fun _ w => (Ok tt, w); u_to_bytes := fun _ => Ok [];
  u_deserialize_value := fun _ _ st => (Ok tt, st);
  u_create := fun id => if id =? 1 then Some (Some tt) else None |}.
Definition echo_program : xscript unit := fun _ old =>
  XReadAll [0] (fun x got => match x with
    | Ok _ => XOther (ByteArrayReader_new (1 :: u8s got)) (fun y _ => match y with
        | Ok _ => XDone (None, old) | Err e => XDone (Some e, old) | _ => XAbort end)
    | Err e => XDone (Some (TagIO e), old)
    | _ => XAbort
    end).
Lemma echo_wf got : rwf (ByteArrayReader_new (1 :: u8s got)).
Proof. split; [constructor; [red; lia|apply u8s_ok]|cbn; lia]. Qed.
Lemma echo_calm n x : xcalm (echo_program n x).
Proof.
  intros y got R. destruct y as [u|err| |]; try contradiction; [|exact I]. split; [apply echo_wf|].
  intros z q Rz _. destruct z as [u'|err| |]; try contradiction; exact I.
Qed.
Lemma echo_frugal n x : frugal 1 (echo_program n x) 0.
Proof.
  split; [|intros err got; exact I]. intros got L. split; [apply echo_wf|]. split.
  - cbn [left ByteArrayReader_new]. unfold u8s, lenN. cbn [length] in *. rewrite map_length. lia.
  - intros z q Rz _ _. destruct z as [u'|err| |]; try contradiction; exact I.
Qed.
Lemma echo_diverges c e f : fst (x_deserialize c echo_user echo_program e f (ByteArrayReader_new [1; 7])) = OutOfFuel.
Proof.
  induction f as [|f IH]; [reflexivity|]. unfold x_deserialize in *. cbn [o_deserialize_fuel].
  set (d := o_deserialize_fuel (xscripted c echo_user echo_program) f e) in *. clearbody d.
  assert (E1 : deserialize_ilint (ByteArrayReader_new [1; 7]) = (Ok 1, RByteArray [1; 7] 1)) by (vm_compute; reflexivity).
  assert (E2 : deserialize_tag_size 1 (RByteArray [1; 7] 1) = (Ok 1, RByteArray [1; 7] 1)) by (vm_compute; reflexivity).
  assert (E3 : o_create (xscripted c echo_user echo_program) e 1 = Ok (Some (OUser tt))) by reflexivity.
  assert (E4 : read_all 1 (RLimited (RByteArray [1; 7] 1) 1) = (Ok tt, [7], RLimited (RByteArray [1; 7] 2) 0)) by (vm_compute; reflexivity).
  unfold bind. rewrite E1, E2, E3. unfold o_value_into, LimitedReader_new. cbn [o_deserialize_value]. unfold o_run.
  cbn [u_deserialize_value xscripted echo_program xexec]. change (lenN [0]) with 1. rewrite E4. cbn [after xexec].
  change (1 :: u8s (filled [0] [7])) with [1; 7].
  destruct (d (ByteArrayReader_new [1; 7])) as [x q]. cbn [fst] in IH. subst x. reflexivity.
Qed.
Theorem C84_total_needs_the_bound :
  ~ (forall T c (U : user_impl T) (P : xscript T) e r,
       cfg_ok c -> (forall n x, xcalm (P n x)) -> (forall n x, frugal 1 (P n x) 0) ->
       (forall id, u_create U id <> Some None) -> engine_total e -> rwf r ->
       exists f, fst (x_deserialize c U P e f r) <> OutOfFuel).
Proof.
  intros H. destruct (H unit c64 echo_user echo_program (create_std_engine false) (ByteArrayReader_new [1; 7])) as [f N].
  - split; vm_compute; discriminate.
  - apply echo_calm.
  - apply echo_frugal.
  - intros id. cbn [u_create echo_user]. destruct (id =? 1); discriminate.
  - apply std_engine_total.
  - split; [repeat constructor; lia|vm_compute; discriminate].
  - apply N, echo_diverges.
Qed.
Print Assumptions C84_total_needs_the_bound.

(** What ends is what the programs do that have the answers on the other readers
    written into them (settle), with all that C81 says of them. *)
Theorem C84_written_out : forall T c (U : user_impl T) (P : xscript T) e f r x r',
  cfg_ok c -> rwf r -> x_deserialize c U P e f r = (x, r') -> returns x ->
  o_deserialize (scripted c U (settled (x_deserialize c U P e f) P)) e r = (x, r').
Proof.
  intros T c U P e f r x r' Hc W E R. apply s_enough with (f := f); [unfold cfg_ok in Hc; lia|exact W| |intros ->; exact R].
  rewrite (x_settled False c U P e (x_deserialize c U P e f) f (rle_refl _ _) f ltac:(lia) r); rewrite E; [reflexivity|now apply returns_okres].
Qed.
Print Assumptions C84_written_out.
(** And the other way round. *)
Theorem C84_written_back : forall T c (U : user_impl T) (P : xscript T) e F r x r',
  o_deserialize (scripted c U (settled (x_deserialize c U P e F) P)) e r = (x, r') -> returns x ->
  x_deserialize c U P e (S (left r) + F) r = (x, r').
Proof.
  intros T c U P e F r x r' E R. unfold o_deserialize in E.
  rewrite (x_unsettled c U P e F (S (left r)) r); rewrite E; [reflexivity|now apply returns_okres].
Qed.
Print Assumptions C84_written_back.

(** If the programs propagate every failure of their own reader, whatever they do
    about those of the others, what is accepted is in the grammar of C81, on any
    reader, for some answers of the factory itself; and what is in it is accepted. *)
Theorem C84_accepted : forall T c (U : user_impl T) (P : xscript T) e f r t r',
  cfg_ok c -> engine_ok e -> (forall n x, xstrict (P n x) is_error) -> rwf r ->
  x_deserialize c U P e f r = (Ok t, r') ->
  exists bs, spoken U (settled (x_deserialize c U P e f) P) e bs t /\ delivers r bs r'.
Proof.
  intros T c U P e f r t r' Hc He Hs W E. apply (C84_written_out T c U P e f r _ _ Hc W) in E; [|exact I].
  eapply C81_accepted; eauto. intros n x. apply settle_strict, Hs.
Qed.
Print Assumptions C84_accepted.
Theorem C84_accepts : forall T c (U : user_impl T) (P : xscript T) e F bs t r rest,
  cfg_ok c -> engine_ok e -> spoken U (settled (x_deserialize c U P e F) P) e bs t ->
  rwf r -> good r -> pending r = bs ++ rest ->
  exists r', x_deserialize c U P e (S (left r) + F) r = (Ok t, r') /\ delivers r bs r'.
Proof.
  intros T c U P e F bs t r rest Hc He K W G Pr.
  destruct (C81_accepts T c U _ e bs t r rest Hc He K W G Pr) as (r' & E & D).
  apply C84_written_back in E; [eauto|exact I].
Qed.
Print Assumptions C84_accepts.

(** What is accepted from memory is well framed, whatever the programs do about
    failures: the calls on other readers take nothing from the outer one. *)
Theorem C84_memory_framing : forall T c (U : user_impl T) (P : xscript T) e f r t r',
  cfg_ok c -> engine_ok e ->
  (forall n x, xends_in (P n x) (fun a => fst a = None -> u_id U (snd a) = u_id U x)) ->
  (forall id x, u_create U id = Some (Some x) -> u_id U x <> 10 /\ u_id U x <> 14) ->
  rwf r -> in_memory r -> x_deserialize c U P e f r = (Ok t, r') ->
  exists bs s, delivers r bs r' /\ wire (open_mk U e) bs s /\ framed (u_id U) (std_made U e) (fun _ _ => True) t s.
Proof.
  intros T c U P e f r t r' Hc He Hi Hid W Q E. apply (C84_written_out T c U P e f r _ _ Hc W) in E; [|exact I].
  eapply C81_memory_framing; eauto. intros n x. apply settle_ends, Hi.
Qed.
Print Assumptions C84_memory_framing.

(** ** Instances *)
(** A user type that holds a tag in a disguise: the program reads the declared
    bytes, flips some of their bits and decodes the outcome. *)
Inductive masked := Masked (inner : option (otag masked)).
Definition unmask (b : N) : N := N.lxor b 85 mod 256.
Definition masked_program : xscript masked := fun n old =>
  XReadAll (repeatN 0 n) (fun x got => match x with
    | Ok _ => XOther (ByteArrayReader_new (map unmask got)) (fun y _ => match y with
        | Ok t => XDone (None, Masked (Some t)) | Err e => XDone (Some e, old) | _ => XAbort end)
    | Err e => XDone (Some (TagIO e), old)
    | _ => XAbort
    end).
Definition masked_user : user_impl masked := {|
  u_id := fun _ => 2000; u_size := fun _ => 0; u_serialize := fun _ w => (Ok tt, w); u_to_bytes := fun _ => Ok [];
  u_deserialize_value := fun _ _ st => (Ok tt, st);
  u_create := fun id => if id =? 2000 then Some (Some (Masked None)) else None |}.
Lemma masked_wf got : rwf (ByteArrayReader_new (map unmask got)).
Proof.
  split; [|cbn; lia]. apply Forall_map, Forall_forall. intros b _. unfold byte_ok, unmask. lia.
Qed.
Lemma masked_calm n x : xcalm (masked_program n x).
Proof.
  intros y got R. destruct y as [u|err| |]; try contradiction; [|exact I]. split; [apply masked_wf|].
  intros z q Rz _. destruct z as [u'|err| |]; try contradiction; exact I.
Qed.
Lemma masked_frugal n x : frugal 0 (masked_program n x) 0.
Proof.
  split; [|intros err got; exact I]. intros got L. split; [apply masked_wf|]. split.
  - cbn [left ByteArrayReader_new]. unfold lenN. rewrite map_length. lia.
  - intros z q Rz _ _. destruct z as [u'|err| |]; try contradiction; exact I.
Qed.
Lemma masked_strict n x : xstrict (masked_program n x) is_error.
Proof.
  split; [|intros err got; cbn; discriminate]. intros got z q R. destruct z as [u'|err| |]; try contradiction; exact I.
Qed.
Lemma masked_created id : u_create masked_user id <> Some None.
Proof. cbn [u_create masked_user]. destruct (id =? 2000); discriminate. Qed.
(** Such a tag in such a tag in a sequence, in a stream that comes in pieces. *)
Definition masked_bytes : list N := [22; 11; 249; 6; 216; 6; 172; 83; 141; 87; 10; 7; 0].
Definition masked_tree : otag masked :=
  OSeq 22 [OUser (Masked (Some (OUser (Masked (Some (OStd 10 (VILInt 7))))))); OStd 0 VNull].
Notation std := (create_std_engine false).
Example C84_determined_instance : forall g, (9 <= g)%nat ->
  x_deserialize c64 masked_user masked_program std g (RRead (masked_bytes ++ [1; 2]) [Chunk 2; Interrupt; Chunk 9])
  = (Ok masked_tree, RRead [1; 2] []).
Proof. intros g L. apply C84_determined with (f := 9%nat); [exact L|vm_compute; reflexivity|discriminate]. Qed.
Example C84_no_panic_instance : forall f,
  fst (x_deserialize c64 masked_user masked_program std f (RRead (masked_bytes ++ [1]) [Chunk 2; Interrupt; Fail (OtherKind 3)])) <> Panic.
Proof.
  intros f. destruct (x_deserialize _ _ _ _ f _) as [x r'] eqn:E. cbn [fst].
  apply C84_no_panic in E as [N _]; [exact N|..].
  - split; vm_compute; discriminate.
  - apply masked_calm.
  - apply masked_created.
  - apply std_engine_total.
  - repeat constructor; lia.
Qed.
Example C84_total_instance : forall bytes sched, bytes_ok bytes ->
  returns (fst (x_deserialize c64 masked_user masked_program std (S (left (RRead bytes sched))) (RRead bytes sched))).
Proof.
  intros bytes sched B. destruct (C84_total masked c64 masked_user masked_program std (RRead bytes sched)) as [(x & r' & E & R & _) _].
  - split; vm_compute; discriminate.
  - apply masked_calm.
  - apply masked_frugal.
  - apply masked_created.
  - apply std_engine_total.
  - exact B.
  - rewrite E. exact R.
Qed.
Example C84_written_out_instance : exists P : script masked,
  o_deserialize (scripted c64 masked_user P) std (RRead masked_bytes [Chunk 4]) = (Ok masked_tree, RRead [] []).
Proof.
  eexists. apply C84_written_out with (f := 9%nat).
  - split; vm_compute; discriminate.
  - repeat constructor; lia.
  - instantiate (1 := masked_program). vm_compute. reflexivity.
  - exact I.
Qed.
Example C84_written_back_instance :
  x_deserialize c64 masked_user masked_program std 24 (RVec (masked_bytes ++ [5]) 0) = (Ok masked_tree, RVec (masked_bytes ++ [5]) 13).
Proof.
  change 24%nat with (Nat.add (S (left (RVec (masked_bytes ++ [5]) 0))) 9). apply C84_written_back; [|exact I]. vm_compute. reflexivity.
Qed.
Lemma masked_spoken : spoken masked_user (settled (x_deserialize c64 masked_user masked_program std 9) masked_program) std masked_bytes masked_tree.
Proof.
  destruct (C84_accepted masked c64 masked_user masked_program std 9 (RRead masked_bytes []) masked_tree (RRead [] [])) as (bs & K & D).
  - split; vm_compute; discriminate.
  - apply std_engine_ok.
  - apply masked_strict.
  - repeat constructor; lia.
  - vm_compute. reflexivity.
  - destruct D as [D _]. rewrite app_nil_r in D. now subst.
Qed.
(** From any source that gives its bytes, in whatever pieces. *)
Example C84_accepts_instance : forall sched rest, Forall fair sched -> bytes_ok rest ->
  exists f r', x_deserialize c64 masked_user masked_program std f (RRead (masked_bytes ++ rest) sched) = (Ok masked_tree, r') /\
    delivers (RRead (masked_bytes ++ rest) sched) masked_bytes r'.
Proof.
  intros sched rest F B.
  destruct (C84_accepts masked c64 masked_user masked_program std 9 masked_bytes masked_tree (RRead (masked_bytes ++ rest) sched) rest)
    as (r' & E & D); eauto.
  - split; vm_compute; discriminate.
  - apply std_engine_ok.
  - apply masked_spoken.
  - cbn [rwf]. rewrite bytes_ok_app. split; [repeat constructor; lia|exact B].
Qed.
(** A type that does not care whether what is inside is a tag. *)
Definition careless_program : xscript masked := fun n old =>
  XReadAll (repeatN 0 n) (fun x got => XOther (ByteArrayReader_new (u8s got)) (fun y _ => XDone (None, old))).
Example C84_memory_framing_instance : exists bs s,
  delivers (RVec [249; 6; 216; 2; 255; 3; 4] 0) bs (RVec [249; 6; 216; 2; 255; 3; 4] 6) /\
  wire (open_mk masked_user std) bs s /\
  framed (u_id masked_user) (std_made masked_user std) (fun _ _ => True) (OUser (Masked None)) s.
Proof.
  apply (C84_memory_framing masked c64 masked_user careless_program std 9).
  - split; vm_compute; discriminate.
  - apply std_engine_ok.
  - intros n x y got R z q Rz _. reflexivity.
  - intros id x _. cbn. split; discriminate.
  - split; [repeat constructor; lia|vm_compute; discriminate].
  - exact I.
  - vm_compute. reflexivity.
Qed.

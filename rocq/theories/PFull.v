(** User types whose deserialize_value makes every call: both methods of the
    factory, on its own reader and on readers that it makes: C85. *)
From Verif Require Import Base BaseFacts Types Spec SpecFacts IO IOSpec IOFacts Logic HistFacts ILInt ILIntFacts Data DataFacts Tags
  Factory FactoryFacts DecodeFacts DeserFacts EngineFacts ClosedFacts Open KinFacts OpenFacts POpen Prog ProgFacts ProgWire PProg
  IntoProg IntoProgFacts IntoCallFacts PIntoProg OtherProg OtherProgFacts POther FullProg FullProgFacts.

(** The bound on the depth of the calls does not matter: a deeper one gives the
    same answer. *)
Theorem C85_determined : forall T c (U : user_impl T) (Y : yscript T) e f g r, (f <= g)%nat ->
  (forall x r', y_deserialize c U Y e f r = (x, r') -> x <> OutOfFuel -> y_deserialize c U Y e g r = (x, r')) /\
  (forall t x t' r', y_deserialize_into c U Y e f r t = (x, t', r') -> x <> OutOfFuel -> y_deserialize_into c U Y e g r t = (x, t', r')).
Proof.
  intros T c U Y e f g r L. destruct (y_mono c U e True Y f g L) as [H1 H2]. unfold y_deserialize, y_deserialize_into. split.
  - intros x r' E N. rewrite <- E. apply H1. rewrite E. destruct x; cbn; auto.
  - intros t x t' r' E N. rewrite <- E. apply H2. rewrite E. destruct x; cbn; auto.
Qed.
Print Assumptions C85_determined.

(** Programs that do not panic give no panic, at whatever depth; what is left to
    read does not grow, and a call that succeeds takes some of it. *)
Theorem C85_no_panic : forall T c (U : user_impl T) (Y : yscript T) e f r,
  cfg_ok c -> (forall n x, yaims (Y n x)) -> (forall n x, ycalm (Y n x)) -> (forall id, u_create U id <> Some None) ->
  engine_total e -> engine_bytes e -> rwf r ->
  (forall x r', y_deserialize c U Y e f r = (x, r') ->
     x <> Panic /\ (returns x -> rwf r' /\ (left r' <= left r)%nat /\ forall t, x = Ok t -> (left r' < left r)%nat)) /\
  (forall t x t' r', leaf_tag t -> y_deserialize_into c U Y e f r t = (x, t', r') ->
     x <> Panic /\ (returns x -> rwf r' /\ (left r' <= left r)%nat /\ (x = Ok tt -> (left r' < left r)%nat))).
Proof.
  intros T c U Y e f r Hc Ha Hp Hn Ht Hb W.
  destruct (capped_good c U Y e False ltac:(unfold cfg_ok in Hc; lia) (or_intror Hp) Ha Hb (ycreated_fine c U Y e Hn Ht) f) as [G1 G2].
  unfold y_deserialize, y_deserialize_into. split.
  - intros x r' E. destruct (capped_le c U Y e True f) as [L1 _]. specialize (L1 r). rewrite E in L1. cbn [fst] in L1.
    destruct x as [t|err| |]; try (specialize (L1 Logic.I); destruct (G1 r _ _ W Logic.I L1) as (R & W' & L' & Q)); try contradiction.
    + split; [discriminate|]. intros _. repeat split; auto. intros t0 E0. now apply (Q t0).
    + split; [discriminate|]. intros _. repeat split; auto. discriminate.
    + split; [discriminate|intros []].
  - intros t x t' r' Hl E. destruct (capped_le c U Y e True f) as [_ L2]. specialize (L2 r t). rewrite E in L2. cbn [fst] in L2.
    destruct x as [u|err| |]; try (specialize (L2 Logic.I); destruct (G2 r t _ _ _ W Logic.I Hl L2) as (R & W' & L' & _ & Q)); try contradiction.
    + split; [discriminate|]. intros _. repeat split; auto.
    + split; [discriminate|]. intros _. repeat split; auto.
    + split; [discriminate|intros []].
Qed.
Print Assumptions C85_no_panic.

(** If no program makes a reader with more bytes than it has got by then from its
    own, deserialization ends, on every reader, and the calls are no deeper than
    the data. *)
Theorem C85_total : forall T c (U : user_impl T) (Y : yscript T) e r,
  cfg_ok c -> (forall n x, yaims (Y n x)) -> (forall n x, ycalm (Y n x)) -> (forall n x, yfrugal 0 (Y n x) 0) ->
  (forall id, u_create U id <> Some None) -> engine_total e -> engine_bytes e -> rwf r ->
  (exists x r', y_deserialize c U Y e (S (left r)) r = (x, r') /\ returns x /\ rwf r' /\ (left r' <= left r)%nat) /\
  (forall t, leaf_tag t ->
   exists x t' r', y_deserialize_into c U Y e (S (left r)) r t = (x, t', r') /\ returns x /\ rwf r' /\ (left r' <= left r)%nat).
Proof.
  intros T c U Y e r Hc Ha Hp Hf Hn Ht Hb W.
  destruct (frugal_good c U Y e False ltac:(unfold cfg_ok in Hc; lia) (or_intror Hp) Ha Hb (ycreated_fine c U Y e Hn Ht) (S (left r)) Hf) as [G1 G2].
  unfold y_deserialize, y_deserialize_into. split.
  - destruct (fst (y_fuel c U Y e (S (left r))) r) as [x r'] eqn:E. exists x, r'.
    destruct (G1 r x r' W (Nat.lt_succ_diag_r _) E) as (R & W' & L' & _). repeat split; auto.
  - intros t Hl. destruct (snd (y_fuel c U Y e (S (left r))) r t) as [[x t'] r'] eqn:E. exists x, t', r'.
    destruct (G2 r t x t' r' W (Nat.lt_succ_diag_r _) Hl E) as (R & W' & L' & _). repeat split; auto.
Qed.
Print Assumptions C85_total.

(** What ends is what the programs do that have the answers on the other readers
    written into them (ysettle), with all that C83 says of them. *)
Theorem C85_written_out : forall T c (U : user_impl T) (Y : yscript T) e f r,
  cfg_ok c -> (forall n x, yaims (Y n x)) -> engine_bytes e -> rwf r ->
  let X := ysettled (y_deserialize c U Y e f) (y_deserialize_into c U Y e f) Y in
  (forall n x, aims (X n x)) /\
  (forall x r', y_deserialize c U Y e f r = (x, r') -> returns x -> i_deserialize c U X e r = (x, r')) /\
  (forall t x t' r', leaf_tag t -> y_deserialize_into c U Y e f r t = (x, t', r') -> returns x ->
     i_deserialize_into c U X e r t = (x, t', r')).
Proof.
  intros T c U Y e f r Hc Ha Hb W X. assert (Hc' : 1 <= usize_max c) by (unfold cfg_ok in Hc; lia).
  assert (HX : forall n x, aims (X n x)) by (intros n x; apply ysettle_aims; [now apply y_keeps|apply Ha]).
  destruct (i_enough c U e X f r Hc' HX Hb W) as [K1 K2].
  destruct (y_settled c U e False Y (y_deserialize c U Y e f) (y_deserialize_into c U Y e f) f
    (conj (rle_refl _ _) (ile_refl _ _)) f ltac:(lia)) as [H1 H2].
  unfold y_deserialize, y_deserialize_into in *. split; [exact HX|]. split.
  - intros x r' E R. apply K1; [|intros ->; exact R]. rewrite <- E. apply H1. rewrite E. now apply returns_okres.
  - intros t x t' r' Hl E R. apply K2; [exact Hl| |intros ->; exact R]. rewrite <- E. apply H2. rewrite E. now apply returns_okres.
Qed.
Print Assumptions C85_written_out.
(** And the other way round. *)
Theorem C85_written_back : forall T c (U : user_impl T) (Y : yscript T) e F r,
  let X := ysettled (y_deserialize c U Y e F) (y_deserialize_into c U Y e F) Y in
  (forall x r', i_deserialize c U X e r = (x, r') -> returns x -> y_deserialize c U Y e (S (left r) + F) r = (x, r')) /\
  (forall t x t' r', i_deserialize_into c U X e r t = (x, t', r') -> returns x ->
     y_deserialize_into c U Y e (S (left r) + F) r t = (x, t', r')).
Proof.
  intros T c U Y e F r X. destruct (y_unsettled c U e Y F (S (left r))) as [H1 H2]. fold X in H1, H2.
  unfold y_deserialize, y_deserialize_into, i_deserialize, i_deserialize_into in *. split.
  - intros x r' E R. rewrite <- E. apply H1. rewrite E. now apply returns_okres.
  - intros t x t' r' E R. rewrite <- E. apply H2. rewrite E. now apply returns_okres.
Qed.
Print Assumptions C85_written_back.

(** If the programs propagate every failure of their own reader, whatever they do
    about those of the others, what is accepted is in the grammar of C81, on any
    reader, for some answers of the factory itself; and what is in it is accepted. *)
Definition full_language {T} c (U : user_impl T) (Y : yscript T) e f : script T :=
  unrolled U (ysettled (y_deserialize c U Y e f) (y_deserialize_into c U Y e f) Y).
Theorem C85_accepted : forall T c (U : user_impl T) (Y : yscript T) e f r t r',
  cfg_ok c -> (forall n x, yaims (Y n x)) -> engine_ok e -> (forall n x, ystrict (Y n x) is_error) -> rwf r ->
  y_deserialize c U Y e f r = (Ok t, r') ->
  exists bs, spoken U (full_language c U Y e f) e bs t /\ delivers r bs r'.
Proof.
  intros T c U Y e f r t r' Hc Ha He Hs W E.
  destruct (C85_written_out T c U Y e f r Hc Ha (engine_ok_bytes e He) W) as (HX & K & _).
  apply K in E; [|exact Logic.I]. eapply C83_accepted; eauto. intros n x. apply ysettle_strict, Hs.
Qed.
Print Assumptions C85_accepted.
Theorem C85_accepts : forall T c (U : user_impl T) (Y : yscript T) e F bs t r rest,
  cfg_ok c -> (forall n x, yaims (Y n x)) -> engine_ok e -> spoken U (full_language c U Y e F) e bs t ->
  rwf r -> good r -> pending r = bs ++ rest ->
  exists r', y_deserialize c U Y e (S (left r) + F) r = (Ok t, r') /\ delivers r bs r'.
Proof.
  intros T c U Y e F bs t r rest Hc Ha He K W G Pr.
  destruct (C85_written_out T c U Y e F r Hc Ha (engine_ok_bytes e He) W) as (HX & _).
  destruct (C83_accepts T c U _ e bs t r rest Hc HX He K W G Pr) as (r' & E & D).
  apply C85_written_back in E; [eauto|exact Logic.I].
Qed.
Print Assumptions C85_accepts.
(** Such programs take from any reader a tag of the wire grammar, with the contents
    they read. *)
Theorem C85_framing : forall T c (U : user_impl T) (Y : yscript T) e f r t r',
  cfg_ok c -> (forall n x, yaims (Y n x)) -> engine_ok e -> (forall n x, ystrict (Y n x) is_error) ->
  (forall n x, yends_in (Y n x) (fun a => fst a = None -> u_id U (snd a) = u_id U x)) ->
  (forall id x, u_create U id = Some (Some x) -> u_id U x <> 10 /\ u_id U x <> 14) ->
  rwf r -> y_deserialize c U Y e f r = (Ok t, r') ->
  exists bs s, delivers r bs r' /\ wire (open_mk U e) bs s /\
    framed (u_id U) (std_made U e) (content U (full_language c U Y e f) e) t s.
Proof.
  intros T c U Y e f r t r' Hc Ha He Hs Hi Hid W E.
  destruct (C85_written_out T c U Y e f r Hc Ha (engine_ok_bytes e He) W) as (HX & K & _).
  apply K in E; [|exact Logic.I]. eapply C83_framing; eauto; intros n x; [apply ysettle_strict, Hs|apply ysettle_ends, Hi].
Qed.
Print Assumptions C85_framing.
(** What is accepted from memory is well framed, whatever the programs do about
    failures: the calls on other readers take nothing from the outer one. *)
Theorem C85_memory_framing : forall T c (U : user_impl T) (Y : yscript T) e f r t r',
  cfg_ok c -> (forall n x, yaims (Y n x)) -> engine_ok e ->
  (forall n x, yends_in (Y n x) (fun a => fst a = None -> u_id U (snd a) = u_id U x)) ->
  (forall id x, u_create U id = Some (Some x) -> u_id U x <> 10 /\ u_id U x <> 14) ->
  rwf r -> in_memory r -> y_deserialize c U Y e f r = (Ok t, r') ->
  exists bs s, delivers r bs r' /\ wire (open_mk U e) bs s /\ framed (u_id U) (std_made U e) (fun _ _ => True) t s.
Proof.
  intros T c U Y e f r t r' Hc Ha He Hi Hid W Q E.
  destruct (C85_written_out T c U Y e f r Hc Ha (engine_ok_bytes e He) W) as (HX & K & _).
  apply K in E; [|exact Logic.I]. eapply C83_memory_framing; eauto. intros n x. apply ysettle_ends, Hi.
Qed.
Print Assumptions C85_memory_framing.

(** ** Instances *)
(** A user type with a label, read in place, and two tags of the same type in
    disguise: the second is read into the object made for the first. *)
Inductive vault := Vault (label : list N) (inner : option (otag vault)).
Definition vault_program : yscript vault := fun _ old =>
  let 'Vault label _ := old in
  YInto (OStd IL_STRING_TAG_ID (VString label)) (fun x s =>
    match x, s with
    | Ok _, OStd _ (VString label') =>
        YRead (fun y => match y with
          | Ok k => YReadAll (repeatN 0 k) (fun z got => match z with
              | Ok _ => YOther (ByteArrayReader_new (map unmask got)) (fun a q => match a with
                  | Ok t => YOtherInto q t (fun b t' _ => match b with
                      | Ok _ => YDone (None, Vault label' (Some t'))
                      | Err e => YDone (Some e, old)
                      | _ => YAbort end)
                  | Err e => YDone (Some e, old)
                  | _ => YAbort end)
              | Err e => YDone (Some (TagIO e), old)
              | _ => YAbort end)
          | Err e => YDone (Some (TagIO e), old)
          | _ => YAbort end)
    | Err e, _ => YDone (Some e, old)
    | _, _ => YDone (Some CorruptedData, old)
    end).
Definition vault_user : user_impl vault := {|
  u_id := fun _ => 2000; u_size := fun _ => 0; u_serialize := fun _ w => (Ok tt, w); u_to_bytes := fun _ => Ok [];
  u_deserialize_value := fun _ _ st => (Ok tt, st);
  u_create := fun id => if id =? 2000 then Some (Some (Vault [] None)) else None |}.
Lemma vault_aims n x : yaims (vault_program n x).
Proof.
  destruct x as [label inner]. split; [repeat split|]. intros x s _. destruct x; destruct s as [id v| | | |]; try exact I.
  destruct v; try exact I. intros y. destruct y as [k|e| |]; try exact I. intros z got. destruct z as [u|e| |]; try exact I.
  split; [apply masked_wf|]. intros aa q Ht Wq. destruct aa as [t|e| |]; try exact I.
  split; [exact Wq|]. split; [now apply Ht|]. intros b t' q' _ _. destruct b; exact I.
Qed.
Lemma vault_calm n x : ycalm (vault_program n x).
Proof.
  destruct x as [label inner]. intros x s Hx. destruct x; try contradiction; destruct s as [id v| | | |]; try exact I.
  destruct v; try exact I. intros y Hy. destruct y as [k|e| |]; try contradiction; try exact I.
  intros z got Hz. destruct z as [w|e| |]; try contradiction; try exact I.
  intros b q Hb. destruct b as [t|e| |]; try contradiction; try exact I.
  intros d t' q' Hd. destruct d; try contradiction; exact I.
Qed.
Lemma vault_frugal n x : yfrugal 0 (vault_program n x) 0.
Proof.
  destruct x as [label inner]. split; [|intros e s; destruct s; exact I].
  intros s. destruct s as [id v| | | |]; try exact I. destruct v; try exact I.
  split; [|intros e; exact I]. intros k. split; [|intros e got; exact I]. intros got L.
  assert (Lq : (left (ByteArrayReader_new (map unmask got)) = length got)%nat).
  { cbn [left ByteArrayReader_new]. unfold lenN. rewrite map_length. lia. }
  split; [lia|]. intros a q Ra Lq'. destruct a as [t|e| |]; try contradiction; try exact I.
  split; [lia|]. intros b t' q' Rb _. destruct b; try contradiction; exact I.
Qed.
Lemma vault_strict n x : ystrict (vault_program n x) is_error.
Proof.
  destruct x as [label inner]. split; [|intros e s; destruct s; cbn; discriminate].
  intros s. destruct s as [id v| | | |]; try exact I. destruct v; try exact I.
  split; [|intros e; cbn; discriminate]. intros k. split; [|intros e got; cbn; discriminate]. intros got a q Ra.
  destruct a as [t|e| |]; try contradiction; try exact I. intros b t' q' Rb. destruct b; try contradiction; exact I.
Qed.
Lemma vault_keeps_id n x : yends_in (vault_program n x) (fun a => fst a = None -> u_id vault_user (snd a) = u_id vault_user x).
Proof.
  destruct x as [label inner]. intros x s Hx. destruct x; try contradiction; destruct s as [id v| | | |]; try (intros _; reflexivity).
  destruct v; try (intros _; reflexivity). intros y Hy. destruct y as [k|e| |]; try contradiction; try (intros _; reflexivity).
  intros z got Hz. destruct z as [w|e| |]; try contradiction; try (intros _; reflexivity).
  intros b q Hb. destruct b as [t|e| |]; try contradiction; try (intros _; reflexivity).
  intros d t' q' Hd. destruct d; try contradiction; intros _; reflexivity.
Qed.
Lemma vault_made id : u_create vault_user id <> Some None.
Proof. cbn [u_create vault_user]. destruct (id =? 2000); discriminate. Qed.
Lemma vault_created id x : u_create vault_user id = Some (Some x) -> u_id vault_user x <> 10 /\ u_id vault_user x <> 14.
Proof. intros _. cbn. split; discriminate. Qed.
(** Such a tag that holds such a tag, in a sequence, in a stream that comes in
    pieces. *)
Definition vault_bytes : list N :=
  [22; 34; 249; 6; 216; 29; 17; 0; 26; 172; 83; 141; 92; 68; 87; 52; 55; 81; 10; 7; 10; 9; 172; 83; 141; 92; 68; 87; 52; 55; 81; 10; 7; 10; 9; 0].
Definition vault_tree : otag vault :=
  OSeq 22 [OUser (Vault [] (Some (OUser (Vault [97; 98] (Some (OStd 10 (VILInt 9))))))); OStd 0 VNull].
Notation std := (create_std_engine false).
Example C85_determined_instance : forall g, (9 <= g)%nat ->
  y_deserialize c64 vault_user vault_program std g (RRead (vault_bytes ++ [1; 2]) [Chunk 2; Interrupt; Chunk 9])
  = (Ok vault_tree, RRead [1; 2] []) /\
  y_deserialize_into c64 vault_user vault_program std g (RVec [17; 1; 65; 9] 0) (OStd 17 (VString [66; 67]))
  = (Ok tt, OStd 17 (VString [65]), RVec [17; 1; 65; 9] 3).
Proof.
  intros g L. split; (eapply C85_determined; [exact L|vm_compute; reflexivity|discriminate]).
Qed.
Example C85_no_panic_instance : forall f,
  fst (y_deserialize c64 vault_user vault_program std f (RRead (vault_bytes ++ [1]) [Chunk 9; Interrupt; Fail (OtherKind 3)])) <> Panic.
Proof.
  intros f. destruct (y_deserialize _ _ _ _ f _) as [x r'] eqn:E. cbn [fst].
  apply C85_no_panic in E as [N _]; [exact N|..].
  - split; vm_compute; discriminate.
  - apply vault_aims.
  - apply vault_calm.
  - apply vault_made.
  - apply std_engine_total.
  - apply engine_ok_bytes, std_engine_ok.
  - repeat constructor; lia.
Qed.
Example C85_total_instance : forall bytes sched, bytes_ok bytes ->
  returns (fst (y_deserialize c64 vault_user vault_program std (S (left (RRead bytes sched))) (RRead bytes sched))).
Proof.
  intros bytes sched B. destruct (C85_total vault c64 vault_user vault_program std (RRead bytes sched)) as [(x & r' & E & R & _) _].
  - split; vm_compute; discriminate.
  - apply vault_aims.
  - apply vault_calm.
  - apply vault_frugal.
  - apply vault_made.
  - apply std_engine_total.
  - apply engine_ok_bytes, std_engine_ok.
  - exact B.
  - rewrite E. exact R.
Qed.
Example C85_written_out_instance : exists X : iscript vault,
  i_deserialize c64 vault_user X std (RRead vault_bytes [Chunk 4]) = (Ok vault_tree, RRead [] []).
Proof.
  eexists. apply C85_written_out with (f := 9%nat).
  - split; vm_compute; discriminate.
  - apply vault_aims.
  - apply engine_ok_bytes, std_engine_ok.
  - repeat constructor; lia.
  - vm_compute. reflexivity.
  - exact I.
Qed.
Example C85_written_back_instance :
  y_deserialize c64 vault_user vault_program std 47 (RVec (vault_bytes ++ [5]) 0) = (Ok vault_tree, RVec (vault_bytes ++ [5]) 36).
Proof.
  change 47%nat with (Nat.add (S (left (RVec (vault_bytes ++ [5]) 0))) 9). apply C85_written_back; [|exact I]. vm_compute. reflexivity.
Qed.
Example C85_accepted_instance : spoken vault_user (full_language c64 vault_user vault_program std 9) std vault_bytes vault_tree.
Proof.
  destruct (C85_accepted vault c64 vault_user vault_program std 9 (RRead vault_bytes []) vault_tree (RRead [] [])) as (bs & K & D).
  - split; vm_compute; discriminate.
  - apply vault_aims.
  - apply std_engine_ok.
  - apply vault_strict.
  - repeat constructor; lia.
  - vm_compute. reflexivity.
  - destruct D as [D _]. rewrite app_nil_r in D. now subst.
Qed.
(** From any source that gives its bytes, in whatever pieces. *)
Example C85_accepts_instance : forall sched rest, Forall fair sched -> bytes_ok rest ->
  exists f r', y_deserialize c64 vault_user vault_program std f (RRead (vault_bytes ++ rest) sched) = (Ok vault_tree, r') /\
    delivers (RRead (vault_bytes ++ rest) sched) vault_bytes r'.
Proof.
  intros sched rest F B.
  destruct (C85_accepts vault c64 vault_user vault_program std 9 vault_bytes vault_tree (RRead (vault_bytes ++ rest) sched) rest)
    as (r' & E & D); eauto.
  - split; vm_compute; discriminate.
  - apply vault_aims.
  - apply std_engine_ok.
  - apply C85_accepted_instance.
  - cbn [rwf]. rewrite bytes_ok_app. split; [repeat constructor; lia|exact B].
Qed.
Example C85_framing_instance : exists s,
  wire (open_mk vault_user std) vault_bytes s /\
  framed (u_id vault_user) (std_made vault_user std) (content vault_user (full_language c64 vault_user vault_program std 9) std) vault_tree s.
Proof.
  destruct (C85_framing vault c64 vault_user vault_program std 9 (RRead vault_bytes [Chunk 7]) vault_tree (RRead [] [])) as (bs & s & D & W & F).
  - split; vm_compute; discriminate.
  - apply vault_aims.
  - apply std_engine_ok.
  - apply vault_strict.
  - apply vault_keeps_id.
  - apply vault_created.
  - repeat constructor; lia.
  - vm_compute. reflexivity.
  - destruct D as [D _]. rewrite app_nil_r in D. subst bs. eauto.
Qed.
Example C85_memory_framing_instance : exists bs s,
  delivers (RVec (vault_bytes ++ [7]) 0) bs (RVec (vault_bytes ++ [7]) 36) /\ wire (open_mk vault_user std) bs s.
Proof.
  destruct (C85_memory_framing vault c64 vault_user vault_program std 9 (RVec (vault_bytes ++ [7]) 0) vault_tree (RVec (vault_bytes ++ [7]) 36))
    as (bs & s & D & W & F).
  - split; vm_compute; discriminate.
  - apply vault_aims.
  - apply std_engine_ok.
  - apply vault_keeps_id.
  - apply vault_created.
  - split; [repeat constructor; lia|vm_compute; discriminate].
  - exact I.
  - vm_compute. reflexivity.
  - eauto.
Qed.

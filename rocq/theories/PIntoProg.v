(** ILTagFactory::deserialize_into called by the programs of the users: C83. *)
From Verif Require Import Base BaseFacts Types Spec SpecFacts IO IOSpec IOFacts Logic HistFacts ILInt ILIntFacts Data DataFacts Tags
  Factory FactoryFacts DecodeFacts DeserFacts EngineFacts ClosedFacts Open KinFacts OpenFacts POpen Prog ProgFacts ProgWire PProg
  IntoProg IntoProgFacts IntoCallFacts.

(** The program [into_p t] is the call of deserialize_into on the object [t]: in
    any program, on the reader it was given, what comes after it sees the result and
    the object which the call gives and the reader which the call leaves.  [f] is
    the fuel of the factory, of which it has enough for what the reader holds. *)
Theorem C83_into_is_a_program : forall T c (U : user_impl T) (P : script T) e f t r n A (k : res tag_error unit * otag T -> prog (otag T) A),
  cfg_ok c -> target t -> rwf r -> (left (RLimited r n) < f)%nat ->
  exec c (o_deserialize_fuel (scripted c U P) f e) (seqp (into_p U P t) k) (RLimited r n) =
  match o_deserialize_into (scripted c U P) e (RLimited r n) t with
  | (Panic, _, r') => (Panic, r')
  | (OutOfFuel, _, r') => (OutOfFuel, r')
  | (x, t', r') => exec c (o_deserialize_fuel (scripted c U P) f e) (k (x, t')) r'
  end.
Proof.
  intros T c U P e f t r n A k Hc Ht W L. rewrite exec_seqp.
  rewrite (into_factory c U P e ltac:(unfold cfg_ok in Hc; lia) f t (RLimited r n) Ht Logic.I W L).
  destruct (o_deserialize_into (scripted c U P) e (RLimited r n) t) as [[x t'] r']. unfold tolds. destruct x; reflexivity.
Qed.
Print Assumptions C83_into_is_a_program.

(** So a factory whose user types call both of its methods, maybe on objects of
    their own types, is one whose user types have the programs of C81: those with
    the calls of deserialize_into written out, as deep as the bytes go. *)
Theorem C83_written_out : forall T c (U : user_impl T) (X : iscript T) e r,
  cfg_ok c -> (forall n x, aims (X n x)) -> engine_bytes e -> rwf r ->
  i_deserialize c U X e r = o_deserialize (scripted c U (unrolled U X)) e r /\
  (forall t, leaf_tag t -> i_deserialize_into c U X e r t = o_deserialize_into (scripted c U (unrolled U X)) e r t).
Proof.
  intros T c U X e r Hc Ha Hb W.
  destruct (i_fuel_unrolled c U X e ltac:(unfold cfg_ok in Hc; lia) Ha Hb (Datatypes.S (left r))) as [H1 H2].
  split; [apply H1; auto|]. intros t Ht. apply H2; auto.
Qed.
Print Assumptions C83_written_out.

(** What C81 says of programs holds of these. *)
(** If they do not panic, deserialization ends, with no panic, on every reader. *)
Theorem C83_total : forall T c (U : user_impl T) (X : iscript T) e r,
  cfg_ok c -> (forall n x, aims (X n x)) -> (forall n x, icalm (X n x)) -> (forall id, u_create U id <> Some None) ->
  engine_total e -> engine_bytes e -> rwf r ->
  (exists x r', i_deserialize c U X e r = (x, r') /\ returns x /\ rwf r' /\ (left r' <= left r)%nat) /\
  (forall t, leaf_tag t ->
   exists x t' r', i_deserialize_into c U X e r t = (x, t', r') /\ returns x /\ rwf r' /\ (left r' <= left r)%nat).
Proof.
  intros T c U X e r Hc Ha Hp Hn Ht Hb W. destruct (C83_written_out T c U X e r Hc Ha Hb W) as [E1 E2].
  destruct (C81_total T c U (unrolled U X) e r Hc) as [H1 H2]; auto; [intros n x; now apply unroll_calm|].
  rewrite E1. split; [exact H1|]. intros t Hl. rewrite E2 by exact Hl. now apply H2.
Qed.
Print Assumptions C83_total.
(** If they propagate every failure, what is accepted, on any reader, is in the wire
    grammar, and the contents of each user tag are what its program reads; and it is
    in the language of C81. *)
Theorem C83_framing : forall T c (U : user_impl T) (X : iscript T) e r t r',
  cfg_ok c -> (forall n x, aims (X n x)) -> engine_ok e -> (forall n x, istrict (X n x) is_error) ->
  (forall n x, iends_in (X n x) (fun a => fst a = None -> u_id U (snd a) = u_id U x)) ->
  (forall id x, u_create U id = Some (Some x) -> u_id U x <> 10 /\ u_id U x <> 14) ->
  rwf r -> i_deserialize c U X e r = (Ok t, r') ->
  exists bs s, delivers r bs r' /\ wire (open_mk U e) bs s /\ framed (u_id U) (std_made U e) (content U (unrolled U X) e) t s.
Proof.
  intros T c U X e r t r' Hc Ha He Hs Hi Hid W E. destruct (C83_written_out T c U X e r Hc Ha (engine_ok_bytes e He) W) as [E1 _]. rewrite E1 in E.
  apply (C81_framing T c U (unrolled U X) e r t r'); auto; [intros n x; now apply unroll_strict|].
  intros n x0 bs x Hr.
  assert (He' : ends_in (unrolled U X n x0) (fun a => fst a = None -> u_id U (snd a) = u_id U x0)).
  { apply (unroll_ends U X _ (fun _ x0 a => fst a = None -> u_id U (snd a) = u_id U x0)); [exact Hi|]. intros m y H. discriminate H. }
  assert (K : forall A (p : prog (otag T) A) G bs a, reads G p bs a -> forall F, ends_in p F -> F a).
  { clear. intros A p G bs a H. induction H; intros F HF; cbn [ends_in] in HF; auto;
      match goal with K : forall F, ends_in _ F -> F ?a |- _ ?a => apply K; apply HF; exact Logic.I end. }
  exact (K _ _ _ _ _ Hr _ He' eq_refl).
Qed.
Print Assumptions C83_framing.
Theorem C83_accepted : forall T c (U : user_impl T) (X : iscript T) e r t r',
  cfg_ok c -> (forall n x, aims (X n x)) -> engine_ok e -> (forall n x, istrict (X n x) is_error) -> rwf r ->
  i_deserialize c U X e r = (Ok t, r') ->
  exists bs, spoken U (unrolled U X) e bs t /\ delivers r bs r'.
Proof.
  intros T c U X e r t r' Hc Ha He Hs W E. destruct (C83_written_out T c U X e r Hc Ha (engine_ok_bytes e He) W) as [E1 _]. rewrite E1 in E.
  eapply C81_accepted; eauto. intros n x. now apply unroll_strict.
Qed.
Print Assumptions C83_accepted.
Theorem C83_accepts : forall T c (U : user_impl T) (X : iscript T) e bs t r rest,
  cfg_ok c -> (forall n x, aims (X n x)) -> engine_ok e -> spoken U (unrolled U X) e bs t -> rwf r -> good r -> pending r = bs ++ rest ->
  exists r', i_deserialize c U X e r = (Ok t, r') /\ delivers r bs r'.
Proof.
  intros T c U X e bs t r rest Hc Ha He K W G Pr. destruct (C83_written_out T c U X e r Hc Ha (engine_ok_bytes e He) W) as [E1 _]. rewrite E1.
  eapply C81_accepts; eauto.
Qed.
Print Assumptions C83_accepts.
(** On memory they take no more than the declared size, whatever they do about
    failures: what is accepted is well framed. *)
Theorem C83_memory_framing : forall T c (U : user_impl T) (X : iscript T) e r t r',
  cfg_ok c -> (forall n x, aims (X n x)) -> engine_ok e ->
  (forall n x, iends_in (X n x) (fun a => fst a = None -> u_id U (snd a) = u_id U x)) ->
  (forall id x, u_create U id = Some (Some x) -> u_id U x <> 10 /\ u_id U x <> 14) ->
  rwf r -> in_memory r -> i_deserialize c U X e r = (Ok t, r') ->
  exists bs s, delivers r bs r' /\ wire (open_mk U e) bs s /\ framed (u_id U) (std_made U e) (fun _ _ => True) t s.
Proof.
  intros T c U X e r t r' Hc Ha He Hi Hid W Q E. destruct (C83_written_out T c U X e r Hc Ha (engine_ok_bytes e He) W) as [E1 _]. rewrite E1 in E.
  apply (C81_memory_framing T c U (unrolled U X) e r t r'); auto.
  intros n x. apply (unroll_ends U X _ (fun _ x0 a => fst a = None -> u_id U (snd a) = u_id U x0)); [exact Hi|].
  intros m y H. discriminate H.
Qed.
Print Assumptions C83_memory_framing.

(** ** Instances *)
(** A user type with a label, an ILStringTag that is read in place, and, after a
    byte 1, an object of its own type, also read in place. *)
Inductive node := Node (label : list N) (next : option node).
Definition node_id : N := 2000.
Definition node_program : iscript node := fun _ old =>
  let 'Node label _ := old in
  IInto (OStd IL_STRING_TAG_ID (VString label)) (fun x t =>
    match x, t with
    | Ok _, OStd _ (VString label') =>
        IRead (fun y => match y with
          | Ok 1 => IInto (OUser (Node [] None)) (fun z u =>
              match z, u with
              | Ok _, OUser next => IDone (None, Node label' (Some next))
              | Err e, _ => IDone (Some e, old)
              | _, _ => IDone (Some CorruptedData, old)
              end)
          | Ok _ => IDone (None, Node label' None)
          | Err e => IDone (Some (TagIO e), old)
          | _ => IAbort
          end)
    | Err e, _ => IDone (Some e, old)
    | _, _ => IDone (Some CorruptedData, old)
    end).
Definition node_user : user_impl node := {|
  u_id := fun _ => node_id; u_size := fun _ => 0; u_serialize := fun _ w => (Ok tt, w); u_to_bytes := fun _ => Ok [];
  u_deserialize_value := fun _ _ st => (Ok tt, st);
  u_create := fun id => if id =? node_id then Some (Some (Node [] None)) else None |}.
Lemma node_aims n x : aims (node_program n x).
Proof.
  destruct x as [label next]. split; [repeat split|]. intros x t _. destruct x; destruct t as [id v| | | |]; try exact I.
  destruct v; try exact I. intros y. destruct y as [[|[p|p|]]| | |]; try exact I. split; [exact I|].
  intros z u _. destruct z; destruct u; exact I.
Qed.
Lemma node_calm n x : icalm (node_program n x).
Proof.
  destruct x as [label next]. intros x t Hx. destruct x; try contradiction; destruct t as [id v| | | |]; try exact I.
  destruct v; try exact I. intros y Hy. destruct y as [[|[p|p|]]| | |]; try contradiction; try exact I.
  intros z u Hz. destruct z; try contradiction; destruct u; exact I.
Qed.
Lemma node_strict n x : istrict (node_program n x) is_error.
Proof.
  destruct x as [label next]. split; [|intros e t; destruct t; cbn; discriminate].
  intros t. destruct t as [id v| | | |]; try exact I. destruct v; try exact I.
  split; [|intros e; cbn; discriminate]. intros [|[p|p|]]; try exact I.
  split; [intros u; destruct u; exact I|intros e u; destruct u; cbn; discriminate].
Qed.
(** A sequence with such a chain of three, in a stream that comes in pieces. *)
Definition node_bytes : list N :=
  [22; 25; 249; 6; 216; 19; 17; 2; 97; 98; 1; 249; 6; 216; 10; 17; 0; 1; 249; 6; 216; 3; 17; 0; 0; 0; 0].
Definition node_tree : otag node := OSeq 22 [OUser (Node [97; 98] (Some (Node [] (Some (Node [] None))))); OStd 0 VNull; OStd 0 VNull].
Definition node_stream (rest : list N) : reader := RRead (node_bytes ++ rest) [Chunk 2; Interrupt; Chunk 9].
Lemma node_created id x : u_create node_user id = Some (Some x) -> u_id node_user x <> 10 /\ u_id node_user x <> 14.
Proof. intros _. cbn. split; discriminate. Qed.
Lemma node_keeps_id n x : iends_in (node_program n x) (fun a => fst a = None -> u_id node_user (snd a) = u_id node_user x).
Proof.
  destruct x as [label next]. intros x t Hx. destruct x; try contradiction; destruct t as [id v| | | |]; try (intros _; reflexivity).
  destruct v; try (intros _; reflexivity). intros y Hy. destruct y as [[|[p|p|]]| | |]; try contradiction; try (intros _; reflexivity).
  intros z u Hz. destruct z; try contradiction; destruct u; intros _; reflexivity.
Qed.
(** The call on a string, with more of the program after it; it fails in the
    middle, and what comes after it sees the error and the object. *)
Example C83_into_is_a_program_instance :
  exec c64 (o_deserialize_fuel (scripted c64 bytes_user retry) 9 (create_std_engine false))
    (seqp (into_p bytes_user retry (OStd 16 (VBytes [9; 9]))) (fun xt => DoRead (fun y => Done (xt, y))))
    (RLimited (RRead [16; 3; 5; 6; 7; 8] [Chunk 1; Chunk 1; Chunk 1; Fail (OtherKind 7)]) 9)
  = (Ok (Err (TagIO (IOErrorStd (OtherKind 7))), OStd 16 (VBytes [5; 9; 0]), Ok 6), RLimited (RRead [7; 8] []) 6).
Proof.
  rewrite C83_into_is_a_program; [|split; vm_compute; discriminate|repeat constructor; unfold byte_ok; lia|repeat constructor; lia|cbn; lia].
  vm_compute. reflexivity.
Qed.
Example C83_written_out_instance :
  i_deserialize c64 node_user node_program (create_std_engine false) (node_stream [1; 2]) = (Ok node_tree, RRead [1; 2] []) /\
  o_deserialize (scripted c64 node_user (unrolled node_user node_program)) (create_std_engine false) (node_stream [1; 2])
  = (Ok node_tree, RRead [1; 2] []).
Proof.
  assert (E : i_deserialize c64 node_user node_program (create_std_engine false) (node_stream [1; 2]) = (Ok node_tree, RRead [1; 2] []))
    by (vm_compute; reflexivity).
  split; [exact E|]. rewrite <- E. symmetry. apply C83_written_out; [split; vm_compute; discriminate|apply node_aims|apply engine_ok_bytes, std_engine_ok|repeat constructor; lia].
Qed.
Example C83_total_instance : exists x r',
  i_deserialize c64 node_user node_program (create_std_engine false) (RRead [249; 6; 216; 9; 17; 0; 1; 249] [Chunk 5; Fail (OtherKind 3)]) = (x, r') /\
  returns x.
Proof.
  destruct (C83_total node c64 node_user node_program (create_std_engine false)
    (RRead [249; 6; 216; 9; 17; 0; 1; 249] [Chunk 5; Fail (OtherKind 3)])) as [(x & r' & E & R & _) _].
  - split; vm_compute; discriminate.
  - apply node_aims.
  - apply node_calm.
  - intros id. cbn [u_create node_user]. destruct (id =? node_id); discriminate.
  - apply std_engine_total.
  - apply engine_ok_bytes, std_engine_ok.
  - repeat constructor; lia.
  - eauto.
Qed.
(** A user type with two tags of the same type: the first from deserialize, the
    second read into the same object. *)
Definition twice_program : iscript N := fun _ old =>
  ITag (fun x => match x with
    | Ok t => IInto t (fun y t' =>
        match y, t' with
        | Ok _, OStd _ (VILInt m) => IDone (None, m)
        | Err e, _ => IDone (Some e, old)
        | _, _ => IDone (Some CorruptedData, old)
        end)
    | Err e => IDone (Some e, old)
    | _ => IAbort
    end).
Definition twice_user : user_impl N := {|
  u_id := fun _ => 3000; u_size := fun _ => 0; u_serialize := fun _ w => (Ok tt, w); u_to_bytes := fun _ => Ok [];
  u_deserialize_value := fun _ _ st => (Ok tt, st);
  u_create := fun id => if id =? 3000 then Some (Some 0) else None |}.
Example C83_written_out_same_object : forall rest, bytes_ok rest ->
  o_deserialize (scripted c64 twice_user (unrolled twice_user twice_program)) (create_std_engine false) (RVec ([249; 10; 192; 4; 10; 5; 10; 6] ++ rest) 0)
  = i_deserialize c64 twice_user twice_program (create_std_engine false) (RVec ([249; 10; 192; 4; 10; 5; 10; 6] ++ rest) 0) /\
  i_deserialize c64 twice_user twice_program (create_std_engine false) (RVec [249; 10; 192; 4; 10; 5; 10; 6] 0)
  = (Ok (OUser 6), RVec [249; 10; 192; 4; 10; 5; 10; 6] 8).
Proof.
  intros rest B. split; [|vm_compute; reflexivity]. symmetry.
  apply C83_written_out; [split; vm_compute; discriminate| |apply engine_ok_bytes, std_engine_ok|].
  - intros n x y Hy. destruct y as [t|e| |]; try exact I. split; [exact (Hy t eq_refl)|].
    intros z t' Ht'. destruct z; destruct t' as [id v| | | |]; try exact I. destruct v; exact I.
  - split; [apply bytes_ok_app; split; [repeat constructor; lia|exact B]|lia].
Qed.
Example C83_framing_instance : exists s,
  wire (open_mk node_user (create_std_engine false)) node_bytes s /\
  framed (u_id node_user) (std_made node_user (create_std_engine false))
    (content node_user (unrolled node_user node_program) (create_std_engine false)) node_tree s.
Proof.
  destruct (C83_framing node c64 node_user node_program (create_std_engine false) (node_stream [1; 2]) node_tree (RRead [1; 2] []))
    as (bs & s & D & W & F).
  - split; vm_compute; discriminate.
  - apply node_aims.
  - apply std_engine_ok.
  - apply node_strict.
  - apply node_keeps_id.
  - apply node_created.
  - repeat constructor; lia.
  - apply C83_written_out_instance.
  - destruct D as [D _]. apply app_inv_tail in D. subst bs. eauto.
Qed.
Example C83_accepted_instance : spoken node_user (unrolled node_user node_program) (create_std_engine false) node_bytes node_tree.
Proof.
  destruct (C83_accepted node c64 node_user node_program (create_std_engine false) (node_stream [1; 2]) node_tree (RRead [1; 2] []))
    as (bs & K & D).
  - split; vm_compute; discriminate.
  - apply node_aims.
  - apply std_engine_ok.
  - apply node_strict.
  - repeat constructor; lia.
  - apply C83_written_out_instance.
  - destruct D as [D _]. apply app_inv_tail in D. now subst.
Qed.
Example C83_accepts_instance : forall sched rest, Forall fair sched -> bytes_ok rest ->
  exists r', i_deserialize c64 node_user node_program (create_std_engine false) (RRead (node_bytes ++ rest) sched) = (Ok node_tree, r') /\
    delivers (RRead (node_bytes ++ rest) sched) node_bytes r'.
Proof.
  intros sched rest F B. apply C83_accepts with (rest := rest).
  - split; vm_compute; discriminate.
  - apply node_aims.
  - apply std_engine_ok.
  - apply C83_accepted_instance.
  - cbn [rwf]. rewrite bytes_ok_app. split; [repeat constructor; lia|exact B].
  - exact F.
  - reflexivity.
Qed.
Example C83_memory_framing_instance : exists bs s,
  delivers (RVec (node_bytes ++ [7]) 0) bs (RVec (node_bytes ++ [7]) 27) /\ wire (open_mk node_user (create_std_engine false)) bs s.
Proof.
  destruct (C83_memory_framing node c64 node_user node_program (create_std_engine false) (RVec (node_bytes ++ [7]) 0) node_tree (RVec (node_bytes ++ [7]) 27))
    as (bs & s & D & W & F).
  - split; vm_compute; discriminate.
  - apply node_aims.
  - apply std_engine_ok.
  - apply node_keeps_id.
  - apply node_created.
  - split; [repeat constructor; lia|vm_compute; discriminate].
  - exact I.
  - vm_compute. reflexivity.
  - eauto.
Qed.

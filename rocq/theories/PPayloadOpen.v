(** Payload tags anywhere inside the containers of the library, and payloads
    that hold tags: C47. *)
From Verif Require Import Base BaseFacts Types Spec SpecFacts IO IOSpec IOFacts WriterFacts Logic WLogic ILInt ILIntFacts Data DataFacts Tags
  SortFacts TagsFacts Factory FactoryFacts DecodeFacts DeserFacts EngineFacts WireFacts FromFacts Payload PPayload Open ClosedFacts KinFacts OpenFacts POpen.

(** Each tag of the tree has an id that its type is registered for: a payload tag
    one in [reg], the other tags one that is not in [reg] and that the library's
    factory creates that type for.  Ids up to 15 need the implicit size. *)
Fixpoint registered {T} (reg : N -> bool) (e : engine) (code : T -> list N) (t : otag (N * T)) : Prop :=
  let body := lenN (encv (tag_val (shadow fst (fun x => code (snd x)) t))) in
  match t with
  | OStd id v => reg id = false /\ leaf v /\ conforms (mk_of e) (Tag id v)
  | OUser (id, x) => reg id = true /\ (15 < id \/ lenN (code x) = implicit_size id)
  | OSeq id l => reg id = false /\ mk_of e id = Some (id, KSeq) /\ (15 < id \/ body = implicit_size id) /\ all (registered reg e code) l
  | OArr id l => reg id = false /\ mk_of e id = Some (id, KArr) /\ (15 < id \/ body = implicit_size id) /\ all (registered reg e code) l
  | ODict id l => reg id = false /\ mk_of e id = Some (id, KDict) /\ (15 < id \/ body = implicit_size id)
      /\ all (fun p => registered reg e code (snd p)) l
  end.
Lemma registered_readable {T} dflt sz ser des reg e (code : T -> list N) t :
  registered reg e code t -> readable (payload_user dflt sz ser des reg) e (fun x => code (snd x)) t.
Proof.
  assert (Hn : forall id, reg id = false -> u_create (payload_user dflt sz ser des reg) id = None).
  { intros id H. cbn. now rewrite H. }
  induction t as [id v|[id x]|id l IH|id l IH|id l IH] using otag_induction; cbn [registered readable].
  - intros (H1 & H2 & H3). auto.
  - intros (H1 & H2). split; [|exact H2]. exists (id, dflt). cbn. now rewrite H1.
  - intros (H1 & H2 & H3 & H4). split; [auto|]. split; [exact H2|]. split; [exact H3|].
    apply all_Forall in H4. apply all_Forall. rewrite Forall_forall in *. eauto.
  - intros (H1 & H2 & H3 & H4). split; [auto|]. split; [exact H2|]. split; [exact H3|].
    apply all_Forall in H4. apply all_Forall. rewrite Forall_forall in *. eauto.
  - intros (H1 & H2 & H3 & H4). split; [auto|]. split; [exact H2|]. split; [exact H3|].
    apply all_Forall in H4. apply all_Forall. rewrite Forall_forall in *. intros p Hp. exact (IH p Hp (H4 p Hp)).
Qed.

(** The contract of the payload, as in [contract] but with the factory that also
    creates payload tags inside containers. *)
Theorem C47_anywhere : forall T (dflt : T) sz ser des reg e (ok : T -> Prop) (code : T -> list N) t,
  let U := payload_user dflt sz ser des reg in
  let s := shadow fst (fun x => code (snd x)) t in
  engine_ok e ->
  (forall x, ok x -> sz x = lenN (code x)) -> (forall x, ok x -> emits (ser x) (code x)) ->
  (forall x x0 f r rest, ok x -> rwf r -> good r -> (left r < f)%nat -> pending r = code x ++ rest ->
   exists r', des (o_deserialize_fuel U f e) (lenN (code x)) (x0, RLimited r (lenN (code x))) = (Ok tt, (x, RLimited r' 0))
     /\ delivers r (code x) r') ->
  users (fun x => ok (snd x)) t -> wf s -> registered reg e code t -> lenN (encv (tag_val s)) <= 536870912 ->
  o_size U t = lenN (enc s) /\ o_to_bytes U t = Ok (enc s) /\ emits (o_serialize U t) (enc s) /\
  o_from_bytes U e (enc s) = Ok (onorm t) /\
  forall r rest, rwf r -> good r -> pending r = enc s ++ rest ->
  exists r', o_deserialize U e r = (Ok (onorm t), r') /\ delivers r (enc s) r' /\ pending r' = rest.
Proof.
  intros T dflt sz ser des reg e ok code t U s He Hs Hw Hr A W R L. apply (registered_readable dflt sz ser des) in R.
  assert (C : ucontract U e (fun x => ok (snd x)) (fun x => code (snd x))).
  { apply C63_provided.
    - intros [i x] H. exact (Hs x H).
    - intros [i x] H. exact (Hw x H).
    - intros [i x] [i0 x0] f r rest H Hi Wr G Lf Pr. cbn in Hi. subst i0. cbn [snd] in *.
      destruct (Hr x x0 f r rest H Wr G Lf Pr) as (r' & E & D). exists r'. split; [|exact D].
      unfold on_snd. cbv beta iota. change (provided _ _ _ _ _) with U. now rewrite E. }
  pose proof (payload_two64 _ W L) as L2.
  destruct (C63_layout _ U e _ _ t C A W L2) as (E1 & E2 & E3 & _).
  split; [exact E1|]. split; [exact E2|]. split; [exact E3|]. split.
  - exact (proj1 (C63_from_bytes _ U e _ _ t _ He C A W R L E2)).
  - intros r rest Wr G P. exact (C63_round_trip _ U e _ _ t _ r rest He C A W R L E2 Wr G P).
Qed.
Print Assumptions C47_anywhere.
(** The payload of the project's tests, twice in a tree. *)
Example C47_anywhere_instance :
  let ok := fun x => fst x < wmod W16 /\ snd x < wmod W32 in
  open_user = payload_user (p_default test_payload) (p_serialized_size test_payload) (p_serialize test_payload)
    (fun _ => p_deserialize test_payload (fun r => (Panic, r))) (fun id => id =? 2000) /\
  (forall x, ok x -> p_serialized_size test_payload x = lenN (test_code x)) /\
  (forall x, ok x -> emits (p_serialize test_payload x) (test_code x)) /\
  (forall x x0 f r rest, ok x -> rwf r -> good r -> (left r < f)%nat -> pending r = test_code x ++ rest ->
   exists r', p_deserialize test_payload (fun r => (Panic, r)) (lenN (test_code x)) (x0, RLimited r (lenN (test_code x)))
     = (Ok tt, (x, RLimited r' 0)) /\ delivers r (test_code x) r') /\
  users (fun x => ok (snd x)) open_sample /\
  wf (shadow fst (fun x => test_code (snd x)) open_sample) /\
  registered (fun id => id =? 2000) (create_std_engine false) test_code open_sample /\
  lenN (encv (tag_val (shadow fst (fun x => test_code (snd x)) open_sample))) <= 536870912.
Proof.
  intros ok. pose proof (test_contract (fun _ r => (Panic, r))) as C. destruct C63_instance as (_ & A & W & _).
  split; [reflexivity|]. split; [exact (c_size _ _ _ _ C)|]. split; [exact (c_writes _ _ _ _ C)|].
  split; [exact (c_reads _ _ _ _ C)|]. split; [exact A|]. split; [exact W|]. split; [|vm_compute; discriminate].
  cbn -[lenN N.pow]. repeat split; try reflexivity; try (left; reflexivity). right; left; reflexivity.
Qed.

(** *** A payload that is a tag
    The payload is any tag, with other such payload tags in it at any depth; it
    is read through the factory (src/tags/payload/mod.rs:72-90). *)
Inductive box := Box (t : otag (N * box)).
Definition unbox (b : box) : otag (N * box) := match b with Box t => t end.
Fixpoint box_size (b : box) : N :=
  match b with
  | Box t => o_size {| u_id := fst; u_size := fun x => size_with (fst x) (box_size (snd x));
      u_serialize := fun _ => ret tt; u_to_bytes := fun _ => Panic; u_deserialize_value := fun _ _ => ret tt; u_create := fun _ => None |} t
  end.
Fixpoint box_serialize (b : box) : writer -> res tag_error unit * writer :=
  match b with
  | Box t => o_serialize {| u_id := fst; u_size := fun x => size_with (fst x) (box_size (snd x));
      u_serialize := fun x => serialize_with (fst x) (box_size (snd x)) (box_serialize (snd x));
      u_to_bytes := fun _ => Panic; u_deserialize_value := fun _ _ => ret tt; u_create := fun _ => None |} t
  end.
Definition box_deserialize (deser : reader -> res tag_error (otag (N * box)) * reader) (n : N) : method box unit :=
  t <- on_reader deser ;; modify (fun _ => Box t).
Definition box_user (reg : N -> bool) : user_impl (N * box) :=
  payload_user (Box (OStd 0 VNull)) box_size box_serialize box_deserialize reg.
(** What these bodies call is the object's own [size] and [serialize]. *)
Lemma box_size_own reg t : box_size (Box t) = o_size (box_user reg) t.
Proof. reflexivity. Qed.
Lemma box_serialize_own reg t : box_serialize (Box t) = o_serialize (box_user reg) t.
Proof. reflexivity. Qed.
(** The bytes of the tag in a box. *)
Fixpoint box_code (b : box) : list N :=
  match b with Box t => enc (shadow fst (fun x => box_code (snd x)) t) end.
Notation plain t := (shadow fst (fun x : N * box => box_code (snd x)) t).

(** A tree with payload tags nested at most [n] deep in each other: made of the
    types the factory creates, none over 512 MB, dictionaries in key order. *)
Fixpoint nested (reg : N -> bool) (e : engine) (n : nat) (t : otag (N * box)) : Prop :=
  users (fun x => match n with O => False | S m => nested reg e m (unbox (snd x)) end) t /\
  wf (plain t) /\ registered reg e box_code t /\
  lenN (encv (tag_val (plain t))) <= 536870912 /\ onorm t = t.

Theorem C47_boxes : forall reg e n t,
  engine_ok e -> nested reg e n t ->
  o_size (box_user reg) t = lenN (enc (plain t)) /\ o_to_bytes (box_user reg) t = Ok (enc (plain t)) /\
  emits (o_serialize (box_user reg) t) (enc (plain t)) /\
  o_from_bytes (box_user reg) e (enc (plain t)) = Ok t /\
  forall r rest, rwf r -> good r -> pending r = enc (plain t) ++ rest ->
  exists r', o_deserialize (box_user reg) e r = (Ok t, r') /\ delivers r (enc (plain t)) r' /\ pending r' = rest.
Proof.
  intros reg e n t He. revert t.
  assert (K : forall t (ok : box -> Prop),
    (forall x, ok x -> box_size x = lenN (box_code x)) -> (forall x, ok x -> emits (box_serialize x) (box_code x)) ->
    (forall x x0 f r rest, ok x -> rwf r -> good r -> (left r < f)%nat -> pending r = box_code x ++ rest ->
     exists r', box_deserialize (o_deserialize_fuel (box_user reg) f e) (lenN (box_code x)) (x0, RLimited r (lenN (box_code x)))
       = (Ok tt, (x, RLimited r' 0)) /\ delivers r (box_code x) r') ->
    users (fun x => ok (snd x)) t -> wf (plain t) -> registered reg e box_code t ->
    lenN (encv (tag_val (plain t))) <= 536870912 -> onorm t = t ->
    (o_size (box_user reg) t = lenN (enc (plain t)) /\ o_to_bytes (box_user reg) t = Ok (enc (plain t)) /\
     emits (o_serialize (box_user reg) t) (enc (plain t)) /\
     o_from_bytes (box_user reg) e (enc (plain t)) = Ok t /\
     forall r rest, rwf r -> good r -> pending r = enc (plain t) ++ rest ->
     exists r', o_deserialize (box_user reg) e r = (Ok t, r') /\ delivers r (enc (plain t)) r' /\ pending r' = rest) /\
    (forall f, rcomplete f (o_deserialize_fuel (box_user reg) f e) t (enc (plain t)))).
  { intros t ok Hs Hw Hr A W R L Nt.
    destruct (C47_anywhere box (Box (OStd 0 VNull)) box_size box_serialize box_deserialize reg e ok box_code t He Hs Hw Hr A W R L)
      as (E1 & E2 & E3 & E4 & E5). rewrite Nt in E4, E5. split; [exact (conj E1 (conj E2 (conj E3 (conj E4 E5))))|].
    intros f. pose proof (o_complete (box_user reg) e (fun x => ok (snd x)) (fun x => box_code (snd x)) He) as O.
    rewrite <- Nt at 1. apply O; auto; [|exact (registered_readable _ _ _ _ _ _ _ _ R)]. intros [i x] [i0 x0] f' r rest H Hi Wr G Lf Pr. cbn in Hi. subst i0. cbn [snd] in *.
    destruct (Hr x x0 f' r rest H Wr G Lf Pr) as (r' & E & D). exists r'. split; [|exact D].
    unfold box_user at 1, payload_user, provided, provided_but. cbn [u_deserialize_value]. unfold on_snd.
    change (provided_but _ _ _ _ _ _) with (box_user reg). now rewrite E. }
  assert (F : forall n t, nested reg e n t -> (forall f, rcomplete f (o_deserialize_fuel (box_user reg) f e) t (enc (plain t))) /\
    (o_size (box_user reg) t = lenN (enc (plain t)) /\ o_to_bytes (box_user reg) t = Ok (enc (plain t)) /\
     emits (o_serialize (box_user reg) t) (enc (plain t)) /\
     o_from_bytes (box_user reg) e (enc (plain t)) = Ok t /\
     forall r rest, rwf r -> good r -> pending r = enc (plain t) ++ rest ->
     exists r', o_deserialize (box_user reg) e r = (Ok t, r') /\ delivers r (enc (plain t)) r' /\ pending r' = rest)).
  { clear n. induction n as [|n IH]; intros t (A & W & R & L & Nt).
    - destruct (K t (fun _ => False)) as [K1 K2]; auto; try (intros; contradiction).
    - destruct (K t (fun x => nested reg e n (unbox x))) as [K1 K2]; auto.
      + intros [u] H. destruct (IH u H) as (_ & E & _). exact E.
      + intros [u] H. destruct (IH u H) as (_ & _ & _ & E & _). exact E.
      + intros [u] x0 f r rest H Wr G Lf Pr. destruct (IH u H) as (E & _).
        apply (reads_of_mcomplete _ f x0 (Box u) (box_code (Box u)) r rest); auto. unfold box_deserialize.
        eapply mcomplete_bind_r; [apply mcomplete_on_reader, E|]. exact (mcomplete_modify f (fun _ => Box u) x0). }
  intros t H. exact (proj2 (F n t H)).
Qed.
Print Assumptions C47_boxes.
(** A payload tag in a sequence; its payload is a dictionary that holds a payload
    tag whose payload is a string. *)
Definition boxed : otag (N * box) :=
  OSeq 22 [OStd 3 (VUInt W8 7);
           OUser (2000, Box (ODict 30 [([97], OUser (2001, Box (OStd 17 (VString [65; 66])))); ([98], OStd 0 VNull)]))].
Example C47_boxes_instance :
  let reg := fun id => (id =? 2000) || (id =? 2001) in
  engine_ok (create_std_engine false) /\ nested reg (create_std_engine false) 2 boxed /\
  o_to_bytes (box_user reg) boxed =
    Ok [22; 24; 3; 7; 249; 6; 216; 18; 30; 16; 2; 17; 1; 97; 249; 6; 217; 4; 17; 2; 65; 66; 17; 1; 98; 0].
Proof.
  cbv zeta. split; [apply std_engine_ok|]. split; [|vm_compute; reflexivity].
  set (reg := fun id => (id =? 2000) || (id =? 2001)).
  assert (U : forall id x, id < two64 -> reg id = true -> sized id (lenN (box_code x)) ->
    registered reg (create_std_engine false) box_code (OUser (id, x))).
  { intros id x Hi Hr Hz. now split. }
  assert (A : forall l, Forall (fun b => b < 128) l -> utf8 l).
  { intros l H. exists l. split; [revert H; apply Forall_impl; intros b Hb; left; lia|].
    induction H as [|b l Hb H IH]; [reflexivity|]. unfold utf8_encode in *. cbn [flat_map]. rewrite <- IH.
    unfold utf8_char. destruct (N.ltb_spec b 128); [reflexivity|lia]. }
  assert (N0 : nested reg (create_std_engine false) 0 (OStd 17 (VString [65; 66]))).
  { split; [exact Logic.I|]. split; [split; [reflexivity|]; apply A; repeat constructor|].
    split; [|split; [vm_compute; discriminate|reflexivity]].
    split; [reflexivity|]. split; [exact Logic.I|]. split; [reflexivity|]. split; [left; reflexivity|exact Logic.I]. }
  assert (N1 : nested reg (create_std_engine false) 1
    (ODict 30 [([97], OUser (2001, Box (OStd 17 (VString [65; 66])))); ([98], OStd 0 VNull)])).
  { split; [split; [exact N0|repeat split]|]. split.
    { split; [reflexivity|]. split; [|split].
      - repeat constructor; cbn; intuition discriminate.
      - repeat constructor; apply A; repeat constructor.
      - split; [|split; [split; [reflexivity|exact Logic.I]|exact Logic.I]]. split; [reflexivity|]. vm_compute. repeat constructor. }
    split; [|split; [vm_compute; discriminate|reflexivity]].
    split; [reflexivity|]. split; [reflexivity|]. split; [left; reflexivity|].
    split; [apply U; [reflexivity|reflexivity|left; reflexivity]|]. split; [|exact Logic.I].
    split; [reflexivity|]. split; [exact Logic.I|]. split; [reflexivity|]. split; [|exact Logic.I]. right. left. reflexivity. }
  split; [split; [exact Logic.I|split; [exact N1|exact Logic.I]]|]. split.
  { split; [reflexivity|]. split; [split; reflexivity|]. split; [|exact Logic.I]. split; [reflexivity|]. vm_compute. repeat constructor. }
  split; [|split; [vm_compute; discriminate|reflexivity]].
  split; [reflexivity|]. split; [reflexivity|]. split; [left; reflexivity|].
  split; [|split; [apply U; [reflexivity|reflexivity|left; reflexivity]|exact Logic.I]].
  split; [reflexivity|]. split; [exact Logic.I|]. split; [reflexivity|]. split; [|exact Logic.I]. right. left. reflexivity.
Qed.

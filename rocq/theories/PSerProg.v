(** User types whose serialize is a program, on any writer: C86. *)
From Verif Require Import Base BaseFacts Types Spec SpecFacts IO IOSpec IOFacts WriterFacts Logic WLogic ILInt ILIntFacts Data DataFacts Tags
  SortFacts TagsFacts Factory FactoryFacts DecodeFacts DeserFacts EngineFacts WireFacts FromFacts Payload PPayload Open ClosedFacts KinFacts
  OpenFacts POpen CallFacts AnyWriter AnyWriterFacts PAnyWriter SerProg SerProgFacts.

(** ** C86.  The result does not depend on the bound, once it is large enough. *)
Theorem C86_determined : forall T (U : user_impl T) P f g W (M : writer_impl W) t u x u', (f <= g)%nat ->
  s_serialize U P f W M t u = (x, u') -> x <> OutOfFuel -> s_serialize U P g W M t u = (x, u').
Proof.
  intros T U P f g W M t u x u' L E N. rewrite <- E. apply (s_serialize_le U P f g W M t L). now rewrite E.
Qed.
Print Assumptions C86_determined.

(** The library adds no panic: if the programs do not panic and the methods of the
    writer return, serialize does not panic; the writer stays in [inv]. *)
Theorem C86_no_panic : forall T (U : user_impl T) P f W (M : writer_impl W) (inv : W -> Prop) t u x u',
  (forall x, scalm wwf (P x)) ->
  (forall b u, inv u -> returns (fst (u_write M b u)) /\ inv (snd (u_write M b u))) ->
  (forall bs u, inv u -> returns (fst (u_write_all M bs u)) /\ inv (snd (u_write_all M bs u))) ->
  inv u -> s_serialize U P f W M t u = (x, u') -> x <> Panic /\ inv u'.
Proof.
  intros T U P f W M inv t u x u' C H1 H2 Hu E.
  pose proof (s_serialize_no_panic U P f C W M inv t (conj H1 H2) u Hu) as K. rewrite E in K. cbn [fst snd] in K.
  split; [|apply K]. intros ->. apply K.
Qed.
Print Assumptions C86_no_panic.

(** It ends if each program serializes, directly, only objects whose user tags are
    of a smaller rank than its own. *)
Theorem C86_total : forall T (U : user_impl T) P (rank : T -> nat) W (M : writer_impl W) (inv : W -> Prop) t n u,
  (forall x, scalm wwf (P x)) ->
  (forall x, sserializes (users (fun y => rank y < rank x)%nat) (P x)) ->
  (forall b u, inv u -> returns (fst (u_write M b u)) /\ inv (snd (u_write M b u))) ->
  (forall bs u, inv u -> returns (fst (u_write_all M bs u)) /\ inv (snd (u_write_all M bs u))) ->
  users (fun x => rank x < n)%nat t -> inv u ->
  exists x u', s_serialize U P (S n) W M t u = (x, u') /\ returns x /\ inv u'.
Proof.
  intros T U P rank W M inv t n u C R H1 H2 A Hu.
  pose proof (s_serialize_ends U P rank C R n W M inv t (conj H1 H2) A u Hu) as K.
  destruct (s_serialize U P (S n) W M t u) as [x u']. cbn [fst snd] in K. exists x, u'. split; [reflexivity|].
  split; [|apply K]. destruct x; cbn; tauto.
Qed.
Print Assumptions C86_total.

(** Whatever the programs do, all that happens is calls of the two methods of the
    writer, and each call is a function of the answers to those before it: the runs
    on two writers make the same calls until one is answered differently, and
    return the same if none is. *)
Theorem C86_answers : forall T (U : user_impl T) P f t W1 (M1 : writer_impl W1) u1 W2 (M2 : writer_impl W2) u2 x1 v1 x2 v2,
  s_serialize U P f W1 M1 t u1 = (x1, v1) -> s_serialize U P f W2 M2 t u2 = (x2, v2) ->
  exists t1 t2, made M1 u1 t1 v1 /\ made M2 u2 t2 v2 /\
    ((t1 = t2 /\ x1 = x2) \/
     (exists a c x y r1 r2, t1 = a ++ (c, x) :: r1 /\ t2 = a ++ (c, y) :: r2 /\ x <> y)).
Proof.
  intros T U P f t W1 M1 u1 W2 M2 u2 x1 v1 x2 v2 E1 E2.
  destruct (s_serialize_strat Free U P f (fun _ => I) t W1 M1 u1 W2 M2 u2) as (t1 & t2 & H1 & H2 & _ & _ & D).
  rewrite E1, E2 in *. exists t1, t2. auto.
Qed.
Print Assumptions C86_answers.
Theorem C86_same_answers : forall T (U : user_impl T) P f W1 W2 (M1 : writer_impl W1) (M2 : writer_impl W2) (R : W1 -> W2 -> Prop),
  (forall b u1 u2, R u1 u2 ->
     fst (u_write M1 b u1) = fst (u_write M2 b u2) /\ R (snd (u_write M1 b u1)) (snd (u_write M2 b u2))) ->
  (forall bs u1 u2, R u1 u2 ->
     fst (u_write_all M1 bs u1) = fst (u_write_all M2 bs u2) /\
     R (snd (u_write_all M1 bs u1)) (snd (u_write_all M2 bs u2))) ->
  forall t u1 u2 x1 v1 x2 v2, R u1 u2 ->
  s_serialize U P f W1 M1 t u1 = (x1, v1) -> s_serialize U P f W2 M2 t u2 = (x2, v2) -> x1 = x2 /\ R v1 v2.
Proof.
  intros T U P f W1 W2 M1 M2 R H1 H2 t u1 u2 x1 v1 x2 v2 HR E1 E2.
  destruct (C86_answers T U P f t W1 M1 u1 W2 M2 u2 x1 v1 x2 v2 E1 E2) as (t1 & t2 & A1 & A2 & D).
  assert (K : exists w, made M2 u2 t1 w /\ R v1 w).
  { clear - A1 H1 H2 HR. revert u2 HR. induction A1 as [u|u b x w1 tr w2 H _ IH|u bs x w1 tr w2 H _ IH]; intros u2 HR.
    - exists u2. split; [constructor|exact HR].
    - destruct (H1 b u u2 HR) as [Ea Eb]. rewrite H in Ea, Eb. cbn [fst snd] in *. destruct (IH _ Eb) as (w & Hm & Hr).
      exists w. split; [|exact Hr]. econstructor; [|exact Hm]. rewrite Ea. apply surjective_pairing.
    - destruct (H2 bs u u2 HR) as [Ea Eb]. rewrite H in Ea, Eb. cbn [fst snd] in *. destruct (IH _ Eb) as (w & Hm & Hr).
      exists w. split; [|exact Hr]. econstructor; [|exact Hm]. rewrite Ea. apply surjective_pairing. }
  destruct K as (w & Hm & Hr). destruct D as [[-> ->]|D].
  - split; [reflexivity|]. now rewrite (made_inj _ _ _ _ A2 _ Hm).
  - destruct (made_diverge M2 u2 t1 t2 w v2 Hm A2 D).
Qed.
Print Assumptions C86_same_answers.

(** ** The writer [recorder] takes everything and keeps the calls. *)
(** Programs that do not return Ok once a call on their writer has failed: if
    serialize returns Ok, every call succeeded, and they are those made on a writer
    that takes everything. *)
Theorem C86_success : forall T (U : user_impl T) P f W (M : writer_impl W) t u u',
  (forall x, sstrict (P x)) -> s_serialize U P f W M t u = (Ok tt, u') ->
  exists tr, made M u tr u' /\ Forall done tr /\ s_serialize U P f _ recorder t [] = (Ok tt, map fst tr).
Proof. intros T U P f W M t u u' HP E. now apply (strict_recorded U P f t W M). Qed.
Print Assumptions C86_success.

(** Programs that give up at the first failing call: any run is the run on the
    recorder, cut after the first call that fails. *)
Theorem C86_first_failure : forall T (U : user_impl T) P f W (M : writer_impl W) t u x u' y cs,
  (forall x, sprompt (P x)) ->
  s_serialize U P f W M t u = (x, u') -> s_serialize U P f _ recorder t [] = (y, cs) ->
  exists tr, made M u tr u' /\
    ((Forall done tr /\ x = y /\ map fst tr = cs) \/
     (exists tr0 c z rest, tr = tr0 ++ [(c, z)] /\ Forall done tr0 /\ cs = map fst tr0 ++ c :: rest /\
        match z with Ok _ => False | Err _ => exists e, x = Err e | Panic => x = Panic | OutOfFuel => x = OutOfFuel end)).
Proof.
  intros T U P f W M t u x u' y cs HP E E2. destruct (prompt_recorded U P f t W M u x u' y cs HP E E2) as (tr & H & K).
  exists tr. split; [exact H|]. destruct K as [K|(tr0 & c & z & rest & K1 & K2 & K3 & K4)]; [now left|right].
  exists tr0, c, z, rest. auto.
Qed.
Print Assumptions C86_first_failure.

(** Where the bytes go: a tree is laid out around what its user tags write, with
    the sizes they declare. *)
Theorem C86_layout : forall T (U : user_impl T) P f (code : T -> list wcall) t, fits (u_size U) t ->
  users (fun x => s_serialize U P (S f) _ recorder (OUser x) [] = (Ok tt, code x)) t ->
  exists cs, s_serialize U P (S f) _ recorder t [] = (Ok tt, cs) /\
    flat_map wcall_bytes cs = laid (u_size U) (fun x => flat_map wcall_bytes (code x)) t.
Proof.
  intros T U P f code t F A. exists (object_calls U code t). split; [now apply recorded_calls|]. now apply written_object.
Qed.
Print Assumptions C86_layout.
(** So, on any writer: if the programs are as in C86_success and serialize returns
    Ok, the calls succeeded and gave the writer exactly that. *)
Theorem C86_bytes : forall T (U : user_impl T) P f W (M : writer_impl W) t u u', fits (u_size U) t ->
  (forall x, sstrict (P x)) -> s_serialize U P (S f) W M t u = (Ok tt, u') ->
  users (fun x => fst (s_serialize U P (S f) _ recorder (OUser x) []) = Ok tt) t /\
  exists tr, made M u tr u' /\ Forall done tr /\
    flat_map wcall_bytes (map fst tr)
    = laid (u_size U) (fun x => flat_map wcall_bytes (snd (s_serialize U P (S f) _ recorder (OUser x) []))) t.
Proof.
  intros T U P f W M t u u' F HP E. destruct (C86_success T U P (S f) W M t u u' HP E) as (tr & Hm & D & R).
  pose proof (recorded_users U P f t _ F R) as A. split; [exact A|]. exists tr. split; [exact Hm|]. split; [exact D|].
  destruct (C86_layout T U P f (fun x => snd (s_serialize U P (S f) _ recorder (OUser x) [])) t F) as (cs & E2 & B).
  - eapply users_weak; [|exact A]. cbn beta. intros x Hx. rewrite (surjective_pairing (s_serialize _ _ _ _ _ _ _)) at 1. now rewrite Hx.
  - rewrite R in E2. apply pair_inv in E2 as [_ <-]. exact B.
Qed.
Print Assumptions C86_bytes.

(** ** The writers of the library and the open model *)
Lemma bind_ext {W E} (m1 m2 n1 n2 : W -> res E unit * W) : (forall w, m1 w = m2 w) -> (forall w, n1 w = n2 w) ->
  forall w, (m1 ;;; n1) w = (m2 ;;; n2) w.
Proof. intros H1 H2 w. unfold bind. rewrite H1. destruct (m2 w) as [[[]|e| |] w1]; auto. Qed.
Lemma for_each_ext {W E X} (l : list X) (f g : X -> W -> res E unit * W) : Forall (fun x => forall w, f x w = g x w) l ->
  forall w, for_each l f w = for_each l g w.
Proof. unfold for_each. induction 1 as [|x l Hx H IH]; intros w; cbn [fold_right]; [reflexivity|]. now apply bind_ext. Qed.
Lemma with_ext id n (sv1 sv2 : writer -> res tag_error unit * writer) : (forall w, sv1 w = sv2 w) ->
  forall w, serialize_with id n sv1 w = s_with library_writer id n sv2 w.
Proof. intros H. apply bind_ext; [reflexivity|]. apply bind_ext; [reflexivity|exact H]. Qed.
(** On those writers, this is the serialize of Open.v. *)
Theorem C86_library : forall T (U : user_impl T) P f t w,
  o_serialize (sscripted U P (S f)) t w = s_serialize U P (S f) writer library_writer t w.
Proof.
  intros T U P f t. cbn [s_serialize].
  induction t as [id v|x|id l IH|id l IH|id l IH] using otag_induction.
  - reflexivity.
  - reflexivity.
  - apply with_ext, for_each_ext. exact IH.
  - apply with_ext, bind_ext; [reflexivity|]. apply for_each_ext. exact IH.
  - cbn [o_serialize s_object]. cbv zeta. apply with_ext, bind_ext; [reflexivity|]. apply for_each_ext, Forall_forall.
    intros key _ w. rewrite !hm_get_map. destruct (hm_get key l) as [x|] eqn:Ek; cbn [option_map]; [|reflexivity].
    apply bind_ext; [reflexivity|]. apply hm_get_some in Ek. rewrite Forall_forall in IH. exact (IH _ Ek).
Qed.
Print Assumptions C86_library.

(** A program that gives up at the first failing call meets the contract on
    serialize of the other properties (C63, C76): what it writes to the recorder is
    what it writes to any writer of the library, up to a failure. *)
Theorem C86_emits : forall T (U : user_impl T) P f t cs, (forall x, sprompt (P x)) ->
  s_serialize U P f _ recorder t [] = (Ok tt, cs) ->
  emits (s_serialize U P f writer library_writer t) (flat_map wcall_bytes cs).
Proof.
  intros T U P f t cs HP E. apply (emits_alike _ (make_calls library_writer TagIO cs)); [|apply emits_calls].
  intros w x w' _ E2. now apply (prompt_calls U P f t writer library_writer w x w' cs).
Qed.
Print Assumptions C86_emits.
Theorem C86_contract : forall T (U : user_impl T) P f e (ok : T -> Prop) (code : T -> list N),
  (forall x, sprompt (P x)) ->
  (forall x, ok x -> let raw := Tag (u_id U x) (VRaw (code x)) in wf raw -> lenN (enc raw) < two64 ->
     u_size U x = lenN (enc raw) /\
     exists cs, s_serialize U P (S f) _ recorder (OUser x) [] = (Ok tt, cs) /\ flat_map wcall_bytes cs = enc raw) ->
  (forall x x0 g r rest, ok x -> u_id U x0 = u_id U x -> rwf r -> good r -> (left r < g)%nat -> pending r = code x ++ rest ->
    exists r', u_deserialize_value U (o_deserialize_fuel (sscripted U P (S f)) g e) (lenN (code x)) (x0, RLimited r (lenN (code x)))
                 = (Ok tt, (x, RLimited r' 0)) /\ delivers r (code x) r') ->
  ucontract (sscripted U P (S f)) e ok code.
Proof.
  intros T U P f e ok code HP Hw Hr.
  assert (K : forall x, ok x -> wf (Tag (u_id U x) (VRaw (code x))) -> lenN (enc (Tag (u_id U x) (VRaw (code x)))) < two64 ->
    emits (u_serialize (sscripted U P (S f)) x) (enc (Tag (u_id U x) (VRaw (code x))))).
  { intros x Hx Wx Lx. destruct (Hw x Hx Wx Lx) as (_ & cs & E & B). rewrite <- B. now apply C86_emits. }
  constructor.
  - intros x Hx raw Wx Lx. exact (proj1 (Hw x Hx Wx Lx)).
  - exact K.
  - intros x Hx raw Wx Lx. cbn [u_to_bytes sscripted]. apply to_bytes_over_spec. exact (K x Hx Wx Lx).
  - exact Hr.
Qed.
Print Assumptions C86_contract.

(** ** Concrete cases *)
(** [write(b)?], [write_all(bs)?] and [t.serialize(writer)?]. *)
Definition q_write {I} (b : N) (p : sprog I) : sprog I :=
  SWrite b (fun x => match x with Err i => SDone (Some (TagIO i)) | _ => p end).
Definition q_write_all {I} (bs : list N) (p : sprog I) : sprog I :=
  SWriteAll bs (fun x => match x with Err i => SDone (Some (TagIO i)) | _ => p end).
Definition q_tag {I} (t : I) (p : sprog I) : sprog I :=
  STag t (fun x => match x with Err e => SDone (Some e) | _ => p end).
(** The layers of an onion: each serializes the one inside into a VecWriter of its
    own, and writes that as the value of a tag, after a library tag when the number
    is odd. *)
Definition onion (x : N) : sprog (otag N) :=
  if x =? 0 then q_write 40 (q_write_all [1; 7] (SDone None))
  else SOther VecWriter_new (OUser (x - 1)) (fun r w =>
    match r, w with
    | Ok _, WVec v _ _ =>
        q_write 40 (if N.even x then q_write (lenN v) (q_write_all v (SDone None))
                    else q_write (lenN v + 2) (q_tag (OStd 3 (VUInt W8 9)) (q_write_all v (SDone None))))
    | _, _ => SDone (Some UnableToSerialize)
    end).
Fixpoint onion_bytes (n : nat) : list N :=
  match n with
  | O => [40; 1; 7]
  | S n' => let v := onion_bytes n' in
      if N.even (N.of_nat n) then 40 :: lenN v :: v else 40 :: (lenN v + 2) :: 3 :: 9 :: v
  end.
Definition onion_impl : user_impl N :=
  UserImpl N (fun _ => 40) (fun x => lenN (onion_bytes (N.to_nat x))) (fun _ w => (Panic, w)) (fun _ => Panic)
    (fun _ _ s => (Panic, s)) (fun _ => None).
(** One that does not look at the answers. *)
Definition careless (x : N) : sprog (otag N) := SWrite 40 (fun _ => SWriteAll [1; 7] (fun _ => SDone None)).
(** One that goes on to report the failure, and then returns it. *)
Definition reports (x : N) : sprog (otag N) :=
  SWrite 40 (fun r => match r with
    | Err i => SWrite 255 (fun _ => SDone (Some (TagIO i)))
    | _ => q_write_all [1; 7] (SDone None) end).
Example C86_instance :
  (forall x, sprompt (onion x)) /\ (forall x, sstrict (onion x)) /\ (forall x, scalm wwf (onion x)) /\
  (forall x, sserializes (users (fun y => N.to_nat y < N.to_nat x)%nat) (onion x)) /\
  (forall x, sstrict (reports x) /\ ~ sprompt (reports x) /\ ~ sstrict (careless x) /\ scalm wwf (careless x)).
Proof.
  assert (K : forall x, sprompt (onion x)).
  { intros x. unfold onion. destruct (x =? 0); [cbn; eauto 6|]. intros r w.
    destruct r as [[]|e| |]; try exact I. destruct w; try exact I. destruct (N.even x); cbn; eauto 10. }
  assert (L : forall x, sstrict (onion x)).
  { intros x. unfold onion. destruct (x =? 0); [cbn; repeat split; discriminate|]. intros r w.
    destruct r as [[]|e| |]; try exact I. destruct w; try exact I. destruct (N.even x); cbn; repeat split; discriminate. }
  split; [exact K|]. split; [exact L|]. split; [|split].
  - intros x. unfold onion. destruct (x =? 0).
    + cbn. intros [[]|i| |] []; cbn; auto. intros [[]|i| |] []; cbn; auto.
    + split; [cbn; lia|]. intros [[]|e| |] w []; cbn; auto. destruct w; cbn; auto. intros _.
      destruct (N.even x); cbn.
      * intros [[]|i| |] []; cbn; auto. intros [[]|i| |] []; cbn; auto. intros [[]|i| |] []; cbn; auto.
      * intros [[]|i| |] []; cbn; auto. intros [[]|i| |] []; cbn; auto. intros [[]|i| |] []; cbn; auto.
        intros [[]|i| |] []; cbn; auto.
  - intros x. unfold onion. destruct (N.eqb_spec x 0) as [->|N0].
    + cbn. intros [[]|i| |]; cbn; auto; intros [[]|i| |]; cbn; auto.
    + cbn [sserializes users]. split; [lia|]. intros [[]|e| |] w; cbn; auto. destruct w; cbn; auto.
      destruct (N.even x); cbn; (intros [[]|i| |]; cbn; auto); (intros [[]|i| |]; cbn; auto).
      all: try (intros [[]|i| |]; cbn; auto).
      all: try (split; [exact I|]; intros [[]|i| |]; cbn; auto; intros [[]|i| |]; cbn; auto).
  - intros x. split; [|split; [|split]].
    + cbn. split; [split; [exact I|discriminate]|]. discriminate.
    + cbn. intros [_ H]. destruct (H EndOfData) as [e He]. discriminate.
    + cbn. intros [_ H]. now apply (H EndOfData (Ok tt)).
    + cbn. auto.
Qed.
Example C86_case :
  let t := ODict 30 [([98], OUser 2); ([97], OSeq 21 [OUser 1; OStd 3 (VUInt W8 5)])] in
  (* in memory *)
  s_serialize onion_impl onion 4 writer library_writer t VecWriter_new
    = (Ok tt, WVec [30; 27; 2; 17; 1; 97; 21; 9; 40; 5; 3; 9; 40; 1; 7; 3; 5; 17; 1; 98; 40; 7; 40; 5; 3; 9; 40; 1; 7] 29 false) /\
  o_size onion_impl t = 29 /\
  (* the bound must cover the depth *)
  fst (s_serialize onion_impl onion 2 writer library_writer t VecWriter_new) = OutOfFuel /\
  (* a writer without room *)
  s_serialize onion_impl onion 4 writer library_writer t (WArray [0; 0; 0; 0; 0; 0; 0; 0; 0; 0; 0] 0)
    = (Err (TagIO UnableToWriteData), WArray [30; 27; 2; 17; 1; 97; 21; 9; 40; 5; 3] 11) /\
  snd (s_serialize onion_impl onion 4 _ recorder (OUser 1) [])
    = [CWrite 40; CWrite 5; CWrite 3; CWrite 9; CWriteAll [40; 1; 7]].
Proof. vm_compute. repeat split. Qed.
Example C86_layout_case : let t := OSeq 21 [OUser 1; OStd 3 (VUInt W8 5)] in
  fits (u_size onion_impl) t /\
  users (fun x => s_serialize onion_impl onion 3 _ recorder (OUser x) [] =
                  (Ok tt, [CWrite 40; CWrite 5; CWrite 3; CWrite 9; CWriteAll [40; 1; 7]])) t.
Proof. cbv zeta. split; [|vm_compute; repeat split]. cbn [fits all]. repeat split; vm_compute; reflexivity. Qed.
(** For careless programs, Ok does not mean that anything was written. *)
Theorem C86_careless_refuted :
  ~ (forall T (U : user_impl T) P f W (M : writer_impl W) t u u', s_serialize U P f W M t u = (Ok tt, u') ->
     exists tr, made M u tr u' /\ Forall done tr /\ s_serialize U P f _ recorder t [] = (Ok tt, map fst tr)).
Proof.
  intros H.
  destruct (H N onion_impl careless 1%nat writer library_writer (OUser 0) (WVec [] 0 true) (WVec [] 0 true)) as (tr & H1 & D & E).
  { vm_compute. reflexivity. }
  destruct tr as [|[c x] tr]; [discriminate E|]. inversion D as [|? ? D1]; subst. unfold done in D1. cbn [snd] in D1. subst x.
  cbn in E. apply pair_inv in E as [_ E]. cbn [map fst] in E. apply cons_inv in E as [<- _].
  inversion H1 as [|? ? ? ? ? ? Hc|]; subst. vm_compute in Hc. discriminate.
Qed.
Print Assumptions C86_careless_refuted.
(** A type that meets C86_contract: up to 247 bytes, under the id 40. *)
Definition note (bs : list N) : sprog (otag (list N)) := q_write 40 (q_write (lenN bs) (q_write_all bs (SDone None))).
Definition note_impl : user_impl (list N) :=
  UserImpl (list N) (fun _ => 40) (fun bs => 2 + lenN bs) (fun _ w => (Panic, w)) (fun _ => Panic)
    (fun _ n => bs <- on_reader (deserialize_bytes n) ;; modify (fun _ => bs)) (fun id => if id =? 40 then Some (Some []) else None).
Example C86_contract_case : forall e,
  ucontract (sscripted note_impl note 1) e (fun bs => lenN bs < 248) (fun bs => bs).
Proof.
  intros e. apply C86_contract.
  - intros x. cbn. eauto 8.
  - intros bs Hb raw _ _. unfold raw. cbn [u_id u_size note_impl].
    assert (E : enc (Tag 40 (VRaw bs)) = 40 :: lenN bs :: bs).
    { cbn [enc encv]. unfold enc_header, ilint. destruct (N.ltb_spec (lenN bs) 248); [reflexivity|lia]. }
    rewrite E. split; [rewrite !lenN_cons; lia|]. exists [CWrite 40; CWrite (lenN bs); CWriteAll bs].
    split; [reflexivity|]. cbn. now rewrite app_nil_r.
  - intros x x0 g r rest Hx _ Wr G L Pr. eapply reads_of_mcomplete; eauto.
    cbn [u_deserialize_value note_impl].
    eapply mcomplete_bind_r; [apply mcomplete_on_reader, complete_rcomplete; apply complete_deserialize_bytes; reflexivity|].
    apply (mcomplete_modify g (fun _ => x)).
Qed.

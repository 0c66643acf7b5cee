(** User types whose deserialize_value is any program over the traits Reader and
    ILTagFactory: C81. *)
From Verif Require Import Base BaseFacts Types Spec SpecFacts IO IOSpec IOFacts Logic HistFacts ILInt ILIntFacts Data DataFacts Tags
  Factory FactoryFacts DecodeFacts DeserFacts EngineFacts ClosedFacts Open KinFacts OpenFacts POpen Prog ProgFacts ProgWire.

(** Whatever a program does, short of a panic, deserialization ends, with no
    panic, on every reader. *)
Theorem C81_total : forall T c (U : user_impl T) (P : script T) e r,
  cfg_ok c -> (forall n x, calm (P n x)) -> (forall id, u_create U id <> Some None) -> engine_total e -> rwf r ->
  (exists x r', o_deserialize (scripted c U P) e r = (x, r') /\ returns x /\ rwf r' /\ (left r' <= left r)%nat) /\
  (forall t, leaf_tag t ->
   exists x t' r', o_deserialize_into (scripted c U P) e r t = (x, t', r') /\ returns x /\ rwf r' /\ (left r' <= left r)%nat).
Proof.
  intros T c U P e r Hc Hp Hn Ht W. apply C63_total; auto.
  apply scripted_behaves; [unfold cfg_ok in Hc; lia|now right].
Qed.
Print Assumptions C81_total.

(** If the programs propagate every failure, what is accepted, on any reader, is
    in the wire grammar, and the contents of each user tag are what its program
    reads: it was told their exact number and it read all of them. *)
Theorem C81_framing : forall T c (U : user_impl T) (P : script T) e r t r',
  engine_ok e -> (forall n x, strict (P n x) is_error) ->
  (forall n x0 bs x, reads (fun _ _ => True) (P n x0) bs (None, x) -> u_id U x = u_id U x0) ->
  (forall id x, u_create U id = Some (Some x) -> u_id U x <> 10 /\ u_id U x <> 14) ->
  rwf r -> o_deserialize (scripted c U P) e r = (Ok t, r') ->
  exists bs s, delivers r bs r' /\ wire (open_mk U e) bs s /\ framed (u_id U) (std_made U e) (content U P e) t s.
Proof.
  intros T c U P e r t r' He Hs Hi Hid W E.
  assert (Weak : forall A (p : prog (otag T) A) G bs a, reads G p bs a -> reads (fun _ _ => True) p bs a).
  { clear. intros A p G bs a H. induction H; try (constructor; auto; fail).
    - apply Reads_tag with (t := t); auto.
    - now apply Reads_limited with (b := b). }
  destruct (o_deserialize_fuel_sound (scripted c U P) e (content U P e) He) with (f := S (left r)) (r := r) (a := t) (r' := r')
    as (bs & (s & Ws & F) & D); auto; [|eauto].
  intros f n id x0 q x lr Sd Wq Ec. cbn [u_deserialize_value scripted].
  destruct (exec c _ (P n x0) (RLimited q n)) as [y r1] eqn:Ee.
  destruct y as [[[err|] x1]|err| |]; try discriminate. intros [= <- <-].
  destruct (exec_sound c _ _ (P n x0) Sd is_error (RLimited q n) _ _ (Hs n x0) I Wq Ee) as [Hf|(bs & D & Rd)]; [now elim Hf|].
  exists bs. split; [exact D|]. split; [|eapply Hi, Weak, Rd].
  intros <-. now apply Content with (id := id) (x0 := x0).
Qed.
Print Assumptions C81_framing.

(** The grammar of what is accepted.  If the programs propagate every failure, what
    is accepted, on any reader, is in it; and what is in it is accepted, whatever
    the programs do about failures, from every reader that fails only when it has
    no more data. *)
Theorem C81_accepted : forall T c (U : user_impl T) (P : script T) e r t r',
  engine_ok e -> (forall n x, strict (P n x) is_error) -> rwf r ->
  o_deserialize (scripted c U P) e r = (Ok t, r') ->
  exists bs, spoken U P e bs t /\ delivers r bs r'.
Proof. intros T c U P e r t r' He Hs W E. exact (deserialize_spoken c U P e He Hs _ _ _ _ W E). Qed.
Print Assumptions C81_accepted.
Theorem C81_accepts : forall T c (U : user_impl T) (P : script T) e bs t r rest,
  cfg_ok c -> engine_ok e -> spoken U P e bs t -> rwf r -> good r -> pending r = bs ++ rest ->
  exists r', o_deserialize (scripted c U P) e r = (Ok t, r') /\ delivers r bs r'.
Proof.
  intros T c U P e bs t r rest Hc He K W G Pr.
  assert (B : bytes_ok bs). { pose proof (bytes_ok_pending _ W) as Bp. rewrite Pr, bytes_ok_app in Bp. tauto. }
  apply (spoken_complete c U P e He ltac:(unfold cfg_ok in Hc; lia) bs B t K (S (left r)) r rest W G); [lia|exact Pr].
Qed.
Print Assumptions C81_accepts.
(** So the grammar is not ambiguous, not even with more data behind. *)
Theorem C81_unambiguous : forall T (U : user_impl T) (P : script T) e bs t x bs' t' x',
  engine_ok e -> bytes_ok (bs ++ x) -> spoken U P e bs t -> spoken U P e bs' t' -> bs ++ x = bs' ++ x' ->
  bs = bs' /\ t = t' /\ x = x'.
Proof.
  intros T U P e bs t x bs' t' x' He B K K' E. set (c := {| overflow_checks := true; usize_max := u64_max |}).
  assert (Hc : cfg_ok c) by (split; vm_compute; discriminate).
  set (r := RRead (bs ++ x) []).
  destruct (C81_accepts T c U P e bs t r x Hc He K) as (r1 & E1 & D1); [exact B|constructor|reflexivity|].
  destruct (C81_accepts T c U P e bs' t' r x' Hc He K') as (r2 & E2 & D2); [exact B|constructor|exact E|].
  rewrite E1 in E2. apply pair_inv in E2 as [Et <-]. injection Et as <-.
  destruct r1 as [| | |d sc| |]; cbn [delivers r] in D1, D2; try contradiction. destruct D1 as [D1 _], D2 as [D2 _].
  apply app_inv_head in D1. subst d. pose proof E as E0. rewrite E in D2. apply app_inv_head in D2. subst x'.
  apply app_inv_tail in E0. auto.
Qed.
Print Assumptions C81_unambiguous.

(** On a reader over memory no program takes more than the declared size, whatever
    it does about failures and whatever the outcome; the limit knows how much. *)
Theorem C81_confined : forall T c (U : user_impl T) (P : script T) e f n x0 r y x lr,
  let U := scripted c U P in
  rwf r -> in_memory r -> u_deserialize_value U (o_deserialize_fuel U f e) n (x0, LimitedReader_new r n) = (y, (x, lr)) ->
  exists bs r', lr = RLimited r' (n - lenN bs) /\ lenN bs <= n /\ delivers r bs r'.
Proof.
  intros T c U0 P e f n x0 r y x lr U W Q E.
  pose proof (co_deserialize_fuel _ _ closed_keep U (fun d n => scripted_keep c U0 P d n) e f) as Kf.
  destruct (scripted_keep c U0 P _ n Kf x0 (RLimited r n) y x lr W Q E) as [bs D].
  destruct lr as [| |r' n'| | |]; cbn [delivers] in D; try contradiction. destruct D as (L & -> & D). eauto.
Qed.
Print Assumptions C81_confined.
(** So what is accepted from memory is well framed, whatever the programs do about
    failures. *)
Theorem C81_memory_framing : forall T c (U : user_impl T) (P : script T) e r t r',
  engine_ok e -> (forall n x, ends_in (P n x) (fun a => fst a = None -> u_id U (snd a) = u_id U x)) ->
  (forall id x, u_create U id = Some (Some x) -> u_id U x <> 10 /\ u_id U x <> 14) ->
  rwf r -> in_memory r -> o_deserialize (scripted c U P) e r = (Ok t, r') ->
  exists bs s, delivers r bs r' /\ wire (open_mk U e) bs s /\ framed (u_id U) (std_made U e) (fun _ _ => True) t s.
Proof.
  intros T c U0 P e r t r' He Hi Hid W Q E. set (U := scripted c U0 P) in *. set (V := memory_only U).
  assert (Kv : forall (d : reader -> res tag_error (otag T) * reader) n, Rkin _ _ d -> Mkin _ _ (u_deserialize_value V d n)).
  { intros d n Kd s q x s' q'. cbn [u_deserialize_value V memory_only snd].
    destruct (in_memoryb q); [now apply (scripted_kin c U0 P d n)|]. intros [= _ _ <-]. apply kin_refl. }
  assert (Ev : forall f, ragree (o_deserialize_fuel V f e) (o_deserialize_fuel U f e)).
  { intros f. apply o_fuel_agree; auto. intros d1 d2 n Kd H s q Qq. cbn [u_deserialize_value V memory_only snd].
    rewrite (proj2 (in_memoryb_spec q) Qq). now apply (scripted_agree c U0 P). }
  assert (Pv : forall f, Rkeep _ _ (o_deserialize_fuel V f e)).
  { intros f. apply (co_deserialize_fuel _ _ closed_keep). intros d n Kd s q x s' q' Wq Qq. cbn [u_deserialize_value V memory_only snd].
    rewrite (proj2 (in_memoryb_spec q) Qq). now apply (scripted_keep c U0 P d n). }
  unfold o_deserialize in E. rewrite <- Ev in E by exact Q.
  destruct (o_deserialize_fuel_sound V e (fun _ _ => True) He) with (f := S (left r)) (r := r) (a := t) (r' := r')
    as (bs & (s & Ws & F) & D); auto; [|eauto].
  intros f n id x0 q x lr Sd Wq Ec. cbn [u_deserialize_value V memory_only snd].
  destruct (in_memoryb (RLimited q n)) eqn:Qb; [|discriminate]. apply in_memoryb_spec in Qb. intros Ee.
  destruct (scripted_keep c U0 P _ n (Pv f) x0 (RLimited q n) _ x lr Wq Qb Ee) as [bs D].
  exists bs. split; [exact D|]. split; [auto|].
  cbn [u_deserialize_value U scripted] in Ee. destruct (exec c _ (P n x0) (RLimited q n)) as [y r1] eqn:Ex.
  destruct y as [[[err|] x1]|err| |]; try discriminate. injection Ee as <- <-.
  exact (exec_ends c _ _ _ _ _ _ (Hi n x0) Ex eq_refl).
Qed.
Print Assumptions C81_memory_framing.
(** On a stream this is false: the limit does not count what a failed call lost
    (C16), so a program that retries a failed read takes more than the declared
    size, and the factory accepts.  The tag declares two bytes; the source fails
    once in between; the program gets the second and the third, which is outside
    of the tag. *)
Definition retry : script (list N) := fun n _ =>
  DoReadAll (repeatN 0 n) (fun x got => match x with
    | Ok _ => Done (None, got)
    | _ => DoReadAll (repeatN 0 n) (fun x got => match x with Ok _ => Done (None, got) | Err e => Done (Some (TagIO e), []) | _ => Abort end)
    end).
Definition bytes_user : user_impl (list N) := {|
  u_id := fun _ => 2000; u_size := fun x => size_with 2000 (lenN x);
  u_serialize := fun x => serialize_with 2000 (lenN x) (serialize_bytes x);
  u_to_bytes := fun x => to_bytes_over (serialize_with 2000 (lenN x) (serialize_bytes x));
  u_deserialize_value := fun _ _ st => (Ok tt, st);
  u_create := fun id => if id =? 2000 then Some (Some []) else None |}.
Theorem C81_confined_on_streams_refuted :
  ~ (forall T c (U : user_impl T) (P : script T) e r t r',
       cfg_ok c -> engine_ok e -> engine_total e -> (forall n x, calm (P n x)) -> (forall n x, ends_in (P n x) (fun a => u_id U (snd a) = u_id U x)) ->
       (forall id x, u_create U id = Some (Some x) -> u_id U x = id /\ 16 <= id) ->
       rwf r -> o_deserialize (scripted c U P) e r = (Ok t, r') ->
       exists bs s, delivers r bs r' /\ wire (open_mk U e) bs s).
Proof.
  intros H.
  set (r := RRead [249; 6; 216; 2; 1; 2; 3; 4] [Chunk 1; Chunk 2; Chunk 1; Chunk 1; Fail (OtherKind 7)]).
  destruct (H (list N) {| overflow_checks := true; usize_max := u64_max |} bytes_user retry (create_std_engine false) r
    (OUser [2; 3]) (RRead [4] [])) as (bs & s & D & Ws).
  - split; vm_compute; discriminate.
  - apply std_engine_ok.
  - apply std_engine_total.
  - intros n x y got Ry. destruct y as [u|e| |]; try contradiction; [exact I|].
    intros z got' Rz. destruct z as [u|e'| |]; try contradiction; exact I.
  - intros n x y got Ry. destruct y as [u|e| |]; try contradiction; [reflexivity|].
    intros z got' Rz. destruct z as [u|e'| |]; try contradiction; reflexivity.
  - intros id x. cbn [u_create bytes_user]. destruct (N.eqb_spec id 2000) as [->|]; [|discriminate]. intros [= <-]. split; [reflexivity|lia].
  - repeat constructor; lia.
  - vm_compute. reflexivity.
  - unfold r in D. cbn [delivers] in D. destruct D as [D _].
    assert (B : bs = [249; 6; 216; 2; 1; 2; 3]).
    { change [249; 6; 216; 2; 1; 2; 3; 4] with ([249; 6; 216; 2; 1; 2; 3] ++ [4]) in D. now apply app_inj_tail in D as [<- _]. }
    subst bs. clear D r. inversion Ws as [wid idb szb n body id k v R1 Sz Ln Mk Pl Hx Eq Et].
    destruct (ilint_repr_prefix wid idb (szb ++ body) 2000 [249; 6; 216] [2; 1; 2; 3]) as (-> & -> & Eb); auto;
      [exact (ilint_repr_ilint 2000 ltac:(reflexivity))|].
    assert (Hs : n = 2 /\ body = [1; 2; 3]).
    { destruct Sz as [Hw|m z Hw Rz]; [lia|]. destruct (ilint_repr_prefix m z body 2 [2] [1; 2; 3]) as (-> & -> & ->); auto.
      exact (ilint_repr_ilint 2 ltac:(reflexivity)). }
    destruct Hs as [-> ->]. vm_compute in Mk. injection Mk as <- <-. destruct Hx as [Hx|[Hx|Hx]]; vm_compute in Hx; discriminate.
Qed.
Print Assumptions C81_confined_on_streams_refuted.

(** ** Instances *)
(** A user type that holds a byte and a tag of any type, maybe one of its own. *)
Inductive boxed := Boxed (b : N) (inner : option (otag boxed)).
Definition boxed_program : script boxed := fun _ old =>
  DoRead (fun x => match x with
    | Ok b => DoTag (fun y => match y with
        | Ok t => Done (None, Boxed b (Some t))
        | Err e => Done (Some e, old)
        | _ => Abort
        end)
    | Err e => Done (Some (TagIO e), old)
    | _ => Abort
    end).
Definition boxed_user : user_impl boxed := {|
  u_id := fun _ => 2000; u_size := fun _ => 0; u_serialize := fun _ w => (Ok tt, w); u_to_bytes := fun _ => Ok [];
  u_deserialize_value := fun _ _ st => (Ok tt, st);
  u_create := fun id => if id =? 2000 then Some (Some (Boxed 0 None)) else None |}.
Definition c64 : cfg := {| overflow_checks := true; usize_max := u64_max |}.
(** A sequence with such a tag in such a tag, in a stream that comes in pieces. *)
Definition boxed_bytes : list N := [22; 14; 249; 6; 216; 8; 5; 249; 6; 216; 3; 9; 10; 7; 0; 0].
Definition boxed_tree : otag boxed :=
  OSeq 22 [OUser (Boxed 5 (Some (OUser (Boxed 9 (Some (OStd 10 (VILInt 7))))))); OStd 0 VNull; OStd 0 VNull].
Lemma boxed_strict n x : strict (boxed_program n x) is_error.
Proof.
  split; [|intros e; cbn; discriminate]. intros b. split; [intros t; exact I|intros e; cbn; discriminate].
Qed.
Lemma boxed_calm n x : calm (boxed_program n x).
Proof. intros y Ry. destruct y; try contradiction; [|exact I]. intros z Rz. destruct z; try contradiction; exact I. Qed.
Lemma boxed_created id x : u_create boxed_user id = Some (Some x) -> u_id boxed_user x <> 10 /\ u_id boxed_user x <> 14.
Proof. intros _. cbn. split; discriminate. Qed.
Example C81_total_instance : exists x r',
  o_deserialize (scripted c64 boxed_user boxed_program) (create_std_engine false)
    (RRead [22; 9; 249; 6; 216; 8; 5; 249] [Chunk 2; Interrupt; Fail (OtherKind 3)]) = (x, r') /\ returns x.
Proof.
  destruct (C81_total boxed c64 boxed_user boxed_program (create_std_engine false)
    (RRead [22; 9; 249; 6; 216; 8; 5; 249] [Chunk 2; Interrupt; Fail (OtherKind 3)])) as [(x & r' & E & R & _) _].
  - split; vm_compute; discriminate.
  - apply boxed_calm.
  - intros id. cbn [u_create boxed_user]. destruct (id =? 2000); discriminate.
  - apply std_engine_total.
  - repeat constructor; lia.
  - eauto.
Qed.
Example C81_framing_instance : exists bs s,
  bs = boxed_bytes /\ wire (open_mk boxed_user (create_std_engine false)) bs s /\
  framed (u_id boxed_user) (std_made boxed_user (create_std_engine false)) (content boxed_user boxed_program (create_std_engine false)) boxed_tree s.
Proof.
  destruct (C81_framing boxed c64 boxed_user boxed_program (create_std_engine false)
    (RRead (boxed_bytes ++ [1; 2]) [Chunk 2; Interrupt; Chunk 9]) boxed_tree (RRead [1; 2] [])) as (bs & s & D & W & F).
  - apply std_engine_ok.
  - apply boxed_strict.
  - reflexivity.
  - apply boxed_created.
  - repeat constructor; lia.
  - vm_compute. reflexivity.
  - destruct D as [D _]. apply app_inv_tail in D. eauto.
Qed.
Example C81_accepted_instance : spoken boxed_user boxed_program (create_std_engine false) boxed_bytes boxed_tree.
Proof.
  destruct (C81_accepted boxed c64 boxed_user boxed_program (create_std_engine false)
    (RRead (boxed_bytes ++ [1; 2]) [Chunk 2; Interrupt; Chunk 9]) boxed_tree (RRead [1; 2] [])) as (bs & K & D).
  - apply std_engine_ok.
  - apply boxed_strict.
  - repeat constructor; lia.
  - vm_compute. reflexivity.
  - destruct D as [D _]. apply app_inv_tail in D. now subst.
Qed.
Example C81_accepts_instance : forall sched rest, Forall fair sched -> bytes_ok rest ->
  exists r', o_deserialize (scripted c64 boxed_user boxed_program) (create_std_engine false) (RRead (boxed_bytes ++ rest) sched)
    = (Ok boxed_tree, r') /\ delivers (RRead (boxed_bytes ++ rest) sched) boxed_bytes r'.
Proof.
  intros sched rest F B. apply C81_accepts with (rest := rest).
  - split; vm_compute; discriminate.
  - apply std_engine_ok.
  - apply C81_accepted_instance.
  - cbn [rwf]. rewrite bytes_ok_app. split; [repeat constructor; lia|exact B].
  - exact F.
  - reflexivity.
Qed.
(** The program that retries, on memory that ends inside the tag: refused. *)
Example C81_confined_instance : exists bs r',
  snd (snd (u_deserialize_value (scripted c64 bytes_user retry) (o_deserialize_fuel (scripted c64 bytes_user retry) 9 (create_std_engine false))
    3 ([], LimitedReader_new (RVec [7; 8] 0) 3))) = RLimited r' (3 - lenN bs) /\ lenN bs <= 3 /\ delivers (RVec [7; 8] 0) bs r'.
Proof.
  destruct (u_deserialize_value (scripted c64 bytes_user retry) (o_deserialize_fuel (scripted c64 bytes_user retry) 9 (create_std_engine false))
    3 ([], LimitedReader_new (RVec [7; 8] 0) 3)) as [y [x lr]] eqn:E.
  apply (C81_confined (list N) c64 bytes_user retry (create_std_engine false) 9 3 [] (RVec [7; 8] 0) y x lr); auto.
  - split; [repeat constructor; lia|vm_compute; discriminate].
  - exact I.
Qed.
Example C81_memory_framing_instance : exists s,
  wire (open_mk bytes_user (create_std_engine false)) [249; 6; 216; 2; 1; 2] s /\
  framed (u_id bytes_user) (std_made bytes_user (create_std_engine false)) (fun _ _ => True) (OUser [1; 2]) s.
Proof.
  destruct (C81_memory_framing (list N) c64 bytes_user retry (create_std_engine false)
    (RVec [249; 6; 216; 2; 1; 2; 3; 4] 0) (OUser [1; 2]) (RVec [249; 6; 216; 2; 1; 2; 3; 4] 6)) as (bs & s & D & W & F).
  - apply std_engine_ok.
  - intros n x y got Ry. destruct y as [u|e| |]; try contradiction; [intros _; reflexivity|].
    intros z got' Rz. destruct z as [u|e'| |]; try contradiction; intros _; reflexivity.
  - intros id x _. cbn. split; discriminate.
  - split; [repeat constructor; lia|vm_compute; discriminate].
  - exact I.
  - vm_compute. reflexivity.
  - destruct D as (_ & L & (tl & D)). change (dropN 0 [249; 6; 216; 2; 1; 2; 3; 4]) with [249; 6; 216; 2; 1; 2; 3; 4] in D.
    assert (Eb : bs = takeN 6 [249; 6; 216; 2; 1; 2; 3; 4]) by (rewrite D; symmetry; apply takeN_app_exact; lia).
    change (takeN 6 [249; 6; 216; 2; 1; 2; 3; 4]) with [249; 6; 216; 2; 1; 2] in Eb. subst bs. eauto.
Qed.

(** Comparing and cloning any objects, with any factory: C89. *)
From Coq Require Import Permutation.
From Verif Require Import Base BaseFacts Types Spec SpecFacts IO IOSpec IOFacts WriterFacts Logic WLogic ILInt ILIntFacts Data DataFacts Tags
  SortFacts TagsFacts Factory FactoryFacts DecodeFacts DeserFacts EngineFacts WireFacts FromFacts Payload PPayload Open ClosedFacts KinFacts OpenFacts
  PUtil POpen OpenUtil.

(** *** Reordering the dictionaries of a tree *)
Section Norm.
Context {T : Type} (U : user_impl T) (code : T -> list N).
Notation sh := (shadow (u_id U) code).
Lemma shadow_onorm t : sh (onorm t) = norm (sh t).
Proof.
  induction t as [id v|x|id l IH|id l IH|id l IH] using otag_induction; cbn [onorm shadow norm normv]; try reflexivity.
  - do 2 f_equal. rewrite !map_map. apply map_ext_in. rewrite Forall_forall in IH. exact IH.
  - do 2 f_equal. rewrite !map_map. apply map_ext_in. rewrite Forall_forall in IH. exact IH.
  - do 2 f_equal. rewrite <- (sort_entries_map sh), !map_map. cbn [fst snd]. f_equal. apply map_ext_in. intros e He.
    rewrite Forall_forall in IH. f_equal. now apply IH.
Qed.
Lemma users_onorm (P : T -> Prop) t : users P t -> users P (onorm t).
Proof.
  induction t as [id v|x|id l IH|id l IH|id l IH] using otag_induction; cbn [onorm users]; auto.
  - rewrite !all_Forall. intros H. rewrite Forall_map. rewrite Forall_forall in *. auto.
  - rewrite !all_Forall. intros H. rewrite Forall_map. rewrite Forall_forall in *. auto.
  - rewrite !all_Forall. intros H. eapply Permutation_Forall; [apply sort_entries_perm|]. rewrite Forall_map. cbn [fst snd].
    rewrite Forall_forall in *. auto.
Qed.
(** No user tag is lost or made. *)
Lemma user_tags_onorm (t : otag T) : Permutation (user_tags t) (user_tags (onorm t)).
Proof.
  induction t as [id v|x|id l IH|id l IH|id l IH] using otag_induction; cbn [onorm user_tags]; try reflexivity.
  - induction IH; cbn [flat_map map]; [reflexivity|]. now apply Permutation_app.
  - induction IH; cbn [flat_map map]; [reflexivity|]. now apply Permutation_app.
  - transitivity (flat_map (fun e => user_tags (snd e)) (map (fun e => (fst e, onorm (snd e))) l)).
    + induction IH; cbn [flat_map map fst snd]; [reflexivity|]. now apply Permutation_app.
    + apply Permutation_flat_map, sort_entries_perm.
Qed.
End Norm.

(** ** Equality *)
(** What iltag_are_equal answers, from what the [to_bytes] of the two objects do.
    The second object is not asked if the first one fails. *)
Theorem C89_equal : forall T (U : user_impl T) a b,
  (u_are_equal U a b = Ok true <-> exists bs, o_to_bytes U a = Ok bs /\ o_to_bytes U b = Ok bs) /\
  (u_are_equal U a b = Ok false <->
     (exists err, o_to_bytes U a = Err err) \/
     (exists bs err, o_to_bytes U a = Ok bs /\ o_to_bytes U b = Err err) \/
     (exists bs bs', o_to_bytes U a = Ok bs /\ o_to_bytes U b = Ok bs' /\ bs <> bs')) /\
  (u_are_equal U a b = Panic <->
     o_to_bytes U a = Panic \/ exists bs, o_to_bytes U a = Ok bs /\ o_to_bytes U b = Panic) /\
  (forall err, u_are_equal U a b <> Err err).
Proof.
  intros T U a b. unfold u_are_equal.
  destruct (o_to_bytes U a) as [sa|ea| |]; [destruct (o_to_bytes U b) as [sb|eb| |]; [destruct (list_eq_dec N.eq_dec sa sb) as [->|D]| | |]| | |];
    (split; [|split; [|split]]); intros; try discriminate; split; intros H; try discriminate; try reflexivity; eauto;
    try (now destruct H as (bs & H1 & H2); congruence);
    try (now destruct H as [(err & H1)|[(bs & err & H1 & H2)|(bs & bs' & H1 & H2 & H3)]]; congruence);
    try (now destruct H as [H|(bs & H1 & H2)]; congruence).
  - right. right. eauto.
  - right. left. eauto.
Qed.
Print Assumptions C89_equal.
Theorem C89_equivalence : forall T (U : user_impl T),
  (forall a, u_are_equal U a a = Ok true <-> exists bs, o_to_bytes U a = Ok bs) /\
  (forall a b, u_are_equal U a b = Ok true -> u_are_equal U b a = Ok true) /\
  (forall a b c, u_are_equal U a b = Ok true -> u_are_equal U b c = Ok true -> u_are_equal U a c = Ok true).
Proof.
  intros T U. pose proof (fun a b => proj1 (C89_equal T U a b)) as Eq. split; [|split].
  - intros a. rewrite Eq. split; [intros (bs & H & _)|intros (bs & H)]; eauto.
  - intros a b H. apply Eq in H as (bs & Ha & Hb). apply Eq. eauto.
  - intros a b c H1 H2. apply Eq in H1 as (bs & Ha & Hb). apply Eq in H2 as (bs' & Hb' & Hc). apply Eq. exists bs. split; congruence.
Qed.
Print Assumptions C89_equivalence.

(** Under the contract of C63 equality is that of the data, up to the order of the
    entries of the dictionaries. *)
Theorem C89_same_data : forall T (U : user_impl T) e ok code a b,
  engine_ok e -> ucontract U e ok code -> users ok a -> users ok b ->
  wf (shadow (u_id U) code a) -> wf (shadow (u_id U) code b) -> readable U e code a -> readable U e code b ->
  lenN (encv (tag_val (shadow (u_id U) code a))) <= 536870912 -> lenN (encv (tag_val (shadow (u_id U) code b))) <= 536870912 ->
  (onorm a = onorm b /\ u_are_equal U a b = Ok true) \/ (onorm a <> onorm b /\ u_are_equal U a b = Ok false).
Proof.
  intros T U e ok code a b He C Aa Ab Wa Wb Ra Rb La Lb.
  destruct (C63_layout T U e ok code a C Aa Wa (payload_two64 _ Wa La)) as (_ & Ea & _).
  destruct (C63_layout T U e ok code b C Ab Wb (payload_two64 _ Wb Lb)) as (_ & Eb & _).
  destruct (C63_from_bytes T U e ok code a _ He C Aa Wa Ra La Ea) as [Fa _].
  destruct (C63_from_bytes T U e ok code b _ He C Ab Wb Rb Lb Eb) as [Fb _].
  unfold u_are_equal. rewrite Ea, Eb. destruct (list_eq_dec N.eq_dec _ _) as [D|D].
  - left. split; [|reflexivity]. rewrite D in Fa. congruence.
  - right. split; [|reflexivity]. intros H. apply D. rewrite <- (enc_norm _ Wa), <- (enc_norm _ Wb).
    now rewrite <- !shadow_onorm, H.
Qed.
Print Assumptions C89_same_data.

(** ** Cloning *)
(** With a factory in which the user types are registered: the same tree, holding
    the same user tags, equal to the first. *)
Theorem C89_clone : forall T (U : user_impl T) e ok code t,
  engine_ok e -> ucontract U e ok code -> users ok t -> wf (shadow (u_id U) code t) -> readable U e code t ->
  lenN (encv (tag_val (shadow (u_id U) code t))) <= 536870912 ->
  u_clone_with_factory U (standard_factory U e) t = Ok (onorm t) /\
  Permutation (user_tags t) (user_tags (onorm t)) /\ u_are_equal U t (onorm t) = Ok true.
Proof.
  intros T U e ok code t He C A W R L. pose proof (payload_two64 _ W L) as L2.
  destruct (C63_layout T U e ok code t C A W L2) as (_ & Et & _).
  destruct (C63_from_bytes T U e ok code t _ He C A W R L Et) as [F _].
  split; [|split].
  - unfold u_clone_with_factory. rewrite Et. exact F.
  - apply user_tags_onorm.
  - apply C89_equal. eexists. split; [exact Et|]. rewrite <- (enc_norm _ W), <- shadow_onorm.
    apply (C63_layout T U e ok code (onorm t) C (users_onorm _ _ A)).
    + rewrite shadow_onorm. now apply wf_norm.
    + rewrite shadow_onorm, enc_norm; assumption.
Qed.
Print Assumptions C89_clone.
(** iltag_clone knows no user type: it clones the tree with raw tags in place of
    the user tags, whatever comes of that. *)
Theorem C89_plain_clone : forall T (U : user_impl T) e ok code t,
  ucontract U e ok code -> users ok t -> wf (shadow (u_id U) code t) -> lenN (enc (shadow (u_id U) code t)) < two64 ->
  u_clone U t = map_ok emb (iltag_clone (shadow (u_id U) code t)).
Proof.
  intros T U e ok code t C A W L. destruct (C63_layout T U e ok code t C A W L) as (_ & _ & _ & Et).
  unfold u_clone, u_clone_with_factory, iltag_clone, iltag_clone_with_factory. rewrite Et.
  destruct (to_bytes _) as [bs|err| |]; try reflexivity.
  exact (proj2 (proj2 (C63_conservative T (no_creators U) (create_std_engine false) (fun _ => eq_refl))) bs).
Qed.
Print Assumptions C89_plain_clone.
(** When the ids of the user tags are explicit and none of the standard, these
    become raw tags, and the clone is still equal: types are not compared. *)
Theorem C89_plain_clone_raw : forall T (U : user_impl T) e ok code t,
  ucontract U e ok code -> users ok t -> wf (shadow (u_id U) code t) -> standard false (shadow (u_id U) code t) ->
  lenN (encv (tag_val (shadow (u_id U) code t))) <= 536870912 ->
  exists t', u_clone U t = Ok (emb t') /\ same_tag (shadow (u_id U) code t) t' /\ user_tags (@emb T t') = [] /\
    u_are_equal U t (emb t') = Ok true.
Proof.
  intros T U e ok code t C A W S L. pose proof (payload_two64 _ W L) as L2.
  destruct (C42_clone_standard _ W S L) as (t' & E & Sa & _ & Q). exists t'.
  split; [|split; [exact Sa|split]].
  - rewrite (C89_plain_clone T U e ok code t C A W L2), E. reflexivity.
  - clear. revert t'. fix F 1. intros [id v]. destruct v; cbn [emb user_tags]; try reflexivity.
    + induction l as [|t l IH]; cbn [map flat_map]; [reflexivity|]. now rewrite F, IH.
    + induction l as [|t l IH]; cbn [map flat_map]; [reflexivity|]. now rewrite F, IH.
    + induction l as [|[k t] l IH]; cbn [map flat_map fst snd]; [reflexivity|]. now rewrite F, IH.
  - apply C89_equal. apply C41_equal_bytes in Q as (bs & Q1 & Q2). exists bs.
    destruct (C63_layout T U e ok code t C A W L2) as (_ & _ & _ & Et). split; [congruence|].
    now rewrite (proj2 (proj2 (C63_conservative_serialize T U t'))).
Qed.
Print Assumptions C89_plain_clone_raw.

(** ** Any factory *)
(** The [deserialize] of a factory moves the reader it is given and nothing else. *)
Definition stays {T} (deserialize : reader -> res tag_error (otag T) * reader) : Prop :=
  forall raw x r', deserialize (ByteArrayReader_new raw) = (x, r') -> exists o, r' = RByteArray raw o /\ o <= lenN raw.
(** The provided from_bytes accepts what [deserialize] accepts and uses up, and
    calls the rest corrupted; other errors are those of [deserialize]. *)
Theorem C89_from_bytes : forall T create (deserialize : reader -> res tag_error (otag T) * reader) into raw,
  stays deserialize -> let f := provided_factory create deserialize into in
  let '(x, r') := deserialize (ByteArrayReader_new raw) in
  (forall t, f_from_bytes f raw = Ok t <-> x = Ok t /\ pending r' = []) /\
  (forall err, f_from_bytes f raw = Err err <-> x = Err err \/ (err = CorruptedData /\ (exists t, x = Ok t) /\ pending r' <> [])) /\
  (f_from_bytes f raw = Panic <-> x = Panic).
Proof.
  intros T create des into raw Hs f. destruct (des (ByteArrayReader_new raw)) as [x r'] eqn:E.
  destruct (Hs raw x r' E) as (o & -> & Ho).
  assert (Ef : f_from_bytes f raw = match x with Ok t => if lenN raw - o =? 0 then Ok t else Err CorruptedData | _ => x end).
  { unfold f, provided_factory, f_from_bytes, from_bytes_over. rewrite E. destruct x; try reflexivity. unfold mem_available.
    destruct (N.leb_spec o (lenN raw)); [reflexivity|lia]. }
  assert (P : pending (RByteArray raw o) = [] <-> lenN raw - o = 0).
  { cbn [pending]. rewrite <- lenN_dropN. split; [intros ->; apply lenN_nil|]. intros H. now apply lenN_0. }
  cbv beta iota. rewrite Ef. clear Ef E f. destruct x as [t|err| |]; [destruct (N.eqb_spec (lenN raw - o) 0) as [Z|Z]| | |];
    (split; [intros t'|split; [intros err'|]]); split; intros H; try discriminate; try assumption; try reflexivity.
  - split; [assumption|]. now apply P.
  - destruct H as [H _]. exact H.
  - destruct H as [H|(_ & _ & H)]; [discriminate|]. elim H. now apply P.
  - destruct H as [_ H]. elim Z. now apply P.
  - right. split; [congruence|]. split; [eauto|]. intros H'. elim Z. now apply P.
  - destruct H as [H|(-> & _)]; [discriminate|reflexivity].
  - destruct H as [H _]. discriminate.
  - left. exact H.
  - destruct H as [H|(_ & (t & H) & _)]; [exact H|discriminate].
  - destruct H as [H _]. discriminate.
  - destruct H as [H|(_ & (t & H) & _)]; discriminate.
  - destruct H as [H _]. discriminate.
  - destruct H as [H|(_ & (t & H) & _)]; discriminate.
Qed.
Print Assumptions C89_from_bytes.
(** *** Readers that are only moved *)
(** The bytes stay and a position inside them stays inside; behind limits too. *)
Fixpoint moves (r r' : reader) : Prop :=
  match r, r' with
  | RByteArray a o, RByteArray a' o' => a' = a /\ (o <= lenN a -> o' <= lenN a)
  | RVec _ _, RVec _ _ | RRead _ _, RRead _ _ | RSeek _, RSeek _ | RCustom _, RCustom _ => True
  | RLimited s _, RLimited s' _ => moves s s'
  | _, _ => False
  end.
Definition Rmoves (E A : Type) (m : reader -> res E A * reader) : Prop := forall r x r', m r = (x, r') -> moves r r'.
Definition Mmoves (S A : Type) (m : method S A) : Prop := forall s r x s' r', m (s, r) = (x, (s', r')) -> moves r r'.
Lemma moves_refl r : moves r r.
Proof. induction r; cbn [moves]; auto. Qed.
Lemma moves_trans r r1 r2 : moves r r1 -> moves r1 r2 -> moves r r2.
Proof.
  revert r1 r2; induction r; intros r1 r2; destruct r1; cbn [moves]; try contradiction; destruct r2; cbn [moves]; auto; try contradiction.
  - intros [-> H1] [-> H2]. auto.
  - apply IHr.
Qed.
Lemma mem_read_all_moves n a o y g o' : mem_read_all n a o = (y, g, o') -> o <= lenN a -> o' <= lenN a.
Proof.
  unfold mem_read_all, mem_can_read, mem_available, slice. intros H Ho.
  destruct (N.eqb_spec n 0); [|destruct (N.leb_spec o (lenN a)) as [_|]; [destruct (N.eqb_spec (lenN a - o) 0); [|destruct (N.ltb_spec (lenN a - o) n)]|]];
    try (injection H as _ _ <-; lia);
    destruct (_ && _)%bool; injection H as _ _ <-; lia.
Qed.
Lemma mem_read_moves a o y o' : mem_read a o = (y, o') -> o <= lenN a -> o' <= lenN a.
Proof.
  unfold mem_read, mem_can_read, mem_available. cbn [N.eqb]. intros H Ho.
  destruct (N.leb_spec o (lenN a)) as [_|]; [|lia]. destruct (N.eqb_spec (lenN a - o) 0); [injection H as _ <-; lia|].
  destruct (N.ltb_spec (lenN a - o) 1); [injection H as _ <-; lia|].
  destruct (nthN a o); apply pair_inv in H as [_ <-]; lia.
Qed.
Lemma moves_read_all n r x got r' : read_all n r = (x, got, r') -> moves r r'.
Proof.
  revert n x got r'; induction r as [a o|v o|s IH m|d sc|s|sc]; intros n x got r'; cbn [read_all].
  - destruct (mem_read_all n a o) as [[y g] o'] eqn:E. intros H. apply pair_inv in H as [_ <-]. split; [reflexivity|].
    eapply mem_read_all_moves; eauto.
  - destruct (vecr_read_all n v o) as [[y g] o']. intros H. apply pair_inv in H as [_ <-]. exact I.
  - destruct (m <? n); [intros H; apply pair_inv in H as [_ <-]; apply moves_refl|].
    destruct (read_all n s) as [[y g] s'] eqn:E. intros H. apply pair_inv in H as [_ <-]. cbn [moves]. eauto.
  - destruct (read_exact n d sc) as [[[y g] d'] sc']. intros H. apply pair_inv in H as [_ <-]. exact I.
  - destruct (seek_read_all n s) as [[y g] s']. intros H. apply pair_inv in H as [_ <-]. exact I.
  - destruct (read_custom_all _ sc) as [[y g] sc']. intros H. apply pair_inv in H as [_ <-]. exact I.
Qed.
Lemma moves_read : Rmoves _ _ read.
Proof.
  intros r. induction r as [a o|v o|s IH m|d sc|s|sc]; intros x r'; cbn [read].
  - destruct (mem_read a o) as [y o'] eqn:E. intros H. apply pair_inv in H as [_ <-]. split; [reflexivity|]. eapply mem_read_moves; eauto.
  - destruct (vecr_read v o). intros [= _ <-]. exact I.
  - destruct (m <? 1); [intros [= _ <-]; apply moves_refl|]. destruct (read s) as [y s'] eqn:E. intros H.
    apply pair_inv in H as [_ <-]. cbn [moves]. eauto.
  - destruct (read_exact 1 d sc) as [[[y g] d'] sc']. intros H. apply pair_inv in H as [_ <-]. exact I.
  - destruct (seek_read_all 1 s) as [[y g] s']. intros H. apply pair_inv in H as [_ <-]. exact I.
  - destruct sc as [|[e|b] sc]; intros [= _ <-]; exact I.
Qed.
Lemma closed_moves : closed Rmoves Mmoves.
Proof.
  constructor.
  - exact moves_read.
  - intros n r x r'. unfold fetch. destruct (read_all n r) as [[y g] r1] eqn:E. intros H. apply pair_inv in H as [_ <-].
    eapply moves_read_all; eauto.
  - intros E A x r y r' [= _ <-]. apply moves_refl.
  - intros E A B m f Hm Hf r x r'. unfold bind. destruct (m r) as [y r1] eqn:E1. apply Hm in E1.
    destruct y as [a|e| |]; try (intros [= _ <-]; exact E1). intros E2. apply Hf in E2. eapply moves_trans; eauto.
  - intros E E' A f m Hm r x r'. unfold lift_err. destruct (m r) as [y r1] eqn:E1. intros H. apply pair_inv in H as [_ <-]. eauto.
  - intros S A g s r x s' r' [= _ _ <-]. apply moves_refl.
  - intros S f s r x s' r' [= _ _ <-]. apply moves_refl.
  - intros S A B m f Hm Hf s r x s' r'. unfold bind. destruct (m (s, r)) as [y [s1 r1]] eqn:E1. apply Hm in E1.
    destruct y as [a|e| |]; try (intros [= _ _ <-]; exact E1). intros E2. apply Hf in E2. eapply moves_trans; eauto.
  - intros S A c m1 m2 H1 H2 s r x s' r'. destruct (c (s, r)); [apply H1|apply H2].
  - intros S A g m H s r x s' r'. apply H.
  - intros S A m Hm s r x s' r'. unfold on_reader. destruct (m r) as [y r1] eqn:E1. intros [= _ _ <-]. eauto.
  - intros S A n m Hm s r x s' r'. unfold limited, LimitedReader_new.
    destruct (m (s, RLimited r n)) as [y [s1 r1]] eqn:E1. intros [= _ _ <-]. apply Hm in E1.
    destruct r1; cbn [moves unlimit] in *; try contradiction. exact E1.
  - intros s r x s' r'. unfold in_place, into_slice. destruct (read_all (lenN s) r) as [[y g] r1] eqn:E.
    intros H. apply pair_inv in H as [_ H]. apply pair_inv in H as [_ <-]. eapply moves_read_all; eauto.
  - intros S T A get put m Hm s r x s' r'. cbn [fst snd]. destruct (m (get s, r)) as [y [t1 r1]] eqn:E1. intros [= _ _ <-]. eauto.
  - intros S A B s m g Hg Hm r x r'. destruct (m (s, r)) as [y [s1 r1]] eqn:E1. intros [= _ <-]. eauto.
  - intros E A m m' Hx Hm r x r' E1. rewrite <- Hx in E1. eauto.
  - intros S A m m' Hx Hm s r x s' r' E1. rewrite <- Hx in E1. eauto.
Qed.

Lemma moves_stays {T} (m : reader -> res tag_error (otag T) * reader) : Rmoves _ _ m -> stays m.
Proof.
  intros H raw x r' E. apply H in E. destruct r'; cbn [moves ByteArrayReader_new] in E; try contradiction.
  destruct E as [-> E]. exists offset. split; [reflexivity|]. apply E. lia.
Qed.
(** A standard factory does: so C89_from_bytes is about it too, if the user types
    use their reader only through its methods. *)
Theorem C89_standard_stays : forall T (U : user_impl T) e,
  (forall deser n, Rmoves _ _ deser -> Mmoves _ _ (u_deserialize_value U deser n)) ->
  stays (f_deserialize (standard_factory U e)).
Proof.
  intros T U e H. apply moves_stays. intros r x r' E.
  exact (co_deserialize_fuel _ _ closed_moves U H e (S (left r)) r x r' E).
Qed.
Print Assumptions C89_standard_stays.

(** A clone with any factory is what it makes of the bytes of the object; an object
    that cannot be serialized never reaches the factory. *)
Theorem C89_clone_any_factory : forall T (U : user_impl T) f t,
  (forall t', u_clone_with_factory U f t = Ok t' <-> exists bs, o_to_bytes U t = Ok bs /\ f_from_bytes f bs = Ok t') /\
  (forall err, o_to_bytes U t = Err err -> u_clone_with_factory U f t = Err err) /\
  (o_to_bytes U t = Panic -> u_clone_with_factory U f t = Panic) /\
  (u_clone_with_factory U f t = Panic -> o_to_bytes U t = Panic \/ exists bs, o_to_bytes U t = Ok bs /\ f_from_bytes f bs = Panic).
Proof.
  intros T U f t. unfold u_clone_with_factory. destruct (o_to_bytes U t) as [bs|err| |].
  - split; [|split; [discriminate|split; [discriminate|eauto]]]. intros t'. split; [eauto|]. intros (bs' & H & F). congruence.
  - split; [|split; [congruence|split; discriminate]]. intros t'. split; [discriminate|]. now intros (bs' & H & _).
  - split; [|split; [discriminate|auto]]. intros t'. split; [discriminate|]. now intros (bs' & H & _).
  - split; [|split; [discriminate|split; discriminate]]. intros t'. split; [discriminate|]. now intros (bs' & H & _).
Qed.
Print Assumptions C89_clone_any_factory.
(** UntouchbleTagFactory panics however it is reached: any method on any input. *)
Theorem C89_untouchable : forall T (U : user_impl T), let f := @untouchable_factory T in
  (forall id, f_create_tag f id = Panic) /\ (forall r, f_deserialize f r = (Panic, r)) /\
  (forall r t, f_deserialize_into f r t = (Panic, t, r)) /\ (forall bs, f_from_bytes f bs = Panic) /\
  (forall t, u_clone_with_factory U f t = Panic <-> o_to_bytes U t = Panic \/ exists bs, o_to_bytes U t = Ok bs) /\
  stays (f_deserialize f).
Proof.
  intros T U f. split; [reflexivity|]. split; [reflexivity|]. split; [reflexivity|]. split; [reflexivity|]. split.
  - intros t. unfold u_clone_with_factory. destruct (o_to_bytes U t) as [bs|err| |]; split; intros H; try discriminate; try reflexivity; eauto.
    + destruct H as [H|(bs & H)]; discriminate.
    + destruct H as [H|(bs & H)]; discriminate.
  - intros raw x r' E. exists 0. cbn in E. apply pair_inv in E as [_ <-]. split; [reflexivity|lia].
Qed.
Print Assumptions C89_untouchable.

(** *** Instances *)
(** The tree of C63: its clone by a factory that knows the type 2000 has its user
    tags, the clone by iltag_clone has raw tags. *)
Definition open_shuffled : otag (N * (N * N)) :=
  ODict 30 [ ([97], OUser (2000, (1, 2)));
             ([98], OSeq 22 [OUser (2000, (513, 67305985)); OStd 3 (VUInt W8 7)]) ].
Example C89_clone_instance :
  u_clone_with_factory open_user (standard_factory open_user (create_std_engine false)) open_sample = Ok open_shuffled /\
  u_are_equal open_user open_sample open_shuffled = Ok true /\
  u_clone open_user open_sample =
    Ok (ODict 30 [ ([97], OStd 2000 (VRaw [0; 1; 0; 0; 0; 2]));
                   ([98], OSeq 22 [OStd 2000 (VRaw [2; 1; 4; 3; 2; 1]); OStd 3 (VUInt W8 7)]) ]) /\
  standard false (shadow (u_id open_user) (fun x => test_code (snd x)) open_sample) /\
  u_are_equal open_user open_sample (OSeq 22 [OUser (2000, (1, 2))]) = Ok false.
Proof.
  split; [vm_compute; reflexivity|]. split; [vm_compute; reflexivity|]. split; [vm_compute; reflexivity|].
  split; [|vm_compute; reflexivity]. cbn. repeat split; auto; right; repeat split.
Qed.
Example C89_standard_stays_instance :
  stays (f_deserialize (standard_factory open_user (create_std_engine false))).
Proof.
  apply C89_standard_stays. intros deser n _. cbn. apply (cl_on_snd _ _ closed_moves). cbn [p_deserialize test_payload].
  apply (c_mbind _ _ closed_moves); [apply (cl_check_size _ _ closed_moves)|]. intros _.
  apply (c_mbind _ _ closed_moves); [apply (c_on_reader _ _ closed_moves), (cl_uint _ _ closed_moves W16)|]. intros x.
  apply (c_mbind _ _ closed_moves); [apply (c_modify _ _ closed_moves)|]. intros _.
  apply (c_mbind _ _ closed_moves); [apply (c_on_reader _ _ closed_moves), (cl_uint _ _ closed_moves W32)|]. intros y.
  apply (c_modify _ _ closed_moves).
Qed.
(** Objects whose [to_bytes] fails (1), panics (2) or gives a byte: the order of the
    arguments of iltag_are_equal matters, and an object need not equal itself. *)
Definition moody : user_impl N := {|
  u_id := fun _ => 300; u_size := fun _ => 0; u_serialize := fun _ => ret tt;
  u_to_bytes := fun x => match x with 1 => Err UnableToSerialize | 2 => Panic | _ => Ok [x] end;
  u_deserialize_value := fun _ _ => ret tt; u_create := fun _ => None |}.
Theorem C89_symmetric_refuted : ~ (forall T (U : user_impl T) a b, u_are_equal U a b = u_are_equal U b a).
Proof. intros H. specialize (H N moody (OUser 1) (OUser 2)). discriminate H. Qed.
Print Assumptions C89_symmetric_refuted.
Example C89_equal_instance :
  u_are_equal moody (OUser 5) (OUser 5) = Ok true /\ u_are_equal moody (OUser 5) (OUser 6) = Ok false /\
  u_are_equal moody (OUser 1) (OUser 1) = Ok false /\ u_are_equal moody (OUser 1) (OUser 2) = Ok false /\
  u_are_equal moody (OUser 2) (OUser 1) = Panic /\ u_are_equal moody (OUser 5) (OUser 2) = Panic /\
  u_are_equal moody (OUser 3) (OStd 0 VNull) = Ok false /\
  u_clone_with_factory moody untouchable_factory (OUser 1) = Err UnableToSerialize /\
  u_clone_with_factory moody untouchable_factory (OUser 5) = Panic.
Proof. vm_compute. repeat split. Qed.
(** A factory of the user: one byte is a tag with that id. *)
Definition byte_factory : factory_impl N :=
  provided_factory (fun id => Ok (Some (OStd id VNull)))
    (fun r => match read r with
              | (Ok b, r') => (Ok (OStd b VNull), r')
              | (Err err, r') => (Err (TagIO err), r')
              | (Panic, r') => (Panic, r')
              | (OutOfFuel, r') => (OutOfFuel, r')
              end)
    (fun r t => (Ok tt, t, r)).
Example C89_from_bytes_instance :
  stays (f_deserialize byte_factory) /\ f_from_bytes byte_factory [7] = Ok (OStd 7 VNull) /\
  f_from_bytes byte_factory [7; 8] = Err CorruptedData /\ f_from_bytes byte_factory [] = Err (TagIO EndOfData) /\
  u_clone_with_factory moody byte_factory (OUser 9) = Ok (OStd 9 VNull).
Proof.
  split; [|vm_compute; repeat split].
  intros [|b raw] x r' E; cbn [f_deserialize byte_factory provided_factory ByteArrayReader_new read] in E.
  - exists 0. apply pair_inv in E as [_ <-]. split; [reflexivity|lia].
  - exists 1. unfold mem_read, mem_can_read, mem_available in E. rewrite lenN_cons in *. cbn [N.eqb] in E.
    destruct (N.leb_spec 0 (1 + lenN raw)); [|lia]. rewrite N.sub_0_r in E.
    destruct (N.eqb_spec (1 + lenN raw) 0); [lia|]. destruct (N.ltb_spec (1 + lenN raw) 1); [lia|].
    apply pair_inv in E as [_ <-]. split; [reflexivity|lia].
Qed.

(** The documents that user programs accept, as a grammar: soundness and
    completeness of the deserializer. *)
From Verif Require Import Base BaseFacts Types Spec SpecFacts IO IOSpec IOFacts Logic HistFacts ILInt ILIntFacts Data DataFacts Tags
  Factory FactoryFacts DecodeFacts DeserFacts ClosedFacts Open KinFacts OpenFacts Prog ProgFacts.

(** [spoken U P e bs t]: the bytes [bs] are a tag header, with an id and a size [n],
    and contents that stand for the object [t]: what the payload grammar says for
    the types of the library, and what the program reads for the user types.  The
    contents end with the declared size but for the objects whose id is 10 or
    14. *)
Inductive spoken {T} (U : user_impl T) (P : script T) (e : engine) : list N -> otag T -> Prop :=
| Spoken wid idb szb n body t :
    ilint_repr wid idb -> wire_size wid szb n -> n <= 536870912 ->
    spoken_value U P e wid n body t ->
    (o_id U t = 10 \/ o_id U t = 14 \/ lenN body = n) ->
    spoken U P e (idb ++ szb ++ body) t
with spoken_value {T} (U : user_impl T) (P : script T) (e : engine) : N -> N -> list N -> otag T -> Prop :=
| S_std wid n body id k v :
    u_create U wid = None -> mk_of e wid = Some (id, k) -> leaf v -> payload (mk_of e) k n body v ->
    spoken_value U P e wid n body (OStd id v)
| S_user wid n body x0 x :
    u_create U wid = Some (Some x0) -> lenN body <= n ->
    reads (fun t b => spoken U P e b t) (P n x0) body (None, x) ->
    spoken_value U P e wid n body (OUser x)
| S_seq wid id body l :
    u_create U wid = None -> mk_of e wid = Some (id, KSeq) ->
    chain (fun t b => spoken U P e b t) l body ->
    spoken_value U P e wid (lenN body) body (OSeq id l)
| S_arr wid id cb body l :
    u_create U wid = None -> mk_of e wid = Some (id, KArr) ->
    ilint_repr (lenN l) cb -> chain (fun t b => spoken U P e b t) l body ->
    spoken_value U P e wid (lenN (cb ++ body)) (cb ++ body) (OArr id l)
| S_dict wid id cb body l :
    u_create U wid = None -> mk_of e wid = Some (id, KDict) ->
    ilint_repr (lenN l) cb ->
    chain (fun en b => exists kb b', b = kb ++ b' /\ wire_string kb (fst en) /\ spoken U P e b' (snd en)) l body ->
    spoken_value U P e wid (lenN (cb ++ body)) (cb ++ body) (ODict id (dict_of l)).

Section Grammar.
Context {T : Type} (c : cfg) (U : user_impl T) (P : script T) (e : engine).
Hypothesis He : engine_ok e.
Notation V := (scripted c U P).
Notation odf f := (o_deserialize_fuel V f e).
Notation sp := (fun t bs => spoken U P e bs t).

(** ** Soundness *)
Section Sound.
Hypothesis Hs : forall n x, strict (P n x) is_error.
Lemma into_spoken f n wid t0 r t r' :
  sound (odf f) sp -> rwf r -> wid < two64 -> o_create V e wid = Ok (Some t0) ->
  o_value_into V (odf f) n t0 r = (Ok tt, t, r') ->
  exists bs, delivers r bs r' /\ spoken_value U P e wid n bs t /\ (o_id U t = 10 \/ o_id U t = 14 \/ lenN bs = n).
Proof.
  intros Sd W Lid Ec. unfold o_value_into, LimitedReader_new.
  destruct (o_deserialize_value V (odf f) t0 n (RLimited r n)) as [[y t1] lr] eqn:E.
  destruct y as [[]|err| |]; try discriminate.
  destruct (_ && _)%bool eqn:C; [discriminate|]. intros [= <- <-].
  rewrite !Bool.andb_false_iff, !Bool.negb_false_iff, !N.eqb_eq in C. unfold IL_ILINT_TAG_ID, IL_SIGNED_ILINT_TAG_ID in C.
  assert (Hi : o_id V t1 = o_id U t1) by (destruct t1; reflexivity). rewrite Hi in C. clear Hi.
  assert (Fin : forall bs, delivers (RLimited r n) bs lr -> (lenN bs <= n -> spoken_value U P e wid n bs t1) ->
    exists bs, delivers r bs (unlimit lr) /\ spoken_value U P e wid n bs t1 /\ (o_id U t1 = 10 \/ o_id U t1 = 14 \/ lenN bs = n)).
  { intros bs D K. destruct (FactoryFacts.delivers_limited _ _ _ _ D) as (L & D' & Em). exists bs.
    split; [exact D'|]. split; [auto|tauto]. }
  unfold o_create in Ec. cbn [u_create scripted] in Ec. destruct (u_create U wid) as [[x0|]|] eqn:Eu; try discriminate.
  - injection Ec as <-. cbn [o_deserialize_value] in E. apply o_run_ok in E as (x & E & ->). cbn [u_deserialize_value scripted] in E.
    destruct (exec c _ (P n x0) (RLimited r n)) as [y r1] eqn:Ee.
    destruct y as [[[err|] x1]|err| |]; try discriminate. injection E as <- <-.
    destruct (exec_sound c _ _ (P n x0) Sd is_error (RLimited r n) _ _ (Hs n x0) I W Ee) as [Hf|(bs & D & Rd)]; [now elim Hf|].
    apply (Fin bs D). intros L. eapply S_user; eauto.
  - destruct (create_tag e wid) as [[[i v0]|]| | |] eqn:Ec'; try discriminate.
    assert (Et : t0 = emb (Tag i v0)) by (change (map_ok (option_map emb) (Ok (Some (Tag i v0)))) with (@Ok tag_error _ (Some (@emb T (Tag i v0)))) in Ec; congruence).
    subst t0. clear Ec.
    pose proof (wf_shape _ (He _ _ Lid Ec')) as Sh. cbn [tag_val] in Sh.
    pose proof (mk_of_created _ _ _ Ec') as Hmk. cbn [tag_id tag_val] in Hmk.
    assert (Leaf : leaf v0 -> exists v bs, leaf v /\ t1 = OStd i v /\ delivers (RLimited r n) bs lr /\
       (lenN bs <= n -> payload (mk_of e) (kind_of v0) n bs v)).
    { intros Hl. rewrite emb_leaf in E by exact Hl. cbn [o_deserialize_value] in E.
      destruct (deserialize_value untouchable_deserialize v0 n (RLimited r n)) as [[y v] lr1] eqn:Ev.
      injection E as -> <- <-.
      destruct (deserialize_value_sound (mk_of e) untouchable_deserialize) with (v := v0) (n := n) (r := RLimited r n) (v' := v) (r' := lr1)
        as (bs & D & Pl); auto; [intros ? ? ? ? [=]|]. exists v, bs.
      split; [exact (deserialize_value_kind_leaf _ _ _ _ _ _ _ Hl Ev)|auto]. }
    destruct v0 as [|b0|w u0|w z0|u0|u0|l0|u0|z0|l0|l0|l0|l0|z0 l0|l0|l0|l0|u0 u1|z0 z1 z2 z3|l0|l0|l0];
      try (destruct (Leaf I) as (v & bs & Hl & -> & D & Pl); apply (Fin bs D); intros L; eapply S_std; eauto);
      clear Leaf; cbn [emb o_deserialize_value kind_of] in E, Hmk; apply o_run_ok in E as (s' & H & ->).
    + apply limited_ok in H as (r1 & H & ->).
      apply bind_inv_ok in H as (u & [s1 r2] & E1 & H). apply modify_ok in E1 as (_ & -> & ->). unfold fuelled in H.
      destruct (while_read_sound (odf f) _ push Sd _ _ (RLimited (RLimited r n) n) _ _ _ W H) as (l' & bs & Ch & D & Em & ->).
      rewrite fold_push in *. cbn [app] in *.
      destruct (FactoryFacts.delivers_limited _ _ _ _ D) as (_ & D' & Hl). apply Hl in Em.
      apply (Fin bs D'). intros _. rewrite <- Em. now apply S_seq.
    + destruct (counted_sound (odf f) _ _ (fun c => n <? c) _ _ (RLimited r n) _ _ Sd W H)
        as (cb & body & l' & Rc & Ch & En & D & ->).
      rewrite fold_push in *. cbn [app] in *.
      apply (Fin _ D). intros _. rewrite En. now apply S_arr.
    + assert (Se : sound (k <- deserialize_string_tag_from_value ;; t <- odf f ;; ret (k, t))
        (fun en b => exists kb b', b = kb ++ b' /\ wire_string kb (fst en) /\ spoken U P e b' (snd en))).
      { intros r0 e0 r0' W0 H0. apply bind_inv_ok in H0 as (k & r1 & E1 & H0). apply bind_inv_ok in H0 as (t & r2 & E2 & H0).
        injection H0 as <- <-. destruct (sound_string _ _ _ W0 E1) as (kb & S & D1).
        destruct (delivers_rwf _ _ _ W0 D1) as [W1 _]. destruct (Sd _ _ _ W1 E2) as (b & Wt & D2).
        exists (kb ++ b). split; [exists kb, b; auto|eapply delivers_trans; eauto]. }
      destruct (counted_sound _ _ (fun en => hm_insert (fst en) (snd en)) (fun _ => false) _ _ (RLimited r n) _ _ Se W H)
        as (cb & body & l' & Rc & Ch & En & D & ->).
      rewrite fold_insert in *. apply (Fin _ D). intros _. rewrite En. now apply S_dict.
Qed.
Lemma deserialize_spoken f : sound (odf f) sp.
Proof.
  induction f as [|f IH]; intros r t r' W H; cbn [o_deserialize_fuel] in H; [discriminate|].
  apply bind_inv_ok in H as (wid & r1 & E1 & H).
  destruct (sound_deserialize_ilint _ _ _ W E1) as (idb & R1 & D1). destruct (delivers_rwf _ _ _ W D1) as [W1 _].
  apply bind_inv_ok in H as (n & r2 & E2 & H).
  destruct (sound_tag_size _ _ _ _ W1 E2) as (szb & [Sz Ln] & D2). destruct (delivers_rwf _ _ _ W1 D2) as [W2 _].
  apply bind_inv_ok in H as (created & r3 & E3 & H). injection E3 as E3 <-.
  destruct created as [t0|]; [|discriminate].
  destruct (o_value_into V (odf f) n t0 r2) as [[x t1] r4] eqn:E4.
  destruct x as [[]|err| |]; try discriminate. injection H as <- <-.
  destruct (into_spoken f _ _ _ _ _ _ IH W2 (ilint_repr_bound _ _ R1) E3 E4) as (body & D4 & K & Hx).
  exists (idb ++ szb ++ body). split; [econstructor; eauto|].
  eapply delivers_trans; [exact D1|]. eapply delivers_trans; eauto.
Qed.
End Sound.

(** ** Completeness *)
(** The parts of a document are not longer and are bytes. *)
Definition within (bs b : list N) : Prop := lenN b <= lenN bs /\ (bytes_ok bs -> bytes_ok b).
Lemma within_l a b : within (a ++ b) a.
Proof. split; [rewrite lenN_app; lia|]. rewrite bytes_ok_app. tauto. Qed.
Lemma within_r a b x : within b x -> within (a ++ b) x.
Proof. intros [L B]. split; [rewrite lenN_app; lia|]. rewrite bytes_ok_app. tauto. Qed.
Lemma within_l' a b x : within a x -> within (a ++ b) x.
Proof. intros [L B]. split; [rewrite lenN_app; lia|]. rewrite bytes_ok_app. tauto. Qed.
Lemma chain_within {A} (R : A -> list N -> Prop) l bs : chain R l bs -> chain (fun a b => R a b /\ within bs b) l bs.
Proof.
  induction 1 as [|a b l bs Ha H IH]; constructor; [split; [exact Ha|apply within_l]|].
  eapply chain_impl; [|exact IH]. cbn beta. intros x y [K1 K2]. split; [exact K1|now apply within_r].
Qed.
Lemma reads_impl {I A} (G G' : I -> list N -> Prop) (p : prog I A) bs a :
  (forall t b, G t b -> G' t b) -> reads G p bs a -> reads G' p bs a.
Proof. intros H K. induction K; try (econstructor; eauto; fail). Qed.
Lemma reads_within {I A} (G : I -> list N -> Prop) (p : prog I A) bs a :
  reads G p bs a -> reads (fun t b => G t b /\ within bs b) p bs a.
Proof.
  intros K. induction K as [| | | | |A k t got bs a Ht K IH|A B n body k b got bs a Kb IHb L K IH].
  - constructor.
  - constructor. eapply reads_impl; [|exact IHK]. intros t y [H1 H2]. split; [exact H1|]. exact (within_r [b] _ _ H2).
  - constructor; auto. eapply reads_impl; [|exact IHK]. intros t y [H1 H2]. split; [exact H1|]. now apply within_r.
  - constructor; auto. eapply reads_impl; [|exact IHK]. intros t y [H1 H2]. split; [exact H1|]. now apply within_r.
  - constructor; auto. eapply reads_impl; [|exact IHK]. intros t y [H1 H2]. split; [exact H1|]. now apply within_r.
  - apply Reads_tag with (t := t); [split; [exact Ht|apply within_l]|].
    eapply reads_impl; [|exact IH]. intros t' y [H1 H2]. split; [exact H1|]. now apply within_r.
  - apply Reads_limited with (b := b); auto.
    + eapply reads_impl; [|exact IHb]. intros t' y [H1 H2]. split; [exact H1|]. now apply within_l'.
    + eapply reads_impl; [|exact IH]. intros t' y [H1 H2]. split; [exact H1|]. now apply within_r.
Qed.
Hypothesis Hc : 1 <= usize_max c.
Lemma exec_complete {A} b (deser : reader -> res tag_error (otag T) * reader) (p : prog (otag T) A) bs a :
  reads (fun t x => rcomplete b deser t x) p bs a ->
  forall r rest, limited_reader r -> rwf r -> good r -> (left r < b)%nat -> pending r = bs ++ rest ->
    exists r', exec c deser p r = (Ok a, r') /\ delivers r bs r'.
Proof.
  intros K. induction K as [A a|A k x bs a K IH|A n k got bs a Ln K IH|A n k got bs a Ln K IH|A n k got bs a Ln K IH|A k t got bs a Ht K IH|A B n body k x got bs a Kb IHb L K IH];
    intros r rest Lr W G Lf Pr; cbn [exec].
  - exists r. split; [reflexivity|apply delivers_refl].
  - destruct (read_good r x (bs ++ rest) W G Pr) as (r1 & E). rewrite E. cbn [after]. apply read_ok in E.
    destruct (pending_delivers _ _ _ G E) as [P1 G1]. destruct (delivers_rwf _ _ _ W E) as [W1 _].
    pose proof (delivers_left _ _ _ E) as L1. rewrite Pr in P1. injection P1 as P1.
    destruct (IH r1 rest) as (r2 & E2 & D2); auto; [exact (kin_limited_reader _ _ (delivers_kin _ _ _ E) Lr)|lia|].
    exists r2. split; [exact E2|]. exact (delivers_trans _ [x] _ _ _ E D2).
  - rewrite <- app_assoc in Pr.
    destruct (read_all_good (lenN n) r G) as (r1 & E); [rewrite Pr, lenN_app; lia|]. rewrite E. cbn [after].
    apply read_all_ok in E as [_ E].
    assert (Eg : takeN (lenN n) (pending r) = got) by (rewrite Pr; now apply takeN_app_exact). rewrite Eg in *. rewrite (filled_all _ _ Ln).
    destruct (pending_delivers _ _ _ G E) as [P1 G1]. destruct (delivers_rwf _ _ _ W E) as [W1 _].
    pose proof (delivers_left _ _ _ E) as L1. rewrite Pr in P1. apply app_inv_head in P1.
    destruct (IH r1 rest) as (r2 & E2 & D2); auto; [exact (kin_limited_reader _ _ (delivers_kin _ _ _ E) Lr)|lia|].
    exists r2. split; [exact E2|]. eapply delivers_trans; eauto.
  - rewrite <- app_assoc in Pr.
    destruct (skip_good c n r W (is_limited _ Lr) G) as (r1 & Es & E); [rewrite Pr, lenN_app; lia|]. rewrite Es. cbn [after].
    assert (Eg : takeN n (pending r) = got) by (rewrite Pr; now apply takeN_app_exact). rewrite Eg in *.
    destruct (pending_delivers _ _ _ G E) as [P1 G1]. destruct (delivers_rwf _ _ _ W E) as [W1 _].
    pose proof (delivers_left _ _ _ E) as L1. rewrite Pr in P1. apply app_inv_head in P1.
    destruct (IH r1 rest) as (r2 & E2 & D2); auto; [exact (kin_limited_reader _ _ (delivers_kin _ _ _ E) Lr)|lia|].
    exists r2. split; [exact E2|]. eapply delivers_trans; eauto.
  - rewrite <- app_assoc in Pr.
    destruct (skip_u64_good c n r Hc W (is_limited _ Lr) G) as (r1 & Es & E); [rewrite Pr, lenN_app; lia|]. rewrite Es. cbn [after].
    assert (Eg : takeN n (pending r) = got) by (rewrite Pr; now apply takeN_app_exact). rewrite Eg in *.
    destruct (pending_delivers _ _ _ G E) as [P1 G1]. destruct (delivers_rwf _ _ _ W E) as [W1 _].
    pose proof (delivers_left _ _ _ E) as L1. rewrite Pr in P1. apply app_inv_head in P1.
    destruct (IH r1 rest) as (r2 & E2 & D2); auto; [exact (kin_limited_reader _ _ (delivers_kin _ _ _ E) Lr)|lia|].
    exists r2. split; [exact E2|]. eapply delivers_trans; eauto.
  - rewrite <- app_assoc in Pr. destruct (Ht r _ W G Lf Pr) as (r1 & Ed & E). rewrite Ed. cbn [after].
    destruct (pending_delivers _ _ _ G E) as [P1 G1]. destruct (delivers_rwf _ _ _ W E) as [W1 _].
    pose proof (delivers_left _ _ _ E) as L1. rewrite Pr in P1. apply app_inv_head in P1.
    destruct (IH r1 rest) as (r2 & E2 & D2); auto; [exact (kin_limited_reader _ _ (delivers_kin _ _ _ E) Lr)|lia|].
    exists r2. split; [exact E2|]. eapply delivers_trans; eauto.
  - rewrite <- app_assoc in Pr. unfold LimitedReader_new.
    destruct (IHb (RLimited r n) (takeN (n - lenN got) (bs ++ rest))) as (lr & Eb & D); auto; [exact I| |].
    { cbn [pending]. rewrite Pr. now apply takeN_app_r. }
    rewrite Eb. destruct lr as [| |r1 n1| | |]; cbn [delivers] in D; try contradiction. destruct D as (_ & -> & E).
    destruct (pending_delivers _ _ _ G E) as [P1 G1]. destruct (delivers_rwf _ _ _ W E) as [W1 _].
    pose proof (delivers_left _ _ _ E) as L1. rewrite Pr in P1. apply app_inv_head in P1.
    destruct (IH r1 rest) as (r2 & E2 & D2); auto; [exact (kin_limited_reader _ _ (delivers_kin _ _ _ E) Lr)|lia|].
    exists r2. split; [exact E2|]. eapply delivers_trans; eauto.
Qed.

(** Contents [body] of declared size [n], on the limited reader of the factory. *)
Lemma spoken_run {S} (m : method S unit) f s s' (mk : S -> otag T) n body r rest :
  mcomplete f m s tt s' body -> lenN body <= n -> rwf r -> good r -> (left r < f)%nat -> pending r = body ++ rest ->
  exists r', o_run m s mk (RLimited r n) = (Ok tt, mk s', RLimited r' (n - lenN body)) /\ delivers r body r'.
Proof.
  intros C Ln W G L Pr. destruct (C (RLimited r n) (takeN (n - lenN body) rest)) as (lr & E & D); auto.
  { cbn [pending]. rewrite Pr. now apply takeN_app_r. }
  destruct (IOFacts.delivers_limited _ _ _ _ D) as (r' & -> & _ & D').
  exists r'. split; [|exact D']. unfold o_run. now rewrite E.
Qed.
Lemma spoken_value_len wid n body t : spoken_value U P e wid n body t -> lenN body <= n.
Proof. destruct 1; try lia. eapply payload_len; eauto. Qed.
Lemma spoken_pos bs t : spoken U P e bs t -> 0 < lenN bs.
Proof. destruct 1 as [wid idb szb n body t R _ _ _ _]. apply ilint_repr_pos in R. rewrite lenN_app. lia. Qed.

Definition below (bs : list N) : Prop :=
  forall b, lenN b < lenN bs -> bytes_ok b -> forall t, spoken U P e b t -> forall f, rcomplete f (odf f) t b.
(** The contents, if the shorter documents are read. *)
Lemma spoken_value_complete f wid n body t whole :
  wid < two64 -> below whole -> lenN body < lenN whole -> bytes_ok body -> spoken_value U P e wid n body t ->
  exists t0, o_create V e wid = Ok (Some t0) /\
  forall r rest, rwf r -> good r -> (left r < f)%nat -> pending r = body ++ rest ->
    exists r', o_deserialize_value V (odf f) t0 n (RLimited r n) = (Ok tt, t, RLimited r' (n - lenN body)) /\ delivers r body r'.
Proof.
  intros Lid Hb Lw B K.
  assert (Sub : forall b t, spoken U P e b t /\ within body b -> rcomplete f (odf f) t b /\ 0 < lenN b).
  { intros b t' [Sb [L1 B1]]. split; [|eapply spoken_pos; eauto]. apply (Hb b ltac:(lia) (B1 B) t' Sb). }
  pose proof (spoken_value_len _ _ _ _ K) as Ln. unfold o_create. cbn [u_create scripted].
  destruct K as [wid n body id k v Eu Em Hl Pl|wid n body x0 x Eu _ Rd|wid id body l Eu Em Ch|wid id cb body l Eu Em Rc Ch|wid id cb body l Eu Em Rc Ch];
    rewrite Eu.
  - unfold mk_of in Em. destruct (create_tag e wid) as [[t0|]| | |] eqn:Ec; try discriminate Em. injection Em as Hid Hk.
    exists (emb t0). split; [reflexivity|]. intros r rest W G L Pr.
    pose proof (wf_shape _ (He _ _ Lid Ec)) as Sh. destruct t0 as [i v0]. cbn [tag_id tag_val] in *. subst i.
    assert (Hl0 : leaf v0).
    { destruct v0; try exact I; cbn [kind_of] in Hk; subst k; inversion Pl; subst; exact Hl. }
    rewrite emb_leaf by exact Hl0. cbn [o_deserialize_value].
    destruct (proj1 (proj2 (completeness e He)) _ _ _ _ Pl f v0 Hk Sh B (RLimited r n) (takeN (n - lenN body) rest) W G L)
      as (lr & E & D).
    { cbn [pending]. rewrite Pr. now apply takeN_app_r. }
    rewrite (deserialize_value_leaf untouchable_deserialize (deserialize_fuel f e)) by exact Hl0. rewrite E.
    destruct (IOFacts.delivers_limited _ _ _ _ D) as (r' & -> & _ & D'). eauto.
  - exists (OUser x0). split; [reflexivity|]. intros r rest W G L Pr. cbn [o_deserialize_value]. unfold o_run.
    cbn [u_deserialize_value scripted].
    destruct (exec_complete f (odf f) (P n x0) body (None, x)) with (r := RLimited r n) (rest := takeN (n - lenN body) rest)
      as (lr & E & D); auto; [|exact I| |].
    { eapply reads_impl; [|exact (reads_within _ _ _ _ Rd)]. intros t b H. now apply Sub. }
    { cbn [pending]. rewrite Pr. now apply takeN_app_r. }
    rewrite E. destruct (IOFacts.delivers_limited _ _ _ _ D) as (r' & -> & _ & D'). eauto.
  - unfold mk_of in Em. destruct (create_tag e wid) as [[[i v0]|]| | |] eqn:Ec; try discriminate Em. injection Em as -> Hk.
    destruct v0; try discriminate Hk. exists (emb (Tag id (VSeq l0))). split; [reflexivity|]. intros r rest W G L Pr.
    cbn [emb o_deserialize_value].
    pose proof (chain_impl _ _ _ _ (fun t b H => Sub b t H) (chain_within _ _ _ Ch)) as C.
    rewrite <- (app_nil_l l), <- (fold_push l []).
    eapply (spoken_run _ f); try lia; eauto.
    apply mcomplete_limited. eapply lcomplete_bind_l; [apply (mcomplete_modify f (fun _ => []))|].
    now apply lcomplete_while.
  - unfold mk_of in Em. destruct (create_tag e wid) as [[[i v0]|]| | |] eqn:Ec; try discriminate Em. injection Em as -> Hk.
    destruct v0; try discriminate Hk. exists (emb (Tag id (VArr l0))). split; [reflexivity|]. intros r rest W G L Pr.
    cbn [emb o_deserialize_value]. rewrite bytes_ok_app in B. destruct B as [B1 B2].
    assert (C : chain (fun t b => rcomplete f (odf f) t b /\ 0 < lenN b) l body).
    { eapply chain_impl; [|exact (chain_within _ _ _ Ch)]. cbn beta. intros t b [Sb Wb]. apply Sub. split; [exact Sb|now apply within_r]. }
    pose proof C as Cl. apply chain_len in Cl; [|intros ? ? [_ K]; exact K].
    rewrite <- (app_nil_l l), <- (fold_push l []).
    eapply (spoken_run _ f); try lia; eauto.
    eapply (mcomplete_counted f _ push (fun c => lenN (cb ++ body) <? c)); auto.
    apply N.ltb_ge. rewrite lenN_app. lia.
  - unfold mk_of in Em. destruct (create_tag e wid) as [[[i v0]|]| | |] eqn:Ec; try discriminate Em. injection Em as -> Hk.
    destruct v0; try discriminate Hk. exists (emb (Tag id (VDict l0))). split; [reflexivity|]. intros r rest W G L Pr.
    cbn [emb o_deserialize_value]. pose proof B as B0. rewrite bytes_ok_app in B. destruct B as [B1 B2].
    eapply (spoken_run _ f); try lia; eauto. unfold dict_of. rewrite <- fold_insert.
    eapply (mcomplete_counted f _ (fun x => hm_insert (fst x) (snd x)) (fun _ => false)); auto.
    eapply chain_impl; [|exact (chain_within _ _ _ Ch)]. cbn beta.
    intros [k t] b [(kb & b' & -> & Sk & St) Wb]. cbn [fst snd] in *.
    assert (Bk : bytes_ok (kb ++ b')) by (apply Wb; exact B2). rewrite bytes_ok_app in Bk. destruct Bk as [Bk Bb].
    destruct (Sub b' t) as [Ct _].
    { split; [exact St|]. destruct Wb as [Lb _]. rewrite lenN_app in Lb. split; [rewrite lenN_app; lia|auto]. }
    split; [|rewrite lenN_app; pose proof (wire_string_pos _ _ Sk); lia].
    eapply rcomplete_bind; [apply rcomplete_string; eauto|].
    rewrite <- (app_nil_r b'). eapply rcomplete_bind; [exact Ct|]. apply complete_rcomplete, complete_ret.
Qed.
Lemma spoken_complete bs : bytes_ok bs -> forall t, spoken U P e bs t -> forall f, rcomplete f (odf f) t bs.
Proof.
  assert (K : forall m bs, (length bs < m)%nat -> bytes_ok bs -> forall t, spoken U P e bs t -> forall f, rcomplete f (odf f) t bs).
  2:{ apply (K (Datatypes.S (length bs))). lia. }
  clear bs. induction m as [|m IH]; intros bs Lm B t K f; [lia|].
  assert (Hb : below bs). { intros b Lb Bb. apply IH; [unfold lenN in Lb; lia|exact Bb]. }
  destruct K as [wid idb szb n body t R Sz Ln K Hx]. intros r rest W G L Pr.
  rewrite !bytes_ok_app in B. destruct B as (B1 & B2 & B3).
  destruct f as [|f]; [lia|]. rewrite <- !app_assoc in Pr.
  destruct (complete_deserialize_ilint _ _ B1 R r _ W G Pr) as (r1 & E1 & D1).
  destruct (pending_delivers _ _ _ G D1) as [P1 G1]. destruct (delivers_rwf _ _ _ W D1) as [W1 _].
  pose proof (delivers_left _ _ _ D1) as L1. rewrite Pr in P1. apply app_inv_head in P1.
  destruct (complete_tag_size _ _ _ B2 Sz Ln r1 _ W1 G1 (eq_sym P1)) as (r2 & E2 & D2).
  destruct (pending_delivers _ _ _ G1 D2) as [P2 G2]. destruct (delivers_rwf _ _ _ W1 D2) as [W2 _].
  pose proof (delivers_left _ _ _ D2) as L2. rewrite <- P1 in P2. apply app_inv_head in P2.
  pose proof (ilint_repr_pos _ _ R) as Hpos.
  destruct (spoken_value_complete f wid n body t _ (ilint_repr_bound _ _ R) Hb ltac:(rewrite !lenN_app; lia) B3 K) as (t0 & Ec & Hv).
  unfold lenN in Hpos. destruct (Hv r2 rest W2 G2 ltac:(lia) (eq_sym P2)) as (r3 & E3 & D3).
  exists r3. split.
  2:{ eapply delivers_trans; [exact D1|]. eapply delivers_trans; eauto. }
  cbn [o_deserialize_fuel]. rewrite (bind_ok _ _ _ _ _ E1), (bind_ok _ _ _ _ _ E2).
  unfold bind at 1. rewrite Ec. cbv beta iota. unfold o_value_into, LimitedReader_new. rewrite E3.
  cbn [limit_empty unlimit].
  assert (C : (negb (o_id V t =? IL_ILINT_TAG_ID) && negb (o_id V t =? IL_SIGNED_ILINT_TAG_ID) && negb (n - lenN body =? 0))%bool = false).
  { rewrite !Bool.andb_false_iff, !Bool.negb_false_iff, !N.eqb_eq. unfold IL_ILINT_TAG_ID, IL_SIGNED_ILINT_TAG_ID.
    replace (o_id V t) with (o_id U t) by (destruct t; reflexivity). destruct Hx as [Hx|[Hx|Hx]]; auto. right. lia. }
  rewrite C. reflexivity.
Qed.
End Grammar.

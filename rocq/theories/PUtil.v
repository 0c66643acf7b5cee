(** Equality and cloning of tags: C41, C42. *)
From Verif Require Import Base BaseFacts Types Spec SpecFacts IO IOSpec IOFacts Logic ILInt ILIntFacts Data DataFacts Tags
  TagsFacts SameFacts Factory FactoryFacts DecodeFacts DeserFacts IntoFacts EngineFacts WireFacts StableFacts FromFacts PTags PDecode.

(** ** C41.  iltag_are_equal. *)
Theorem C41_equal_bytes :
  (forall a b, iltag_are_equal a b = Ok true <-> exists bs, to_bytes a = Ok bs /\ to_bytes b = Ok bs) /\
  (forall a b, wf a -> wf b -> lenN (enc a) < two64 -> lenN (enc b) < two64 ->
     (enc a = enc b /\ iltag_are_equal a b = Ok true) \/ (enc a <> enc b /\ iltag_are_equal a b = Ok false)).
Proof.
  split.
  - intros a b. unfold iltag_are_equal. destruct (to_bytes a) as [sa| | |]; split; try discriminate.
    + destruct (to_bytes b) as [sb| | |]; try discriminate. destruct (list_eq_dec N.eq_dec sa sb) as [->|]; [eauto|discriminate].
    + intros (bs & [= ->] & ->). destruct (list_eq_dec N.eq_dec bs bs); [reflexivity|contradiction].
    + now intros (bs & H & _).
    + now intros (bs & H & _).
    + now intros (bs & H & _).
  - intros a b Wa Wb La Lb. unfold iltag_are_equal. rewrite (to_bytes_spec a Wa La), (to_bytes_spec b Wb Lb).
    destruct (list_eq_dec N.eq_dec (enc a) (enc b)); auto.
Qed.
Print Assumptions C41_equal_bytes.
Theorem C41_equivalence :
  (forall a, wf a -> lenN (enc a) < two64 -> iltag_are_equal a a = Ok true) /\
  (forall a b, iltag_are_equal a b = Ok true -> iltag_are_equal b a = Ok true) /\
  (forall a b c, iltag_are_equal a b = Ok true -> iltag_are_equal b c = Ok true -> iltag_are_equal a c = Ok true).
Proof.
  destruct C41_equal_bytes as [Eq _]. split; [|split].
  - intros a W L. apply Eq. exists (enc a). now rewrite to_bytes_spec.
  - intros a b H. apply Eq in H as (bs & Ha & Hb). apply Eq. eauto.
  - intros a b c H1 H2. apply Eq in H1 as (bs & Ha & Hb). apply Eq in H2 as (bs' & Hb' & Hc). apply Eq. exists bs. split; congruence.
Qed.
Print Assumptions C41_equivalence.
(** Data being the same up to the order of dictionary entries ([same_tag]) always
    gives equality; the converse needs the types to be those of one factory. *)
Lemma same_enc a b : same_tag a b -> wf a -> wf b -> lenN (enc a) < two64 -> lenN (enc b) < two64 -> enc a = enc b.
Proof.
  intros S Wa Wb La Lb. destruct same_ser_eq as [H _]. destruct (H a b S Wa) as [E _].
  assert (Eb : to_bytes a = to_bytes b) by (unfold to_bytes; now rewrite E).
  rewrite (to_bytes_spec a Wa La), (to_bytes_spec b Wb Lb) in Eb. congruence.
Qed.
Theorem C41_same_data : forall e a b, engine_ok e -> wf a -> wf b ->
  conforms (mk_of e) a -> conforms (mk_of e) b ->
  lenN (encv (tag_val a)) <= 536870912 -> lenN (encv (tag_val b)) <= 536870912 ->
  (iltag_are_equal a b = Ok true <-> same_tag a b).
Proof.
  intros e a b He Wa Wb Ca Cb La Lb.
  pose proof (payload_size_u64 a La Wa) as Ua. pose proof (payload_size_u64 b Lb Wb) as Ub.
  destruct C41_equal_bytes as [_ Eq]. destruct (Eq a b Wa Wb Ua Ub) as [[E ->]|[E ->]].
  - split; [intros _|reflexivity].
    pose proof (enc_wire _ a Wa Ca La) as Ha. pose proof (enc_wire _ b Wb Cb Lb) as Hb.
    apply norm_same. apply (wire_det e (enc a) (norm a) (enc b) (norm b) [] [] He); auto.
    + rewrite app_nil_r. now apply enc_bytes_ok.
    + now rewrite E.
  - split; [discriminate|]. intros S. elim E. now apply same_enc.
Qed.
Print Assumptions C41_same_data.
Theorem C41_standard_tags : forall strict a b, wf a -> wf b -> standard strict a -> standard strict b ->
  lenN (encv (tag_val a)) <= 536870912 -> lenN (encv (tag_val b)) <= 536870912 ->
  (iltag_are_equal a b = Ok true <-> same_tag a b).
Proof.
  intros s a b Wa Wb Sa Sb. apply (C41_same_data (create_std_engine s)); auto using std_engine_ok.
  - eapply (conforms_ext (standard_mk s)); [intros; symmetry; apply mk_of_std|]. now apply standard_conforms.
  - eapply (conforms_ext (standard_mk s)); [intros; symmetry; apply mk_of_std|]. now apply standard_conforms.
Qed.
Print Assumptions C41_standard_tags.
(** Types are not compared. *)
Theorem C41_same_type_refuted :
  ~ (forall a b, wf a -> wf b -> iltag_are_equal a b = Ok true -> kind_of (tag_val a) = kind_of (tag_val b)).
Proof.
  intros H. specialize (H (Tag 16 (VBytes [1])) (Tag 16 (VRaw [1]))).
  assert (Wa : wf (Tag 16 (VBytes [1]))) by (split; [unfold two64; lia|repeat constructor]).
  assert (Wb : wf (Tag 16 (VRaw [1]))) by (split; [unfold two64; lia|repeat constructor]).
  specialize (H Wa Wb ltac:(vm_compute; reflexivity)). discriminate H.
Qed.
Print Assumptions C41_same_type_refuted.
Example C41_instance :
  iltag_are_equal (Tag 31 (VStrDict [([97], [1]); ([98], [2])])) (Tag 31 (VStrDict [([98], [2]); ([97], [1])])) = Ok true /\
  iltag_are_equal (Tag 31 (VStrDict [([97], [1]); ([98], [2])])) (Tag 31 (VStrDict [([98], [1]); ([97], [2])])) = Ok false.
Proof. vm_compute. auto. Qed.

(** ** C42.  Cloning. *)
Theorem C42_clone : forall e t, engine_ok e -> wf t -> conforms (mk_of e) t -> lenN (encv (tag_val t)) <= 536870912 ->
  exists t', iltag_clone_with_factory e t = Ok t' /\ same_tag t t' /\ kind_of (tag_val t') = kind_of (tag_val t) /\
    iltag_are_equal t t' = Ok true.
Proof.
  intros e t He W C L. pose proof (payload_size_u64 t L W) as Lu.
  exists (norm t). unfold iltag_clone_with_factory. rewrite (to_bytes_spec t W Lu).
  split; [apply from_bytes_iff; auto using enc_bytes_ok, enc_wire|]. split; [apply same_norm|].
  split; [destruct t; apply kind_of_norm|].
  destruct C41_equal_bytes as [Eq _]. apply Eq. exists (enc t). split; [now apply to_bytes_spec|].
  rewrite to_bytes_spec, enc_norm; auto using wf_norm. now rewrite enc_norm.
Qed.
Print Assumptions C42_clone.
Theorem C42_clone_standard : forall t, wf t -> standard false t -> lenN (encv (tag_val t)) <= 536870912 ->
  exists t', iltag_clone t = Ok t' /\ same_tag t t' /\ kind_of (tag_val t') = kind_of (tag_val t) /\
    iltag_are_equal t t' = Ok true.
Proof.
  intros t W S L. apply C42_clone; auto using std_engine_ok.
  eapply (conforms_ext (standard_mk false)); [intros; symmetry; apply mk_of_std|]. now apply standard_conforms.
Qed.
Print Assumptions C42_clone_standard.
(** On any tag: a tag or an error.  A clone never grows and can be cloned again
    with equal data. *)
Theorem C42_any_tag : forall e t, engine_ok e -> engine_total e -> keeps_ids (mk_of e) -> wf t -> lenN (enc t) < two64 ->
  (exists err, iltag_clone_with_factory e t = Err err) \/
  (exists t' t'', iltag_clone_with_factory e t = Ok t' /\ size t' <= size t /\
     iltag_clone_with_factory e t' = Ok t'' /\ same_tag t' t'' /\ iltag_are_equal t' t'' = Ok true).
Proof.
  intros e t He Ht Hk W L. unfold iltag_clone_with_factory at 1 2. rewrite (to_bytes_spec t W L).
  pose proof (enc_bytes_ok t W L) as B. pose proof (from_bytes_returns e (enc t) He Ht B) as R.
  destruct (from_bytes e (enc t)) as [t'|err| |] eqn:F; try contradiction; [right|left; eauto].
  apply (from_bytes_iff e _ t' He B) in F. pose proof (engine_mk_ok e He) as Hm.
  pose proof (wire_wf _ _ _ Hm F B) as Wt. destruct (stable_all _ Hm Hk) as (St & _). destruct (St _ _ F B) as (Ll & C & Lp).
  destruct (C42_clone e t' He Wt C Lp) as (t'' & E & S & K & Q).
  exists t', t''. split; [reflexivity|]. split; [|auto].
  rewrite (size_spec t W L), (size_spec t' Wt (payload_size_u64 t' Lp Wt)). exact Ll.
Qed.
Print Assumptions C42_any_tag.
(** Whatever ids the factory gives its tags. *)
Theorem C42_never_panics : forall e t, engine_ok e -> engine_total e -> wf t -> lenN (enc t) < two64 ->
  (exists t', iltag_clone_with_factory e t = Ok t') \/ (exists err, iltag_clone_with_factory e t = Err err).
Proof.
  intros e t He Ht W L. unfold iltag_clone_with_factory. rewrite (to_bytes_spec t W L).
  pose proof (from_bytes_returns e (enc t) He Ht (enc_bytes_ok t W L)) as R. destruct (from_bytes e (enc t)); try contradiction; eauto.
Qed.
Print Assumptions C42_never_panics.
Theorem C42_iltag_clone : forall t, wf t -> lenN (enc t) < two64 ->
  (exists err, iltag_clone t = Err err) \/
  (exists t' t'', iltag_clone t = Ok t' /\ size t' <= size t /\
     iltag_clone t' = Ok t'' /\ same_tag t' t'' /\ iltag_are_equal t' t'' = Ok true).
Proof.
  intros t. apply C42_any_tag; auto using std_engine_ok, std_engine_total.
  intros wid id k H. rewrite mk_of_std in H. now apply (standard_keeps_ids false) in H.
Qed.
Print Assumptions C42_iltag_clone.
Example C42_instance :
  iltag_clone (Tag 22 (VSeq [Tag 300 (VRaw [5; 6]); Tag 1 (VBool true)])) = Ok (Tag 22 (VSeq [Tag 300 (VRaw [5; 6]); Tag 1 (VBool true)])) /\
  iltag_clone (Tag 5 (VRaw [1])) = Err (TagIO UnableToReadData).
Proof. vm_compute. auto. Qed.
(** A raw tag with a standard id is read as the standard type, which may write
    fewer bytes. *)
Theorem C42_clone_keeps_bytes_refuted :
  ~ (forall t t', wf t -> iltag_clone t = Ok t' -> to_bytes t' = to_bytes t).
Proof.
  intros H. specialize (H (Tag 20 (VRaw [1; 249; 0; 0])) (Tag 20 (VILIntArray [248]))).
  assert (W : wf (Tag 20 (VRaw [1; 249; 0; 0]))) by (split; [unfold two64; lia|repeat constructor]).
  specialize (H W ltac:(vm_compute; reflexivity)). vm_compute in H. discriminate H.
Qed.
Print Assumptions C42_clone_keeps_bytes_refuted.

(** Proofs about Open.v. *)
From Coq Require Import Sorted Permutation.
From Verif Require Import Base BaseFacts Types Spec SpecFacts IO IOSpec IOFacts WriterFacts Logic WLogic ILInt ILIntFacts Data DataFacts Tags
  SortFacts TagsFacts Factory FactoryFacts DecodeFacts DeserFacts EngineFacts WireFacts Payload Open ClosedFacts KinFacts.

(** ** Specification *)
Section Shadow.
Context {T : Type} (uid : T -> N) (code : T -> list N).
(** The tree with, for each user tag, a raw tag with the id and the bytes of its
    value. *)
Fixpoint shadow (t : otag T) : tag :=
  match t with
  | OStd id v => Tag id v
  | OUser x => Tag (uid x) (VRaw (code x))
  | OSeq id l => Tag id (VSeq (map shadow l))
  | OArr id l => Tag id (VArr (map shadow l))
  | ODict id l => Tag id (VDict (map (fun e => (fst e, shadow (snd e))) l))
  end.
(** A condition on all the user tags of the tree. *)
Fixpoint users (P : T -> Prop) (t : otag T) : Prop :=
  match t with
  | OStd _ _ => True
  | OUser x => P x
  | OSeq _ l | OArr _ l => all (users P) l
  | ODict _ l => all (fun e => users P (snd e)) l
  end.
(** The user tags of the tree. *)
Fixpoint user_tags (t : otag T) : list T :=
  match t with
  | OStd _ _ => []
  | OUser x => [x]
  | OSeq _ l | OArr _ l => flat_map user_tags l
  | ODict _ l => flat_map (fun e => user_tags (snd e)) l
  end.
(** A tag of the library. *)
Definition of_library (t : otag T) : Prop := match t with OUser _ => False | _ => True end.
(** Dictionaries in key order, at every depth. *)
Fixpoint onorm (t : otag T) : otag T :=
  match t with
  | OStd id v => OStd id (normv v)
  | OUser x => OUser x
  | OSeq id l => OSeq id (map onorm l)
  | OArr id l => OArr id (map onorm l)
  | ODict id l => ODict id (sort_entries (map (fun e => (fst e, onorm (snd e))) l))
  end.
End Shadow.
Definition leaf (v : value) : Prop := match v with VSeq _ | VArr _ | VDict _ => False | _ => True end.

Section Induction.
Context {T : Type} (P : otag T -> Prop).
Hypothesis (H1 : forall id v, P (OStd id v)) (H2 : forall x, P (OUser x))
  (H3 : forall id l, Forall P l -> P (OSeq id l)) (H4 : forall id l, Forall P l -> P (OArr id l))
  (H5 : forall id l, Forall (fun e => P (snd e)) l -> P (ODict id l)).
Fixpoint otag_induction (t : otag T) : P t.
Proof.
  destruct t as [id v|x|id l|id l|id l]; [apply H1|apply H2|apply H3|apply H4|apply H5].
  - induction l as [|t l IHl]; constructor; [apply otag_induction|exact IHl].
  - induction l as [|t l IHl]; constructor; [apply otag_induction|exact IHl].
  - induction l as [|[k t] l IHl]; constructor; [apply otag_induction|exact IHl].
Qed.
End Induction.

(** ** Layout *)
Section Layout.
Context {T : Type} (dsz : T -> N) (wr : T -> list N).
(** What a tree says its size is, and what it writes, if a user tag [x] says
    [dsz x] and writes [wr x]: the two need not agree. *)
Definition nsum (l : list N) : N := fold_right N.add 0 l.
Fixpoint declared (t : otag T) : N :=
  match t with
  | OStd id v => lenN (enc (Tag id v))
  | OUser x => dsz x
  | OSeq id l => let n := nsum (map declared l) in lenN (enc_header id n) + n
  | OArr id l => let n := lenN (ilint (lenN l)) + nsum (map declared l) in lenN (enc_header id n) + n
  | ODict id l =>
      let n := lenN (ilint (lenN l)) + nsum (map (fun e => lenN (enc_string (fst e)) + declared (snd e)) l) in
      lenN (enc_header id n) + n
  end.
Fixpoint laid (t : otag T) : list N :=
  match t with
  | OStd id v => enc (Tag id v)
  | OUser x => wr x
  | OSeq id l => enc_header id (nsum (map declared l)) ++ concat (map laid l)
  | OArr id l =>
      enc_header id (lenN (ilint (lenN l)) + nsum (map declared l)) ++ ilint (lenN l) ++ concat (map laid l)
  | ODict id l =>
      enc_header id (lenN (ilint (lenN l)) + nsum (map (fun e => lenN (enc_string (fst e)) + declared (snd e)) l))
      ++ ilint (lenN l)
      ++ concat (map (fun e => enc_string (fst e) ++ snd e) (sort_entries (map (fun e => (fst e, laid (snd e))) l)))
  end.
(** The tags of the library are well-formed and every size fits in 64 bits. *)
Fixpoint fits (t : otag T) : Prop :=
  match t with
  | OStd id v => wf (Tag id v) /\ lenN (enc (Tag id v)) < two64
  | OUser x => True
  | OSeq id l => id < two64 /\ nsum (map declared l) < two64 /\ all fits l
  | OArr id l => id < two64 /\ lenN l < two64 /\ lenN (ilint (lenN l)) + nsum (map declared l) < two64 /\ all fits l
  | ODict id l =>
      id < two64 /\ lenN l < two64 /\ NoDup (map fst l) /\ Forall (fun e => lenN (fst e) < two64) l /\
      lenN (ilint (lenN l)) + nsum (map (fun e => lenN (enc_string (fst e)) + declared (snd e)) l) < two64 /\
      all (fun e => fits (snd e)) l
  end.
End Layout.

Lemma nsum_fold {X} (f g : X -> N) l : Forall (fun x => f x = g x) l ->
  forall a, fold_left (fun acc x => acc + f x) l a = a + nsum (map g l).
Proof.
  induction 1 as [|x l Hx H IH]; intros a; cbn [fold_left map nsum fold_right]; [lia|].
  rewrite IH, Hx. unfold nsum. lia.
Qed.
Lemma nsum_app l l' : nsum (l ++ l') = nsum l + nsum l'.
Proof. induction l as [|a l IH]; cbn [app nsum fold_right]; [reflexivity|]. fold (nsum (l ++ l')). rewrite IH. unfold nsum. lia. Qed.
Lemma size_with_header id n : id < two64 -> n < two64 -> size_with id n = lenN (enc_header id n) + n.
Proof.
  intros Hi Hn. unfold size_with, size_over, enc_header. rewrite is_implicit_spec, lenN_app, lenN_ilint_lt by assumption.
  destruct (id <=? 15); [rewrite lenN_nil; lia|]. rewrite lenN_ilint_lt by assumption. lia.
Qed.
Lemma serialize_with_header id n sv bs : id < two64 -> n < two64 -> emits sv bs ->
  emits (serialize_with id n sv) (enc_header id n ++ bs).
Proof.
  intros Hi Hn Em. unfold serialize_with, serialize_over, enc_header. rewrite <- app_assoc.
  apply emits_bind; [now apply emits_serialize_ilint|]. rewrite is_implicit_spec.
  apply emits_bind; [|exact Em]. destruct (id <=? 15); [apply emits_ret|now apply emits_serialize_ilint].
Qed.
Lemma to_bytes_over_spec ser bs : emits ser bs -> to_bytes_over ser = Ok bs.
Proof.
  intros Em. unfold to_bytes_over. destruct (ser VecWriter_new) as [x w'] eqn:E.
  destruct (Em VecWriter_new x w') as (R & (p & Pp & Q & O) & B); [apply N.le_refl|assumption|].
  assert (x = Ok tt) as -> by (apply B; split; [apply N.le_refl|reflexivity]).
  specialize (O eq_refl). subst p. destruct w'; cbn [puts VecWriter_new] in Q; try contradiction.
  destruct Q as (-> & _). f_equal. unfold overwrite. rewrite takeN_0, dropN_all, app_nil_r; [reflexivity|].
  rewrite lenN_nil. lia.
Qed.

Section LayoutFacts.
Context {T : Type} (U : user_impl T).
Notation decl := (declared (u_size U)).
Notation fit := (fits (u_size U)).

Lemma o_size_declared t : fit t -> o_size U t = decl t.
Proof.
  induction t as [id v|x|id l IH|id l IH|id l IH] using otag_induction; cbn [fits].
  - intros [W L]. exact (size_spec (Tag id v) W L).
  - reflexivity.
  - intros (Hi & Hn & A). cbn [o_size declared]. cbv zeta. rewrite <- size_with_header by assumption. f_equal.
    rewrite (nsum_fold _ decl); [apply N.add_0_l|]. apply all_Forall in A. rewrite Forall_forall in *. auto.
  - intros (Hi & Hc & Hn & A). cbn [o_size declared]. cbv zeta. rewrite <- size_with_header by assumption. f_equal.
    rewrite (nsum_fold _ decl), lenN_ilint_lt by (assumption || (apply all_Forall in A; rewrite Forall_forall in *; auto)). lia.
  - intros (Hi & Hc & D & K & Hn & A). cbn [o_size declared]. cbv zeta. rewrite <- size_with_header by assumption. f_equal.
    rewrite (nsum_fold _ (fun e => lenN (enc_string (fst e)) + decl (snd e))), lenN_ilint_lt; [lia|assumption|].
    apply all_Forall in A. rewrite Forall_forall in *. intros e He. now rewrite IH, string_size_spec by auto.
Qed.
Lemma items_size_declared l : all fit l -> items_size U l = nsum (map decl l).
Proof.
  intros A. unfold items_size. rewrite (nsum_fold _ decl); [apply N.add_0_l|]. apply all_Forall in A.
  eapply Forall_impl; [|exact A]. intros t. apply o_size_declared.
Qed.
Lemma entries_size_declared l : Forall (fun e => lenN (fst e) < two64) l -> all (fun e => fit (snd e)) l ->
  entries_size U l = nsum (map (fun e => lenN (enc_string (fst e)) + decl (snd e)) l).
Proof.
  intros K A. unfold entries_size.
  rewrite (nsum_fold _ (fun e => lenN (enc_string (fst e)) + decl (snd e))); [apply N.add_0_l|].
  apply all_Forall in A. rewrite Forall_forall in *. intros e He. now rewrite o_size_declared, string_size_spec by auto.
Qed.

Context (ok : T -> Prop) (wr : T -> list N).
Hypothesis Hwr : forall x, ok x -> emits (u_serialize U x) (wr x).
Lemma o_serialize_laid t : fit t -> users ok t -> emits (o_serialize U t) (laid (u_size U) wr t).
Proof.
  induction t as [id v|x|id l IH|id l IH|id l IH] using otag_induction; cbn [fits users].
  - intros [W L] _. exact (serialize_emits (Tag id v) W L).
  - intros _. apply Hwr.
  - intros (Hi & Hn & A) B. cbn [o_serialize laid]. rewrite items_size_declared by exact A.
    apply serialize_with_header; [assumption..|]. apply emits_for_each. apply all_Forall in A, B. rewrite Forall_forall in *. auto.
  - intros (Hi & Hc & Hn & A) B. cbn [o_serialize laid]. rewrite items_size_declared, <- lenN_ilint_lt by assumption.
    apply serialize_with_header; [assumption..|]. apply emits_bind; [now apply emits_serialize_ilint|].
    apply emits_for_each. apply all_Forall in A, B. rewrite Forall_forall in *. auto.
  - intros (Hi & Hc & D & K & Hn & A) B. cbn [o_serialize laid]. cbv zeta.
    rewrite entries_size_declared, <- lenN_ilint_lt by assumption.
    apply serialize_with_header; [assumption..|]. apply emits_bind; [now apply emits_serialize_ilint|].
    rewrite (sort_entries_map (laid (u_size U) wr) l), map_map. cbn [fst snd].
    apply (emits_dict l (o_serialize U) (laid (u_size U) wr)); [exact D|].
    apply all_Forall in A, B. rewrite Forall_forall in *. auto.
Qed.
End LayoutFacts.

(** ** Serialization *)
Section Serialize.
Context {T : Type} (U : user_impl T) (ok : T -> Prop) (code : T -> list N).
Notation sh := (shadow (u_id U) code).
(** A user tag is written as a raw tag with the bytes of its value. *)
Notation raw x := (Tag (u_id U x) (VRaw (code x))).
Hypothesis Hsize : forall x, ok x -> wf (raw x) -> lenN (enc (raw x)) < two64 -> u_size U x = lenN (enc (raw x)).
Hypothesis Hwrites : forall x, ok x -> wf (raw x) -> lenN (enc (raw x)) < two64 -> emits (u_serialize U x) (enc (raw x)).
Notation fine := (fun x => ok x /\ wf (raw x) /\ lenN (enc (raw x)) < two64).
Notation decl := (declared (u_size U)).
Notation lay := (laid (u_size U) (fun x => enc (raw x))).

Lemma shadow_id t : tag_id (sh t) = o_id U t.
Proof. destruct t; reflexivity. Qed.
Lemma nsum_concat {X} (f : X -> list N) (g : X -> N) l : Forall (fun x => g x = lenN (f x)) l ->
  nsum (map g l) = lenN (concat (map f l)).
Proof.
  induction 1 as [|x l Hx H IH]; cbn [map nsum fold_right concat]; [reflexivity|]. rewrite lenN_app, <- IH, <- Hx. reflexivity.
Qed.
Lemma lenN_concat_perm {X} (f : X -> list N) l l' : Permutation l l' -> lenN (concat (map f l)) = lenN (concat (map f l')).
Proof. intros P. rewrite !lenN_concat. now apply fold_left_sum_perm. Qed.
Lemma shadow_laid t : wf (sh t) -> users ok t -> lenN (enc (sh t)) < two64 ->
  fits (u_size U) t /\ users fine t /\ decl t = lenN (enc (sh t)) /\ lay t = enc (sh t).
Proof.
  induction t as [id v|x|id l IH|id l IH|id l IH] using otag_induction; intros W A L.
  - cbn [fits declared laid shadow users] in *. auto.
  - cbn [fits declared laid shadow users] in *. split; [exact I|]. split; [auto|]. split; [now apply Hsize|reflexivity].
  - cbn [shadow] in *. pose proof (enc_payload_len id (VSeq (map sh l))) as Lp.
    destruct W as [Hi W]. cbn [wfv users] in *. apply all_Forall in W, A. rewrite Forall_map in W.
    assert (K : Forall (fun t => fits (u_size U) t /\ users fine t /\ decl t = lenN (enc (sh t)) /\ lay t = enc (sh t)) l).
    { rewrite Forall_forall in *. intros t Ht. apply IH; auto.
      pose proof (child_len (VSeq (map sh l)) (sh t) (in_map sh l t Ht)). lia. }
    assert (E : nsum (map decl l) = lenN (encv (VSeq (map sh l)))).
    { cbn [encv]. rewrite map_map. apply nsum_concat. eapply Forall_impl; [|exact K]. intros t H. apply H. }
    cbn [fits declared laid enc]. cbv zeta. rewrite E, lenN_app. split.
    { split; [assumption|]. split; [lia|]. apply all_Forall. eapply Forall_impl; [|exact K]. intros t H. apply H. }
    split. { cbn [users]. apply all_Forall. eapply Forall_impl; [|exact K]. intros t H. apply H. }
    split; [reflexivity|]. f_equal. cbn [encv]. rewrite map_map. f_equal. apply map_ext_in.
    rewrite Forall_forall in K. intros t Ht. now apply K.
  - cbn [shadow] in *. pose proof (enc_payload_len id (VArr (map sh l))) as Lp.
    destruct W as [Hi W]. pose proof (count_bound (VArr (map sh l)) ltac:(lia)) as C. cbv beta iota in C.
    replace (lenN (map sh l)) with (lenN l) in C by (unfold lenN; now rewrite map_length).
    cbn [wfv users] in *. apply all_Forall in W, A. rewrite Forall_map in W.
    assert (K : Forall (fun t => fits (u_size U) t /\ users fine t /\ decl t = lenN (enc (sh t)) /\ lay t = enc (sh t)) l).
    { rewrite Forall_forall in *. intros t Ht. apply IH; auto.
      pose proof (child_len (VArr (map sh l)) (sh t) (in_map sh l t Ht)). lia. }
    assert (E : lenN (ilint (lenN l)) + nsum (map decl l) = lenN (encv (VArr (map sh l)))).
    { cbn [encv]. rewrite lenN_app, map_map. replace (lenN (map sh l)) with (lenN l) by (unfold lenN; now rewrite map_length).
      f_equal. apply nsum_concat. eapply Forall_impl; [|exact K]. intros t H. apply H. }
    cbn [fits declared laid enc]. cbv zeta. rewrite E, lenN_app. split.
    { split; [assumption|]. split; [exact C|]. split; [lia|]. apply all_Forall. eapply Forall_impl; [|exact K]. intros t H. apply H. }
    split. { cbn [users]. apply all_Forall. eapply Forall_impl; [|exact K]. intros t H. apply H. }
    split; [reflexivity|]. f_equal. cbn [encv]. rewrite map_map.
    replace (lenN (map sh l)) with (lenN l) by (unfold lenN; now rewrite map_length). do 2 f_equal. apply map_ext_in.
    rewrite Forall_forall in K. intros t Ht. now apply K.
  - cbn [shadow] in *. set (g := fun e : list N * otag T => (fst e, sh (snd e))) in *.
    pose proof (enc_payload_len id (VDict (map g l))) as Lp.
    destruct W as [Hi W]. pose proof (count_bound (VDict (map g l)) ltac:(lia)) as C. cbv beta iota in C.
    destruct C as [C1 C2]. replace (lenN (map g l)) with (lenN l) in C1 by (unfold lenN; now rewrite map_length).
    destruct W as (D & _ & W). rewrite map_map in D. cbn [g fst snd users] in *.
    apply all_Forall in W, A. rewrite Forall_map in W, C2. cbn [g fst snd] in *.
    assert (K : Forall (fun e => fits (u_size U) (snd e) /\ users fine (snd e) /\ decl (snd e) = lenN (enc (sh (snd e))) /\
                                 lay (snd e) = enc (sh (snd e))) l).
    { rewrite Forall_forall in *. intros e He. apply IH; auto.
      pose proof (child_len (VDict (map g l)) (sh (snd e))) as K. cbn [children] in K. rewrite map_map in K.
      specialize (K (in_map (fun e => snd (g e)) l e He)). lia. }
    assert (E : lenN (ilint (lenN l)) + nsum (map (fun e => lenN (enc_string (fst e)) + decl (snd e)) l)
                = lenN (encv (VDict (map g l)))).
    { cbn [encv]. rewrite map_map. cbn [g fst snd]. replace (lenN (map g l)) with (lenN l) by (unfold lenN; now rewrite map_length).
      rewrite lenN_app. f_equal. rewrite (sort_entries_map (fun t => enc (sh t)) l), map_map. cbn [fst snd].
      rewrite <- (lenN_concat_perm (fun e => enc_string (fst e) ++ enc (sh (snd e))) l) by apply sort_entries_perm.
      apply nsum_concat. eapply Forall_impl; [|exact K]. intros e (_ & _ & H & _). now rewrite lenN_app, H. }
    cbn [fits declared laid enc]. cbv zeta. rewrite E, lenN_app. split.
    { split; [assumption|]. split; [exact C1|]. split; [exact D|]. split; [exact C2|]. split; [lia|].
      apply all_Forall. eapply Forall_impl; [|exact K]. intros e H. apply H. }
    split. { cbn [users]. apply all_Forall. eapply Forall_impl; [|exact K]. intros e H. apply H. }
    split; [reflexivity|]. f_equal. cbn [encv]. rewrite map_map. cbn [g fst snd].
    replace (lenN (map g l)) with (lenN l) by (unfold lenN; now rewrite map_length). do 4 f_equal. apply map_ext_in.
    rewrite Forall_forall in K. intros e He. f_equal. now apply K.
Qed.
Lemma o_size_shadow t : wf (sh t) -> users ok t -> lenN (enc (sh t)) < two64 -> o_size U t = lenN (enc (sh t)).
Proof. intros W A L. destruct (shadow_laid t W A L) as (F & _ & <- & _). now apply o_size_declared. Qed.
Lemma o_serialize_emits t : wf (sh t) -> users ok t -> lenN (enc (sh t)) < two64 -> emits (o_serialize U t) (enc (sh t)).
Proof.
  intros W A L. destruct (shadow_laid t W A L) as (F & B & _ & <-). apply (o_serialize_laid U fine); [|exact F|exact B].
  intros x (H1 & H2 & H3). now apply Hwrites.
Qed.
Hypothesis Hbytes : forall x, ok x -> wf (raw x) -> lenN (enc (raw x)) < two64 -> u_to_bytes U x = Ok (enc (raw x)).
Lemma o_to_bytes_spec t : wf (sh t) -> users ok t -> lenN (enc (sh t)) < two64 -> o_to_bytes U t = Ok (enc (sh t)).
Proof.
  intros W A L. pose proof (o_serialize_emits t W A L) as Em.
  destruct t; try exact (to_bytes_over_spec _ _ Em). now apply Hbytes.
Qed.
End Serialize.

(** ** Deserialization of what was serialized *)
Section Read.
Context {T : Type} (U : user_impl T) (e : engine) (ok : T -> Prop) (code : T -> list N).
Hypothesis He : engine_ok e.
Notation sh := (shadow (u_id U) code).
Notation odf f := (o_deserialize_fuel U f e).
Hypothesis Hreads : forall x x0 f r rest, ok x -> u_id U x0 = u_id U x ->
  rwf r -> good r -> (left r < f)%nat -> pending r = code x ++ rest ->
  exists r', u_deserialize_value U (odf f) (lenN (code x)) (x0, RLimited r (lenN (code x))) = (Ok tt, (x, RLimited r' 0))
    /\ delivers r (code x) r'.

(** Each tag of the tree is of the type the factory creates for its id. *)
Definition sized (id n : N) : Prop := 15 < id \/ n = implicit_size id.
Fixpoint readable (t : otag T) : Prop :=
  match t with
  | OStd id v => u_create U id = None /\ leaf v /\ conforms (mk_of e) (Tag id v)
  | OUser x => (exists x0, u_create U (u_id U x) = Some (Some x0) /\ u_id U x0 = u_id U x) /\ sized (u_id U x) (lenN (code x))
  | OSeq id l => u_create U id = None /\ mk_of e id = Some (id, KSeq) /\ sized id (lenN (encv (tag_val (sh t)))) /\ all readable l
  | OArr id l => u_create U id = None /\ mk_of e id = Some (id, KArr) /\ sized id (lenN (encv (tag_val (sh t)))) /\ all readable l
  | ODict id l => u_create U id = None /\ mk_of e id = Some (id, KDict) /\ sized id (lenN (encv (tag_val (sh t))))
      /\ all (fun e => readable (snd e)) l
  end.

Lemma o_node f id t0 t body :
  id < two64 -> bytes_ok body -> lenN body <= 536870912 -> sized id (lenN body) -> o_create U e id = Ok (Some t0) ->
  (forall f r rest, rwf r -> good r -> (left r < f)%nat -> pending r = body ++ rest ->
    exists r', o_deserialize_value U (odf f) t0 (lenN body) (RLimited r (lenN body)) = (Ok tt, t, RLimited r' 0)
      /\ delivers r body r') ->
  rcomplete f (odf f) t (enc_header id (lenN body) ++ body).
Proof.
  intros Hi B Ln Sz Ec Hv r rest W G L P. destruct f as [|f]; [lia|].
  unfold enc_header in *. rewrite <- !app_assoc in P.
  destruct (complete_deserialize_ilint _ _ (ilint_bytes_ok _ Hi) (ilint_repr_ilint _ Hi) r _ W G P) as (r1 & E1 & D1).
  destruct (pending_delivers _ _ _ G D1) as [P1 G1]. destruct (delivers_rwf _ _ _ W D1) as [W1 _].
  pose proof (delivers_left _ _ _ D1) as L1. rewrite P in P1. apply app_inv_head in P1.
  set (szb := if id <=? 15 then [] else ilint (lenN body)) in *.
  assert (B2 : bytes_ok szb).
  { unfold szb. destruct (id <=? 15); [constructor|]. apply ilint_bytes_ok. unfold two64. lia. }
  assert (Wz : wire_size id szb (lenN body)).
  { unfold szb. destruct (N.leb_spec id 15) as [Hx|Hx].
    - destruct Sz as [Sz|Sz]; [lia|]. rewrite Sz. now constructor.
    - constructor; [lia|]. apply ilint_repr_ilint. unfold two64. lia. }
  destruct (complete_tag_size _ _ _ B2 Wz Ln r1 _ W1 G1 (eq_sym P1)) as (r2 & E2 & D2).
  destruct (pending_delivers _ _ _ G1 D2) as [P2 G2]. destruct (delivers_rwf _ _ _ W1 D2) as [W2 _].
  pose proof (delivers_left _ _ _ D2) as L2. rewrite <- P1 in P2. apply app_inv_head in P2.
  pose proof (ilint_repr_pos _ _ (ilint_repr_ilint _ Hi)) as Hpos. unfold lenN in Hpos.
  destruct (Hv f r2 rest W2 G2 ltac:(lia) (eq_sym P2)) as (r3 & E3 & D3).
  exists r3. split.
  2:{ rewrite <- app_assoc. eapply delivers_trans; [exact D1|]. eapply delivers_trans; eauto. }
  cbn [o_deserialize_fuel]. rewrite (bind_ok _ _ _ _ _ E1), (bind_ok _ _ _ _ _ E2).
  unfold bind at 1. rewrite Ec. cbv beta iota. unfold o_value_into, LimitedReader_new. rewrite E3.
  cbn [limit_empty unlimit N.eqb negb]. rewrite Bool.andb_false_r. reflexivity.
Qed.
Lemma o_run_complete {S} (m : method S unit) f s s' (mk : S -> otag T) body r rest :
  mcomplete f m s tt s' body -> rwf r -> good r -> (left r < f)%nat -> pending r = body ++ rest ->
  exists r', o_run m s mk (RLimited r (lenN body)) = (Ok tt, mk s', RLimited r' 0) /\ delivers r body r'.
Proof.
  intros C W G L P. destruct (C (RLimited r (lenN body)) []) as (lr & E & D); auto.
  { cbn [pending]. rewrite P, takeN_app_exact, app_nil_r; reflexivity. }
  destruct (IOFacts.delivers_limited _ _ _ _ D) as (r' & -> & _ & D'). rewrite N.sub_diag in E.
  exists r'. split; [|exact D']. unfold o_run. now rewrite E.
Qed.

(** A tag without tags: what the standard factory does. *)
Lemma deserialize_value_leaf d d' v n r : leaf v -> deserialize_value d v n r = deserialize_value d' v n r.
Proof. destruct v; cbn [leaf]; intros H; try contradiction; reflexivity. Qed.
Lemma deserialize_value_kind_leaf d v n r x v' r' : leaf v -> deserialize_value d v n r = (x, v', r') -> leaf v'.
Proof.
  destruct v; cbn [leaf deserialize_value]; intros H; try contradiction; unfold run;
    match goal with |- context [?m ?p] => destruct (m p) as [y [s' q]] end;
    try (intros [= <- <- <-]; exact I).
  destruct s' as [[[? ?] ?] ?]. intros [= <- <- <-]. exact I.
Qed.
Lemma emb_leaf id v : leaf v -> @emb T (Tag id v) = OStd id v.
Proof. destruct v; cbn [leaf]; intros H; try contradiction; reflexivity. Qed.
Lemma o_leaf f r id r1 t0 x r' : deserialize_ilint r = (Ok id, r1) -> u_create U id = None ->
  create_tag e id = Ok (Some t0) -> leaf (tag_val t0) -> deserialize_fuel f e r = (x, r') ->
  odf f r = (map_ok emb x, r').
Proof.
  intros E1 Hu Ec Hl. destruct f as [|f]; cbn [o_deserialize_fuel deserialize_fuel]; [intros [= <- <-]; reflexivity|].
  rewrite !(bind_ok _ _ _ _ _ E1). unfold bind, o_create. rewrite Hu, Ec.
  destruct (deserialize_tag_size id r1) as [[n|err| |] r2]; try (intros [= <- <-]; reflexivity).
  cbn [map_ok option_map]. destruct t0 as [i v0]. cbn [tag_val] in *. rewrite emb_leaf by exact Hl.
  unfold o_value_into, deserialize_tag_value_into. cbn [o_deserialize_value tag_val tag_id].
  rewrite (deserialize_value_leaf (deserialize_fuel f e) untouchable_deserialize) by exact Hl.
  destruct (deserialize_value untouchable_deserialize v0 n (LimitedReader_new r2 n)) as [[y v'] lr] eqn:E.
  apply deserialize_value_kind_leaf in E; [|exact Hl]. cbn [o_id]. intros [= <- <-].
  destruct y as [u|err| |]; cbn [map_ok]; try reflexivity.
  destruct (_ && _)%bool; cbn [map_ok]; [reflexivity|]. now rewrite emb_leaf.
Qed.

Lemma chain_shadow f l :
  Forall (fun t => rcomplete f (odf f) (onorm t) (enc (sh t))) l ->
  chain (fun t c => rcomplete f (odf f) t c /\ 0 < lenN c) (map onorm l) (concat (map enc (map sh l))).
Proof.
  induction 1 as [|t l Ht H IH]; cbn [map concat]; constructor; auto.
  split; [exact Ht|]. pose proof (lenN_enc_pos (sh t)). lia.
Qed.
Lemma chain_entries f l :
  Forall (fun e => lenN (fst e) <= 536870912 /\ utf8 (fst e) /\ rcomplete f (odf f) (onorm (snd e)) (enc (sh (snd e)))) l ->
  chain (fun x c => rcomplete f (k <- deserialize_string_tag_from_value ;;
                                 t <- odf f ;; ret (k, t)) x c /\ 0 < lenN c)
    (map (fun e => (fst e, onorm (snd e))) l) (concat (map (fun e => enc_string (fst e) ++ enc (sh (snd e))) l)).
Proof.
  induction 1 as [|[k t] l (L & Uk & Ht) H IH]; cbn [map concat fst snd] in *; constructor; auto.
  split; [|rewrite lenN_app; pose proof (lenN_enc_string_pos k); lia].
  eapply rcomplete_bind.
  - apply rcomplete_string; [|now apply wire_enc_string]. apply enc_string_bytes; [|exact Uk]. unfold two64. lia.
  - rewrite <- (app_nil_r (enc (sh t))). eapply rcomplete_bind; [exact Ht|]. apply complete_rcomplete, complete_ret.
Qed.
Lemma payload_two64 t : wf t -> lenN (encv (tag_val t)) <= 536870912 -> lenN (enc t) < two64.
Proof.
  destruct t as [id v]. intros [Hi _] L. cbn [tag_val enc] in *. unfold enc_header. rewrite !lenN_app.
  pose proof (ilint_repr_len _ _ (ilint_repr_ilint id Hi)).
  pose proof (ilint_repr_len _ _ (ilint_repr_ilint (lenN (encv v)) ltac:(unfold two64; lia))).
  destruct (id <=? 15); rewrite ?lenN_nil; unfold two64; lia.
Qed.

Lemma o_complete t : wf (sh t) -> users ok t -> readable t -> lenN (encv (tag_val (sh t))) <= 536870912 ->
  forall f, rcomplete f (odf f) (onorm t) (enc (sh t)).
Proof.
  induction t as [id v|x|id l IH|id l IH|id l IH] using otag_induction; intros W A R L f;
    pose proof (payload_two64 _ W L) as L2.
  - destruct R as (Hu & Hl & C). cbn [shadow tag_val onorm] in *. intros r rest Wr G Lr P.
    assert (Ht : exists r', deserialize_fuel f e r = (Ok (norm (Tag id v)), r') /\ delivers r (enc (Tag id v)) r').
    { apply (deserialize_fuel_complete e He f (enc (Tag id v)) (norm (Tag id v))) with (rest := rest); auto.
      - now apply enc_bytes_ok.
      - now apply enc_wire. }
    destruct Ht as (r' & E & D). exists r'. split; [|exact D].
    destruct W as [Hi W]. destruct C as (Hmk & _). unfold mk_of in Hmk.
    destruct (create_tag e id) as [[t0|]| | |] eqn:Ec; try discriminate Hmk. injection Hmk as Hid Hk.
    cbn [enc] in P. unfold enc_header in P. rewrite <- !app_assoc in P.
    destruct (complete_deserialize_ilint _ _ (ilint_bytes_ok _ Hi) (ilint_repr_ilint _ Hi) r _ Wr G P) as (r1 & E1 & _).
    rewrite (o_leaf f r id r1 t0 (Ok (norm (Tag id v))) r' E1 Hu Ec); [|destruct (tag_val t0), v; cbn in *; auto; discriminate|exact E].
    cbn [map_ok norm]. rewrite emb_leaf; [reflexivity|]. destruct v; cbn in *; auto.
  - destruct R as ((x0 & Hu & Hx) & Sz). cbn [shadow tag_val onorm encv enc users] in *. destruct W as [Hi B].
    apply (o_node f (u_id U x) (OUser x0)); auto.
    + unfold o_create. now rewrite Hu.
    + intros f' r rest Wr G Lr P. destruct (Hreads x x0 f' r rest A Hx Wr G Lr P) as (r' & E & D).
      exists r'. split; [|exact D]. cbn [o_deserialize_value]. unfold o_run. now rewrite E.
  - destruct R as (Hu & Hmk & Sz & R). pose proof (encv_bytes_ok (tag_val (sh (OSeq id l)))) as B.
    cbn [shadow tag_val onorm encv enc users] in *. destruct W as [Hi W].
    specialize (B W ltac:(unfold two64; lia)).
    unfold mk_of in Hmk. destruct (create_tag e id) as [[t0|]| | |] eqn:Ec; try discriminate Hmk. injection Hmk as Hid Hk.
    destruct t0 as [i [ ]]; try discriminate Hk. cbn [tag_id] in Hid. subst i.
    eapply (o_node f id); [exact Hi|exact B|exact L|exact Sz|unfold o_create; rewrite Hu, Ec; reflexivity|].
    intros f' r rest Wr G Lr P. cbn [option_map emb o_deserialize_value].
    rewrite <- (app_nil_l (map onorm l)). rewrite <- (fold_push (map onorm l) []).
    eapply (o_run_complete _ f'); eauto.
    apply mcomplete_limited. eapply lcomplete_bind_l; [apply (mcomplete_modify f' (fun _ => []))|].
    apply lcomplete_while. apply chain_shadow.
    cbn [wfv] in W. apply all_Forall in W, A, R. rewrite Forall_map in W. rewrite Forall_forall in *. intros t Ht.
    apply IH; auto. pose proof (child_len (VSeq (map sh l)) (sh t) (in_map sh l t Ht)) as K. cbn [encv] in K.
    destruct (sh t) as [ti tv] eqn:Et. pose proof (enc_payload_len ti tv). cbn [tag_val]. lia.
  - destruct R as (Hu & Hmk & Sz & R). pose proof (encv_bytes_ok (tag_val (sh (OArr id l)))) as B.
    cbn [shadow tag_val onorm encv enc users] in *. destruct W as [Hi W].
    specialize (B W ltac:(unfold two64; lia)).
    unfold mk_of in Hmk. destruct (create_tag e id) as [[t0|]| | |] eqn:Ec; try discriminate Hmk. injection Hmk as Hid Hk.
    destruct t0 as [i [ ]]; try discriminate Hk. cbn [tag_id] in Hid. subst i.
    eapply (o_node f id); [exact Hi|exact B|exact L|exact Sz|unfold o_create; rewrite Hu, Ec; reflexivity|].
    intros f' r rest Wr G Lr P. cbn [option_map emb o_deserialize_value].
    rewrite <- (app_nil_l (map onorm l)). rewrite <- (fold_push (map onorm l) []).
    eapply (o_run_complete _ f'); eauto.
    assert (C : chain (fun t c => rcomplete f' (odf f') t c /\ 0 < lenN c) (map onorm l) (concat (map enc (map sh l)))).
    { apply chain_shadow.
      cbn [wfv] in W. apply all_Forall in W, A, R. rewrite Forall_map in W. rewrite Forall_forall in *. intros t Ht.
      apply IH; auto. pose proof (child_len (VArr (map sh l)) (sh t) (in_map sh l t Ht)) as K. cbn [encv] in K.
      destruct (sh t) as [ti tv] eqn:Et. pose proof (enc_payload_len ti tv). cbn [tag_val]. lia. }
    replace (lenN (map sh l)) with (lenN (map onorm l)) in * by (unfold lenN; now rewrite !map_length).
    pose proof C as Cl. apply chain_len in Cl; [|intros ? ? [_ K]; exact K].
    rewrite lenN_app in L.
    eapply (mcomplete_counted f' _ push (fun c => lenN (ilint (lenN (map onorm l)) ++ concat (map enc (map sh l))) <? c)); auto.
    + apply ilint_bytes_ok. unfold two64. lia.
    + apply ilint_repr_ilint. unfold two64. lia.
    + apply N.ltb_ge. rewrite lenN_app. lia.
  - destruct R as (Hu & Hmk & Sz & R). pose proof (encv_bytes_ok (tag_val (sh (ODict id l)))) as B.
    set (g := fun e : list N * otag T => (fst e, sh (snd e))) in *.
    set (h := fun e : list N * otag T => (fst e, onorm (snd e))) in *.
    pose proof (count_bound (VDict (map g l))) as Cb. pose proof (fun e He => entries_key_len (map g l) e 536870912 He) as Kl.
    pose proof (lenN_dict_entries (map g l)) as Le.
    cbn [shadow tag_val onorm encv enc users] in *. fold g in W, L, L2, Sz, B |- *. fold h. destruct W as [Hi W].
    specialize (B W ltac:(unfold two64; lia)). destruct (Cb ltac:(unfold two64; lia)) as [C1 C2].
    unfold mk_of in Hmk. destruct (create_tag e id) as [[t0|]| | |] eqn:Ec; try discriminate Hmk. injection Hmk as Hid Hk.
    destruct t0 as [i [ ]]; try discriminate Hk. cbn [tag_id] in Hid. subst i.
    eapply (o_node f id); [exact Hi|exact B|exact L|exact Sz|unfold o_create; rewrite Hu, Ec; reflexivity|].
    intros f' r rest Wr G Lr P. cbn [option_map emb o_deserialize_value].
    destruct W as (D & Uk & W). rewrite map_map in D. cbn [g fst] in D.
    pose proof (sort_entries_perm l) as Pl.
    assert (Es : sort_entries (map h l) = map h (sort_entries l)) by apply sort_entries_map.
    assert (Eg : concat (map (fun e => enc_string (fst e) ++ snd e) (sort_entries (map (fun e => (fst e, enc (snd e))) (map g l))))
                 = concat (map (fun e => enc_string (fst e) ++ enc (sh (snd e))) (sort_entries l))).
    { rewrite map_map. cbn [g fst snd]. rewrite (sort_entries_map (fun t => enc (sh t)) l), map_map. reflexivity. }
    rewrite Eg in *. rewrite Es. clear Es.
    rewrite <- (dict_of_id (map h (sort_entries l))).
    2:{ rewrite map_map. cbn [h fst]. eapply Permutation_NoDup; [apply Permutation_map; exact Pl|exact D]. }
    replace (lenN (map g l)) with (lenN (map h (sort_entries l))) in *
      by (unfold lenN; rewrite !map_length; now rewrite <- (Permutation_length Pl)).
    eapply (o_run_complete _ f'); eauto. unfold dict_of. rewrite <- fold_insert.
    eapply (mcomplete_counted f' _ (fun x => hm_insert (fst x) (snd x)) (fun _ => false)); auto.
    + now apply ilint_bytes_ok.
    + now apply ilint_repr_ilint.
    + apply chain_entries. eapply Permutation_Forall; [exact Pl|].
      cbn [wfv] in W. apply all_Forall in W, A, R. rewrite Forall_map in W, Uk. cbn [g fst snd] in *.
      rewrite Forall_forall in *. intros x Hx. rewrite lenN_app in L.
      pose proof (child_len (VDict (map g l)) (sh (snd x))) as K. cbn [children encv] in K. rewrite Eg, map_map, lenN_app in K.
      specialize (K (in_map (fun e => snd (g e)) l x Hx)).
      split; [|split; [now apply Uk|]].
      * apply (Kl (g x)); [lia|]. now apply in_map.
      * apply IH; auto. destruct (sh (snd x)) as [ti tv] eqn:Et. pose proof (enc_payload_len ti tv). cbn [tag_val].
        replace (lenN (map g l)) with (lenN (map h (sort_entries l))) in K
          by (unfold lenN; rewrite !map_length; now rewrite <- (Permutation_length Pl)). lia.
Qed.
End Read.

(** ** Safety *)
(** What user code must respect.  It does not replace its reader ([Rkin], [Mkin]:
    KinFacts.v; the type [&mut dyn Reader] ensures it).  And, whatever the bound on
    the data left, if the factory terminates (with no panic unless [pan]) and makes
    progress below it, so does the method on the LimitedReader it is given, and it
    does not give the reader more data. *)
Definition behaves (pan : Prop) {T} (U : user_impl T) : Prop :=
  (forall deser n, Rkin _ _ deser -> Mkin _ _ (u_deserialize_value U deser n)) /\
  (forall b deser n x r m y x' r', rsafe pan b deser -> rprogress b deser -> Rkin _ _ deser ->
     rwf r -> (left r < b)%nat -> u_deserialize_value U deser n (x, RLimited r m) = (y, (x', r')) ->
     okres pan y /\ rwf r' /\ (left r' <= left r)%nat).
Definition leaf_tag {T} (t : otag T) : Prop := match t with OStd _ v => leaf v | _ => True end.
Lemma emb_leaf_tag {T} t : leaf_tag (@emb T t).
Proof. destruct t as [id v]. destruct v; exact I. Qed.

Section Safety.
Context {T : Type} (U : user_impl T) (e : engine) (pan : Prop).
Hypothesis HU : behaves pan U.
Hypothesis Hc : forall id, okres pan (o_create U e id).

Lemma o_run_safe {S} b (m : method S unit) s (mk : S -> otag T) r x t r' :
  msafe pan b m -> rwf r -> (left r < b)%nat -> o_run m s mk r = (x, t, r') ->
  okres pan x /\ rwf r' /\ (left r' <= left r)%nat.
Proof.
  intros Sm W L. unfold o_run. destruct (m (s, r)) as [y [s' r1]] eqn:E. intros [= <- <- <-]. eauto.
Qed.
Lemma o_kin f : Rkin _ _ (o_deserialize_fuel U f e).
Proof. apply (co_deserialize_fuel _ _ closed_kin). exact (proj1 HU). Qed.
Lemma o_deserialize_value_safe b deser t n r0 m x t' r' :
  rsafe pan b deser -> rprogress b deser -> Rkin _ _ deser -> leaf_tag t -> rwf r0 -> (left r0 < b)%nat ->
  o_deserialize_value U deser t n (RLimited r0 m) = (x, t', r') -> okres pan x /\ rwf r' /\ (left r' <= left r0)%nat.
Proof.
  intros Sd Pd Kd Hl W L. change (left r0) with (left (RLimited r0 m)) in L |- *. change (rwf (RLimited r0 m)) in W.
  assert (Hu : forall u, t = OUser u -> o_run (u_deserialize_value U deser n) u OUser (RLimited r0 m) = (x, t', r') ->
    okres pan x /\ rwf r' /\ (left r' <= left (RLimited r0 m))%nat).
  { intros u _. unfold o_run. destruct (u_deserialize_value U deser n (u, RLimited r0 m)) as [y [s' r1]] eqn:E. intros [= <- _ <-].
    exact (proj2 HU b deser n u r0 m _ _ _ Sd Pd Kd W L E). }
  set (r := RLimited r0 m) in *. clearbody r. destruct t as [id v|u|id l|id l|id l]; cbn [o_deserialize_value].
  - rewrite (deserialize_value_leaf _ (fun r => (Err CorruptedData, r))) by exact Hl.
    destruct (deserialize_value (fun r => (Err CorruptedData, r)) v n r) as [[y v'] r1] eqn:E. intros [= <- <- <-].
    destruct (deserialize_value_safe pan b (fun r => (Err CorruptedData, r))) with (v := v) (n := n) (r := r) (x := y) (v' := v') (r' := r1)
      as (R & W' & L' & _); auto.
    + intros q x0 q' W0 _ [= <- <-]. cbn. auto.
    + intros q a q' _ [=].
  - now apply Hu.
  - apply (o_run_safe b); auto. apply msafe_limited, msafe_bind; [apply msafe_modify|]. intros _.
    now apply msafe_while_read_below.
  - apply (o_run_safe b); auto. apply msafe_limited, msafe_bind; [apply msafe_on_reader, safe_rsafe, safe_deserialize_ilint|]. intros c.
    apply msafe_bind; [destruct (n <? c); [apply msafe_fail|apply msafe_ret]|]. intros _.
    apply msafe_bind; [apply msafe_modify|]. intros _.
    apply msafe_bind; [now apply msafe_repeat_read_below|]. intros _. apply msafe_ensure_empty.
  - apply (o_run_safe b); auto. apply msafe_limited, msafe_bind; [apply msafe_on_reader, safe_rsafe, safe_deserialize_ilint|]. intros c.
    apply msafe_bind; [apply msafe_modify|]. intros _.
    apply msafe_bind; [|intros _; apply msafe_ensure_empty]. apply msafe_repeat_read_below.
    + apply rsafe_bind; [apply rsafe_string|]. intros k. apply rsafe_bind; [exact Sd|]. intros t. apply safe_rsafe, safe_ret.
    + intros q a q' W0 L0 E. apply bind_inv_ok in E as (k & r1 & E1 & E).
      destruct (rsafe_string pan b _ _ _ W0 L0 E1) as (_ & W1 & L1).
      apply bind_inv_ok in E as (t & r2 & E2 & E). injection E as <- <-.
      pose proof (Pd _ _ _ W1 ltac:(lia) E2). lia.
Qed.
Lemma o_deserialize_fuel_safe f : rsafe pan f (o_deserialize_fuel U f e) /\ rprogress f (o_deserialize_fuel U f e).
Proof.
  assert (K : forall r x r', rwf r -> (left r < f)%nat -> o_deserialize_fuel U f e r = (x, r') ->
    okres pan x /\ rwf r' /\ (left r' <= left r)%nat /\ (forall t, x = Ok t -> (left r' < left r)%nat)).
  2:{ split; intros r x r' W L H; destruct (K _ _ _ W L H) as (R & W' & L' & Q); eauto. }
  induction f as [|f IH]; intros r x r' W L H; cbn [o_deserialize_fuel] in H; [lia|].
  assert (Sd : rsafe pan f (o_deserialize_fuel U f e)).
  { intros r0 x0 r0' W0 L0 H0. destruct (IH _ _ _ W0 L0 H0) as (R & W' & L' & Q); auto. }
  assert (Pd : rprogress f (o_deserialize_fuel U f e)).
  { intros r0 x0 r0' W0 L0 H0. destruct (IH _ _ _ W0 L0 H0) as (R & W' & L' & Q); eauto. }
  unfold bind in H. destruct (deserialize_ilint r) as [y r1] eqn:E1.
  destruct (safe_deserialize_ilint _ _ _ W E1) as (R1 & W1 & L1).
  destruct y as [wid|err| |]; try contradiction; [|injection H as <- <-; cbn; repeat split; auto; discriminate].
  pose proof (progress_ilint _ _ _ W E1) as Lt.
  destruct (deserialize_tag_size wid r1) as [y r2] eqn:E2.
  destruct (safe_tag_size _ _ _ _ W1 E2) as (R2 & W2 & L2).
  destruct y as [n|err| |]; try contradiction; [|injection H as <- <-; cbn; repeat split; auto; [lia|discriminate]].
  pose proof (Hc wid) as Hw. destruct (o_create U e wid) as [created|err| |] eqn:E3;
    try (injection H as <- <-; repeat split; auto; [lia|discriminate]).
  destruct created as [t0|]; [|injection H as <- <-; cbn; repeat split; auto; [lia|discriminate]].
  assert (Hl : leaf_tag t0).
  { unfold o_create in E3. destruct (u_create U wid) as [[x0|]|]; try discriminate; [injection E3 as <-; exact I|].
    destruct (create_tag e wid) as [[t1|]| | |]; try discriminate. injection E3 as <-. apply emb_leaf_tag. }
  unfold o_value_into, LimitedReader_new in H.
  destruct (o_deserialize_value U (o_deserialize_fuel U f e) t0 n (RLimited r2 n)) as [[y t1] lr] eqn:E4.
  destruct (o_deserialize_value_safe f _ _ _ r2 _ _ _ _ Sd Pd (o_kin f) Hl W2 ltac:(lia) E4) as (R & W' & L'). injection H as <- <-. rewrite left_unlimit.
  split; [|split; [now apply rwf_unlimit|split; [lia|intros; lia]]].
  destruct y; auto. destruct (_ && _)%bool; exact I.
Qed.
Lemma o_deserialize_safe r x r' : rwf r -> o_deserialize U e r = (x, r') -> okres pan x /\ rwf r' /\ (left r' <= left r)%nat.
Proof. intros W H. eapply (proj1 (o_deserialize_fuel_safe (S (left r)))); eauto. Qed.
Lemma o_deserialize_into_safe r t x t' r' : leaf_tag t -> rwf r -> o_deserialize_into U e r t = (x, t', r') ->
  okres pan x /\ rwf r' /\ (left r' <= left r)%nat.
Proof.
  intros Hl W H. unfold o_deserialize_into in H. destruct (deserialize_ilint r) as [y r1] eqn:E1.
  destruct (safe_deserialize_ilint _ _ _ W E1) as (R1 & W1 & L1).
  destruct y as [wid|err| |]; try contradiction; [|injection H as <- <- <-; cbn; auto].
  destruct (negb (wid =? o_id U t)); [injection H as <- <- <-; cbn; auto|].
  destruct (deserialize_tag_size wid r1) as [y r2] eqn:E2.
  destruct (safe_tag_size _ _ _ _ W1 E2) as (R2 & W2 & L2).
  destruct y as [n|err| |]; try contradiction; [|injection H as <- <- <-; cbn; repeat split; auto; lia].
  destruct (o_deserialize_fuel_safe (S (left r2))) as [Sd Pd].
  unfold o_value_into, LimitedReader_new in H.
  destruct (o_deserialize_value U _ t n (RLimited r2 n)) as [[y t1] lr] eqn:E4.
  destruct (o_deserialize_value_safe (S (left r2)) _ _ _ r2 _ _ _ _ Sd Pd (o_kin _) Hl W2 ltac:(lia) E4) as (R & W' & L'). injection H as <- <- <-. rewrite left_unlimit.
  split; [|split; [now apply rwf_unlimit|lia]].
  destruct y; auto. destruct (_ && _)%bool; exact I.
Qed.
End Safety.

(** ** Without user types *)
Section Simulation.
Context {A B : Type} (g : A -> B).
(** [m'] does what [m] does, on the images of the states. *)
Definition msim {R} (m : method A R) (m' : method B R) : Prop :=
  forall s r, m' (g s, r) = let '(x, (s', r')) := m (s, r) in (x, (g s', r')).
Lemma msim_ret {R} (x : R) : msim (ret x) (ret x).
Proof. intros s r. reflexivity. Qed.
Lemma msim_fail {R} e : @msim R (fail e) (fail e).
Proof. intros s r. reflexivity. Qed.
Lemma msim_bind {R Q} (m : method A R) m' (f : R -> method A Q) f' :
  msim m m' -> (forall x, msim (f x) (f' x)) -> msim (bind m f) (bind m' f').
Proof.
  intros Hm Hf s r. unfold bind. rewrite Hm. destruct (m (s, r)) as [[x| | |] [s1 r1]]; try reflexivity. apply Hf.
Qed.
Lemma msim_on_reader {R} (m : reader -> res tag_error R * reader) : msim (on_reader m) (on_reader m).
Proof. intros s r. unfold on_reader. now destruct (m r). Qed.
Lemma msim_modify f f' : (forall s, f' (g s) = g (f s)) -> msim (modify f) (modify f').
Proof. intros H s r. unfold modify. now rewrite H. Qed.
Lemma msim_limited {R} n (m : method A R) m' : msim m m' -> msim (limited n m) (limited n m').
Proof. intros H s r. unfold limited. rewrite H. now destruct (m (s, LimitedReader_new r n)) as [x [s1 r1]]. Qed.
Lemma msim_ensure_empty e : msim (limited_reader_ensure_empty e) (limited_reader_ensure_empty e).
Proof. intros s r. unfold limited_reader_ensure_empty. cbn [snd]. now destruct (limit_empty r). Qed.
(** Reading items with [d], and with [d'] which yields their images. *)
Context {I J : Type} (h : I -> J) (d : reader -> res tag_error I * reader) (d' : reader -> res tag_error J * reader).
Hypothesis Hd : forall r, d' r = let '(x, r') := d r in (map_ok h x, r').
Context (store : I -> A -> A) (store' : J -> B -> B).
Hypothesis Hs : forall x s, store' (h x) (g s) = g (store x s).
Lemma msim_repeat f : forall count, msim (repeat_read f d store count) (repeat_read f d' store' count).
Proof.
  induction f as [|f IH]; intros count s r; cbn [repeat_read]; [now destruct (count =? 0)|].
  destruct (count =? 0); [reflexivity|]. unfold bind, on_reader. rewrite Hd.
  destruct (d r) as [[x| | |] r1]; cbn [map_ok]; try reflexivity.
  unfold modify. rewrite Hs. apply IH.
Qed.
Lemma msim_while f : msim (while_read f d store) (while_read f d' store').
Proof.
  induction f as [|f IH]; intros s r; cbn [while_read snd]; [now destruct (limit_empty r)|].
  destruct (limit_empty r); [reflexivity|]. unfold bind, on_reader. rewrite Hd.
  destruct (d r) as [[x| | |] r1]; cbn [map_ok]; try reflexivity.
  unfold modify. rewrite Hs. apply IH.
Qed.
End Simulation.

Lemma hm_insert_map {A B} (h : A -> B) k x (m : list (list N * A)) :
  hm_insert k (h x) (map (fun e => (fst e, h (snd e))) m) = map (fun e => (fst e, h (snd e))) (hm_insert k x m).
Proof.
  induction m as [|[k' y] m IH]; cbn [map hm_insert fst snd]; [reflexivity|].
  destruct (str_eqb k k'); cbn [map fst snd]; [reflexivity|]. now rewrite IH.
Qed.

Section Conservative.
Context {T : Type} (U : user_impl T) (e : engine).
Notation emb := (@emb T).
Hypothesis Hnone : forall id, u_create U id = None.
Lemma o_id_emb t : o_id U (emb t) = tag_id t.
Proof. destruct t as [id v]. destruct v; reflexivity. Qed.
Lemma o_value_emb d d' t n r :
  (forall r, d' r = let '(x, r') := d r in (map_ok emb x, r')) ->
  o_deserialize_value U d' (emb t) n r =
    let '(x, v', r') := deserialize_value d (tag_val t) n r in (x, emb (Tag (tag_id t) v'), r').
Proof.
  intros Hd. destruct t as [id v]. cbn [tag_id tag_val].
  assert (Hl : leaf v -> o_deserialize_value U d' (emb (Tag id v)) n r =
    let '(x, v', r') := deserialize_value d v n r in (x, emb (Tag id v'), r')).
  { intros Hl. rewrite emb_leaf by exact Hl. cbn [o_deserialize_value].
    rewrite (deserialize_value_leaf untouchable_deserialize d) by exact Hl.
    destruct (deserialize_value d v n r) as [[x v'] r'] eqn:E.
    apply deserialize_value_kind_leaf in E; [|exact Hl]. now rewrite emb_leaf. }
  destruct v; try (apply Hl; exact I); clear Hl; cbn [Open.emb o_deserialize_value deserialize_value]; unfold o_run, run.
  - assert (M : msim (map emb) (seq_deserialize d n) (seq_deserialize d' n)).
    { apply msim_limited, msim_bind; [now apply msim_modify|]. intros _ s r0. unfold fuelled. cbn [snd].
      apply (msim_while (map emb) emb d d' Hd). intros x0 s0. unfold push. now rewrite map_app. }
    rewrite M. now destruct (seq_deserialize d n (l, r)) as [x [s' r']].
  - assert (M : msim (map emb) (arr_deserialize d n) (arr_deserialize d' n)).
    { apply msim_limited, msim_bind; [apply msim_on_reader|]. intros c.
      apply msim_bind; [destruct (n <? c); [apply msim_fail|apply msim_ret]|]. intros _.
      apply msim_bind; [now apply msim_modify|]. intros _.
      apply msim_bind; [|intros _; apply msim_ensure_empty]. intros s r0. unfold fuelled. cbn [snd].
      apply (msim_repeat (map emb) emb d d' Hd). intros x0 s0. unfold push. now rewrite map_app. }
    rewrite M. now destruct (arr_deserialize d n (l, r)) as [x [s' r']].
  - set (h := fun e : list N * tag => (fst e, emb (snd e))).
    assert (M : msim (map h) (dict_deserialize d n) (dict_deserialize d' n)).
    { apply msim_limited, msim_bind; [apply msim_on_reader|]. intros c.
      apply msim_bind; [now apply msim_modify|]. intros _.
      apply msim_bind; [|intros _; apply msim_ensure_empty]. intros s r0. unfold fuelled. cbn [snd].
      apply (msim_repeat (map h) h).
      - intros r1. unfold bind. destruct (deserialize_string_tag_from_value r1) as [[k| | |] r2]; try reflexivity.
        rewrite Hd. destruct (d r2) as [[x| | |] r3]; reflexivity.
      - intros [k x] s0. apply (hm_insert_map emb k x s0). }
    change (map (fun e => (fst e, emb (snd e))) l) with (map h l). rewrite M.
    now destruct (dict_deserialize d n (l, r)) as [x [s' r']].
Qed.
Lemma o_value_into_emb d d' t n r :
  (forall r, d' r = let '(x, r') := d r in (map_ok emb x, r')) ->
  o_value_into U d' n (emb t) r =
    let '(x, t', r') := deserialize_tag_value_into d n t r in (x, emb t', r').
Proof.
  intros Hd. unfold o_value_into, deserialize_tag_value_into. rewrite (o_value_emb d d' t n _ Hd).
  destruct (deserialize_value d (tag_val t) n (LimitedReader_new r n)) as [[x v'] lr].
  rewrite o_id_emb. cbn [tag_id]. now destruct x.
Qed.
Lemma o_deserialize_fuel_emb f : forall r,
  o_deserialize_fuel U f e r = let '(x, r') := deserialize_fuel f e r in (map_ok emb x, r').
Proof.
  induction f as [|f IH]; intros r; cbn [o_deserialize_fuel deserialize_fuel]; [reflexivity|].
  unfold bind. destruct (deserialize_ilint r) as [[id| | |] r1]; try reflexivity.
  destruct (deserialize_tag_size id r1) as [[n| | |] r2]; try reflexivity.
  unfold o_create. rewrite Hnone. destruct (create_tag e id) as [[t0|]| | |]; cbn [map_ok option_map]; try reflexivity.
  rewrite (o_value_into_emb _ _ t0 n r2 IH).
  destruct (deserialize_tag_value_into (deserialize_fuel f e) n t0 r2) as [[x t'] r']. now destruct x.
Qed.
Lemma o_deserialize_into_emb r t :
  o_deserialize_into U e r (emb t) = let '(x, t', r') := deserialize_into e r t in (x, emb t', r').
Proof.
  unfold o_deserialize_into, deserialize_into. rewrite o_id_emb.
  destruct (deserialize_ilint r) as [[id| | |] r1]; try reflexivity.
  destruct (negb (id =? tag_id t)); [reflexivity|].
  destruct (deserialize_tag_size id r1) as [[n| | |] r2]; try reflexivity.
  apply o_value_into_emb, o_deserialize_fuel_emb.
Qed.
End Conservative.
Section ConservativeSerialize.
Context {T : Type} (U : user_impl T).
Notation emb := (@emb T).
Lemma shadow_emb uid code t : shadow uid code (emb t) = t.
Proof.
  induction t as [id v IH] using tag_induction. destruct v; try reflexivity; cbn [Open.emb shadow children] in *; f_equal; f_equal.
  - rewrite map_map. rewrite <- map_id. apply map_ext_Forall. exact IH.
  - rewrite map_map. rewrite <- map_id. apply map_ext_Forall. exact IH.
  - rewrite map_map. rewrite <- map_id. apply map_ext_Forall. rewrite Forall_map in IH.
    eapply Forall_impl; [|exact IH]. intros [k x] E. cbn [fst snd] in *. now rewrite E.
Qed.
Lemma users_emb (P : T -> Prop) t : users P (emb t).
Proof.
  induction t as [id v IH] using tag_induction. destruct v; try exact I; cbn [Open.emb users children] in *;
    rewrite all_Forall, Forall_map; auto. rewrite Forall_map in IH. exact IH.
Qed.
Lemma fold_left_map_ext {X Y} (f : Y -> N) (g : X -> N) (k : X -> Y) l : Forall (fun x => f (k x) = g x) l ->
  forall a, fold_left (fun acc y => acc + f y) (map k l) a = fold_left (fun acc x => acc + g x) l a.
Proof. induction 1 as [|x l Hx H IH]; intros a; cbn [map fold_left]; [reflexivity|]. rewrite IH, Hx. reflexivity. Qed.
Lemma o_size_emb t : o_size U (emb t) = size t.
Proof.
  induction t as [id v IH] using tag_induction. destruct v; try reflexivity; cbn [Open.emb o_size size value_size children] in *;
    unfold size_with, size_over.
  - now rewrite (fold_left_map_ext (o_size U) size emb).
  - rewrite (fold_left_map_ext (o_size U) size emb) by exact IH. unfold lenN. now rewrite map_length.
  - rewrite (fold_left_map_ext (fun e => string_tag_size_from_value (fst e) + o_size U (snd e))
      (fun e => string_tag_size_from_value (fst e) + size (snd e)) (fun e : list N * tag => (fst e, emb (snd e)))).
    + unfold lenN. now rewrite map_length.
    + rewrite Forall_map in IH. eapply Forall_impl; [|exact IH]. cbn [fst snd]. intros e ->. reflexivity.
Qed.
Lemma items_size_emb l : items_size U (map emb l) = fold_left (fun acc t => acc + size t) l 0.
Proof. unfold items_size. apply fold_left_map_ext. apply Forall_forall. intros t _. apply o_size_emb. Qed.
Lemma entries_size_emb l : entries_size U (map (fun e => (fst e, emb (snd e))) l)
  = fold_left (fun acc e => acc + (string_tag_size_from_value (fst e) + size (snd e))) l 0.
Proof.
  unfold entries_size. apply (fold_left_map_ext (fun e => string_tag_size_from_value (fst e) + o_size U (snd e))
    (fun e => string_tag_size_from_value (fst e) + size (snd e)) (fun e : list N * tag => (fst e, emb (snd e)))).
  apply Forall_forall. intros e _. cbn [fst snd]. now rewrite o_size_emb.
Qed.
Lemma then_ext {S E} (m k k' : S -> res E unit * S) w : (forall w, k w = k' w) -> (m ;;; k) w = (m ;;; k') w.
Proof. intros H. unfold bind. destruct (m w) as [[u| | |] w1]; auto. Qed.
Lemma for_each_ext {S E X Y} (l : list X) (k : X -> Y) (f : X -> S -> res E unit * S) (f' : Y -> S -> res E unit * S) :
  Forall (fun x => forall w, f' (k x) w = f x w) l -> forall w, for_each (map k l) f' w = for_each l f w.
Proof.
  induction 1 as [|x l Hx H IH]; intros w; cbn [map for_each fold_right]; [reflexivity|].
  unfold bind. rewrite Hx. destruct (f x w) as [[u| | |] w1]; try reflexivity. apply IH.
Qed.
Lemma for_each_get {S E A B} (keys : list (list N)) (l : list (list N * A)) (l' : list (list N * B))
  (f : list N -> option A -> S -> res E unit * S) (f' : list N -> option B -> S -> res E unit * S) :
  (forall k w, f' k (hm_get k l') w = f k (hm_get k l) w) ->
  forall w, for_each keys (fun k => f' k (hm_get k l')) w = for_each keys (fun k => f k (hm_get k l)) w.
Proof.
  intros H. induction keys as [|k keys IH]; intros w; cbn [for_each fold_right]; [reflexivity|].
  unfold bind. rewrite H. destruct (f k (hm_get k l) w) as [[u| | |] w1]; try reflexivity. apply IH.
Qed.
Lemma o_serialize_emb t w : o_serialize U (emb t) w = serialize t w.
Proof.
  revert w. induction t as [id v IH] using tag_induction. intros w.
  destruct v; try reflexivity; cbn [Open.emb o_serialize serialize serialize_value children] in *;
    unfold serialize_with, serialize_over; apply then_ext; intros w1.
  - rewrite items_size_emb. apply then_ext. intros w2. apply for_each_ext. eapply Forall_impl; [|exact IH]. intros t H. exact H.
  - rewrite items_size_emb. replace (lenN (map emb l)) with (lenN l) by (unfold lenN; now rewrite map_length).
    apply then_ext. intros w2. apply then_ext. intros w3. apply for_each_ext. eapply Forall_impl; [|exact IH]. intros t H. exact H.
  - rewrite entries_size_emb, !map_map. cbn [fst snd]. replace (lenN (map _ l)) with (lenN l) by (unfold lenN; now rewrite map_length).
    apply then_ext. intros w2. apply then_ext. intros w3. rewrite Forall_map in IH.
    set (l1 := map (fun x : list N * tag => (fst x, o_serialize U (emb (snd x)))) l).
    set (l2 := map (fun e : list N * tag => (fst e, serialize (snd e))) l).
    set (ff := fun (key : list N) (o : option (writer -> res tag_error unit * writer)) =>
      match o with Some value => serialize_string_tag_from_value key ;;; value | None => fail UnableToSerialize end).
    apply (for_each_get (sort_unstable (map fst l)) l2 l1 ff ff).
    intros k w4. unfold l1, l2. clear -IH.
    induction l as [|[k' x] l IHl]; cbn [map hm_get fst snd]; [reflexivity|]. apply Forall_inv in IH as H1. apply Forall_inv_tail in IH.
    destruct (str_eqb k k'); [|now apply IHl]. unfold ff, bind.
    destruct (serialize_string_tag_from_value k w4) as [[u| | |] w5]; try reflexivity. apply H1.
Qed.
Lemma o_to_bytes_emb t : o_to_bytes U (emb t) = to_bytes t.
Proof.
  assert (E : o_to_bytes U (emb t) = to_bytes_over (o_serialize U (emb t))) by (destruct t as [id []]; reflexivity).
  rewrite E. unfold to_bytes_over, to_bytes. now rewrite o_serialize_emb.
Qed.
End ConservativeSerialize.

(** ** Soundness *)
(** The tree [t] with raw tags, holding bytes related to it by [R], in place of
    the user tags; the tags of the library that hold no tags have ids in [std]. *)
Inductive framed {T} (uid : T -> N) (std : N -> Prop) (R : T -> list N -> Prop) : otag T -> tag -> Prop :=
| F_std id v : leaf v -> std id -> framed uid std R (OStd id v) (Tag id v)
| F_user x bs : R x bs -> framed uid std R (OUser x) (Tag (uid x) (VRaw bs))
| F_seq id l l' : Forall2 (framed uid std R) l l' -> framed uid std R (OSeq id l) (Tag id (VSeq l'))
| F_arr id l l' : Forall2 (framed uid std R) l l' -> framed uid std R (OArr id l) (Tag id (VArr l'))
| F_dict id l l' : Forall2 (fun e e' => fst e = fst e' /\ framed uid std R (snd e) (snd e')) l l' ->
    framed uid std R (ODict id l) (Tag id (VDict l')).
(** The ids of the objects that the engine makes for the ids with no user creator. *)
Definition std_made {T} (U : user_impl T) (e : engine) (id : N) : Prop :=
  exists wid k, u_create U wid = None /\ mk_of e wid = Some (id, k).
(** What the factory creates, with a raw tag in place of a user tag. *)
Definition open_mk {T} (U : user_impl T) (e : engine) (id : N) : option (N * kind) :=
  match u_create U id with
  | Some (Some x) => Some (u_id U x, KRaw)
  | Some None => None
  | None => mk_of e id
  end.

Section Sound.
Context {T : Type} (U : user_impl T) (e : engine) (R : T -> list N -> Prop).
Hypothesis He : engine_ok e.
Notation fr := (framed (u_id U) (std_made U e) R).
Definition framing (t : otag T) (bs : list N) : Prop := exists s, wire (open_mk U e) bs s /\ fr t s.
(** User code that succeeds on an object just created has read bytes, related to
    the new fields if they are all it was to read, and has kept the id. *)
Hypothesis HU : forall f n id x0 r x lr, sound (o_deserialize_fuel U f e) framing -> rwf r -> u_create U id = Some (Some x0) ->
  u_deserialize_value U (o_deserialize_fuel U f e) n (x0, RLimited r n) = (Ok tt, (x, lr)) ->
  exists bs, delivers (RLimited r n) bs lr /\ (lenN bs = n -> R x bs) /\ u_id U x = u_id U x0.
Hypothesis Hid : forall id x, u_create U id = Some (Some x) -> u_id U x <> 10 /\ u_id U x <> 14.

Lemma Forall2_lenN {A B} (P : A -> B -> Prop) l l' : Forall2 P l l' -> lenN l = lenN l'.
Proof. unfold lenN. induction 1; cbn [length]; congruence || lia. Qed.
Lemma chain_framing l bs : chain framing l bs -> exists l', wires (open_mk U e) bs l' /\ Forall2 fr l l'.
Proof.
  induction 1 as [|t b l bs (s & Ws & Fs) C (l' & W & F)]; [exists []; split; constructor|].
  exists (s :: l'). split; constructor; auto.
Qed.
Lemma chain_entries_framing es bs :
  chain (fun e bs => exists kb b, bs = kb ++ b /\ wire_string kb (fst e) /\ framing (snd e) b) es bs ->
  exists es', wire_entries (open_mk U e) bs es' /\ Forall2 (fun e e' => fst e = fst e' /\ fr (snd e) (snd e')) es es'.
Proof.
  induction 1 as [|[k t] b es bs (kb & c & -> & S & (s & Ws & Fs)) C (es' & W & F)]; [exists []; split; constructor|].
  exists ((k, s) :: es'). cbn [fst snd] in *. split; [rewrite <- app_assoc; now constructor|constructor; auto].
Qed.
Lemma put_framing k t s m m' : Forall2 (fun e e' => fst e = fst e' /\ fr (snd e) (snd e')) m m' -> fr t s ->
  Forall2 (fun e e' => fst e = fst e' /\ fr (snd e) (snd e')) (put k t m) (put k s m').
Proof.
  intros F Ft. induction F as [|[k1 x1] [k2 x2] m m' [E1 E2] F IH]; cbn [put fst snd] in *; [constructor; auto|].
  subst k2. destruct (bytes_eqb k k1); constructor; auto.
Qed.
Lemma dict_framing es es' : Forall2 (fun e e' => fst e = fst e' /\ fr (snd e) (snd e')) es es' ->
  Forall2 (fun e e' => fst e = fst e' /\ fr (snd e) (snd e')) (dict_of es) (dict_of es').
Proof.
  unfold dict_of. assert (K : forall m m', Forall2 (fun e e' => fst e = fst e' /\ fr (snd e) (snd e')) m m' ->
    Forall2 (fun e e' => fst e = fst e' /\ fr (snd e) (snd e')) es es' ->
    Forall2 (fun e e' => fst e = fst e' /\ fr (snd e) (snd e'))
      (fold_left (fun m e => put (fst e) (snd e) m) es m) (fold_left (fun m e => put (fst e) (snd e) m) es' m')).
  { intros m m' Fm F. revert m m' Fm. induction F as [|[k t] [k' t'] es es' [E1 E2] F IH]; intros m m' Fm; cbn [fold_left fst snd] in *; [exact Fm|].
    subst k'. apply IH. now apply put_framing. }
  intros F. now apply K.
Qed.

Lemma o_run_ok {S} (m : method S unit) s (mk : S -> otag T) r x t r' :
  o_run m s mk r = (x, t, r') -> exists s', m (s, r) = (x, (s', r')) /\ t = mk s'.
Proof. unfold o_run. destruct (m (s, r)) as [y [s' r1]]. intros [= <- <- <-]. eauto. Qed.
Lemma o_into_sound f n id t0 r t r' : let deser := o_deserialize_fuel U f e in
  sound deser framing -> rwf r -> id < two64 -> o_create U e id = Ok (Some t0) ->
  o_value_into U deser n t0 r = (Ok tt, t, r') ->
  exists bs i k v, delivers r bs r' /\ open_mk U e id = Some (i, k) /\ payload (open_mk U e) k n bs v
    /\ fr t (Tag i v) /\ (i = 10 \/ i = 14 \/ lenN bs = n).
Proof.
  intros deser Sd W Lid Ec. unfold o_value_into, LimitedReader_new.
  destruct (o_deserialize_value U deser t0 n (RLimited r n)) as [[y t1] lr] eqn:E.
  destruct y as [[]|err| |]; try discriminate.
  destruct (_ && _)%bool eqn:C; [discriminate|]. intros [= <- <-].
  rewrite !Bool.andb_false_iff, !Bool.negb_false_iff, !N.eqb_eq in C. unfold IL_ILINT_TAG_ID, IL_SIGNED_ILINT_TAG_ID in C.
  unfold o_create in Ec. unfold open_mk at 1. destruct (u_create U id) as [[x0|]|] eqn:Eu; try discriminate.
  - injection Ec as <-. cbn [o_deserialize_value] in E. apply o_run_ok in E as (x & E & ->).
    destruct (HU _ _ _ _ _ _ _ Sd W Eu E) as (bs & D & Rx & Ei). destruct (FactoryFacts.delivers_limited _ _ _ _ D) as (L & D' & Em).
    destruct (Hid _ _ Eu) as [N1 N2]. cbn [o_id] in C. rewrite Ei in C.
    assert (Ln : lenN bs = n) by tauto.
    exists bs, (u_id U x0), KRaw, (VRaw bs). split; [exact D'|]. split; [reflexivity|].
    split; [rewrite <- Ln; apply P_raw|]. split; [rewrite <- Ei; constructor; auto|]. auto.
  - destruct (create_tag e id) as [[[i v0]|]| | |] eqn:Ec'; try discriminate.
    assert (Et : t0 = emb (Tag i v0)) by (change (map_ok (option_map emb) (Ok (Some (Tag i v0)))) with (@Ok tag_error _ (Some (@emb T (Tag i v0)))) in Ec; congruence).
    subst t0. clear Ec.
    pose proof (wf_shape _ (He _ _ Lid Ec')) as Sh. cbn [tag_val] in Sh.
    rewrite (mk_of_created _ _ _ Ec'). cbn [tag_id tag_val].
    assert (Cont : forall bs k v, delivers (RLimited r n) bs lr -> k = kind_of v0 -> o_id U t1 = i ->
      (lenN bs <= n -> payload (open_mk U e) k n bs v /\ fr t1 (Tag i v)) ->
      exists bs i0 k v, delivers r bs (unlimit lr) /\ Some (i, kind_of v0) = Some (i0, k) /\ payload (open_mk U e) k n bs v
        /\ fr t1 (Tag i0 v) /\ (i0 = 10 \/ i0 = 14 \/ lenN bs = n)).
    { intros bs k v D -> Hi P. destruct (FactoryFacts.delivers_limited _ _ _ _ D) as (L & D' & Em). destruct (P L) as [P1 P2].
      exists bs, i, (kind_of v0), v. split; [exact D'|]. split; [reflexivity|]. split; [exact P1|]. split; [exact P2|].
      rewrite Hi in C. tauto. }
    pose proof (mk_of_created _ _ _ Ec') as Hmk. cbn [tag_id tag_val] in Hmk.
    assert (Leaf : leaf v0 -> exists v bs, leaf v /\ t1 = OStd i v /\ delivers (RLimited r n) bs lr /\
       (lenN bs <= n -> payload (open_mk U e) (kind_of v0) n bs v)).
    { intros Hl. rewrite emb_leaf in E by exact Hl. cbn [o_deserialize_value] in E.
      destruct (deserialize_value untouchable_deserialize v0 n (RLimited r n)) as [[y v] lr1] eqn:Ev.
      injection E as -> <- <-.
      destruct (deserialize_value_sound (open_mk U e) untouchable_deserialize) with (v := v0) (n := n) (r := RLimited r n) (v' := v) (r' := lr1)
        as (bs & D & P); auto; [intros ? ? ? ? [=]|]. exists v, bs.
      split; [exact (deserialize_value_kind_leaf _ _ _ _ _ _ _ Hl Ev)|auto]. }
    destruct v0 as [|b0|w u0|w z0|u0|u0|l0|u0|z0|l0|l0|l0|l0|z0 l0|l0|l0|l0|u0 u1|z0 z1 z2 z3|l0|l0|l0];
      try (destruct (Leaf I) as (v & bs & Hl & -> & D & P); apply (Cont bs _ v D eq_refl eq_refl);
           intros L; split; [now apply P|constructor; [exact Hl|eexists id, _; eauto]]); clear Leaf; cbn [emb o_deserialize_value] in E;
      apply o_run_ok in E as (s' & H & ->).
    + apply limited_ok in H as (r1 & H & ->).
      apply bind_inv_ok in H as (u & [s1 r2] & E1 & H). apply modify_ok in E1 as (_ & -> & ->). unfold fuelled in H.
      destruct (while_read_sound deser _ push Sd _ _ (RLimited (RLimited r n) n) _ _ _ W H) as (l' & bs & Ch & D & Em & ->).
      rewrite fold_push in *. cbn [app] in *.
      destruct (FactoryFacts.delivers_limited _ _ _ _ D) as (_ & D' & Hl). apply Hl in Em.
      destruct (chain_framing _ _ Ch) as (ls & Ws & F).
      apply (Cont bs KSeq (VSeq ls) D' eq_refl eq_refl). intros _. split; [rewrite <- Em; now apply P_seq|now constructor].
    + destruct (counted_sound deser _ _ (fun c => n <? c) _ _ (RLimited r n) _ _ Sd W H)
        as (cb & body & l' & Rc & Ch & En & D & ->).
      rewrite fold_push in *. cbn [app] in *. destruct (chain_framing _ _ Ch) as (ls & Ws & F).
      apply (Cont (cb ++ body) KArr (VArr ls) D eq_refl eq_refl). intros _. split; [|now constructor].
      rewrite En. apply P_arr; [|exact Ws]. rewrite <- (Forall2_lenN _ _ _ F). exact Rc.
    + assert (Se : sound (k <- deserialize_string_tag_from_value ;; t <- deser ;; ret (k, t))
        (fun e bs => exists kb b, bs = kb ++ b /\ wire_string kb (fst e) /\ framing (snd e) b)).
      { intros r0 e0 r0' W0 H0. apply bind_inv_ok in H0 as (k & r1 & E1 & H0). apply bind_inv_ok in H0 as (t & r2 & E2 & H0).
        injection H0 as <- <-. destruct (sound_string _ _ _ W0 E1) as (kb & S & D1).
        destruct (delivers_rwf _ _ _ W0 D1) as [W1 _]. destruct (Sd _ _ _ W1 E2) as (b & Wt & D2).
        exists (kb ++ b). split; [exists kb, b; auto|eapply delivers_trans; eauto]. }
      destruct (counted_sound _ _ (fun e => hm_insert (fst e) (snd e)) (fun _ => false) _ _ (RLimited r n) _ _ Se W H)
        as (cb & body & l' & Rc & Ch & En & D & ->).
      rewrite fold_insert in *. destruct (chain_entries_framing _ _ Ch) as (ls & Ws & F).
      apply (Cont (cb ++ body) KDict (VDict (dict_of ls)) D eq_refl eq_refl). intros _. split.
      * rewrite En. apply P_dict; [|exact Ws]. rewrite <- (Forall2_lenN _ _ _ F). exact Rc.
      * constructor. now apply dict_framing.
Qed.
Lemma o_deserialize_fuel_sound f : sound (o_deserialize_fuel U f e) framing.
Proof.
  induction f as [|f IH]; intros r t r' W H; cbn [o_deserialize_fuel] in H; [discriminate|].
  apply bind_inv_ok in H as (wid & r1 & E1 & H).
  destruct (sound_deserialize_ilint _ _ _ W E1) as (idb & R1 & D1). destruct (delivers_rwf _ _ _ W D1) as [W1 _].
  apply bind_inv_ok in H as (n & r2 & E2 & H).
  destruct (sound_tag_size _ _ _ _ W1 E2) as (szb & [Sz Ln] & D2). destruct (delivers_rwf _ _ _ W1 D2) as [W2 _].
  apply bind_inv_ok in H as (created & r3 & E3 & H). injection E3 as E3 <-.
  destruct created as [t0|]; [|discriminate].
  destruct (o_value_into U (o_deserialize_fuel U f e) n t0 r2) as [[x t1] r4] eqn:E4.
  destruct x as [[]|err| |]; try discriminate. injection H as <- <-.
  destruct (o_into_sound f _ _ _ _ _ _ IH W2 (ilint_repr_bound _ _ R1) E3 E4) as (body & i & k & v & D4 & Hmk & P & F & Hx).
  exists (idb ++ szb ++ body). split.
  - exists (Tag i v). split; [econstructor; eauto|exact F].
  - eapply delivers_trans; [exact D1|]. eapply delivers_trans; eauto.
Qed.
End Sound.

(** Creators, the creator engine and the standard engine. *)
From Verif Require Import Base BaseFacts Types Spec SpecFacts IO ILInt Data Tags TagsFacts Factory FactoryFacts
  DecodeFacts DeserFacts.

(** ** The map of creators *)
Lemma cr_get_insert id c m i : cr_get i (cr_insert id c m) = if i =? id then Some c else cr_get i m.
Proof.
  induction m as [|[j d] m IH]; cbn [cr_insert cr_get]; [reflexivity|].
  destruct (N.eqb_spec id j) as [->|Hj]; cbn [cr_get].
  - destruct (i =? j); reflexivity.
  - destruct (N.eqb_spec i j) as [->|Hi]; [destruct (N.eqb_spec j id); [congruence|reflexivity]|exact IH].
Qed.
Lemma cr_get_none i m : ~ In i (map fst m) -> cr_get i m = None.
Proof.
  induction m as [|[j d] m IH]; cbn [map fst In cr_get]; intros H; [reflexivity|].
  destruct (N.eqb_spec i j) as [->|]; [exfalso; auto|apply IH; tauto].
Qed.
Lemma cr_get_remove id m i : NoDup (map fst m) -> cr_get i (cr_remove id m) = if i =? id then None else cr_get i m.
Proof.
  induction m as [|[j d] m IH]; cbn [cr_remove cr_get map fst]; intros ND; [destruct (i =? id); reflexivity|].
  inversion ND as [|? ? Hj ND']; subst.
  destruct (N.eqb_spec id j) as [->|Hn]; cbn [cr_get].
  - destruct (i =? j) eqn:E; [apply N.eqb_eq in E; subst i; now apply cr_get_none|reflexivity].
  - destruct (N.eqb_spec i j) as [->|Hi]; [destruct (N.eqb_spec j id); [congruence|reflexivity]|now apply IH].
Qed.
Lemma cr_insert_keys id c m i : In i (map fst (cr_insert id c m)) -> i = id \/ In i (map fst m).
Proof.
  induction m as [|[j d] m IH]; cbn [cr_insert map fst In]; [intuition|].
  destruct (N.eqb_spec id j) as [->|]; cbn [map fst In]; intuition.
Qed.
Lemma cr_insert_NoDup id c m : NoDup (map fst m) -> NoDup (map fst (cr_insert id c m)).
Proof.
  induction m as [|[j d] m IH]; cbn [cr_insert map fst]; intros ND; [repeat constructor; auto|].
  inversion ND as [|? ? Hj ND']; subst. destruct (N.eqb_spec id j) as [->|Hn]; cbn [map fst]; [exact ND|].
  constructor; [|auto]. intros H. apply cr_insert_keys in H as [->|H]; auto.
Qed.
Lemma cr_remove_keys id m i : In i (map fst (cr_remove id m)) -> In i (map fst m).
Proof.
  induction m as [|[j d] m IH]; cbn [cr_remove map fst In]; [intuition|].
  destruct (N.eqb_spec id j) as [->|]; cbn [map fst In]; intuition.
Qed.
Lemma cr_remove_NoDup id m : NoDup (map fst m) -> NoDup (map fst (cr_remove id m)).
Proof.
  induction m as [|[j d] m IH]; cbn [cr_remove map fst]; intros ND; [constructor|].
  inversion ND as [|? ? Hj ND']; subst. destruct (N.eqb_spec id j) as [->|Hn]; cbn [map fst]; [exact ND'|].
  constructor; [|auto]. intros H. now apply cr_remove_keys in H.
Qed.

(** ** The standard engine *)
Definition std_created (strict : bool) (id : N) : option tag :=
  match standard_kind id with
  | Some k => Some (Tag id (default_value k))
  | None => if negb strict && (15 <? id) then Some (Tag id (VRaw [])) else None
  end.
Lemma std_keys strict : map fst (creators (create_std_engine strict)) =
  [0;1;2;3;4;5;6;7;8;9;10;11;12;13;14;16;17;18;19;20;21;22;23;24;25;30;31].
Proof. vm_compute. reflexivity. Qed.
Lemma std_strict strict : Factory.strict (create_std_engine strict) = strict.
Proof. reflexivity. Qed.
Lemma standard_kind_small id : 31 < id -> standard_kind id = None.
Proof.
  intros H. unfold standard_kind. destruct id as [|p]; [lia|].
  do 5 (destruct p as [p|p|]; try lia; try reflexivity).
Qed.
Lemma std_create strict id : create_tag (create_std_engine strict) id = Ok (std_created strict id).
Proof.
  destruct (N.leb_spec id 31) as [H|H].
  - assert (K : Forall (fun i => create_tag (create_std_engine strict) i = Ok (std_created strict i)) (map N.of_nat (seq 0 32))).
    { destruct strict; vm_compute map; repeat (constructor; [vm_compute; reflexivity|]); constructor. }
    rewrite Forall_forall in K. apply K. apply in_map_iff. exists (N.to_nat id).
    split; [lia|]. apply in_seq. lia.
  - unfold create_tag, std_created. rewrite standard_kind_small by assumption.
    rewrite cr_get_none.
    2:{ rewrite std_keys. cbn [In]. lia. }
    rewrite std_strict, is_implicit_spec. unfold ILRawTag_new. rewrite is_implicit_spec.
    destruct (N.leb_spec id 15); [lia|]. destruct (N.ltb_spec 15 id); [|lia].
    destruct strict; reflexivity.
Qed.
Lemma kind_of_default k : kind_of (default_value k) = k.
Proof. destruct k; reflexivity. Qed.
Lemma utf8_nil_ok : utf8 [].
Proof. exists []. split; [constructor|reflexivity]. Qed.
Lemma default_wfv k : wfv (default_value k).
Proof.
  assert (Z16 : Forall byte_ok (repeatN 0 16)) by (vm_compute; repeat constructor).
  assert (Z32 : signed_range W32 0) by (vm_compute; split; congruence).
  assert (A : wfv (VBin32 0) /\ wfv (VBin64 0) /\ wfv (VILInt 0) /\ wfv (VSILInt 0) /\ wfv (VRange 0 0))
    by (vm_compute; intuition congruence).
  destruct k as [| |w|w| | | | | | | | | | | | | | | | | |]; cbn [default_value]; try tauto; cbn [wfv map];
    unfold bytes_ok; auto using utf8_nil_ok.
  - destruct w; vm_compute; reflexivity.
  - destruct w; vm_compute; split; congruence.
  - exact I.
  - exact I.
  - repeat split; constructor.
  - repeat split; constructor.
Qed.
Lemma mk_of_std strict id : mk_of (create_std_engine strict) id = standard_mk strict id.
Proof.
  unfold mk_of. rewrite std_create. unfold std_created, standard_mk.
  destruct (standard_kind id) as [k|].
  - cbn [tag_id tag_val]. now rewrite kind_of_default.
  - destruct (negb strict && (15 <? id))%bool; reflexivity.
Qed.
Lemma std_engine_total strict : engine_total (create_std_engine strict).
Proof. intros id. rewrite std_create. exact I. Qed.
(** The id comes from an ILInt, so it is below 2^64. *)
Lemma std_created_wf strict id t : id < two64 -> std_created strict id = Some t -> wf t.
Proof.
  intros Hi. unfold std_created. destruct (standard_kind id) as [k|].
  - intros [= <-]. split; [exact Hi|apply default_wfv].
  - destruct (_ && _)%bool; [|discriminate]. intros [= <-]. split; [exact Hi|constructor].
Qed.
Lemma std_engine_ok strict : engine_ok (create_std_engine strict).
Proof. intros id t Hi E. rewrite std_create in E. injection E as E. exact (std_created_wf _ _ _ Hi E). Qed.
Lemma std_created_id strict id t : std_created strict id = Some t -> tag_id t = id /\ wfv (tag_val t).
Proof.
  unfold std_created. destruct (standard_kind id) as [k|].
  - intros [= <-]. split; [reflexivity|apply default_wfv].
  - destruct (_ && _)%bool; [|discriminate]. intros [= <-]. split; [reflexivity|constructor].
Qed.

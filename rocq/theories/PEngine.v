(** Properties of the creator engine: C37, C38. *)
From Verif Require Import Base BaseFacts Types Spec SpecFacts IO ILInt Data Tags TagsFacts Factory FactoryFacts
  DecodeFacts DeserFacts EngineFacts.

(** ** C37.  The engine is a map. *)
Inductive reg_op := Reg (id : N) (c : creator) | Dereg (id : N).
Definition op_id (o : reg_op) : N := match o with Reg id _ => id | Dereg id => id end.
(** The values returned by each call, and the engine afterwards. *)
Fixpoint run_ops (e : engine) (ops : list reg_op) : list (option creator) * engine :=
  match ops with
  | [] => ([], e)
  | o :: ops' =>
      let '(out, e1) := match o with Reg id c => register e id c | Dereg id => deregister e id end in
      let '(outs, e2) := run_ops e1 ops' in (out :: outs, e2)
  end.
(** The binding of [id] after [ops], given the initial one: the last call that
    names [id] decides. *)
Definition binding (start : option creator) (ops : list reg_op) (id : N) : option creator :=
  fold_left (fun b o => if op_id o =? id then match o with Reg _ c => Some c | Dereg _ => None end else b) ops start.

Lemma run_ops_spec ops : forall e outs e', NoDup (map fst (creators e)) -> run_ops e ops = (outs, e') ->
  strict e' = strict e /\ NoDup (map fst (creators e')) /\
  (forall id, cr_get id (creators e') = binding (cr_get id (creators e)) ops id) /\
  length outs = length ops /\
  (forall i o, nth_error ops i = Some o ->
     nth_error outs i = Some (binding (cr_get (op_id o) (creators e)) (firstn i ops) (op_id o))).
Proof.
  induction ops as [|o ops IH]; intros e outs e' ND E; cbn [run_ops] in E.
  - injection E as <- <-. repeat split; auto. intros [|i] o; discriminate.
  - destruct o as [id c|id]; cbn [register deregister] in E.
    + destruct (run_ops _ ops) as [outs2 e2] eqn:E2. injection E as <- <-.
      destruct (IH (Engine _ _) _ _ (cr_insert_NoDup id c _ ND) E2) as (S & ND' & G & L & O). cbn [creators strict] in *.
      repeat split; auto; [|now cbn; f_equal|].
      * intros i. rewrite G, cr_get_insert. unfold binding. cbn [fold_left op_id]. rewrite (N.eqb_sym id i).
        destruct (i =? id); reflexivity.
      * intros [|i] o Ho; cbn [nth_error firstn] in *; [injection Ho as <-; reflexivity|].
        rewrite (O i o Ho). rewrite cr_get_insert. unfold binding. cbn [fold_left op_id].
        rewrite (N.eqb_sym id (op_id o)). destruct (op_id o =? id); reflexivity.
    + destruct (run_ops _ ops) as [outs2 e2] eqn:E2. injection E as <- <-.
      destruct (IH (Engine _ _) _ _ (cr_remove_NoDup id _ ND) E2) as (S & ND' & G & L & O). cbn [creators strict] in *.
      repeat split; auto; [|now cbn; f_equal|].
      * intros i. rewrite G, cr_get_remove by assumption. unfold binding. cbn [fold_left op_id]. rewrite (N.eqb_sym id i).
        destruct (i =? id); reflexivity.
      * intros [|i] o Ho; cbn [nth_error firstn] in *; [injection Ho as <-; reflexivity|].
        rewrite (O i o Ho). rewrite cr_get_remove by assumption. unfold binding. cbn [fold_left op_id].
        rewrite (N.eqb_sym id (op_id o)). destruct (op_id o =? id); reflexivity.
Qed.
(** The tag created for [id] when it is bound to [b]. *)
Definition created (strict : bool) (b : option creator) (id : N) : res tag_error (option tag) :=
  match b with
  | Some c => match c id with Some t => Ok (Some t) | None => Panic end
  | None => if strict then Ok None else if id <=? 15 then Ok None else Ok (Some (Tag id (VRaw [])))
  end.
Lemma create_tag_created e id : create_tag e id = created (strict e) (cr_get id (creators e)) id.
Proof.
  unfold create_tag, created. destruct (cr_get id (creators e)) as [c|]; [reflexivity|].
  unfold ILRawTag_new. rewrite is_implicit_spec. destruct (strict e), (id <=? 15); reflexivity.
Qed.
Theorem C37_engine_is_a_map : forall strict ops outs e,
  run_ops (engine_new strict) ops = (outs, e) ->
  (forall id, create_tag e id = created strict (binding None ops id) id) /\
  length outs = length ops /\
  (forall i o, nth_error ops i = Some o -> nth_error outs i = Some (binding None (firstn i ops) (op_id o))).
Proof.
  intros strict ops outs e E. destruct (run_ops_spec ops (engine_new strict) _ _ (NoDup_nil _) E) as (S & _ & G & L & O).
  split; [|split; [exact L|exact O]]. intros id. rewrite create_tag_created, S, G. reflexivity.
Qed.
Print Assumptions C37_engine_is_a_map.
(** Starting from the standard engine, whose bindings are those of the standard. *)
Lemma std_bindings strict id :
  cr_get id (creators (create_std_engine strict)) = option_map ILDefaultTagCreator (standard_kind id).
Proof.
  destruct (N.leb_spec id 31) as [H|H].
  - assert (K : Forall (fun i => cr_get i (creators (create_std_engine strict)) = option_map ILDefaultTagCreator (standard_kind i))
                  (map N.of_nat (seq 0 32))) by (cbn [seq map]; repeat (constructor; [reflexivity|]); constructor).
    rewrite Forall_forall in K. apply K. apply in_map_iff. exists (N.to_nat id). split; [lia|]. apply in_seq. lia.
  - rewrite standard_kind_small by assumption. apply cr_get_none. rewrite std_keys. cbn [In]. lia.
Qed.
Theorem C37_standard_engine_is_a_map : forall strict ops outs e,
  run_ops (create_std_engine strict) ops = (outs, e) ->
  let start id := option_map ILDefaultTagCreator (standard_kind id) in
  (forall id, create_tag e id = created strict (binding (start id) ops id) id) /\
  length outs = length ops /\
  (forall i o, nth_error ops i = Some o ->
     nth_error outs i = Some (binding (start (op_id o)) (firstn i ops) (op_id o))).
Proof.
  intros strict ops outs e E start.
  assert (ND : NoDup (map fst (creators (create_std_engine strict)))).
  { rewrite std_keys. repeat (constructor; [cbn [In]; lia|]). constructor. }
  destruct (run_ops_spec ops _ _ _ ND E) as (S & _ & G & L & O). unfold start.
  split; [|split; [exact L|]].
  - intros id. rewrite create_tag_created, S, G, std_bindings. reflexivity.
  - intros i o Ho. rewrite (O i o Ho), std_bindings. reflexivity.
Qed.
Print Assumptions C37_standard_engine_is_a_map.
Example C37_instance :
  let a := ILDefaultWithIdTagCreator KString in let b := ILDefaultTagCreator KNull in
  let '(outs, e) := run_ops (engine_new true) [Reg 40 a; Reg 0 b; Reg 40 b; Dereg 0; Dereg 7; Reg 40 a] in
  outs = [None; None; Some a; Some b; None; Some b] /\
  create_tag e 40 = Ok (Some (Tag 40 (VString []))) /\ create_tag e 0 = Ok None.
Proof. cbn. repeat split. Qed.

(** ** C38.  The standard engine. *)
(** An empty value: zero, false or no contents. *)
Definition blank (v : value) : Prop :=
  match v with
  | VNull => True
  | VBool b => b = false
  | VUInt _ n => n = 0
  | VSInt _ z => z = 0%Z
  | VBin32 n | VBin64 n | VILInt n => n = 0
  | VBin128 bs => bs = repeatN 0 16
  | VSILInt z => z = 0%Z
  | VRaw bs | VBytes bs | VString bs | VBigInt bs => bs = []
  | VBigDec z bs => z = 0%Z /\ bs = []
  | VILIntArray l | VOID l => l = []
  | VSeq l | VArr l => l = []
  | VRange s c => s = 0 /\ c = 0
  | VVersion a b c d => (a = 0 /\ b = 0 /\ c = 0 /\ d = 0)%Z
  | VDict l => l = []
  | VStrDict l => l = []
  end.
Lemma default_blank k : blank (default_value k).
Proof. destruct k; repeat split. Qed.
Theorem C38_standard_engine : forall strict id,
  (forall k, standard_kind id = Some k ->
     exists v, create_tag (create_std_engine strict) id = Ok (Some (Tag id v)) /\ kind_of v = k /\ blank v) /\
  (standard_kind id = None ->
     create_tag (create_std_engine strict) id =
       if strict then Ok None else if id <=? 15 then Ok None else Ok (Some (Tag id (VRaw [])))) /\
  ((exists k, standard_kind id = Some k) <-> id <= 14 \/ 16 <= id <= 25 \/ id = 30 \/ id = 31).
Proof.
  intros strict id. rewrite std_create. unfold std_created. split; [|split].
  - intros k ->. exists (default_value k). repeat split; [apply kind_of_default|apply default_blank].
  - intros ->. destruct (N.leb_spec id 15), (N.ltb_spec 15 id); try lia; destruct strict; reflexivity.
  - destruct (N.leb_spec id 31) as [H|H].
    + assert (K : Forall (fun i => (exists k, standard_kind i = Some k) <-> i <= 14 \/ 16 <= i <= 25 \/ i = 30 \/ i = 31)
                    (map N.of_nat (seq 0 32))).
      { cbn [seq map]. repeat (constructor; [split; [intros [k Hk]; first [discriminate Hk|lia]|
          intros Hk; first [eexists; reflexivity|exfalso; lia]]|]). constructor. }
      rewrite Forall_forall in K. apply K. apply in_map_iff. exists (N.to_nat id). split; [lia|]. apply in_seq. lia.
    + rewrite standard_kind_small by assumption. split; [intros [k Hk]; discriminate|lia].
Qed.
Print Assumptions C38_standard_engine.
(** The hypotheses on engines used by the other theorems hold of the standard
    engine, and of engines filled with the library's creators, registered under
    any id. *)
Theorem C38_engines_meet_hypotheses :
  (forall strict, engine_ok (create_std_engine strict) /\ engine_total (create_std_engine strict)) /\
  (forall strict ops outs e,
     Forall (fun o => match o with
                      | Reg _ c => exists k, c = ILDefaultTagCreator k \/ c = ILDefaultWithIdTagCreator k
                      | Dereg _ => True end) ops ->
     run_ops (create_std_engine strict) ops = (outs, e) -> engine_ok e).
Proof.
  split; [intros; split; [apply std_engine_ok|apply std_engine_total]|].
  intros strict ops outs e F E id t Hid Ht.
  destruct (C37_standard_engine_is_a_map _ _ _ _ E) as (G & _). rewrite G in Ht. unfold created in Ht.
  assert (K : match binding (option_map ILDefaultTagCreator (standard_kind id)) ops id with
              | Some c => exists k, c = ILDefaultTagCreator k \/ c = ILDefaultWithIdTagCreator k | None => True end).
  { clear -F. unfold binding.
    assert (S : match option_map ILDefaultTagCreator (standard_kind id) with
              | Some c => exists k, c = ILDefaultTagCreator k \/ c = ILDefaultWithIdTagCreator k | None => True end)
      by (destruct (standard_kind id); cbn; eauto).
    revert S. generalize (option_map ILDefaultTagCreator (standard_kind id)).
    induction F as [|o ops Ho F IH]; intros b S; cbn [fold_left]; [exact S|]. apply IH.
    destruct (op_id o =? id); [|exact S]. destruct o; [exact Ho|exact I]. }
  destruct (binding _ ops id) as [c|].
  - destruct K as (k & [-> | ->]).
    + unfold ILDefaultTagCreator, tag_default in Ht. destruct (default_id k) as [i|]; [|discriminate].
      cbn [tag_id] in Ht. destruct (i =? id) eqn:Ei; [apply N.eqb_eq in Ei; subst i|discriminate]. injection Ht as <-.
      split; [exact Hid|apply default_wfv].
    + unfold ILDefaultWithIdTagCreator, tag_default_with_id, ILRawTag_new in Ht.
      pose proof (default_wfv k) as D.
      destruct k; try discriminate Ht;
        try (destruct (is_implicit_tag id); [discriminate|]); injection Ht as <-; split; try exact Hid; exact D.
  - destruct strict; [discriminate|]. destruct (id <=? 15); [discriminate|]. injection Ht as <-.
    split; [exact Hid|constructor].
Qed.
Print Assumptions C38_engines_meet_hypotheses.
Example C38_instance :
  create_tag (create_std_engine true) 24 = Ok (Some (Tag 24 (VVersion 0 0 0 0))) /\
  create_tag (create_std_engine true) 26 = Ok None /\
  create_tag (create_std_engine false) 26 = Ok (Some (Tag 26 (VRaw []))) /\
  create_tag (create_std_engine false) 15 = Ok None.
Proof. vm_compute. auto. Qed.

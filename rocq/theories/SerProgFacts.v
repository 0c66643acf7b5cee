(** Facts about SerProg.v. *)
From Verif Require Import Base BaseFacts Types Spec SpecFacts IO IOSpec IOFacts WriterFacts ILInt ILIntFacts
  WLogic Data DataFacts Tags SortFacts TagsFacts CallFacts Open OpenFacts AnyWriter AnyWriterFacts PAnyWriter SerProg.

(** ** Runs on different writers *)
(** Calls on a writer with their results. *)
Definition trace := list (wcall * res io_error unit).
(** The same calls up to one that is answered differently. *)
Definition diverge (t1 t2 : trace) : Prop :=
  exists a c x y r1 r2, t1 = a ++ (c, x) :: r1 /\ t2 = a ++ (c, y) :: r2 /\ x <> y.
Definition fails_like {E} (y : res io_error unit) (x : res E unit) : Prop :=
  match y with
  | Ok _ => False
  | Err _ => exists e, x = Err e
  | Panic => x = Panic
  | OutOfFuel => x = OutOfFuel
  end.
(** All the calls succeeded, or the last one alone failed and that is the result. *)
Definition ends_at {E} (tr : trace) (x : res E unit) : Prop :=
  Forall done tr \/ exists tr0 c y, tr = tr0 ++ [(c, y)] /\ Forall done tr0 /\ fails_like y x.

Lemma made_app {W} (M : writer_impl W) u t1 v t2 w : made M u t1 v -> made M v t2 w -> made M u (t1 ++ t2) w.
Proof. induction 1; cbn [app]; intros; [assumption| |]; econstructor; eauto. Qed.
Lemma made_inj {W} (M : writer_impl W) u tr v : made M u tr v -> forall w, made M u tr w -> v = w.
Proof.
  induction 1 as [u|u b x u1 tr u2 H _ IH|u bs x u1 tr u2 H _ IH]; intros w Hw; inversion Hw; subst.
  - reflexivity.
  - apply IH. congruence.
  - apply IH. congruence.
Qed.
Lemma made_split {W} (M : writer_impl W) u t1 : forall t2 w, made M u (t1 ++ t2) w -> exists v, made M u t1 v /\ made M v t2 w.
Proof.
  revert u. induction t1 as [|[c x] t1 IH]; cbn [app]; intros u t2 w H; [exists u; split; [constructor|exact H]|].
  inversion H; subst.
  - match goal with H : made M _ (t1 ++ t2) w |- _ => destruct (IH _ _ _ H) as (v & H1 & H2) end.
    exists v. split; [econstructor; eauto|exact H2].
  - match goal with H : made M _ (t1 ++ t2) w |- _ => destruct (IH _ _ _ H) as (v & H1 & H2) end.
    exists v. split; [econstructor; eauto|exact H2].
Qed.
(** A writer does not give two answers. *)
Lemma made_diverge {W} (M : writer_impl W) u t1 t2 v w : made M u t1 v -> made M u t2 w -> diverge t1 t2 -> False.
Proof.
  intros H1 H2 (a & c & x & y & r1 & r2 & -> & -> & N).
  apply made_split in H1 as (v1 & A1 & B1). apply made_split in H2 as (v2 & A2 & B2).
  pose proof (made_inj _ _ _ _ A1 _ A2) as <-. apply N. inversion B1; subst; inversion B2; subst; congruence.
Qed.
Lemma diverge_app a t1 t2 : diverge t1 t2 -> diverge (a ++ t1) (a ++ t2).
Proof.
  intros (b & c & x & y & r1 & r2 & -> & -> & N). exists (a ++ b), c, x, y, r1, r2. rewrite !app_assoc. auto.
Qed.
Lemma diverge_more t1 t2 r1 r2 : diverge t1 t2 -> diverge (t1 ++ r1) (t2 ++ r2).
Proof.
  intros (b & c & x & y & s1 & s2 & -> & -> & N). exists b, c, x, y, (s1 ++ r1), (s2 ++ r2).
  rewrite <- !app_assoc. auto.
Qed.

(** Code that works on any writer. *)
Definition ser (E : Type) : Type := forall W : Type, writer_impl W -> W -> res E unit * W.
(** It makes the same calls on any two writers until they answer differently, and
    [G] holds for the calls and the result of each run. *)
Definition strat {E} (G : trace -> res E unit -> Prop) (m : ser E) : Prop :=
  forall W1 (M1 : writer_impl W1) u1 W2 (M2 : writer_impl W2) u2,
  exists t1 t2,
    made M1 u1 t1 (snd (m W1 M1 u1)) /\ made M2 u2 t2 (snd (m W2 M2 u2)) /\
    G t1 (fst (m W1 M1 u1)) /\ G t2 (fst (m W2 M2 u2)) /\
    ((t1 = t2 /\ fst (m W1 M1 u1) = fst (m W2 M2 u2)) \/ diverge t1 t2).

Lemma strat_one {E} G (m : ser E) W (M : writer_impl W) u : strat G m ->
  exists t, made M u t (snd (m W M u)) /\ G t (fst (m W M u)).
Proof. intros H. destruct (H W M u W M u) as (t & _ & H1 & _ & H2 & _). eauto. Qed.
Lemma strat_weak {E} (G G' : trace -> res E unit -> Prop) m : (forall t x, G t x -> G' t x) -> strat G m -> strat G' m.
Proof.
  intros I H W1 M1 u1 W2 M2 u2. destruct (H W1 M1 u1 W2 M2 u2) as (t1 & t2 & H1 & H2 & H3 & H4 & H5).
  exists t1, t2. auto 6.
Qed.
Lemma strat_ext {E} (G : trace -> res E unit -> Prop) (m m' : ser E) :
  (forall W M u, m W M u = m' W M u) -> strat G m -> strat G m'.
Proof. intros Ex H W1 M1 u1 W2 M2 u2. rewrite <- !Ex. apply H. Qed.
Lemma strat_ret {E} (G : trace -> res E unit -> Prop) (x : res E unit) : G [] x -> strat G (fun W M u => (x, u)).
Proof. intros H W1 M1 u1 W2 M2 u2. exists [], []. cbn [fst snd]. repeat split; try assumption; try constructor. now split. Qed.
Lemma strat_then {E E'} (G1 : trace -> res E unit -> Prop) (G2 : res E unit -> trace -> res E' unit -> Prop)
  (G3 : trace -> res E' unit -> Prop) (m : ser E) (go : res E unit -> ser E') :
  strat G1 m -> (forall x, strat (G2 x) (go x)) ->
  (forall x t1 t2 y, G1 t1 x -> G2 x t2 y -> G3 (t1 ++ t2) y) ->
  strat G3 (fun W M u => let '(x, u') := m W M u in go x W M u').
Proof.
  intros Hm Hg HG W1 M1 u1 W2 M2 u2. destruct (Hm W1 M1 u1 W2 M2 u2) as (t1 & t2 & H1 & H2 & A1 & A2 & D).
  destruct (m W1 M1 u1) as [x1 v1]. destruct (m W2 M2 u2) as [x2 v2]. cbn [fst snd] in *.
  destruct D as [[-> ->]|D].
  - destruct (Hg x2 W1 M1 v1 W2 M2 v2) as (s1 & s2 & K1 & K2 & B1 & B2 & D).
    exists (t2 ++ s1), (t2 ++ s2). split; [eapply made_app; eauto|]. split; [eapply made_app; eauto|].
    split; [eauto|]. split; [eauto|]. destruct D as [[-> ->]|D]; [left; now split|right]. now apply diverge_app.
  - destruct (strat_one _ _ W1 M1 v1 (Hg x1)) as (s1 & K1 & B1).
    destruct (strat_one _ _ W2 M2 v2 (Hg x2)) as (s2 & K2 & B2).
    exists (t1 ++ s1), (t2 ++ s2). split; [eapply made_app; eauto|]. split; [eapply made_app; eauto|].
    split; [eauto|]. split; [eauto|]. right. now apply diverge_more.
Qed.
Lemma res_dec (x y : res io_error unit) : x = y \/ x <> y.
Proof. assert (H : {x = y} + {x <> y}) by (repeat decide equality). destruct H; auto. Qed.
Lemma strat_call (G : trace -> res io_error unit -> Prop) c : (forall x, G [(c, x)] x) -> strat G (fun W M => make_call M c).
Proof.
  intros HG W1 M1 u1 W2 M2 u2. exists [(c, fst (make_call M1 c u1))], [(c, fst (make_call M2 c u2))].
  split. { destruct c; cbn [make_call]; econstructor; (apply surjective_pairing || constructor). }
  split. { destruct c; cbn [make_call]; econstructor; (apply surjective_pairing || constructor). }
  split; [apply HG|]. split; [apply HG|].
  destruct (res_dec (fst (make_call M1 c u1)) (fst (make_call M2 c u2))) as [->|N]; [left; now split|right].
  exists [], c, (fst (make_call M1 c u1)), (fst (make_call M2 c u2)), [], []. now repeat split.
Qed.

(** ** What is known of the calls of the programs *)
Inductive mode := Free | Strict | Prompt.
Definition held {E} (md : mode) (tr : trace) (x : res E unit) : Prop :=
  match md with Free => True | Strict => x = Ok tt -> Forall done tr | Prompt => ends_at tr x end.
Definition kept {I} (md : mode) (p : sprog I) : Prop :=
  match md with Free => True | Strict => sstrict p | Prompt => sprompt p end.

Section Mode.
Context (md : mode).
Lemma held_nil {E} (x : res E unit) : held md [] x.
Proof. destruct md; cbn; auto. left. constructor. Qed.
Lemma held_ok {E} tr : held (E := E) md tr (Ok tt) -> md = Free \/ Forall done tr.
Proof.
  destruct md; cbn; auto. intros [H|(tr0 & c & y & _ & _ & F)]; [now right|].
  destruct y; cbn in F; try contradiction; try discriminate. now destruct F.
Qed.
Lemma held_app {E E'} t1 t2 (y : res E' unit) : held (E := E) md t1 (Ok tt) -> held md t2 y -> held md (t1 ++ t2) y.
Proof.
  intros H1 H2. destruct (held_ok _ H1) as [->|D]; [exact I|]. clear H1. revert H2. destruct md; cbn [held]; intros H2; [exact I| |].
  - intros Hy. apply Forall_app. auto.
  - destruct H2 as [H2|(tr0 & c & z & -> & H2 & H3)]; [left; apply Forall_app; auto|].
    right. exists (t1 ++ tr0), c, z. rewrite app_assoc. split; [reflexivity|]. split; [apply Forall_app; auto|exact H3].
Qed.
(** The same failure in another type. *)
Definition alike {E E'} (x : res E unit) (y : res E' unit) : Prop :=
  match x with Ok _ => y = Ok tt | Err _ => exists e, y = Err e | Panic => y = Panic | OutOfFuel => y = OutOfFuel end.
Lemma held_alike {E E'} tr (x : res E unit) (y : res E' unit) : alike x y -> held md tr x -> held md tr y.
Proof.
  destruct md; cbn; auto.
  - intros A H ->. apply H. destruct x as [[]|e| |]; cbn in A; try discriminate; [reflexivity|]. now destruct A.
  - intros A [H|(tr0 & c & z & -> & H & F)]; [now left|]. right. exists tr0, c, z. split; [reflexivity|]. split; [exact H|].
    destruct z; cbn in *; try contradiction.
    + destruct F as [e' ->]. exact A.
    + subst x. exact A.
    + subst x. exact A.
Qed.
Lemma held_call c x : held (E := io_error) md [(c, x)] x.
Proof.
  destruct md; cbn [held]; [exact I| |].
  - intros ->. constructor; [reflexivity|constructor].
  - destruct x as [[]|e| |].
    + left. constructor; [reflexivity|constructor].
    + right. exists [], c, (Err e). split; [reflexivity|]. split; [constructor|]. now exists e.
    + right. exists [], c, Panic. repeat split; constructor.
    + right. exists [], c, OutOfFuel. repeat split; constructor.
Qed.

Notation st := (strat (held md)).
Lemma st_ret {E} : st (fun W M => ret (E := E) tt).
Proof. apply (strat_ret (held md) (Ok tt)). apply held_nil. Qed.
Lemma st_fail {E} (e : E) : st (fun W M => fail e).
Proof. apply (strat_ret (held md) (Err e)). apply held_nil. Qed.
Lemma st_bind {E} (m1 m2 : ser E) : st m1 -> st m2 -> st (fun W M => m1 W M ;;; m2 W M).
Proof.
  intros H1 H2.
  apply strat_ext with (fun W M u => let '(x, u') := m1 W M u in
    (match x with Ok _ => m2 | _ => fun W M u => (x, u) end) W M u').
  { intros W M u. unfold bind. destruct (m1 W M u) as [[[]|e| |] u1]; reflexivity. }
  apply strat_then with (go := fun x => match x with Ok _ => m2 | _ => fun W M u => (x, u) end) (G1 := held md)
    (G2 := fun x t y => match x with Ok _ => held md t y | _ => t = [] /\ y = x end); [exact H1| |].
  - intros [a|e| |]; [exact H2| | |]; apply strat_ret; now split.
  - intros [[]|e| |] t1 t2 y A B; [eapply held_app; eauto| | |]; destruct B as [-> ->]; now rewrite app_nil_r.
Qed.
Lemma st_lift {E E'} (f : E -> E') (m : ser E) : st m -> st (fun W M => lift_err f (m W M)).
Proof.
  intros H. apply strat_then with (go := fun x W M u => (map_err f x, u)) (G1 := held md)
    (G2 := fun x t y => t = [] /\ y = map_err f x); [exact H| |].
  - intros x. apply strat_ret. now split.
  - intros x t1 t2 y A [-> ->]. rewrite app_nil_r. eapply held_alike; [|exact A].
    destruct x as [[]|e| |]; cbn; eauto.
Qed.
Lemma st_write b : st (fun W M => u_write M b).
Proof. exact (strat_call (held md) (CWrite b) (held_call _)). Qed.
Lemma st_write_all bs : st (fun W M => u_write_all M bs).
Proof. exact (strat_call (held md) (CWriteAll bs) (held_call _)). Qed.
Lemma st_for_each {E X} (l : list X) (f : forall W, writer_impl W -> X -> W -> res E unit * W) :
  (forall x, In x l -> st (fun W M => f W M x)) -> st (fun W M => for_each l (f W M)).
Proof.
  unfold for_each. induction l as [|x l IH]; intros H; cbn [fold_right]; [apply st_ret|].
  apply (st_bind (fun W M => f W M x) (fun W M => fold_right (fun x k => f W M x ;;; k) (ret tt) l)).
  - apply H. now left.
  - apply IH. intros y Hy. apply H. now right.
Qed.
Lemma st_io (m : ser io_error) : st m -> st (fun W M => lift_err TagIO (m W M)).
Proof. apply st_lift. Qed.
Lemma st_encode v : st (fun W M => a_encode M v).
Proof.
  unfold a_encode. destruct (encoded_size v =? 1).
  - apply (st_lift ILIntIO (fun W M => u_write M _)), st_write.
  - apply (st_lift ILIntIO (fun W M => u_write_all M _)), st_write_all.
Qed.
Lemma st_ilint v : st (fun W M => a_serialize_ilint M v).
Proof. apply (st_io (fun W M => a_write_ilint M v)). apply (st_lift ilint_write_error (fun W M => a_encode M v)), st_encode. Qed.
Lemma st_silint v : st (fun W M => a_serialize_signed_ilint M v).
Proof.
  apply (st_io (fun W M => a_write_signed_ilint M v)). apply (st_lift ilint_write_error (fun W M => a_encode M (encode_sign v))), st_encode.
Qed.
Lemma st_uint w v : st (fun W M => a_serialize_uint M w v).
Proof. apply (st_io (fun W M => a_write_uint M w v)). destruct w; cbn [a_write_uint]; auto using st_write, st_write_all. Qed.
Lemma st_sint w v : st (fun W M => a_serialize_sint M w v).
Proof. apply (st_io (fun W M => a_write_sint M w v)). destruct w; cbn [a_write_sint]; auto using st_write, st_write_all. Qed.
Lemma st_bytes bs : st (fun W M => a_serialize_bytes M bs).
Proof. apply (st_io (fun W M => u_write_all M bs)), st_write_all. Qed.
Lemma st_string s : st (fun W M => a_serialize_string_tag M s).
Proof.
  apply (st_bind (fun W M => a_serialize_ilint M _) (fun W M => a_serialize_ilint M _ ;;; a_serialize_bytes M s)); [apply st_ilint|].
  apply (st_bind (fun W M => a_serialize_ilint M _) (fun W M => a_serialize_bytes M s)); [apply st_ilint|apply st_bytes].
Qed.
Lemma st_dict {A} (l : list (list N * A)) (f : forall W, writer_impl W -> A -> W -> res tag_error unit * W) :
  (forall x, In x (map snd l) -> st (fun W M => f W M x)) ->
  st (fun W M => for_each (sort_unstable (map fst l)) (fun key =>
        match hm_get key (map (fun e => (fst e, f W M (snd e))) l) with
        | Some value => a_serialize_string_tag M key ;;; value
        | None => fail UnableToSerialize
        end)).
Proof.
  intros H. apply st_for_each. intros key _.
  apply strat_ext with (fun W M => match hm_get key l with
     | Some x => a_serialize_string_tag M key ;;; f W M x | None => fail UnableToSerialize end).
  { intros W M u. rewrite hm_get_map. destruct (hm_get key l); reflexivity. }
  destruct (hm_get key l) as [x|] eqn:Ek; [|apply st_fail].
  apply (st_bind (fun W M => a_serialize_string_tag M key) (fun W M => f W M x)); [apply st_string|].
  apply H. apply hm_get_some in Ek. exact (in_map snd _ _ Ek).
Qed.
Lemma st_header id vs (sv : ser tag_error) : st sv -> st (fun W M => s_with M id vs (sv W M)).
Proof.
  intros H. unfold s_with.
  apply (st_bind (fun W M => a_serialize_ilint M id)
           (fun W M => (if is_implicit_tag id then ret tt else a_serialize_ilint M vs) ;;; sv W M)); [apply st_ilint|].
  apply (st_bind (fun W M => if is_implicit_tag id then ret tt else a_serialize_ilint M vs) sv); [|exact H].
  destruct (is_implicit_tag id); [apply st_ret|apply st_ilint].
Qed.
Lemma st_both : (forall t, st (fun W M => a_serialize M t)) /\ (forall v, st (fun W M => a_serialize_value M v)).
Proof.
  apply value_induction.
  - intros v IH. rewrite Forall_forall in IH.
    destruct v; cbn [a_serialize_value children] in *; try apply st_ret; try apply st_uint; try apply st_sint; try apply st_bytes;
      try apply st_ilint; try apply st_silint.
    + apply (st_bind (fun W M => a_serialize_sint M W32 scale) (fun W M => a_serialize_bytes M bs)); [apply st_sint|apply st_bytes].
    + apply (st_bind (fun W M => a_serialize_ilint M (lenN l)) (fun W M => for_each l (a_serialize_ilint M))); [apply st_ilint|].
      apply (st_for_each l (fun W M => a_serialize_ilint M)). intros; apply st_ilint.
    + now apply (st_for_each l (fun W M => a_serialize M)).
    + apply (st_bind (fun W M => a_serialize_ilint M (lenN l)) (fun W M => for_each l (a_serialize M))); [apply st_ilint|].
      now apply (st_for_each l (fun W M => a_serialize M)).
    + apply (st_bind (fun W M => a_serialize_ilint M start) (fun W M => a_serialize_uint M W16 count)); [apply st_ilint|apply st_uint].
    + apply (st_for_each [_; _; _; _] (fun W M => a_serialize_sint M W32)). intros; apply st_sint.
    + apply (st_bind (fun W M => a_serialize_ilint M (lenN l)) (fun W M => for_each l (a_serialize_ilint M))); [apply st_ilint|].
      apply (st_for_each l (fun W M => a_serialize_ilint M)). intros; apply st_ilint.
    + cbv zeta.
      apply (st_bind (fun W M => a_serialize_ilint M (lenN l)) (fun W M => for_each (sort_unstable (map fst l)) (fun key =>
        match hm_get key (map (fun e => (fst e, a_serialize M (snd e))) l) with
        | Some value => a_serialize_string_tag M key ;;; value
        | None => fail UnableToSerialize
        end))); [apply st_ilint|].
      apply (st_dict l (fun W M => a_serialize M)). exact IH.
    + cbv zeta.
      apply (st_bind (fun W M => a_serialize_ilint M (lenN l)) (fun W M => for_each (sort_unstable (map fst l)) (fun key =>
        match hm_get key l with
        | Some value => a_serialize_string_tag M key ;;; a_serialize_string_tag M value
        | None => fail UnableToSerialize
        end))); [apply st_ilint|].
      apply st_for_each. intros key _. destruct (hm_get key l) as [x|]; [|apply st_fail].
      apply (st_bind (fun W M => a_serialize_string_tag M key) (fun W M => a_serialize_string_tag M x)); apply st_string.
  - intros id v H. exact (st_header id (value_size v) _ H).
Qed.

(** *** Programs *)
Section Programs.
Context {I : Type} (own : forall W, writer_impl W -> I -> W -> res tag_error unit * W)
  (other : I -> writer -> res tag_error unit * writer).
Hypothesis Hown : forall t, st (fun W M => own W M t).
Lemma strat_after {E} (G2 : res E unit -> trace -> res tag_error unit -> Prop) (m : ser E) (go : res E unit -> ser tag_error) :
  st m -> (forall x, returns x -> strat (G2 x) (go x)) ->
  (forall x t1 t2 y, returns x -> held md t1 x -> G2 x t2 y -> held md (t1 ++ t2) y) ->
  st (fun W M u => let '(x, u') := m W M u in s_after x (fun x => go x W M) u').
Proof.
  intros Hm Hg HG.
  apply strat_then with (go := fun x W M => s_after x (fun x => go x W M)) (G1 := held md)
    (G2 := fun x t y => match x with Panic => t = [] /\ y = Panic | OutOfFuel => t = [] /\ y = OutOfFuel | _ => G2 x t y end).
  - exact Hm.
  - intros [a|e| |]; cbn [s_after].
    + exact (Hg (Ok a) Logic.I).
    + exact (Hg (Err e) Logic.I).
    + now apply (strat_ret _ Panic).
    + now apply (strat_ret _ OutOfFuel).
  - intros [a|e| |] t1 t2 y A B.
    + exact (HG (Ok a) t1 t2 y Logic.I A B).
    + exact (HG (Err e) t1 t2 y Logic.I A B).
    + destruct B as [-> ->]. rewrite app_nil_r. now apply (held_alike t1 (@Panic E unit)).
    + destruct B as [-> ->]. rewrite app_nil_r. now apply (held_alike t1 (@OutOfFuel E unit)).
Qed.
Lemma strat_after_fails {E} (m : ser E) (go : res E unit -> ser tag_error) :
  st m -> (forall x, strat (fun _ y => y <> Ok tt) (go x)) ->
  strat (fun _ y => y <> Ok tt) (fun W M u => let '(x, u') := m W M u in s_after x (fun x => go x W M) u').
Proof.
  intros Hm Hg.
  apply strat_then with (go := fun x W M => s_after x (fun x => go x W M)) (G1 := held md) (G2 := fun _ _ y => y <> Ok tt).
  - exact Hm.
  - intros [a|e| |]; cbn [s_after].
    + apply Hg.
    + apply Hg.
    + now apply (strat_ret _ Panic).
    + now apply (strat_ret _ OutOfFuel).
  - auto.
Qed.
Lemma sexec_fails p : sfails p -> strat (fun _ y => y <> Ok tt) (fun W M => sexec M (own W M) other p).
Proof.
  induction p as [e| |b k IH|bs k IH|t k IH|w t k IH]; cbn [sfails sexec]; intros H.
  - destruct e as [e|]; [|congruence]. now apply (strat_ret _ (Err e)).
  - now apply (strat_ret _ Panic).
  - apply (strat_after_fails (fun W M => u_write M b) (fun x W M => sexec M (own W M) other (k x))); [apply st_write|auto].
  - apply (strat_after_fails (fun W M => u_write_all M bs) (fun x W M => sexec M (own W M) other (k x))); [apply st_write_all|auto].
  - apply (strat_after_fails (fun W M => own W M t) (fun x W M => sexec M (own W M) other (k x))); [apply Hown|auto].
  - destruct (other t w) as [x w']. destruct x as [[]|e| |]; cbn [s_after]; auto.
    + now apply (strat_ret _ Panic).
    + now apply (strat_ret _ OutOfFuel).
Qed.
(** What a program does after an answer on its own writer. *)
Definition next {E} (x : res E unit) (t : trace) (y : res tag_error unit) : Prop :=
  match x, md with
  | Ok _, _ | _, Free => held md t y
  | _, Strict => y <> Ok tt
  | _, Prompt => t = [] /\ exists e, y = Err e
  end.
Lemma next_held {E} (x : res E unit) t1 t2 y : returns x -> held md t1 x -> next x t2 y -> held md (t1 ++ t2) y.
Proof.
  intros R A B. destruct x as [[]|e| |]; try contradiction.
  - eapply held_app; eauto.
  - revert A B. unfold next. destruct md; [exact (fun _ _ => Logic.I)| |].
    + intros _ N Hy. contradiction.
    + intros A [-> [e' ->]]. rewrite app_nil_r. cbn [held] in *.
      destruct A as [A|(tr0 & c & z & -> & A & F)]; [now left|]. right. exists tr0, c, z. split; [reflexivity|]. split; [exact A|].
      destruct z; cbn in *; try contradiction; try discriminate. eauto.
Qed.
Lemma next_strat {E} (k : res E unit -> sprog I) x : returns x ->
  (forall x, kept md (k x) -> st (fun W M => sexec M (own W M) other (k x))) ->
  match md with
  | Free => True
  | Strict => sstrict (k (Ok tt)) /\ forall e, sfails (k (Err e))
  | Prompt => sprompt (k (Ok tt)) /\ forall i, exists e, k (Err i) = SDone (Some e)
  end -> strat (next x) (fun W M => sexec M (own W M) other (k x)).
Proof.
  intros R IH H. destruct x as [[]|e| |]; try contradiction.
  - apply IH. destruct md; cbn; tauto.
  - pose proof (sexec_fails (k (Err e))) as K2. revert H. pose proof (IH (Err e)) as K. revert K. unfold next. unfold kept. destruct md.
    + intros K _. now apply K.
    + intros _ [_ F]. apply K2, F.
    + intros _ [_ F]. destruct (F e) as [e' ->]. cbn [sexec]. apply (strat_ret _ (Err e')). eauto.
Qed.
Lemma sexec_strat p : kept md p -> st (fun W M => sexec M (own W M) other p).
Proof.
  induction p as [e| |b k IH|bs k IH|t k IH|w t k IH]; cbn [sexec]; intros H.
  - destruct e as [e|].
    + apply (strat_ret _ (Err e)), held_nil.
    + apply (strat_ret _ (Ok tt)), held_nil.
  - apply (strat_ret _ Panic), held_nil.
  - apply (strat_after next (fun W M => u_write M b) (fun x W M => sexec M (own W M) other (k x))).
    + apply st_write.
    + intros x R. apply next_strat; [exact R|exact IH|]. destruct md; cbn in H; tauto.
    + intros x t1 t2 y. apply next_held.
  - apply (strat_after next (fun W M => u_write_all M bs) (fun x W M => sexec M (own W M) other (k x))).
    + apply st_write_all.
    + intros x R. apply next_strat; [exact R|exact IH|]. destruct md; cbn in H; tauto.
    + intros x t1 t2 y. apply next_held.
  - apply (strat_after next (fun W M => own W M t) (fun x W M => sexec M (own W M) other (k x))).
    + apply Hown.
    + intros x R. apply next_strat; [exact R|exact IH|]. destruct md; cbn in H; tauto.
    + intros x t1 t2 y. apply next_held.
  - destruct (other t w) as [x w']. destruct x as [[]|e| |]; cbn [s_after].
    + apply IH. destruct md; cbn in *; auto.
    + apply IH. destruct md; cbn in *; auto.
    + apply (strat_ret _ Panic), held_nil.
    + apply (strat_ret _ OutOfFuel), held_nil.
Qed.
End Programs.

Section Objects.
Context {T : Type} (U : user_impl T).
Lemma s_object_strat (user : forall W, writer_impl W -> T -> W -> res tag_error unit * W) t :
  (forall x, st (fun W M => user W M x)) -> st (fun W M => s_object M U (user W M) t).
Proof.
  intros Hu. induction t as [id v|x|id l IH|id l IH|id l IH] using otag_induction; cbn [s_object].
  - apply st_header. apply (proj2 st_both).
  - apply Hu.
  - apply (st_header id _ (fun W M => for_each l (s_object M U (user W M)))).
    apply (st_for_each l (fun W M => s_object M U (user W M))). rewrite Forall_forall in IH. exact IH.
  - apply (st_header id _ (fun W M => a_serialize_ilint M (lenN l) ;;; for_each l (s_object M U (user W M)))).
    apply (st_bind (fun W M => a_serialize_ilint M (lenN l)) (fun W M => for_each l (s_object M U (user W M)))); [apply st_ilint|].
    apply (st_for_each l (fun W M => s_object M U (user W M))). rewrite Forall_forall in IH. exact IH.
  - cbv zeta.
    apply (st_header id _ (fun W M => a_serialize_ilint M (lenN l) ;;; for_each (sort_unstable (map fst l)) (fun key =>
        match hm_get key (map (fun e => (fst e, s_object M U (user W M) (snd e))) l) with
        | Some value => a_serialize_string_tag M key ;;; value
        | None => fail UnableToSerialize
        end))).
    apply (st_bind (fun W M => a_serialize_ilint M (lenN l)) (fun W M => for_each (sort_unstable (map fst l)) (fun key =>
        match hm_get key (map (fun e => (fst e, s_object M U (user W M) (snd e))) l) with
        | Some value => a_serialize_string_tag M key ;;; value
        | None => fail UnableToSerialize
        end))); [apply st_ilint|].
    apply (st_dict l (fun W M => s_object M U (user W M))). intros x Hx. apply in_map_iff in Hx as (e & <- & He).
    rewrite Forall_forall in IH. exact (IH e He).
Qed.
Theorem s_serialize_strat (P : sscript T) f : (forall x, kept md (P x)) -> forall t, st (fun W M => s_serialize U P f W M t).
Proof.
  intros HP. induction f as [|f IH]; intros t; cbn [s_serialize].
  - apply (strat_ret _ OutOfFuel), held_nil.
  - apply (s_object_strat (fun W M x => sexec M (s_serialize U P f W M) (s_serialize U P f writer library_writer) (P x)) t).
    intros x. apply (sexec_strat (fun W M => s_serialize U P f W M) _ IH). apply HP.
Qed.
End Objects.
End Mode.

(** ** The bound on the depth *)
(** [m2] is [m1] with a larger bound. *)
Definition wle {W E} (m1 m2 : W -> res E unit * W) : Prop := forall u, fst (m1 u) <> OutOfFuel -> m2 u = m1 u.
Lemma wle_refl {W E} (m : W -> res E unit * W) : wle m m.
Proof. intros u _. reflexivity. Qed.
Lemma wle_bind {W E} (m1 m2 n1 n2 : W -> res E unit * W) : wle m1 m2 -> wle n1 n2 -> wle (m1 ;;; n1) (m2 ;;; n2).
Proof.
  intros H1 H2 u. unfold bind. specialize (H1 u). destruct (m1 u) as [[[]|e| |] u1]; cbn [fst] in *; intros N.
  - rewrite H1 by discriminate. now apply H2.
  - now rewrite H1 by discriminate.
  - now rewrite H1 by discriminate.
  - congruence.
Qed.
Lemma wle_for_each {W E X} (l : list X) (f g : X -> W -> res E unit * W) :
  (forall x, In x l -> wle (f x) (g x)) -> wle (for_each l f) (for_each l g).
Proof.
  unfold for_each. induction l as [|x l IH]; intros H; cbn [fold_right]; [apply wle_refl|].
  apply wle_bind; [apply H; now left|]. apply IH. intros y Hy. apply H. now right.
Qed.
Lemma s_with_le {W} (M : writer_impl W) id vs sv1 sv2 : wle sv1 sv2 -> wle (s_with M id vs sv1) (s_with M id vs sv2).
Proof. intros H. unfold s_with. apply wle_bind; [apply wle_refl|]. apply wle_bind; [apply wle_refl|exact H]. Qed.
Lemma s_object_le {T W} (M : writer_impl W) (U : user_impl T) us1 us2 t :
  (forall x, wle (us1 x) (us2 x)) -> wle (s_object M U us1 t) (s_object M U us2 t).
Proof.
  intros Hu. induction t as [id v|x|id l IH|id l IH|id l IH] using otag_induction; cbn [s_object].
  - apply wle_refl.
  - apply Hu.
  - apply s_with_le, wle_for_each. now apply Forall_forall.
  - apply s_with_le, wle_bind; [apply wle_refl|]. apply wle_for_each. now apply Forall_forall.
  - cbv zeta. apply s_with_le, wle_bind; [apply wle_refl|]. apply wle_for_each. intros key _. rewrite !hm_get_map.
    destruct (hm_get key l) as [x|] eqn:Ek; cbn [option_map]; [|apply wle_refl].
    apply wle_bind; [apply wle_refl|]. apply hm_get_some in Ek. rewrite Forall_forall in IH. exact (IH _ Ek).
Qed.
Lemma sexec_le {I W} (M : writer_impl W) (own1 own2 : I -> W -> res tag_error unit * W) other1 other2 p :
  (forall t, wle (own1 t) (own2 t)) -> (forall t, wle (other1 t) (other2 t)) ->
  wle (sexec M own1 other1 p) (sexec M own2 other2 p).
Proof.
  intros Ho Hr. induction p as [e| |b k IH|bs k IH|t k IH|w t k IH]; cbn [sexec]; try apply wle_refl; intros u.
  - destruct (u_write M b u) as [[[]|e| |] u1]; cbn [s_after]; try reflexivity; apply IH.
  - destruct (u_write_all M bs u) as [[[]|e| |] u1]; cbn [s_after]; try reflexivity; apply IH.
  - specialize (Ho t u). destruct (own1 t u) as [[[]|e| |] u1]; cbn [s_after fst] in *; intros N.
    + rewrite Ho by discriminate. now apply IH.
    + rewrite Ho by discriminate. now apply IH.
    + now rewrite Ho by discriminate.
    + congruence.
  - specialize (Hr t w). destruct (other1 t w) as [[[]|e| |] w1]; cbn [s_after fst] in *; intros N.
    + rewrite Hr by discriminate. now apply IH.
    + rewrite Hr by discriminate. now apply IH.
    + now rewrite Hr by discriminate.
    + congruence.
Qed.
Lemma s_serialize_step {T} (U : user_impl T) P f : forall W (M : writer_impl W) t,
  wle (s_serialize U P f W M t) (s_serialize U P (S f) W M t).
Proof.
  induction f as [|f IH]; intros W M t; [intros u H; now elim H|].
  change (s_serialize U P (S (S f)) W M t) with
    (s_object M U (fun x => sexec M (s_serialize U P (S f) W M) (s_serialize U P (S f) writer library_writer) (P x)) t).
  change (s_serialize U P (S f) W M t) with
    (s_object M U (fun x => sexec M (s_serialize U P f W M) (s_serialize U P f writer library_writer) (P x)) t).
  apply s_object_le. intros x. apply sexec_le; intros; apply IH.
Qed.
Lemma s_serialize_le {T} (U : user_impl T) P f g W (M : writer_impl W) t : (f <= g)%nat ->
  wle (s_serialize U P f W M t) (s_serialize U P g W M t).
Proof.
  induction 1 as [|g H IH]; [apply wle_refl|]. intros u N. specialize (IH u N).
  rewrite <- IH. apply s_serialize_step. now rewrite IH.
Qed.

(** ** Safety *)
(** The methods return and keep [inv]. *)
Definition writer_ok {W} (M : writer_impl W) (inv : W -> Prop) : Prop :=
  (forall b u, inv u -> returns (fst (u_write M b u)) /\ inv (snd (u_write M b u))) /\
  (forall bs u, inv u -> returns (fst (u_write_all M bs u)) /\ inv (snd (u_write_all M bs u))).
Lemma library_writer_ok : writer_ok library_writer wwf.
Proof.
  assert (K : forall bs w, wwf w -> returns (fst (write_all bs w)) /\ wwf (snd (write_all bs w))).
  { intros bs w H. destruct (write_all bs w) as [x w'] eqn:E. destruct (write_all_spec _ _ _ _ H E) as (R & p & _ & Q & _).
    split; [exact R|]. eapply puts_wwf; eauto. }
  split; [|exact K]. intros b w H. cbn [library_writer u_write]. rewrite write_is_write_all by exact H. now apply K.
Qed.
(** It does not panic, [oof] if the bound was too small, and keeps [inv]. *)
Definition wsafe {W E} (oof : Prop) (inv : W -> Prop) (m : W -> res E unit * W) : Prop :=
  forall u, inv u -> (match fst (m u) with Panic => False | OutOfFuel => oof | _ => True end) /\ inv (snd (m u)).
Section Safe.
Context (oof : Prop) {W : Type} (M : writer_impl W) (inv : W -> Prop).
Hypothesis HM : writer_ok M inv.
Notation safe := (wsafe oof inv).
Lemma safe_ret {E} : safe (ret (E := E) tt).
Proof. intros u H. now split. Qed.
Lemma safe_fail {E} (e : E) : safe (fail e).
Proof. intros u H. now split. Qed.
Lemma safe_bind {E} (m1 m2 : W -> res E unit * W) : safe m1 -> safe m2 -> safe (m1 ;;; m2).
Proof.
  intros H1 H2 u Hu. unfold bind. specialize (H1 u Hu). destruct (m1 u) as [[[]|e| |] u1]; cbn [fst snd] in *; try tauto.
  apply H2. tauto.
Qed.
Lemma safe_lift {E E'} (f : E -> E') (m : W -> res E unit * W) : safe m -> safe (lift_err f m).
Proof. intros H u Hu. unfold lift_err. specialize (H u Hu). destruct (m u) as [[[]|e| |] u1]; exact H. Qed.
Lemma safe_write b : safe (u_write M b).
Proof. intros u Hu. destruct (proj1 HM b u Hu) as [R H]. split; [|exact H]. destruct (fst (u_write M b u)); auto; contradiction. Qed.
Lemma safe_write_all bs : safe (u_write_all M bs).
Proof. intros u Hu. destruct (proj2 HM bs u Hu) as [R H]. split; [|exact H]. destruct (fst (u_write_all M bs u)); auto; contradiction. Qed.
Lemma safe_for_each {E X} (l : list X) (f : X -> W -> res E unit * W) : (forall x, In x l -> safe (f x)) -> safe (for_each l f).
Proof.
  unfold for_each. induction l as [|x l IH]; intros H; cbn [fold_right]; [apply safe_ret|].
  apply safe_bind; [apply H; now left|]. apply IH. intros y Hy. apply H. now right.
Qed.
Lemma safe_encode v : safe (a_encode M v).
Proof. unfold a_encode. destruct (_ =? 1); apply safe_lift; [apply safe_write|apply safe_write_all]. Qed.
Lemma safe_ilint v : safe (a_serialize_ilint M v).
Proof. apply safe_lift, safe_lift, safe_encode. Qed.
Lemma safe_silint v : safe (a_serialize_signed_ilint M v).
Proof. apply safe_lift, safe_lift, safe_encode. Qed.
Lemma safe_uint w v : safe (a_serialize_uint M w v).
Proof. apply safe_lift. destruct w; cbn [a_write_uint]; auto using safe_write, safe_write_all. Qed.
Lemma safe_sint w v : safe (a_serialize_sint M w v).
Proof. apply safe_lift. destruct w; cbn [a_write_sint]; auto using safe_write, safe_write_all. Qed.
Lemma safe_bytes bs : safe (a_serialize_bytes M bs).
Proof. apply safe_lift, safe_write_all. Qed.
Lemma safe_string s : safe (a_serialize_string_tag M s).
Proof. apply safe_bind; [apply safe_ilint|]. apply safe_bind; [apply safe_ilint|apply safe_bytes]. Qed.
Lemma safe_dict {A} (l : list (list N * A)) (f : A -> W -> res tag_error unit * W) :
  (forall x, In x (map snd l) -> safe (f x)) ->
  safe (for_each (sort_unstable (map fst l)) (fun key =>
        match hm_get key (map (fun e => (fst e, f (snd e))) l) with
        | Some value => a_serialize_string_tag M key ;;; value
        | None => fail UnableToSerialize
        end)).
Proof.
  intros H. apply safe_for_each. intros key _. rewrite hm_get_map.
  destruct (hm_get key l) as [x|] eqn:Ek; cbn [option_map]; [|apply safe_fail].
  apply safe_bind; [apply safe_string|]. apply H. apply hm_get_some in Ek. exact (in_map snd _ _ Ek).
Qed.
Lemma safe_with id vs sv : safe sv -> safe (s_with M id vs sv).
Proof.
  intros H. apply safe_bind; [apply safe_ilint|]. apply safe_bind; [|exact H].
  destruct (is_implicit_tag id); [apply safe_ret|apply safe_ilint].
Qed.
Lemma safe_both : (forall t, safe (a_serialize M t)) /\ (forall v, safe (a_serialize_value M v)).
Proof.
  apply value_induction.
  - intros v IH. rewrite Forall_forall in IH.
    destruct v; cbn [a_serialize_value children] in *; try apply safe_ret; try apply safe_uint; try apply safe_sint;
      try apply safe_bytes; try apply safe_ilint; try apply safe_silint.
    + apply safe_bind; [apply safe_sint|apply safe_bytes].
    + apply safe_bind; [apply safe_ilint|]. apply safe_for_each. intros; apply safe_ilint.
    + now apply safe_for_each.
    + apply safe_bind; [apply safe_ilint|]. now apply safe_for_each.
    + apply safe_bind; [apply safe_ilint|apply safe_uint].
    + apply safe_for_each. intros; apply safe_sint.
    + apply safe_bind; [apply safe_ilint|]. apply safe_for_each. intros; apply safe_ilint.
    + apply safe_bind; [apply safe_ilint|]. now apply safe_dict.
    + apply safe_bind; [apply safe_ilint|]. apply safe_for_each. intros key _.
      destruct (hm_get key l); [|apply safe_fail]. apply safe_bind; apply safe_string.
  - intros id v H. exact (safe_with id (value_size v) _ H).
Qed.
Lemma safe_object {T} (U : user_impl T) (G : T -> Prop) user t : (forall x, G x -> safe (user x)) -> users G t ->
  safe (s_object M U user t).
Proof.
  intros Hu. induction t as [id v|x|id l IH|id l IH|id l IH] using otag_induction; cbn [s_object users]; intros A.
  - apply safe_with, (proj2 safe_both).
  - now apply Hu.
  - apply safe_with, safe_for_each. apply all_Forall in A. rewrite Forall_forall in *. auto.
  - apply safe_with, safe_bind; [apply safe_ilint|]. apply safe_for_each. apply all_Forall in A. rewrite Forall_forall in *. auto.
  - cbv zeta. apply safe_with, safe_bind; [apply safe_ilint|]. apply safe_dict. intros x Hx. apply in_map_iff in Hx as (e & <- & He).
    apply all_Forall in A. rewrite Forall_forall in *. exact (IH e He (A e He)).
Qed.
Lemma safe_after {E} (x : res E unit) go u (K : forall x, returns x -> safe (go x)) :
  match x with Panic => False | OutOfFuel => oof | _ => True end -> inv u ->
  (match fst (s_after x go u) with Panic => False | OutOfFuel => oof | _ => True end) /\ inv (snd (s_after x go u)).
Proof.
  intros H Hu. destruct x as [[]|e| |]; cbn [s_after]; try contradiction.
  - now apply (K (Ok tt)).
  - now apply (K (Err e)).
  - now split.
Qed.
Lemma safe_exec {I} (G : I -> Prop) own other p : (forall t, G t -> safe (own t)) -> (forall t, G t -> wsafe oof wwf (other t)) ->
  scalm wwf p -> sserializes G p -> safe (sexec M own other p).
Proof.
  intros Ho Hr. induction p as [e| |b k IH|bs k IH|t k IH|w t k IH]; cbn [sexec scalm sserializes]; intros C A u Hu.
  - destruct e; now split.
  - contradiction.
  - pose proof (safe_write b u Hu) as K. destruct (u_write M b u) as [x u1]. cbn [fst snd] in K.
    apply (safe_after x (fun x => sexec M own other (k x)) u1); [|apply K..]. intros y R. apply IH; auto.
  - pose proof (safe_write_all bs u Hu) as K. destruct (u_write_all M bs u) as [x u1]. cbn [fst snd] in K.
    apply (safe_after x (fun x => sexec M own other (k x)) u1); [|apply K..]. intros y R. apply IH; auto.
  - destruct A as [A1 A2]. pose proof (Ho t A1 u Hu) as K. destruct (own t u) as [x u1]. cbn [fst snd] in K.
    apply (safe_after x (fun x => sexec M own other (k x)) u1); [|apply K..]. intros y R. apply IH; auto.
  - destruct A as [A1 A2], C as [C1 C2]. pose proof (Hr t A1 w C1) as K. destruct (other t w) as [x w1]. cbn [fst snd] in K.
    apply (safe_after x (fun x => sexec M own other (k x w1)) u); [|apply K|exact Hu]. intros y R. apply IH; [|auto]. apply C2; tauto.
Qed.
End Safe.

Lemma sserializes_any {I} (G : I -> Prop) p : (forall t, G t) -> sserializes G p.
Proof. intros H. induction p; cbn [sserializes]; auto. Qed.
Lemma users_any {T} (G : T -> Prop) t : (forall x, G x) -> users G t.
Proof.
  intros H. induction t as [id v|x|id l IH|id l IH|id l IH] using otag_induction; cbn [users]; auto.
  all: now apply all_Forall.
Qed.
Lemma users_weak {T} (G G' : T -> Prop) t : (forall x, G x -> G' x) -> users G t -> users G' t.
Proof.
  intros H. induction t as [id v|x|id l IH|id l IH|id l IH] using otag_induction; cbn [users]; auto.
  all: intros A; apply all_Forall; apply all_Forall in A; rewrite Forall_forall in *; auto.
Qed.
Lemma sserializes_weak {I} (G G' : I -> Prop) p : (forall t, G t -> G' t) -> sserializes G p -> sserializes G' p.
Proof. intros H. induction p; cbn [sserializes]; intuition auto. Qed.
Lemma s_serialize_no_panic {T} (U : user_impl T) P f : (forall x, scalm wwf (P x)) ->
  forall W (M : writer_impl W) inv t, writer_ok M inv -> wsafe True inv (s_serialize U P f W M t).
Proof.
  intros C. induction f as [|f IH]; intros W M inv t HM; [intros u Hu; now split|]. cbn [s_serialize].
  apply (safe_object True M inv HM U (fun _ => True)); [|now apply users_any].
  intros x _. apply (safe_exec True M inv HM (fun _ => True)); auto.
  - intros y _. apply IH, library_writer_ok.
  - now apply sserializes_any.
Qed.
Lemma s_serialize_ends {T} (U : user_impl T) P (rank : T -> nat) : (forall x, scalm wwf (P x)) ->
  (forall x, sserializes (users (fun y => rank y < rank x)%nat) (P x)) ->
  forall n W (M : writer_impl W) inv t, writer_ok M inv -> users (fun x => rank x < n)%nat t ->
  wsafe False inv (s_serialize U P (S n) W M t).
Proof.
  intros C R. induction n as [|n IH]; intros W M inv t HM A.
  - change (wsafe False inv (s_object M U (fun x => sexec M (s_serialize U P 0 W M) (s_serialize U P 0 writer library_writer) (P x)) t)).
    eapply (safe_object False M inv HM U); [|exact A]. cbn beta. intros x Hx. lia.
  - change (wsafe False inv (s_object M U (fun x => sexec M (s_serialize U P (S n) W M) (s_serialize U P (S n) writer library_writer) (P x)) t)).
    eapply (safe_object False M inv HM U); [|exact A]. cbn beta. intros x Hx.
    apply (safe_exec False M inv HM (users (fun y => rank y < n)%nat)).
    + intros y Hy. now apply IH.
    + intros y Hy. apply IH; [apply library_writer_ok|exact Hy].
    + apply C.
    + apply (sserializes_weak (users (fun y => rank y < rank x)%nat)); [|apply R]. intros y. apply users_weak. intros z. lia.
Qed.

(** ** A writer that takes everything *)
Definition recorder : writer_impl (list wcall) :=
  WriterImpl _ (fun b u => (Ok tt, u ++ [CWrite b])) (fun bs u => (Ok tt, u ++ [CWriteAll bs])).
Lemma made_recorder u tr v : made recorder u tr v -> v = u ++ map fst tr /\ Forall done tr.
Proof.
  induction 1 as [u|u b x u1 tr u2 H _ [IH1 IH2]|u bs x u1 tr u2 H _ [IH1 IH2]]; cbn [map fst].
  - split; [now rewrite app_nil_r|constructor].
  - cbn in H. apply pair_inv in H as [<- <-]. split; [now rewrite IH1, <- app_assoc|]. now constructor.
  - cbn in H. apply pair_inv in H as [<- <-]. split; [now rewrite IH1, <- app_assoc|]. now constructor.
Qed.
Lemma done_diverge t1 t2 : diverge t1 t2 -> Forall done t1 -> Forall done t2 -> False.
Proof.
  intros (a & c & x & y & r1 & r2 & -> & -> & N) H1 H2. apply Forall_app in H1 as [_ H1], H2 as [_ H2].
  inversion H1 as [|? ? D1]; inversion H2 as [|? ? D2]. subst. unfold done in *. cbn [snd] in *. congruence.
Qed.

Section Recorded.
Context {T : Type} (U : user_impl T) (P : sscript T).
Lemma recorded_more f t y cs : s_serialize U P f _ recorder t [] = (y, cs) ->
  forall u, s_serialize U P f _ recorder t u = (y, u ++ cs).
Proof.
  intros E u. destruct (s_serialize_strat Free U P f (fun _ => I) t _ recorder u _ recorder []) as (t1 & t2 & H1 & H2 & _ & _ & D).
  rewrite E in *. destruct (s_serialize U P f _ recorder t u) as [x v] eqn:E1. cbn [fst snd] in *.
  apply made_recorder in H1 as [-> D1], H2 as [-> D2]. destruct D as [[-> ->]|D]; [reflexivity|].
  destruct (done_diverge _ _ D D1 D2).
Qed.
Lemma strict_recorded f t W (M : writer_impl W) u u' : (forall x, sstrict (P x)) ->
  s_serialize U P f W M t u = (Ok tt, u') ->
  exists tr, made M u tr u' /\ Forall done tr /\ s_serialize U P f _ recorder t [] = (Ok tt, map fst tr).
Proof.
  intros HP E. destruct (s_serialize_strat Strict U P f HP t W M u _ recorder []) as (t1 & t2 & H1 & H2 & G1 & _ & D).
  rewrite E in *. destruct (s_serialize U P f _ recorder t []) as [y cs] eqn:E2. cbn [fst snd held] in *.
  specialize (G1 eq_refl). apply made_recorder in H2 as [-> D2]. exists t1. split; [exact H1|]. split; [exact G1|].
  destruct D as [[-> <-]|D]; [reflexivity|]. destruct (done_diverge _ _ D G1 D2).
Qed.
Lemma prompt_recorded f t W (M : writer_impl W) u x u' y cs : (forall x, sprompt (P x)) ->
  s_serialize U P f W M t u = (x, u') -> s_serialize U P f _ recorder t [] = (y, cs) ->
  exists tr, made M u tr u' /\
    ((Forall done tr /\ x = y /\ map fst tr = cs) \/
     (exists tr0 c z rest, tr = tr0 ++ [(c, z)] /\ Forall done tr0 /\ fails_like z x /\ cs = map fst tr0 ++ c :: rest)).
Proof.
  intros HP E E2. destruct (s_serialize_strat Prompt U P f HP t W M u _ recorder []) as (t1 & t2 & H1 & H2 & G1 & _ & D).
  rewrite E, E2 in *. cbn [fst snd held] in *. apply made_recorder in H2 as [-> D2]. cbn [app].
  exists t1. split; [exact H1|]. destruct D as [[-> <-]|D].
  - left. auto.
  - right. destruct G1 as [G1|(tr0 & c & z & -> & G1 & F)]; [destruct (done_diverge _ _ D G1 D2)|].
    exists tr0, c, z. destruct D as (a & c' & x1 & y1 & r1 & r2 & Ea & -> & N).
    apply Forall_app in D2 as [Da D2]. inversion D2 as [|? ? D3]. subst. unfold done in D3. cbn [snd] in D3. subst y1.
    assert (r1 = [] /\ a = tr0 /\ c' = c /\ x1 = z) as (-> & -> & -> & ->).
    { destruct r1 as [|e r1].
      - apply app_inj_tail in Ea as [-> Ea]. apply pair_inv in Ea as [-> ->]. auto.
      - exfalso. destruct (@exists_last _ (e :: r1)) as (r & l & Er); [discriminate|]. rewrite Er in Ea.
        change (tr0 ++ [(c, z)] = a ++ ((c', x1) :: r) ++ [l]) in Ea. rewrite app_assoc in Ea. apply app_inj_tail in Ea as [-> _].
        apply Forall_app in G1 as [_ G1]. inversion G1 as [|? ? D4]. unfold done in D4. cbn [snd] in D4. congruence. }
    exists (map fst r2). rewrite map_app. cbn [map fst]. auto.
Qed.
(** Up to the error, such a run makes the calls one after the other. *)
Lemma make_done {W} (M : writer_impl W) {E} (wrap : io_error -> E) u tr u' : made M u tr u' -> Forall done tr ->
  forall rest, make_calls M wrap (map fst tr ++ rest) u = make_calls M wrap rest u'.
Proof.
  induction 1 as [u|u b x u1 tr u2 H _ IH|u bs x u1 tr u2 H _ IH]; intros D rest; [reflexivity| |];
    inversion D as [|? ? D1 D2]; subst; unfold done in D1; cbn [snd] in D1; subst x;
    cbn [map fst app make_calls make_call]; rewrite H; now apply IH.
Qed.
Lemma prompt_calls f t W (M : writer_impl W) u x u' cs : (forall x, sprompt (P x)) ->
  s_serialize U P f W M t u = (x, u') -> s_serialize U P f _ recorder t [] = (Ok tt, cs) ->
  exists y, make_calls M TagIO cs u = (y, u') /\ alike y x.
Proof.
  intros HP E E2. destruct (prompt_recorded f t W M u x u' _ cs HP E E2) as (tr & H & [(D & -> & <-)|(tr0 & c & z & rest & -> & D & F & ->)]).
  - exists (Ok tt). split; [|reflexivity]. pose proof (make_done M TagIO u tr u' H D []) as K. now rewrite app_nil_r in K.
  - apply made_split in H as (v & H1 & H2). rewrite (make_done M TagIO u tr0 v H1 D).
    assert (K : make_call M c v = (z, u')).
    { inversion H2 as [|? ? ? ? ? ? Hc Hn|? ? ? ? ? ? Hc Hn]; subst; inversion Hn; subst; exact Hc. }
    cbn [make_calls]. rewrite K. destruct z as [[]|i| |]; cbn in F; try contradiction.
    + exists (Err (TagIO i)). now split.
    + exists Panic. now split.
    + exists OutOfFuel. now split.
Qed.
End Recorded.

(** ** Layout *)
Section Layout.
Context {T : Type} (U : user_impl T) (code : T -> list wcall).
Definition header_calls (id n : N) : list wcall := ilint_calls id ++ (if id <=? 15 then [] else ilint_calls n).
Fixpoint object_calls (t : otag T) : list wcall :=
  match t with
  | OStd id v => calls_of (Tag id v)
  | OUser x => code x
  | OSeq id l => header_calls id (nsum (map (declared (u_size U)) l)) ++ concat (map object_calls l)
  | OArr id l =>
      header_calls id (lenN (ilint (lenN l)) + nsum (map (declared (u_size U)) l))
      ++ ilint_calls (lenN l) ++ concat (map object_calls l)
  | ODict id l =>
      header_calls id (lenN (ilint (lenN l)) + nsum (map (fun e => lenN (enc_string (fst e)) + declared (u_size U) (snd e)) l))
      ++ ilint_calls (lenN l)
      ++ concat (map (fun e => string_calls (fst e) ++ snd e) (sort_entries (map (fun e => (fst e, object_calls (snd e))) l)))
  end.
Lemma makes_with {W} (M : writer_impl W) id n sv cs : id < two64 -> n < two64 -> makes M TagIO sv cs ->
  makes M TagIO (s_with M id n sv) (header_calls id n ++ cs).
Proof.
  intros Hi Hn H. unfold s_with, header_calls. rewrite <- app_assoc. apply makes_bind; [now apply makes_ilint|].
  rewrite is_implicit_spec. apply makes_bind; [|exact H]. destruct (id <=? 15); [apply makes_ret|now apply makes_ilint].
Qed.
Lemma object_makes {W} (M : writer_impl W) user t : fits (u_size U) t -> users (fun x => makes M TagIO (user x) (code x)) t ->
  makes M TagIO (s_object M U user t) (object_calls t).
Proof.
  induction t as [id v|x|id l IH|id l IH|id l IH] using otag_induction; cbn [fits users].
  - intros [Hw L] _. exact (proj1 (serialize_makes_both M) (Tag id v) Hw L).
  - auto.
  - intros (Hi & Hn & A) B. cbn [s_object object_calls]. rewrite items_size_declared by exact A.
    apply makes_with; [assumption..|]. apply makes_for_each. apply all_Forall in A, B. rewrite Forall_forall in *. auto.
  - intros (Hi & Hc & Hn & A) B. cbn [s_object object_calls]. rewrite items_size_declared, <- lenN_ilint_lt by assumption.
    apply makes_with; [assumption..|]. apply makes_bind; [now apply makes_ilint|].
    apply makes_for_each. apply all_Forall in A, B. rewrite Forall_forall in *. auto.
  - intros (Hi & Hc & D & K & Hn & A) B. cbn [s_object object_calls]. cbv zeta.
    rewrite entries_size_declared, <- lenN_ilint_lt by assumption.
    apply makes_with; [assumption..|]. apply makes_bind; [now apply makes_ilint|].
    rewrite (sort_entries_map object_calls l), map_map. cbn [fst snd].
    apply (makes_dict M l (s_object M U user) object_calls); [exact D|].
    apply all_Forall in A, B. rewrite Forall_forall in *. auto.
Qed.
Lemma written_header id n : written (header_calls id n) = enc_header id n.
Proof. unfold header_calls, enc_header. rewrite written_app, written_ilint. f_equal. destruct (id <=? 15); [reflexivity|apply written_ilint]. Qed.
Lemma written_object t : fits (u_size U) t -> written (object_calls t) = laid (u_size U) (fun x => written (code x)) t.
Proof.
  induction t as [id v|x|id l IH|id l IH|id l IH] using otag_induction; cbn [fits].
  - intros [Hw L]. exact (proj1 written_both (Tag id v) Hw).
  - reflexivity.
  - intros (Hi & Hn & A). cbn [object_calls laid]. rewrite written_app, written_header. f_equal.
    apply written_concat. apply all_Forall in A. rewrite Forall_forall in *. auto.
  - intros (Hi & Hc & Hn & A). cbn [object_calls laid]. rewrite !written_app, written_header, written_ilint. do 2 f_equal.
    apply written_concat. apply all_Forall in A. rewrite Forall_forall in *. auto.
  - intros (Hi & Hc & D & K & Hn & A). cbn [object_calls laid]. rewrite !written_app, written_header, written_ilint. do 2 f_equal.
    rewrite !sort_entries_map, !map_map. cbn [fst snd]. apply written_concat. apply Forall_forall. intros e He.
    assert (Hl : In e l) by (eapply Permutation.Permutation_in; [symmetry; apply sort_entries_perm|exact He]).
    rewrite written_app, written_string. f_equal. apply all_Forall in A. rewrite Forall_forall in *. auto.
Qed.
End Layout.
Lemma make_recorded {E} (wrap : io_error -> E) cs : forall u, make_calls recorder wrap cs u = (Ok tt, u ++ cs).
Proof.
  induction cs as [|c cs IH]; intros u; cbn [make_calls]; [now rewrite app_nil_r|].
  destruct c; cbn [make_call recorder u_write u_write_all]; rewrite IH, <- app_assoc; reflexivity.
Qed.
Lemma emits_calls cs : emits (make_calls library_writer TagIO cs) (written cs).
Proof.
  induction cs as [|c cs IH]; [apply emits_ret|].
  change (emits (make_calls library_writer TagIO ([c] ++ cs)) (wcall_bytes c ++ written cs)).
  eapply emits_ext; [intros w _; apply make_calls_app|]. apply emits_bind; [|exact IH].
  eapply emits_ext with (m' := lift_err TagIO (make_call library_writer c)).
  - intros w _. cbn [make_calls]. unfold lift_err. destruct (make_call library_writer c w) as [[[]|e| |] w1]; reflexivity.
  - apply emits_lift. destruct c; [apply emits_write|apply emits_write_all].
Qed.
Lemma emits_alike {E E'} (m : writer -> res E unit * writer) (m' : writer -> res E' unit * writer) bs :
  (forall w x w', wwf w -> m w = (x, w') -> exists y, m' w = (y, w') /\ alike y x) -> emits m' bs -> emits m bs.
Proof.
  intros H Em w x w' Hw E1. destruct (H w x w' Hw E1) as (y & E2 & A). destruct (Em w y w' Hw E2) as (R & (p & Hp & Q & O) & B).
  destruct y as [[]|e| |]; cbn in A, R; try contradiction.
  - subst x. split; [exact I|]. split; [|reflexivity]. exists p. auto.
  - destruct A as [e' ->]. split; [exact I|]. split; [|intros Ha; now specialize (B Ha)]. exists p. split; [exact Hp|]. split; [exact Q|discriminate].
Qed.

(** When a tree is written, so are its user tags. *)
Lemma bind_ok {W E} (m1 m2 : W -> res E unit * W) u v : bind m1 (fun _ => m2) u = (Ok tt, v) ->
  exists w, m1 u = (Ok tt, w) /\ m2 w = (Ok tt, v).
Proof. unfold bind. destruct (m1 u) as [[[]|e| |] w]; try discriminate. eauto. Qed.
Lemma for_each_ok {W E X} (l : list X) (f : X -> W -> res E unit * W) : forall u v, for_each l f u = (Ok tt, v) ->
  forall x, In x l -> exists u1 v1, f x u1 = (Ok tt, v1).
Proof.
  unfold for_each. induction l as [|y l IH]; intros u v; cbn [fold_right]; [contradiction|].
  intros H x [<-|Hx].
  - apply bind_ok in H as (w & H & _). eauto.
  - apply bind_ok in H as (w & _ & H). eauto.
Qed.
Lemma s_with_ok {W} (M : writer_impl W) id n sv u v : s_with M id n sv u = (Ok tt, v) -> exists w, sv w = (Ok tt, v).
Proof. intros H. apply bind_ok in H as (w & _ & H). apply bind_ok in H as (w' & _ & H). eauto. Qed.
Lemma s_object_users {T W} (M : writer_impl W) (U : user_impl T) user t : fits (u_size U) t -> forall u v,
  s_object M U user t u = (Ok tt, v) -> users (fun x => exists u v, user x u = (Ok tt, v)) t.
Proof.
  induction t as [id w|x|id l IH|id l IH|id l IH] using otag_induction; cbn [fits users s_object].
  - intros; exact I.
  - eauto.
  - intros (_ & _ & A) u v H. apply s_with_ok in H as (w & H). apply all_Forall. apply all_Forall in A. rewrite Forall_forall in *.
    intros t Ht. destruct (for_each_ok _ _ _ _ H t Ht) as (u1 & v1 & H1). eauto.
  - intros (_ & _ & _ & A) u v H. apply s_with_ok in H as (w & H). apply bind_ok in H as (w' & _ & H).
    apply all_Forall. apply all_Forall in A. rewrite Forall_forall in *.
    intros t Ht. destruct (for_each_ok _ _ _ _ H t Ht) as (u1 & v1 & H1). eauto.
  - intros (_ & _ & D & _ & _ & A) u v H. cbv zeta in H. apply s_with_ok in H as (w & H). apply bind_ok in H as (w' & _ & H).
    apply all_Forall. apply all_Forall in A. rewrite Forall_forall in *. intros [k t] Ht. cbn [snd].
    assert (Hk : In k (sort_unstable (map fst l))).
    { rewrite sort_unstable_entries. apply (in_map fst _ (k, t)). eapply Permutation.Permutation_in; [apply sort_entries_perm|exact Ht]. }
    destruct (for_each_ok _ _ _ _ H k Hk) as (u1 & v1 & H1). cbn beta in H1. rewrite hm_get_map, (hm_get_in k t l D Ht) in H1.
    cbn [option_map] in H1. apply bind_ok in H1 as (u2 & _ & H1). exact (IH (k, t) Ht (A _ Ht) _ _ H1).
Qed.
Lemma recorded_users {T} (U : user_impl T) P f t cs : fits (u_size U) t ->
  s_serialize U P (S f) _ recorder t [] = (Ok tt, cs) ->
  users (fun x => fst (s_serialize U P (S f) _ recorder (OUser x) []) = Ok tt) t.
Proof.
  intros F E. cbn [s_serialize] in E. apply s_object_users in E; [|exact F]. eapply users_weak; [|exact E]. cbn beta.
  intros x (u & v & H). change (s_serialize U P (S f) _ recorder (OUser x) u = (Ok tt, v)) in H.
  destruct (s_serialize U P (S f) _ recorder (OUser x) []) as [y cs'] eqn:E2.
  rewrite (recorded_more U P _ _ _ _ E2 u) in H. cbn [fst]. congruence.
Qed.
Lemma recorded_calls {T} (U : user_impl T) P f (code : T -> list wcall) t : fits (u_size U) t ->
  users (fun x => s_serialize U P (S f) _ recorder (OUser x) [] = (Ok tt, code x)) t ->
  s_serialize U P (S f) _ recorder t [] = (Ok tt, object_calls U code t).
Proof.
  intros F A. pose proof (object_makes U code recorder
    (fun x => sexec recorder (s_serialize U P f _ recorder) (s_serialize U P f writer library_writer) (P x)) t F) as K.
  rewrite <- (app_nil_l (object_calls U code t)), <- (make_recorded TagIO). apply K. eapply users_weak; [|exact A]. cbn beta.
  intros x H u. rewrite make_recorded. exact (recorded_more U P _ _ _ _ H u).
Qed.

(** Proofs about WorldRead.v: the limits hold whatever the code of the user does to
    the state. *)
From Verif Require Import Base BaseFacts Types Spec SpecFacts IO IOSpec IOFacts Logic HistFacts ILInt ILIntFacts Data DataFacts Tags TagsFacts
  Factory FactoryFacts DecodeFacts DeserFacts IntoFacts ClosedFacts Open KinFacts OpenFacts Prog ProgFacts IntoProg IntoProgFacts IntoCallFacts
  Any AnyFacts AnyScan AnyProg AnyProgFacts AnyFull AnyFullFacts AnyFullRuns WorldRead.

(** The LimitedReaders of a reader after a call that [d] bytes went through; the
    state below them may have become any other. *)
Fixpoint lowered {W} (d : N) (r r' : areader W) : Prop :=
  match r, r' with
  | ABase _, ABase _ => True
  | ALimited s n, ALimited s' n' => lowered d s s' /\ n' + d = n
  | _, _ => False
  end.
(** Programs that do not panic when the factory does not, and give deserialize_into
    only the objects there are; [others]: they may read from other readers. *)
Fixpoint wcalm {T W A} (others : Prop) (p : wprog (otag T) W A) : Prop :=
  match p with
  | WDone _ => True
  | WAbort => False
  | WAct f k => forall u, wcalm others (k (fst (f u)))
  | WRead k => forall x, wcalm others (k x)
  | WReadAll old k => forall x buff, wcalm others (k x buff)
  | WSkip _ k => forall x, wcalm others (k x)
  | WSkip64 _ k => forall x, wcalm others (k x)
  | WTag k => forall x, (forall t, x = Ok t -> target t) -> wcalm others (k x)
  | WInto t k => target t /\ forall x t', target t' -> wcalm others (k x t')
  | WLimited _ body k => wcalm others body /\ forall b n, wcalm others (k b n)
  | WOther M k => others /\ impl_ok M /\ forall x, (forall t, x = Ok t -> target t) -> wcalm others (k x)
  | WOtherInto M t k => others /\ impl_ok M /\ target t /\ forall x t', target t' -> wcalm others (k x t')
  end.
(** Code of the user that does not panic. *)
Record reading_ok {T W} (others : Prop) (Z : reading_impl T W) : Prop := ReadingOk {
  ok_id : forall x u, fst (z_id Z x u) <> None;
  ok_value : forall n x, wcalm others (z_value Z n x);
  ok_create : forall id f u, z_create Z id = Some f -> exists t u', f u = (Some t, u') /\ target t }.

Section Lowered.
Context {W : Type}.
Implicit Type r : areader W.
Lemma lowered_refl r : lowered 0 r r.
Proof. induction r; cbn; auto. split; [assumption|lia]. Qed.
Lemma lowered_put u r : lowered 0 r (a_put u r).
Proof. induction r; cbn; auto. split; [assumption|lia]. Qed.
Lemma lowered_trans r : forall d1 r1 d2 r2, lowered d1 r r1 -> lowered d2 r1 r2 -> lowered (d1 + d2) r r2.
Proof.
  induction r as [u|s IH n]; intros d1 [u1|s1 n1] d2 [u2|s2 n2]; cbn [lowered]; try tauto.
  intros [H A] [K B]. split; [eauto|lia].
Qed.
Lemma pmoved_lowered M tr r : forall r', pmoved M tr r r' -> lowered (lenN (pbytes tr)) r r'.
Proof. induction r as [u|s IH n]; intros [u1|s1 n1]; cbn [lowered pmoved]; try tauto. intros [H A]. auto. Qed.
Lemma lowered_lim d r r' : lowered d r r' -> lim r -> lim r'.
Proof. destruct r, r'; cbn; tauto. Qed.
Lemma lowered_within d r : forall j r', lowered d r r' -> within j r -> (N.to_nat d < j)%nat /\ within (j - N.to_nat d) r'.
Proof.
  induction r as [u|s IH a]; intros j [u'|s' a']; cbn [lowered within]; try tauto.
  intros (H & L) [K0|K0]; [split; [|left]; lia|]. destruct (IH _ _ H K0). auto.
Qed.
End Lowered.

Section WorldReadFacts.
Context {W : Type} (lax : Prop).
Definition lend {E A} (Q : res E A -> N -> Prop) (y : res E A) (r r' : areader W) : Prop :=
  y <> Panic /\ (y = OutOfFuel -> lax) /\ (returns y -> exists d, lowered d r r' /\ Q y d).
Definition lok {X E A} (pr : X -> areader W) (Q : res E A -> N -> Prop) (f : X -> res E A * X) (x : X) : Prop :=
  forall y x', f x = (y, x') -> lend Q y (pr x) (pr x').
Definition lrd {E A} := @lok (areader W) E A (fun r => r).
Definition lmd {S A} := @lok (S * areader W) tag_error A snd.
Definition lob {V} (Q : res tag_error unit -> V -> N -> Prop) (f : areader W -> res tag_error unit * V * areader W) (r : areader W) : Prop :=
  forall y v r', f r = (y, v, r') -> lend (fun y => Q y v) y r r'.
(** A success has taken [lo] bytes. *)
Definition Lb {E A} (lo : N) (y : res E A) (d : N) : Prop := is_ok y = true -> lo <= d.

Lemma lend_app {E A} (Q Q' : res E A -> N -> Prop) y d r r1 r2 : lowered d r r1 -> lend Q y r1 r2 -> (forall d2, Q y d2 -> Q' y (d + d2)) -> lend Q' y r r2.
Proof.
  intros L (Np & Nf & H) HQ. split; [exact Np|]. split; [exact Nf|]. intros R. destruct (H R) as (d2 & L2 & Q2).
  exists (d + d2). split; [eapply lowered_trans; eauto|auto].
Qed.
Lemma lok_weaken {X E A} pr (Q1 Q : res E A -> N -> Prop) (f : X -> res E A * X) x : lok pr Q1 f x -> (forall y d, Q1 y d -> Q y d) -> lok pr Q f x.
Proof.
  intros G H y x' E1. destruct (G _ _ E1) as (Np & Nf & Ht). split; [exact Np|]. split; [exact Nf|]. intros R. destruct (Ht R) as (d & L & q). eauto.
Qed.
Lemma lok_bind {X E A B} pr (Q1 : res E A -> N -> Prop) (Q : res E B -> N -> Prop) (m : X -> res E A * X) (f : A -> X -> res E B * X) x :
  lok pr Q1 m x ->
  (forall a x' d, m x = (Ok a, x') -> lowered d (pr x) (pr x') -> Q1 (Ok a) d -> lok pr (fun y d2 => Q y (d + d2)) (f a) x') ->
  (forall e d, Q1 (Err e) d -> Q (Err e) d) -> lok pr Q (bind m f) x.
Proof.
  intros G F Qe y x' E1. unfold bind in E1. destruct (m x) as [a x1] eqn:Em. destruct (G _ _ Em) as (Np & Nf & Ht).
  destruct a as [a|e| |].
  - destruct (Ht Logic.I) as (d & L & q). eapply lend_app; [exact L|exact (F _ _ _ eq_refl L q _ _ E1)|]. auto.
  - apply pair_inv in E1 as [<- <-]. split; [discriminate|]. split; [discriminate|]. intros _. destruct (Ht Logic.I) as (d & L & q). exists d. auto.
  - now elim Np.
  - apply pair_inv in E1 as [<- <-]. split; [discriminate|]. split; [auto|intros []].
Qed.
Lemma lbind {X E A B} pr lo1 lo2 lo (m : X -> res E A * X) (f : A -> X -> res E B * X) x :
  lok pr (Lb lo1) m x -> (forall a x' d, m x = (Ok a, x') -> lowered d (pr x) (pr x') -> lok pr (Lb lo2) (f a) x') -> lo <= lo1 + lo2 ->
  lok pr (Lb lo) (bind m f) x.
Proof.
  intros G F L. eapply lok_bind; [exact G| |].
  - intros a x' d E1 Hm q. eapply lok_weaken; [exact (F _ _ _ E1 Hm)|]. unfold Lb in *. cbn [is_ok] in q. specialize (q eq_refl). intros y d2 H Hy.
    specialize (H Hy). lia.
  - unfold Lb. discriminate.
Qed.
Lemma lpure {X E A} (pr : X -> areader W) (Q : res E A -> N -> Prop) (y : res E A) x : returns y -> Q y 0 -> lok pr Q (fun s => (y, s)) x.
Proof.
  intros R HQ y' x' E1. apply pair_inv in E1 as [<- <-]. split; [intros ->; exact R|]. split; [intros ->; elim R|]. intros _. exists 0.
  split; [apply lowered_refl|exact HQ].
Qed.
Lemma lret {X E A} (pr : X -> areader W) (a : A) x : lok (E := E) pr (Lb 0) (ret a) x.
Proof. apply lpure; [exact Logic.I|]. unfold Lb. lia. Qed.
Lemma lfail {X E A} (pr : X -> areader W) (e : E) x lo : lok (A := A) pr (Lb lo) (fail e) x.
Proof. apply lpure; [exact Logic.I|]. unfold Lb. discriminate. Qed.

(** What Any.v does by itself. *)
Section Leaf.
Context (M : reader_impl W) (HM : impl_ok M).
Lemma l_of_x {E A} (Q : bool -> N -> Prop) f (g : reader -> res E A * reader) r : xrd M False False Q f g r -> lrd (fun y d => Q (is_ok y) d) f r.
Proof.
  intros G y r' E1. destruct (G _ _ E1) as (Np & Nf & Ht). split; [exact Np|]. split; [tauto|]. intros R. destruct (Ht R) as (tr & Hm & _ & _ & Hq & _).
  exists (lenN (pbytes tr)). split; [eapply pmoved_lowered; eauto|exact Hq].
Qed.
Lemma l_ilint r : lrd (fun y d => d <= 9 /\ Lb 1 y d) (a_ilint M) r.
Proof. exact (l_of_x _ _ _ _ (x_ilint M HM _ _ r)). Qed.
Lemma l_tag_size id r : lrd (fun y d => d <= 9) (a_tag_size M id) r.
Proof. exact (l_of_x _ _ _ _ (x_tag_size M HM _ _ id r)). Qed.
Lemma l_string r : lrd (Lb 2) (a_string_tag M) r.
Proof. exact (l_of_x _ _ _ _ (x_string M HM _ _ r)). Qed.
Lemma l_read r : lrd (Lb 1) (a_read M) r.
Proof. exact (l_of_x _ _ _ _ (x_read M HM _ _ r)). Qed.
Lemma l_skip n r : lim r -> lrd (Lb n) (a_skip M n) r.
Proof. intros L. exact (l_of_x _ _ _ _ (x_skip M HM _ _ (Cfg true 0) n r L)). Qed.
Lemma l_skip64 c n r : 1 <= usize_max c -> lim r -> lrd (Lb n) (a_skip_u64 M c n) r.
Proof. intros Hc L. exact (l_of_x _ _ _ _ (x_skip_u64 M HM _ _ c n r Hc L)). Qed.
Lemma l_std d v n r : leaf v -> holds_bytes v -> lob (fun _ v' _ => leaf v' /\ holds_bytes v') (a_value M d v n) r.
Proof.
  intros Hl Hb y v' r' E1. destruct (x_std M HM False False d (fun r => (Panic, r)) v n r Hl Hb _ _ _ E1) as (Np & Nf & Ht).
  split; [exact Np|]. split; [tauto|]. intros R. destruct (Ht R) as (tr & Hm & _). exists (lenN (pbytes tr)).
  split; [eapply pmoved_lowered; eauto|]. exact (a_std_target M HM d v n r y v' r' Hl Hb E1).
Qed.
End Leaf.

(** ** Methods *)
Lemma l_on {S A} (Q : res tag_error A -> N -> Prop) m (x : S * areader W) : lrd Q m (snd x) -> lmd Q (a_on_reader m) x.
Proof.
  destruct x as [s r]. cbn [snd]. intros G y [s' r'] E1. cbn [a_on_reader] in E1. destruct (m r) as [a r1] eqn:Em.
  assert (y = a /\ r' = r1) as [-> ->] by (split; congruence). exact (G _ _ Em).
Qed.
Lemma l_modify {S} (f : S -> S) (x : S * areader W) : lmd (Lb 0) (a_modify f) x.
Proof.
  destruct x as [s r]. intros y [s' r'] E1. cbn [a_modify] in E1. assert (y = Ok tt /\ r' = r) as [-> ->] by (split; congruence).
  split; [discriminate|]. split; [discriminate|]. intros _. exists 0. split; [apply lowered_refl|unfold Lb; lia].
Qed.
Lemma l_guard {S} (b : bool) e (x : S * areader W) : lmd (Lb 0) (if b then fail e else ret tt) x.
Proof. destruct b; [apply lfail|apply lret]. Qed.
Lemma l_ensure_empty {S} e (x : S * areader W) : lmd (Lb 0) (a_ensure_empty e) x.
Proof.
  intros y x' E1. unfold a_ensure_empty in E1. apply pair_inv in E1 as [<- <-]. destruct (a_empty (snd x)); (split; [discriminate|]; split; [discriminate|]);
    intros _; exists 0; (split; [apply lowered_refl|unfold Lb; cbn; lia]).
Qed.
Lemma l_limited {S A} (Q : res tag_error A -> N -> Prop) n (m : @amethod W S A) s r : lmd Q m (s, ALimited r n) -> lmd (fun y d => Q y d /\ d <= n) (a_limited n m) (s, r).
Proof.
  intros G y [s' r'] E1. unfold a_limited in E1. destruct (m (s, ALimited r n)) as [a [s1 r1]] eqn:Em.
  destruct (G _ _ Em) as (Np & Nf & Ht).
  assert (y = a /\ r' = a_unlimit r1) as [-> ->] by (split; congruence).
  split; [exact Np|]. split; [exact Nf|]. intros R. destruct (Ht R) as (d & L & q). cbn [snd] in *.
  destruct r1 as [|r1 n1]; [contradiction|]. cbn [lowered a_unlimit] in *. destruct L as [L E]. exists d. split; [exact L|]. split; [exact q|lia].
Qed.
Definition closed (P : areader W -> Prop) : Prop := forall d r r', P r -> lowered d r r' -> P r'.
Lemma l_while {S A} (P : areader W -> Prop) (m : areader W -> res tag_error A * areader W) (store : A -> S -> S) :
  closed P -> (forall r, P r -> lrd (Lb 1) m r) ->
  forall fuel s src a, (N.to_nat a < fuel)%nat -> P (ALimited src a) -> lmd (Lb 0) (a_while fuel m store) (s, ALimited src a).
Proof.
  intros HP G. induction fuel as [|f IH]; intros s src a L Pr y x' E1; [lia|]. cbn [a_while snd a_empty] in E1.
  destruct (a =? 0) eqn:La.
  - apply pair_inv in E1 as [<- <-]. split; [discriminate|]. split; [discriminate|]. intros _. exists 0. split; [apply lowered_refl|unfold Lb; lia].
  - unfold bind in E1. cbn [a_on_reader] in E1. destruct (m (ALimited src a)) as [xa r1] eqn:Em.
    destruct (G _ Pr _ _ Em) as (Np & Nf & Ht). destruct xa as [xa|e| |].
    + destruct (Ht Logic.I) as (d & Hl & Hq). cbn [a_modify] in E1. specialize (Hq eq_refl). destruct r1 as [|src1 a1]; [contradiction|].
      pose proof (HP _ _ _ Pr Hl) as Pr1. assert (La1 : (N.to_nat a1 < f)%nat) by (destruct Hl as [_ Hl]; lia).
      eapply lend_app; [exact Hl|exact (IH _ _ _ La1 Pr1 _ _ E1)|]. unfold Lb. lia.
    + apply pair_inv in E1 as [<- <-]. split; [discriminate|]. split; [discriminate|]. intros _.
      destruct (Ht Logic.I) as (d & Hl & Hq). exists d. split; [exact Hl|unfold Lb; lia].
    + now elim Np.
    + apply pair_inv in E1 as [<- <-]. split; [discriminate|]. split; [auto|intros []].
Qed.
Lemma l_repeat {S A} (P : areader W -> Prop) (m : areader W -> res tag_error A * areader W) (store : A -> S -> S) :
  closed P -> (forall r, P r -> lrd (Lb 1) m r) ->
  forall fuel s src a count, (N.to_nat a < fuel)%nat -> P (ALimited src a) -> lmd (Lb 0) (a_repeat fuel m store count) (s, ALimited src a).
Proof.
  intros HP G. induction fuel as [|f IH]; intros s src a count L Pr y x' E1; [lia|]. cbn [a_repeat] in E1.
  destruct (count =? 0) eqn:La.
  - apply pair_inv in E1 as [<- <-]. split; [discriminate|]. split; [discriminate|]. intros _. exists 0. split; [apply lowered_refl|unfold Lb; lia].
  - unfold bind in E1. cbn [a_on_reader] in E1. destruct (m (ALimited src a)) as [xa r1] eqn:Em.
    destruct (G _ Pr _ _ Em) as (Np & Nf & Ht). destruct xa as [xa|e| |].
    + destruct (Ht Logic.I) as (d & Hl & Hq). cbn [a_modify] in E1. specialize (Hq eq_refl). destruct r1 as [|src1 a1]; [contradiction|].
      pose proof (HP _ _ _ Pr Hl) as Pr1. assert (La1 : (N.to_nat a1 < f)%nat) by (destruct Hl as [_ Hl]; lia).
      eapply lend_app; [exact Hl|exact (IH _ _ _ _ La1 Pr1 _ _ E1)|]. unfold Lb. lia.
    + apply pair_inv in E1 as [<- <-]. split; [discriminate|]. split; [discriminate|]. intros _.
      destruct (Ht Logic.I) as (d & Hl & Hq). exists d. split; [exact Hl|unfold Lb; lia].
    + now elim Np.
    + apply pair_inv in E1 as [<- <-]. split; [discriminate|]. split; [auto|intros []].
Qed.
Lemma l_while_fuelled {S A} P (m : areader W -> res tag_error A * areader W) (store : A -> S -> S) x :
  closed P -> (forall r, P r -> lrd (Lb 1) m r) -> P (snd x) -> lim (snd x) -> lmd (Lb 0) (a_fuelled (fun f => a_while f m store)) x.
Proof.
  destruct x as [s [u|src a]]; cbn [snd lim]; intros HP G Pr L; [contradiction|]. intros y x' E1. unfold a_fuelled in E1. cbn [snd room] in E1.
  exact (l_while P m store HP G _ _ _ _ (Nat.lt_succ_diag_r _) Pr _ _ E1).
Qed.
Lemma l_repeat_fuelled {S A} P (m : areader W -> res tag_error A * areader W) (store : A -> S -> S) count x :
  closed P -> (forall r, P r -> lrd (Lb 1) m r) -> P (snd x) -> lim (snd x) -> lmd (Lb 0) (a_fuelled (fun f => a_repeat f m store count)) x.
Proof.
  destruct x as [s [u|src a]]; cbn [snd lim]; intros HP G Pr L; [contradiction|]. intros y x' E1. unfold a_fuelled in E1. cbn [snd room] in E1.
  exact (l_repeat P m store HP G _ _ _ _ count (Nat.lt_succ_diag_r _) Pr _ _ E1).
Qed.

(** The types that hold tags. *)
Section Values.
Context (M : reader_impl W) (HM : impl_ok M).
Context {T : Type} (deser : areader W -> res tag_error T * areader W) (P : areader W -> Prop).
Hypothesis HP : closed P.
Hypothesis HD : deep P.
Hypothesis G : forall r, P r -> lrd (Lb 1) deser r.
Lemma l_m_ilint {S} (x : S * areader W) : lmd (Lb 1) (a_on_reader (a_ilint M)) x.
Proof. apply l_on. eapply lok_weaken; [now apply l_ilint|]. cbv beta. tauto. Qed.
Lemma l_seq n s r : P r -> lmd (Lb 0) (a_seq deser n) (s, r).
Proof.
  intros Pr. eapply lok_weaken; [apply l_limited|cbv beta; intros y d [H _]; exact H].
  eapply (lbind _ 0 0); [apply l_modify| |lia]. intros _ x1 d _ L1. eapply l_while_fuelled; eauto. exact (lowered_lim _ _ _ L1 (lim_limited r n)).
Qed.
Lemma l_arr n s r : P r -> lmd (Lb 0) (a_arr M deser n) (s, r).
Proof.
  intros Pr. eapply lok_weaken; [apply l_limited|cbv beta; intros y d [H _]; exact H].
  eapply (lbind _ 1 0); [apply l_m_ilint| |lia]. intros count x1 d1 _ L1.
  pose proof (lowered_lim _ _ _ L1 (lim_limited r n)) as K1. pose proof (HP _ _ _ (HD r n Pr) L1) as P1.
  eapply (lbind _ 0 0); [apply l_guard| |lia]. intros _ x2 d2 _ L2. pose proof (lowered_lim _ _ _ L2 K1) as K2. pose proof (HP _ _ _ P1 L2) as P2.
  eapply (lbind _ 0 0); [apply l_modify| |lia]. intros _ x3 d3 _ L3. pose proof (lowered_lim _ _ _ L3 K2) as K3. pose proof (HP _ _ _ P2 L3) as P3.
  eapply (lbind _ 0 0); [eapply l_repeat_fuelled; eauto| |lia]. intros. apply l_ensure_empty.
Qed.
Lemma l_dict n s r : P r -> lmd (Lb 0) (a_dict M deser n) (s, r).
Proof.
  intros Pr. eapply lok_weaken; [apply l_limited|cbv beta; intros y d [H _]; exact H].
  eapply (lbind _ 1 0); [apply l_m_ilint| |lia]. intros count x1 d1 _ L1.
  pose proof (lowered_lim _ _ _ L1 (lim_limited r n)) as K1. pose proof (HP _ _ _ (HD r n Pr) L1) as P1.
  eapply (lbind _ 0 0); [apply l_modify| |lia]. intros _ x3 d3 _ L3. pose proof (lowered_lim _ _ _ L3 K1) as K3. pose proof (HP _ _ _ P1 L3) as P3.
  eapply (lbind _ 0 0); [eapply (l_repeat_fuelled P); eauto| |lia]; [|intros; apply l_ensure_empty].
  intros r1 Pr1. eapply (lbind _ 2 1); [now apply l_string| |lia]. intros k r2 d4 _ L4.
  eapply (lbind _ 1 0); [apply G; exact (HP _ _ _ Pr1 L4)| |lia]. intros. apply lret.
Qed.
End Values.

(** ** Programs *)
(** What deserialize and deserialize_into keep to. *)
Definition QD {T} (y : res tag_error (otag T)) (d : N) : Prop := (forall t, y = Ok t -> target t /\ 1 <= d) /\ d <= 536870930.
Definition QI {T} (y : res tag_error unit) (t : otag T) (d : N) : Prop := target t /\ d <= 536870930.
Section Exec.
Context {T : Type} (c : cfg) (M : reader_impl W) (HM : impl_ok M) (Hc : 1 <= usize_max c).
Context (deser : areader W -> res tag_error (otag T) * areader W) (into : areader W -> otag T -> res tag_error unit * otag T * areader W).
Context (odeser : reader_impl W -> W -> res tag_error (otag T) * W) (ointo : reader_impl W -> otag T -> W -> res tag_error unit * otag T * W).
Context (P : areader W -> Prop).
Hypothesis HP : closed P.
Hypothesis HD : deep P.
Hypothesis Gd : forall r, P r -> lrd QD deser r.
Hypothesis Gi : forall r t, P r -> target t -> lob QI (fun r => into r t) r.
Hypothesis God : forall M' u x u', lax -> impl_ok M' -> odeser M' u = (x, u') -> x <> Panic /\ (forall t, x = Ok t -> target t).
Hypothesis Goi : forall M' t u x t' u', lax -> impl_ok M' -> target t -> ointo M' t u = (x, t', u') -> x <> Panic /\ (returns x -> target t').
Notation ex := (w_exec c M deser into odeser ointo).
Definition Any1 {E A} (y : res E A) (d : N) : Prop := True.
Lemma l_after {E A B} Q (x : res E B) (f : res E B -> areader W -> res tag_error A * areader W) r r1 :
  lend Q x r r1 -> (forall d, returns x -> lowered d r r1 -> Q x d -> lrd Any1 (f x) r1) -> forall y r', a_after x f r1 = (y, r') -> lend Any1 y r r'.
Proof.
  intros (Np & Nf & Ht) F y r' E1. destruct x as [a|e| |]; cbn [a_after] in E1.
  - destruct (Ht Logic.I) as (d & L & q). eapply lend_app; [exact L|exact (F _ Logic.I L q _ _ E1)|]. intros; exact Logic.I.
  - destruct (Ht Logic.I) as (d & L & q). eapply lend_app; [exact L|exact (F _ Logic.I L q _ _ E1)|]. intros; exact Logic.I.
  - now elim Np.
  - apply pair_inv in E1 as [<- <-]. split; [discriminate|]. split; [auto|intros []].
Qed.
Lemma l_after_put {E A B} (x : res E B) (f : res E B -> areader W -> res tag_error A * areader W) u r :
  x <> Panic -> (x = OutOfFuel -> lax) -> (returns x -> lrd Any1 (f x) (a_put u r)) -> forall y r', a_after x f (a_put u r) = (y, r') -> lend Any1 y r r'.
Proof.
  intros Np Nf F. apply l_after with (Q := Any1).
  - split; [exact Np|]. split; [exact Nf|]. intros _. exists 0. split; [apply lowered_put|exact Logic.I].
  - auto.
Qed.
Lemma l_exec {A} (p : wprog (otag T) W A) : wcalm lax p -> forall r, P r -> lim r -> lrd Any1 (ex p) r.
Proof.
  induction p as [A a|A|A B f k IH|A k IH|A old k IH|A n k IH|A n k IH|A k IH|A t k IH|A B n body IHb k IH|A M' k IH|A M' t k IH];
    intros Hp r Pr Lr y r' E1; cbn [w_exec wcalm] in *.
  - apply pair_inv in E1 as [<- <-]. split; [discriminate|]. split; [discriminate|]. intros _. exists 0. split; [apply lowered_refl|exact Logic.I].
  - contradiction.
  - specialize (Hp (a_state r)). destruct (f (a_state r)) as [b u] eqn:Ef. cbn [fst] in Hp.
    pose proof (lowered_put u r) as L. eapply lend_app; [exact L|exact (IH b Hp _ (HP _ _ _ Pr L) (lowered_lim _ _ _ L Lr) _ _ E1)|]. auto.
  - destruct (a_read M r) as [x r1] eqn:Er. revert E1. eapply l_after; [exact (l_read M HM r _ _ Er)|]. eauto using lowered_lim.
  - destruct (a_read_all M (u8s old) r) as [[x b] r1] eqn:Er. revert E1.
    assert (Hb : bytes_ok (u8s old)) by apply u8s_ok.
    destruct (p_read_all M HM _ _ _ _ _ Hb Er) as (R & _ & _ & tr & Hm & _). apply pmoved_lowered in Hm.
    apply (l_after Any1); [|eauto using lowered_lim].
    split; [intros ->; exact R|]. split; [intros ->; elim R|]. intros _. eexists. split; [exact Hm|exact Logic.I].
  - destruct (a_skip M n r) as [x r1] eqn:Er. revert E1. eapply l_after; [exact (l_skip M HM n r Lr _ _ Er)|]. eauto using lowered_lim.
  - destruct (a_skip_u64 M c n r) as [x r1] eqn:Er. revert E1. eapply l_after; [exact (l_skip64 M HM c n r Hc Lr _ _ Er)|]. eauto using lowered_lim.
  - destruct (deser r) as [x r1] eqn:Er. revert E1. eapply l_after; [exact (Gd r Pr _ _ Er)|]. intros d R L [q _].
    apply IH; [apply Hp; intros t0 ->; exact (proj1 (q t0 eq_refl))|eauto|eauto using lowered_lim].
  - destruct Hp as [Ht Hk]. destruct (into r t) as [[x t'] r1] eqn:Er. revert E1.
    eapply (l_after (fun y d => QI y t' d) x); [exact (Gi r t Pr Ht _ _ _ Er)|]. intros d R L [q _]. apply IH; eauto using lowered_lim.
  - destruct Hp as [Hb Hk]. destruct (ex body (ALimited r n)) as [x lr] eqn:Eb.
    destruct (IHb Hb _ (HD r n Pr) (lim_limited r n) _ _ Eb) as (Np & Nf & Ht).
    assert (K : returns x -> exists d n' r1, lr = ALimited r1 n' /\ lowered d r r1).
    { intros R. destruct (Ht R) as (d & L & _). destruct lr as [|r1 n']; [contradiction|]. destruct L as [L _]. eauto. }
    destruct x as [b|err| |].
    + destruct (K Logic.I) as (d & n' & r1 & -> & L). eapply lend_app; [exact L|exact (IH b n' (Hk b n') _ (HP _ _ _ Pr L) (lowered_lim _ _ _ L Lr) _ _ E1)|]. auto.
    + destruct (K Logic.I) as (d & n' & r1 & -> & L). apply pair_inv in E1 as [<- <-]. split; [discriminate|]. split; [discriminate|]. intros _. exists d. split; [exact L|exact Logic.I].
    + now elim Np.
    + apply pair_inv in E1 as [<- <-]. split; [discriminate|]. split; [auto|intros []].
  - destruct Hp as (Hl & Hm & Hk). destruct (odeser M' (a_state r)) as [x u] eqn:Eo. destruct (God _ _ _ _ Hl Hm Eo) as [Np Ht].
    revert E1. apply l_after_put; [exact Np|auto|]. intros R. pose proof (lowered_put u r) as L. apply IH; eauto using lowered_lim.
  - destruct Hp as (Hl & Hm & Htt & Hk). destruct (ointo M' t (a_state r)) as [[x t'] u] eqn:Eo. destruct (Goi _ _ _ _ _ _ Hl Hm Htt Eo) as [Np Ht].
    revert E1. apply l_after_put; [exact Np|auto|]. intros R. pose proof (lowered_put u r) as L. apply IH; eauto using lowered_lim.
Qed.
End Exec.
End WorldReadFacts.

Section Factory.
Context {T W : Type} (lax : Prop) (c : cfg) (Z : reading_impl T W) (e : engine).
Hypothesis Hc : 1 <= usize_max c.
Hypothesis HZ : reading_ok lax Z.
Hypothesis Htot : engine_total e.
Hypothesis He : engine_bytes e.

(** An object that never says it has one of the ids that the check leaves out. *)
Definition ordinary (t : otag T) : Prop :=
  match t with
  | OStd id _ | OSeq id _ | OArr id _ | ODict id _ => id <> IL_ILINT_TAG_ID /\ id <> IL_SIGNED_ILINT_TAG_ID
  | OUser x => forall u, fst (z_id Z x u) <> Some IL_ILINT_TAG_ID /\ fst (z_id Z x u) <> Some IL_SIGNED_ILINT_TAG_ID
  end.
Lemma l_id t (r : areader W) : lrd lax (fun y d => d = 0 /\ (ordinary t -> forall id, y = Ok id -> id <> IL_ILINT_TAG_ID /\ id <> IL_SIGNED_ILINT_TAG_ID)) (w_id Z t) r.
Proof.
  assert (L : forall id, ordinary t -> match t with OUser _ => False | OStd i _ | OSeq i _ | OArr i _ | ODict i _ => i = id end ->
    id <> IL_ILINT_TAG_ID /\ id <> IL_SIGNED_ILINT_TAG_ID) by (intros id; destruct t; cbn; [intros H <-; exact H|tauto|intros H <-; exact H..]).
  destruct t as [id v|x|id l|id l|id l]; cbn [w_id]; try (apply lpure; [exact Logic.I|split; [reflexivity|intros O id' E; apply Ok_inv in E; subst; now apply L]]).
  intros y r' E1. unfold on_state, or_panic in E1. pose proof (ok_id _ _ HZ x (a_state r)) as Hn. destruct (z_id Z x (a_state r)) as [[id|] u] eqn:Ez.
  - apply pair_inv in E1 as [<- <-]. split; [discriminate|]. split; [discriminate|]. intros _. exists 0. split; [apply lowered_put|]. split; [reflexivity|].
    intros O id' E. apply Ok_inv in E. subst. specialize (O (a_state r)). rewrite Ez in O. cbn [fst] in O. destruct O. split; congruence.
  - now elim Hn.
Qed.
Lemma l_check t s n : lrd lax (fun y d => d = 0 /\ (y = Ok tt -> ordinary t -> n = 0)) (w_check Z t) (ALimited s n).
Proof.
  unfold w_check. eapply lok_bind; [apply l_id| |intros err d [-> _]; split; [reflexivity|discriminate]].
  intros id r1 d1 _ L1 [-> H1]. destruct (N.eqb_spec id IL_ILINT_TAG_ID) as [->|_].
  { apply lpure; [exact Logic.I|]. split; [reflexivity|]. intros _ O. now destruct (H1 O _ eq_refl). }
  eapply lok_bind; [apply l_id| |intros err d [-> _]; split; [reflexivity|discriminate]].
  intros id2 r2 d2 _ L2 [-> H2]. destruct (N.eqb_spec id2 IL_SIGNED_ILINT_TAG_ID) as [->|_].
  { apply lpure; [exact Logic.I|]. split; [reflexivity|]. intros _ O. now destruct (H2 O _ eq_refl). }
  destruct r1 as [|s1 n1]; [contradiction|]. destruct r2 as [|s2 n2]; [contradiction|]. destruct L1 as [_ L1]. destruct L2 as [_ L2].
  intros y r' E1. apply pair_inv in E1 as [<- <-]. cbn [a_empty].
  destruct (N.eqb_spec n2 0); (split; [discriminate|]; split; [discriminate|]); intros _; exists 0; (split; [apply lowered_refl|]); (split; [lia|]); [lia|discriminate].
Qed.

Section Step.
Context (M : reader_impl W) (HM : impl_ok M).
Context (deser : areader W -> res tag_error (otag T) * areader W) (into : areader W -> otag T -> res tag_error unit * otag T * areader W).
Context (odeser : reader_impl W -> W -> res tag_error (otag T) * W) (ointo : reader_impl W -> otag T -> W -> res tag_error unit * otag T * W).
Context (P : areader W -> Prop).
Hypothesis HP : closed P.
Hypothesis HD : deep P.
Hypothesis Gd : forall r, P r -> lrd lax QD deser r.
Hypothesis Gi : forall r t, P r -> target t -> lob lax QI (fun r => into r t) r.
Hypothesis God : forall M' u x u', lax -> impl_ok M' -> odeser M' u = (x, u') -> x <> Panic /\ (forall t, x = Ok t -> target t).
Hypothesis Goi : forall M' t u x t' u', lax -> impl_ok M' -> target t -> ointo M' t u = (x, t', u') -> x <> Panic /\ (returns x -> target t').
Notation user := (w_user c Z M deser into odeser ointo).
Lemma l_user n x r : P r -> lim r -> lmd lax Any1 (user n) (x, r).
Proof.
  intros Pr Lr y [s' r'] E1. unfold w_user in E1. destruct (w_exec c M deser into odeser ointo (z_value Z n x) r) as [z r1] eqn:Ee.
  destruct (l_exec lax c M HM Hc deser into odeser ointo P HP HD Gd Gi God Goi _ (ok_value _ _ HZ n x) r Pr Lr _ _ Ee) as (Np & Nf & Ht).
  destruct z as [[[err|] x']|err| |]; try (now elim Np); (assert (r' = r1) as -> by congruence).
  - assert (y = Err err) as -> by congruence. split; [discriminate|]. split; [discriminate|]. intros _. exact (Ht Logic.I).
  - assert (y = Ok tt) as -> by congruence. split; [discriminate|]. split; [discriminate|]. intros _. exact (Ht Logic.I).
  - assert (y = Err err) as -> by congruence. split; [discriminate|]. split; [discriminate|]. intros _. exact (Ht Logic.I).
  - assert (y = OutOfFuel) as -> by congruence. split; [discriminate|]. split; [auto|intros []].
Qed.
Lemma l_value t n r : P r -> lim r -> target t -> lob lax (fun _ t' _ => target t') (av_value M user deser t n) r.
Proof.
  intros Pr Lr Ht.
  assert (G1 : forall r, P r -> lrd lax (Lb 1) deser r).
  { intros r0 P0. eapply lok_weaken; [exact (Gd r0 P0)|]. intros [t0|err| |] d [H _]; unfold Lb; cbn [is_ok]; try discriminate. intros _. now destruct (H t0 eq_refl). }
  assert (R : forall S Q (m : @amethod W S unit) s (mk : S -> otag T), lmd lax Q m (s, r) -> (forall s', target (mk s')) -> lob lax (fun _ t' _ => target t') (ao_run m s mk) r).
  { intros S Q m s mk G Hk y v r' E1. unfold ao_run in E1. destruct (m (s, r)) as [x [s1 r1]] eqn:Em.
    assert (y = x /\ v = mk s1 /\ r' = r1) as (-> & -> & ->) by (repeat split; congruence).
    destruct (G _ _ Em) as (Np & Nf & H). split; [exact Np|]. split; [exact Nf|]. intros Rx. destruct (H Rx) as (d & L & _). eauto. }
  destruct t as [id v|x|id l|id l|id l]; cbn [av_value].
  - intros y t' r' E1. cbn [av_value] in E1. destruct (a_value M _ v n r) as [[x v'] r1] eqn:Ev. destruct Ht as [Hl Hb].
    assert (y = x /\ t' = OStd id v' /\ r' = r1) as (-> & -> & ->) by (repeat split; congruence). exact (l_std lax M HM _ v n r Hl Hb _ _ _ Ev).
  - apply (R _ Any1 (user n) x OUser); [now apply l_user|intros; exact Logic.I].
  - apply (R _ (Lb 0) (a_seq deser n) l (OSeq id)); [now apply (l_seq lax _ P)|intros; exact Logic.I].
  - apply (R _ (Lb 0) (a_arr M deser n) l (OArr id)); [now apply (l_arr lax M HM _ P)|intros; exact Logic.I].
  - apply (R _ (Lb 0) (a_dict M deser n) l (ODict id)); [now apply (l_dict lax M HM _ P)|intros; exact Logic.I].
Qed.
Notation vinto := (w_value_into Z (av_value M user deser)).
Lemma l_value_into n t r : P (ALimited r n) -> target t ->
  lob lax (fun y t' d => target t' /\ d <= n /\ (y = Ok tt -> ordinary t' -> d = n)) (vinto n t) r.
Proof.
  intros Pr Ht y t' r' E1. unfold w_value_into in E1. destruct (av_value M user deser t n (ALimited r n)) as [[x t1] lr] eqn:Ev.
  destruct (l_value t n (ALimited r n) Pr (lim_limited r n) Ht _ _ _ Ev) as (Np & Nf & H).
  assert (K : returns x -> exists d n' r1, lr = ALimited r1 n' /\ lowered d r r1 /\ n' + d = n /\ target t1).
  { intros R. destruct (H R) as (d & L & q). destruct lr as [|r1 n']; [contradiction|]. destruct L as [L E]. eauto 10. }
  destruct x as [[]|err| |].
  - destruct (K Logic.I) as (d & n' & r1 & -> & L & En & T1). destruct (w_check Z t1 (ALimited r1 n')) as [z lr'] eqn:Ek.
    assert (y = z /\ t' = t1 /\ r' = a_unlimit lr') as (-> & -> & ->) by (repeat split; congruence).
    destruct (l_check t1 r1 n' _ _ Ek) as (Np2 & Nf2 & H2). split; [exact Np2|]. split; [exact Nf2|]. intros R.
    destruct (H2 R) as (d0 & L0 & -> & Q0). destruct lr' as [|r2 n2]; [contradiction|]. destruct L0 as [L0 _]. exists (d + 0). cbn [a_unlimit].
    split; [eapply lowered_trans; eauto|]. split; [exact T1|]. split; [lia|]. intros Hy O. specialize (Q0 Hy O). lia.
  - destruct (K Logic.I) as (d & n' & r1 & -> & L & En & T1). assert (y = Err err /\ t' = t1 /\ r' = r1) as (-> & -> & ->) by (cbn [a_unlimit] in E1; repeat split; congruence).
    split; [discriminate|]. split; [discriminate|]. intros _. exists d. split; [exact L|]. split; [exact T1|]. split; [lia|discriminate].
  - now elim Np.
  - assert (y = OutOfFuel) as -> by congruence. split; [discriminate|]. split; [auto|intros []].
Qed.
Lemma l_create id r : id < two64 -> lrd lax (fun y d => d = 0 /\ forall t, y = Ok (Some t) -> target t) (w_create Z e id) r.
Proof.
  intros Hid. unfold w_create. destruct (z_create Z id) as [f|] eqn:Ef.
  - intros y r' E1. unfold bind, on_state, or_panic in E1. destruct (ok_create _ _ HZ id f (a_state r) Ef) as (t & u' & Eu & Ht). rewrite Eu in E1.
    apply pair_inv in E1 as [<- <-]. split; [discriminate|]. split; [discriminate|]. intros _. exists 0. split; [apply lowered_put|]. split; [reflexivity|].
    intros t0 [= <-]. exact Ht.
  - set (D := {| u_id := fun _ : T => 0; u_size := fun _ => 0; u_serialize := fun _ w => (Panic, w); u_to_bytes := fun _ => Panic;
                 u_deserialize_value := fun _ _ x => (Panic, x); u_create := fun _ => None |}).
    change (map_ok (option_map emb) (create_tag e id)) with (o_create D e id).
    apply lpure.
    + unfold o_create. cbn [u_create D]. specialize (Htot id). destruct (create_tag e id); exact Htot.
    + split; [reflexivity|]. intros t Ht. exact (create_target D e id t He Hid Ht).
Qed.
Definition starts (r : areader W) : Prop := forall n r2 d, n <= 536870912 -> lowered d r r2 -> 1 <= d -> P (ALimited r2 n).
Lemma l_step r : starts r -> lrd lax QD (w_step Z e M vinto) r.
Proof.
  intros H. unfold w_step. eapply lok_bind; [now apply l_ilint| |].
  2:{ intros err d [Hd _]. split; [discriminate|lia]. }
  intros id r1 d1 Ei L1 [Hd1 Q1]. specialize (Q1 eq_refl). eapply lok_bind; [now apply l_tag_size| |].
  2:{ intros err d Hd. cbv beta in *. split; [discriminate|lia]. }
  intros n r2 d2 En L2 Hd2. pose proof (tag_size_le M _ _ _ _ En) as Hn. cbv beta in Hd2.
  pose proof (lowered_trans _ _ _ _ _ L1 L2) as L12.
  eapply lok_bind; [apply l_create; exact (ilint_lt M HM _ _ _ Ei)| |].
  2:{ intros err d [-> _]. split; [discriminate|lia]. }
  intros created r3 d3 _ L3 [-> Ht]. destruct created as [t|].
  2:{ apply lpure; [exact Logic.I|]. split; [discriminate|lia]. }
  intros y r' E1. destruct (vinto n t r3) as [[x t'] r4] eqn:Ev. apply pair_inv in E1 as [<- <-].
  pose proof (lowered_trans _ _ _ _ _ L12 L3) as L123.
  destruct (l_value_into n t r3 (H n r3 _ Hn L123 ltac:(lia)) (Ht t eq_refl) _ _ _ Ev) as (Np & Nf & K).
  destruct x as [[]|err| |]; cbn [map_ok].
  - split; [discriminate|]. split; [discriminate|]. intros _. destruct (K Logic.I) as (d & L & T1 & Hd & _). exists d. split; [exact L|].
    split; [intros t0 E0; apply Ok_inv in E0; subst; split; [exact T1|lia]|lia].
  - split; [discriminate|]. split; [discriminate|]. intros _. destruct (K Logic.I) as (d & L & T1 & Hd & _). exists d. split; [exact L|].
    split; [discriminate|lia].
  - now elim Np.
  - split; [discriminate|]. split; [auto|intros []].
Qed.
Lemma l_into r t : starts r -> target t -> lob lax QI (fun r => w_into Z M vinto r t) r.
Proof.
  intros H Ht y t' r' E1. unfold w_into in E1.
  assert (G : lrd lax (fun y d => d <= 18 /\ forall n, y = Ok n -> 1 <= d /\ n <= 536870912)
     (id <- a_ilint M ;; mine <- w_id Z t ;; if negb (id =? mine) then fail UnexpectedTagType else a_tag_size M id) r).
  { eapply lok_bind; [now apply l_ilint| |].
    2:{ intros err d [Hd _]. split; [lia|discriminate]. }
    intros id r1 d1 Ei L1 [Hd1 Q1]. specialize (Q1 eq_refl). eapply lok_bind; [apply l_id| |].
    2:{ intros err d [-> _]. split; [lia|discriminate]. }
    intros mine r2 d2 _ _ [-> _]. destruct (negb _).
    - apply lpure; [exact Logic.I|]. split; [lia|discriminate].
    - intros z r3 E3. destruct (l_tag_size lax M HM id r2 _ _ E3) as (Np & Nf & K). split; [exact Np|]. split; [exact Nf|]. intros R.
      destruct (K R) as (d & L & Hd). exists d. split; [exact L|]. split; [lia|]. intros n ->. split; [lia|]. exact (tag_size_le M _ _ _ _ E3). }
  destruct ((id <- a_ilint M ;; mine <- w_id Z t ;; if negb (id =? mine) then fail UnexpectedTagType else a_tag_size M id) r) as [x r1] eqn:Eh.
  destruct (G _ _ Eh) as (Np & Nf & K). destruct x as [n|err| |].
  - destruct (K Logic.I) as (d & L & Hd & Hn). destruct (Hn n eq_refl) as [H1 H2].
    eapply lend_app; [exact L|exact (l_value_into n t r1 (H n r1 d H2 L H1) Ht _ _ _ E1)|]. intros d2 (T1 & D2 & _). split; [exact T1|lia].
  - assert (y = Err err /\ t' = t /\ r' = r1) as (-> & -> & ->) by (repeat split; congruence). split; [discriminate|]. split; [discriminate|]. intros _.
    destruct (K Logic.I) as (d & L & Hd & _). exists d. split; [exact L|]. split; [exact Ht|lia].
  - now elim Np.
  - assert (y = OutOfFuel) as -> by congruence. split; [discriminate|]. split; [auto|intros []].
Qed.
End Step.
End Factory.

Section Depth.
Context {T W : Type} (c : cfg) (Z : reading_impl T W) (e : engine).
Hypothesis Hc : 1 <= usize_max c.
Hypothesis Htot : engine_total e.
Hypothesis He : engine_bytes e.
Notation des := (w_deserialize c Z e).
Notation inn := (w_deserialize_into c Z e).
Definition fine (lax : Prop) (f : nat) (M : reader_impl W) (r : areader W) : Prop :=
  lrd lax QD (des f M) r /\ forall t, target t -> lob lax QI (fun r => inn f M r t) r.
Lemma fuel_step lax f M (P : areader W -> Prop) r : reading_ok lax Z -> impl_ok M -> closed P -> deep P -> (forall r, P r -> fine lax f M r) ->
  (lax -> forall M' r, impl_ok M' -> fine lax f M' r) -> starts P r -> fine lax (S f) M r.
Proof.
  intros HZ HM HP HD G GO Hs. unfold fine, w_deserialize, w_deserialize_into. cbn [w_fuel].
  set (od := fun M' u => let '(x, r) := fst (w_fuel c Z e f M') (ABase u) in (x, a_state r)).
  set (oi := fun M' t u => let '(x, t', r) := snd (w_fuel c Z e f M') (ABase u) t in (x, t', a_state r)).
  assert (God : forall M' u x u', lax -> impl_ok M' -> od M' u = (x, u') -> x <> Panic /\ (forall t, x = Ok t -> target t)).
  { intros M' u x u' Hl Hm Eo. unfold od in Eo. destruct (fst (w_fuel c Z e f M') (ABase u)) as [z r1] eqn:Ez. apply pair_inv in Eo as [<- _].
    destruct (proj1 (GO Hl M' (ABase u) Hm) _ _ Ez) as (Np & _ & K). split; [exact Np|]. intros t ->. destruct (K Logic.I) as (d & _ & [q _]). now destruct (q t eq_refl). }
  assert (Goi : forall M' t u x t' u', lax -> impl_ok M' -> target t -> oi M' t u = (x, t', u') -> x <> Panic /\ (returns x -> target t')).
  { intros M' t u x t' u' Hl Hm Ht Eo. unfold oi in Eo. destruct (snd (w_fuel c Z e f M') (ABase u) t) as [[z t1] r1] eqn:Ez.
    assert (x = z /\ t' = t1) as [-> ->] by (split; congruence).
    destruct (proj2 (GO Hl M' (ABase u) Hm) t Ht _ _ _ Ez) as (Np & _ & K). split; [exact Np|]. intros R. destruct (K R) as (d & _ & q & _). exact q. }
  assert (Gd : forall r, P r -> lrd lax QD (fst (w_fuel c Z e f M)) r) by (intros r0 P0; exact (proj1 (G r0 P0))).
  assert (Gi : forall r t, P r -> target t -> lob lax QI (fun r => snd (w_fuel c Z e f M) r t) r) by (intros r0 t P0; exact (proj2 (G r0 P0) t)).
  cbn [fst snd]. split; [|intros t Ht].
  - exact (l_step lax c Z e Hc HZ Htot He M HM _ _ od oi P HP HD Gd Gi God Goi r Hs).
  - exact (l_into lax c Z Hc HZ M HM _ _ od oi P HP HD Gd Gi God Goi r t Hs Ht).
Qed.
Lemma fine_any f : forall M r, reading_ok True Z -> impl_ok M -> fine True f M r.
Proof.
  induction f as [|f IH]; intros M r HZ HM.
  - split; [|intros t Ht]; unfold w_deserialize, w_deserialize_into; cbn [w_fuel fst snd].
    + intros y r' [= <- <-]. split; [discriminate|]. split; [auto|intros []].
    + intros y v r' [= <- _ _]. split; [discriminate|]. split; [auto|intros []].
  - apply (fuel_step True f M (fun _ => True)); auto; [intros ? ? ? ? ?; exact Logic.I|intros ? ? ?; exact Logic.I|].
    intros n r2 d _ _ _. exact Logic.I.
Qed.
Lemma within_pos j (r : areader W) : within j r -> (0 < j)%nat.
Proof. induction r; cbn [within]; [tauto|]. intros [H|H]; [lia|auto]. Qed.
Lemma closed_within f : closed (@within W f).
Proof. intros d r r' Wf L. destruct (lowered_within d r f r' L Wf) as [_ K]. eapply within_mono; [|exact K]. lia. Qed.
Lemma fine_within f : forall M r, reading_ok False Z -> impl_ok M -> within f r -> fine False f M r.
Proof.
  induction f as [|f IH]; intros M r HZ HM Wf; [apply within_pos in Wf; lia|].
  apply (fuel_step False f M (within f)); auto; [apply closed_within|apply deep_within|tauto|].
  intros n r2 d _ L Hd. right. destruct (lowered_within d r _ r2 L Wf) as [_ K]. eapply within_mono; [|exact K]. lia.
Qed.
Lemma fine_enough f : forall M r, reading_ok False Z -> impl_ok M -> 536870913 < N.of_nat f -> fine False f M r.
Proof.
  intros M r HZ HM Lf. destruct f as [|f]; [lia|].
  apply (fuel_step False f M (within f)); auto; [apply closed_within|apply deep_within|intros; now apply fine_within|tauto|].
  intros n r2 d Hn _ _. left. lia.
Qed.
End Depth.

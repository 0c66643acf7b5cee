(** Proofs about WorldRead.v: the order of the calls of the code of the user. *)
From Verif Require Import Base BaseFacts Types Spec SpecFacts IO IOSpec IOFacts Logic HistFacts ILInt ILIntFacts Data DataFacts Tags TagsFacts
  Factory FactoryFacts DecodeFacts DeserFacts IntoFacts ClosedFacts Open KinFacts OpenFacts Prog ProgFacts IntoProg IntoProgFacts IntoCallFacts
  Any AnyFacts AnyScan AnyProg AnyProgFacts AnyFull AnyFullFacts AnyFullRuns WorldRead WorldReadFacts.

(** Calls of code of the user: [read], [read_all] of a buffer of [n] bytes, a creator
    and ILTag::id of a user object, with its answer. *)
Inductive ev (T : Type) := VRead | VFill (n : N) | VCreate (id : N) | VId (x : T) (answer : option N).
Arguments VRead {T}.
Arguments VFill {T} n.
Arguments VCreate {T} id.
Arguments VId {T} x answer.

(** The same code, with a log of its calls in the state. *)
Definition logging {T W A} (v : A -> ev T) (f : W -> A * W) : W * list (ev T) -> A * (W * list (ev T)) :=
  fun '(u, l) => let '(a, u') := f u in (a, (u', l ++ [v a])).
Definition logged_reader {T W} (M : reader_impl W) : reader_impl (W * list (ev T)) := {|
  u_read := logging (fun _ => VRead) (u_read M);
  u_read_all := fun buff => logging (fun _ => VFill (lenN buff)) (u_read_all M buff) |}.
Fixpoint logged_prog {T I W A} (p : wprog I W A) : wprog I (W * list (ev T)) A :=
  match p with
  | WDone a => WDone a
  | WAbort => WAbort
  | WAct f k => WAct (fun '(u, l) => let '(b, u') := f u in (b, (u', l))) (fun b => logged_prog (k b))
  | WRead k => WRead (fun x => logged_prog (k x))
  | WReadAll old k => WReadAll old (fun x b => logged_prog (k x b))
  | WSkip n k => WSkip n (fun x => logged_prog (k x))
  | WSkip64 n k => WSkip64 n (fun x => logged_prog (k x))
  | WTag k => WTag (fun x => logged_prog (k x))
  | WInto t k => WInto t (fun x t' => logged_prog (k x t'))
  | WLimited n body k => WLimited n (logged_prog body) (fun b m => logged_prog (k b m))
  | WOther M k => WOther (logged_reader M) (fun x => logged_prog (k x))
  | WOtherInto M t k => WOtherInto (logged_reader M) t (fun x t' => logged_prog (k x t'))
  end.
Definition logged {T W} (Z : reading_impl T W) : reading_impl T (W * list (ev T)) := {|
  z_id := fun x => logging (VId x) (z_id Z x);
  z_value := fun n x => logged_prog (z_value Z n x);
  z_create := fun id => option_map (logging (fun _ => VCreate id)) (z_create Z id) |}.
Definition the_log {T W} (r : areader (W * list (ev T))) : list (ev T) := snd (a_state r).

(** The logs there are.  [calls_tag b l]: deserialize, which has succeeded if [b].  The
    id and the size are read first; then the creator, if there is one, is called once;
    then comes the value; then a user object that has read its value is asked for its
    id, twice unless it is that of an ILIntTag.  [calls_into]: deserialize_into, which asks
    for the id also between the id and the size.  [calls_value]: any sequence of calls of
    readers and of these two. *)
Inductive a_call {T} : ev T -> Prop := call_read : a_call VRead | call_fill n : a_call (VFill n).
Definition at_end {T} (x : T) (b : bool) (l : list (ev T)) : Prop :=
  (b = false /\ l = []) \/ (b = true /\ l = [VId x (Some IL_ILINT_TAG_ID)]) \/
  (exists i j, l = [VId x (Some i); VId x (Some j)] /\ i <> IL_ILINT_TAG_ID /\ (j = IL_SIGNED_ILINT_TAG_ID -> b = true)).
Definition upto {T} (n : nat) (l : list (ev T)) : Prop := Forall a_call l /\ (length l <= n)%nat.
Definition from_1_to {T} (n : nat) (l : list (ev T)) : Prop := Forall a_call l /\ (1 <= length l <= n)%nat.
Inductive calls_tag {T} (made : N -> Prop) : bool -> list (ev T) -> Prop :=
| ct_header h : upto 4 h -> calls_tag made false h
| ct_library h v b : from_1_to 4 h -> calls_value made v -> calls_tag made b (h ++ v)
| ct_made h id v b : from_1_to 4 h -> made id -> calls_value made v -> calls_tag made b (h ++ VCreate id :: v)
| ct_user h id v x i b : from_1_to 4 h -> made id -> calls_value made v -> at_end x b i -> calls_tag made b (h ++ VCreate id :: v ++ i)
with calls_into {T} (made : N -> Prop) : bool -> list (ev T) -> Prop :=
| ci_header h : upto 2 h -> calls_into made false h
| ci_library h v b : from_1_to 4 h -> calls_value made v -> calls_into made b (h ++ v)
| ci_other h x a h2 : from_1_to 2 h -> upto 2 h2 -> calls_into made false (h ++ VId x a :: h2)
| ci_user h x a h2 v x' b i : from_1_to 2 h -> upto 2 h2 -> calls_value made v -> at_end x' b i -> calls_into made b (h ++ VId x a :: h2 ++ v ++ i)
with calls_value {T} (made : N -> Prop) : list (ev T) -> Prop :=
| cv_none : calls_value made []
| cv_read c l : a_call c -> calls_value made l -> calls_value made (c :: l)
| cv_tag b l l' : calls_tag made b l -> calls_value made l' -> calls_value made (l ++ l')
| cv_into b l l' : calls_into made b l -> calls_value made l' -> calls_value made (l ++ l').

Lemma cv_app {T} made (l l' : list (ev T)) : calls_value made l -> calls_value made l' -> calls_value made (l ++ l').
Proof.
  induction 1 as [|c l Hc _ IH|b l l2 Ht _ IH|b l l2 Ht _ IH]; intros K; [exact K|cbn [app]; constructor; auto|rewrite <- app_assoc; econstructor; eauto|].
  rewrite <- app_assoc. eapply cv_into; eauto.
Qed.
Lemma cv_calls {T} made (l : list (ev T)) : Forall a_call l -> calls_value made l.
Proof. induction 1; [constructor|now constructor]. Qed.
Lemma cv_one {T} made b (l : list (ev T)) : calls_tag made b l -> calls_value made l.
Proof. intros H. rewrite <- (app_nil_r l). econstructor; [exact H|constructor]. Qed.
Lemma cv_one_into {T} made b (l : list (ev T)) : calls_into made b l -> calls_value made l.
Proof. intros H. rewrite <- (app_nil_r l). eapply cv_into; [exact H|constructor]. Qed.
Lemma upto_app {T} n m k (l l' : list (ev T)) : upto n l -> upto m l' -> (n + m <= k)%nat -> upto k (l ++ l').
Proof. intros [H A] [K B] L. split; [now apply Forall_app|]. rewrite app_length. lia. Qed.
Lemma from_app {T} n m k (l l' : list (ev T)) : from_1_to n l -> upto m l' -> (n + m <= k)%nat -> from_1_to k (l ++ l').
Proof. intros [H A] [K B] L. split; [now apply Forall_app|]. rewrite app_length. lia. Qed.

Section WorldLog.
Context {T W : Type}.
Notation LW := (W * list (ev T))%type.
Implicit Type r : areader LW.
Lemma log_limited r n : the_log (ALimited r n) = the_log r. Proof. reflexivity. Qed.
Lemma log_unlimit r : the_log (a_unlimit r) = the_log r. Proof. now destruct r. Qed.
Lemma state_put (u : LW) r : a_state (a_put u r) = u.
Proof. induction r; cbn; auto. Qed.
Definition vl {X E A} (pr : X -> areader LW) (G : bool -> list (ev T) -> Prop) (f : X -> res E A * X) (x : X) : Prop :=
  forall y x', f x = (y, x') -> returns y -> exists l, the_log (pr x') = the_log (pr x) ++ l /\ G (is_ok y) l.
Definition vr {E A} := @vl (areader LW) E A (fun r => r).
Definition vm {S A} := @vl (S * areader LW) tag_error A snd.
Definition vo {V} (G : bool -> V -> list (ev T) -> Prop) (f : areader LW -> res tag_error unit * V * areader LW) r : Prop :=
  forall y v r', f r = (y, v, r') -> returns y -> exists l, the_log r' = the_log r ++ l /\ G (is_ok y) v l.
Lemma v_weaken {X E A} pr (G1 G : bool -> list (ev T) -> Prop) (f : X -> res E A * X) x : vl pr G1 f x -> (forall b l, G1 b l -> G b l) -> vl pr G f x.
Proof. intros H K y x' E1 R. destruct (H _ _ E1 R) as (l & El & q). eauto. Qed.
Lemma v_bind {X E A B} pr (G1 G2 G : bool -> list (ev T) -> Prop) (m : X -> res E A * X) (f : A -> X -> res E B * X) x :
  vl pr G1 m x -> (forall a x', m x = (Ok a, x') -> vl pr G2 (f a) x') ->
  (forall l, G1 false l -> G false l) -> (forall b l1 l2, G1 true l1 -> G2 b l2 -> G b (l1 ++ l2)) -> vl pr G (bind m f) x.
Proof.
  intros H F Ge Gs y x' E1 R. unfold bind in E1. destruct (m x) as [a x1] eqn:Em. destruct a as [a|e| |].
  - destruct (H _ _ Em Logic.I) as (l1 & El & q). destruct (F _ _ eq_refl _ _ E1 R) as (l2 & E2 & q2). exists (l1 ++ l2). rewrite E2, El, app_assoc. auto.
  - apply pair_inv in E1 as [<- <-]. destruct (H _ _ Em Logic.I) as (l1 & El & q). eauto.
  - apply pair_inv in E1 as [<- <-]. elim R.
  - apply pair_inv in E1 as [<- <-]. elim R.
Qed.
Lemma v_pure {X E A} pr (G : bool -> list (ev T) -> Prop) (y : res E A) (x : X) : G (is_ok y) [] -> vl pr G (fun s => (y, s)) x.
Proof. intros H y' x' E1 R. apply pair_inv in E1 as [<- <-]. exists []. now rewrite app_nil_r. Qed.
Context (made : N -> Prop).
Definition V (b : bool) (l : list (ev T)) : Prop := calls_value made l.
Lemma v_then {X E A B} pr (m : X -> res E A * X) (f : A -> X -> res E B * X) x : vl pr V m x -> (forall a x', vl pr V (f a) x') -> vl pr V (bind m f) x.
Proof. intros H F. eapply v_bind; [exact H|intros; apply F|auto|]. intros b l1 l2. apply cv_app. Qed.
Lemma v_nop {X E A} pr (y : res E A) (x : X) : vl pr V (fun s => (y, s)) x.
Proof. apply v_pure. constructor. Qed.

Section Leaf.
Context (M : reader_impl W).
Notation LM := (logged_reader (T := T) M).
Lemma v_read r : vr (fun b l => upto 1 l /\ (b = true -> from_1_to 1 l)) (a_read LM) r.
Proof.
  intros y r' E1 R. revert y r' E1 R. induction r as [[u l0]|s IH n]; intros y r' E1 R; cbn [a_read] in E1.
  - cbn in E1. destruct (u_read M u) as [x u1]. apply pair_inv in E1 as [<- <-]. exists [VRead]. split; [reflexivity|]. repeat split; cbn; auto; repeat constructor.
  - destruct (n <? 1); [apply pair_inv in E1 as [<- <-]; exists []; rewrite app_nil_r; repeat split; cbn; auto; discriminate|].
    destruct (a_read LM s) as [x s'] eqn:Es. apply pair_inv in E1 as [<- <-]. exact (IH _ _ eq_refl R).
Qed.
Lemma v_read_all buff r : forall y b r', a_read_all LM buff r = (y, b, r') -> returns y -> exists l, the_log r' = the_log r ++ l /\ upto 1 l.
Proof.
  induction r as [[u l0]|s IH n]; intros y b r' E1 R; cbn [a_read_all] in E1.
  - cbn in E1. destruct (u_read_all M buff u) as [[x b1] u1]. apply pair_inv in E1 as [_ <-]. exists [VFill (lenN buff)]. split; [reflexivity|]. repeat split; cbn; auto; repeat constructor.
  - destruct (n <? lenN buff); [apply pair_inv in E1 as [_ <-]; exists []; rewrite app_nil_r; repeat split; cbn; auto|].
    destruct (a_read_all LM buff s) as [[x b1] s'] eqn:Es. apply pair_inv in E1 as [E1 <-]. apply pair_inv in E1 as [<- _]. exact (IH _ _ _ eq_refl R).
Qed.
Definition Gi (b : bool) (l : list (ev T)) : Prop := upto 2 l /\ (b = true -> from_1_to 2 l).
Lemma v_lift {E E' A} G (f : E -> E') (m : areader LW -> res E A * areader LW) r : vr G m r -> vr G (lift_err f m) r.
Proof.
  intros H y r' E1 R. unfold lift_err in E1. destruct (m r) as [x r1] eqn:Em. apply pair_inv in E1 as [<- <-].
  destruct (H _ _ Em) as (l & E2 & q); [now destruct x|]. exists l. split; [exact E2|]. now destruct x.
Qed.
Lemma v_ilint r : vr Gi (a_ilint LM) r.
Proof.
  apply v_lift, v_lift. unfold a_decode. eapply v_bind; [apply v_lift, v_read| | |].
  - intros h r1 _. cbv zeta. apply (v_weaken _ (fun _ l => upto 1 l)); [|intros b l H; exact H]. destruct (_ =? 1); [apply v_pure; repeat constructor|].
    eapply (v_bind _ (fun _ l => upto 1 l) (fun _ l => l = [])).
    + apply v_lift. intros y r' E1 R. unfold a_fetch in E1. destruct (a_read_all LM _ r1) as [[x b] r2] eqn:Er. apply pair_inv in E1 as [<- <-].
      exact (v_read_all _ _ _ _ _ Er ltac:(now destruct x)).
    + intros body r2 _. now apply v_pure.
    + auto.
    + intros b l1 l2 H ->. now rewrite app_nil_r.
  - intros l [[H1 H2] _]. split; [split; [exact H1|lia]|discriminate].
  - intros b l1 l2 [_ H1] H2. specialize (H1 eq_refl). assert (K : from_1_to 2 (l1 ++ l2)) by exact (from_app 1 1 2 _ _ H1 H2 (le_n _)).
    split; [destruct K; split; [assumption|lia]|auto].
Qed.
Lemma v_tag_size id r : vr (fun _ l => upto 2 l) (a_tag_size LM id) r.
Proof.
  unfold a_tag_size. eapply (v_bind _ (fun _ l => upto 2 l) (fun _ l => l = [])).
  - destruct (is_implicit_tag id); [apply v_pure; repeat constructor; cbn; lia|]. eapply v_weaken; [apply v_ilint|]. intros b l [H _]. exact H.
  - intros n r1 _. now apply v_pure.
  - auto.
  - intros b l1 l2 H ->. now rewrite app_nil_r.
Qed.
Lemma v_ilint_v r : vr V (a_ilint LM) r.
Proof. eapply v_weaken; [apply v_ilint|]. intros b l [[H _] _]. now apply cv_calls. Qed.
Lemma v_fetch n r : vr V (a_fetch LM n) r.
Proof.
  intros y r' E1 R. unfold a_fetch in E1. destruct (a_read_all LM _ r) as [[x b] r2] eqn:Er. apply pair_inv in E1 as [<- <-].
  destruct (v_read_all _ _ _ _ _ Er ltac:(now destruct x)) as (l & El & Hl & _). exists l. split; [exact El|now apply cv_calls].
Qed.
Lemma v_read_v r : vr V (a_read LM) r.
Proof. eapply v_weaken; [apply v_read|]. intros b l [[H _] _]. now apply cv_calls. Qed.
Lemma v_bytes n r : vr V (a_bytes LM n) r.
Proof. apply v_lift, v_fetch. Qed.
Lemma v_uint w r : vr V (a_uint LM w) r.
Proof. apply v_lift. destruct w; [apply v_read_v|..]; (apply v_then; [apply v_fetch|intros; apply v_nop]). Qed.
Lemma v_sint w r : vr V (a_sint LM w) r.
Proof. apply v_lift. destruct w; [apply v_then; [apply v_read_v|intros; apply v_nop]|..]; (apply v_then; [apply v_fetch|intros; apply v_nop]). Qed.
Lemma v_decode r : vr V (a_decode LM) r.
Proof.
  unfold a_decode. apply v_then; [apply v_lift, v_read_v|]. intros h r1. cbv zeta. destruct (_ =? 1); [apply v_nop|].
  apply v_then; [apply v_lift, v_fetch|]. intros. apply v_nop.
Qed.
Lemma v_silint r : vr V (a_silint LM) r.
Proof. apply v_lift, v_lift. unfold a_signed_decode. apply v_then; [apply v_decode|]. intros. apply v_nop. Qed.
Lemma v_chunks f : forall buff n r, vr V (skip_chunks (a_read_all LM) f buff n) r.
Proof.
  induction f as [|f IH]; intros buff n r y r' E1 R; cbn [skip_chunks] in E1; (destruct (n =? 0); [apply pair_inv in E1 as [<- <-]; exists []; rewrite app_nil_r; split; [reflexivity|constructor]|]).
  - apply pair_inv in E1 as [<- _]. elim R.
  - destruct (a_read_all LM _ r) as [[x b] r2] eqn:Er. destruct x as [[]|err| |].
    + destruct (v_read_all _ _ _ _ _ Er Logic.I) as (l & El & Hl & _). destruct (IH _ _ _ _ _ E1 R) as (l2 & E2 & H2).
      exists (l ++ l2). rewrite E2, El, app_assoc. split; [reflexivity|]. apply cv_app; [now apply cv_calls|exact H2].
    + apply pair_inv in E1 as [<- <-]. destruct (v_read_all _ _ _ _ _ Er Logic.I) as (l & El & Hl & _). exists l. split; [exact El|now apply cv_calls].
    + apply pair_inv in E1 as [<- _]. elim R.
    + apply pair_inv in E1 as [<- _]. elim R.
Qed.
Lemma v_skip n r : vr V (a_skip LM n) r.
Proof. apply v_chunks. Qed.
Lemma v_skip64 c n r : vr V (a_skip_u64 LM c n) r.
Proof.
  unfold a_skip_u64, default_skip_u64. generalize (S (N.to_nat (n / usize_max c))). intros f. revert n r.
  induction f as [|f IH]; intros n r y r' E1 R; cbn [skip_pieces] in E1; (destruct (n =? 0); [apply pair_inv in E1 as [<- <-]; exists []; rewrite app_nil_r; split; [reflexivity|constructor]|]).
  - apply pair_inv in E1 as [<- _]. elim R.
  - destruct (a_skip LM _ r) as [x r2] eqn:Er. destruct x as [[]|err| |].
    + destruct (v_skip _ _ _ _ Er Logic.I) as (l & El & Hl). destruct (IH _ _ _ _ E1 R) as (l2 & E2 & H2).
      exists (l ++ l2). rewrite E2, El, app_assoc. split; [reflexivity|]. now apply cv_app.
    + apply pair_inv in E1 as [<- <-]. exact (v_skip _ _ _ _ Er Logic.I).
    + apply pair_inv in E1 as [<- _]. elim R.
    + apply pair_inv in E1 as [<- _]. elim R.
Qed.
End Leaf.

(** ** Methods *)
Lemma v_on {S A} G m (x : S * areader LW) : vr G m (snd x) -> vm (A := A) G (a_on_reader m) x.
Proof.
  destruct x as [s r]. cbn [snd]. intros H y [s' r'] E1 R. cbn [a_on_reader] in E1. destruct (m r) as [a r1] eqn:Em.
  assert (y = a /\ r' = r1) as [-> ->] by (split; congruence). exact (H _ _ Em R).
Qed.
Lemma v_modify {S} (f : S -> S) x : vm V (a_modify f) x.
Proof. destruct x as [s r]. intros y [s' r'] E1 R. cbn [a_modify] in E1. assert (r' = r) as -> by congruence. exists []. rewrite app_nil_r. split; [reflexivity|constructor]. Qed.
Lemma v_limited {S A} n (m : @amethod LW S A) s r : (forall x, vm V m x) -> vm V (a_limited n m) (s, r).
Proof.
  intros H y [s' r'] E1 R. unfold a_limited in E1. destruct (m (s, ALimited r n)) as [a [s1 r1]] eqn:Em.
  assert (y = a /\ r' = a_unlimit r1) as [-> ->] by (split; congruence). cbn [snd]. rewrite log_unlimit. exact (H _ _ _ Em R).
Qed.
Lemma v_ensure_empty {S} e (x : S * areader LW) : vm V (a_ensure_empty e) x.
Proof. intros y x' E1 R. unfold a_ensure_empty in E1. apply pair_inv in E1 as [_ <-]. exists []. rewrite app_nil_r. split; [reflexivity|constructor]. Qed.
Lemma v_while {S A} (m : areader LW -> res tag_error A * areader LW) (store : A -> S -> S) : (forall r, vr V m r) -> forall f x, vm V (a_while f m store) x.
Proof.
  intros H. induction f as [|f IH]; intros x y x' E1 R; cbn [a_while] in E1; (destruct (a_empty (snd x)); [apply pair_inv in E1 as [_ <-]; exists []; rewrite app_nil_r; split; [reflexivity|constructor]|]).
  - apply pair_inv in E1 as [<- _]. elim R.
  - revert E1 R. eapply v_then; [apply v_on, H|]. intros a x1. apply v_then; [apply v_modify|]. intros _ x2. apply IH.
Qed.
Lemma v_repeat {S A} (m : areader LW -> res tag_error A * areader LW) (store : A -> S -> S) : (forall r, vr V m r) -> forall f n x, vm V (a_repeat f m store n) x.
Proof.
  intros H. induction f as [|f IH]; intros n x; cbn [a_repeat]; (destruct (n =? 0); [apply v_nop|]); [apply v_nop|].
  apply v_then; [apply v_on, H|]. intros a x1. apply v_then; [apply v_modify|]. intros _ x2. apply IH.
Qed.
Lemma v_limited' {S A} n (m : @amethod LW S A) x : (forall x, vm V m x) -> vm V (a_limited n m) x.
Proof. destruct x as [s r]. apply v_limited. Qed.
Section Std.
Context (M : reader_impl W).
Notation LM := (logged_reader (T := T) M).
Lemma v_set {A} (m : areader LW -> res tag_error A * areader LW) x : (forall r, vr V m r) -> vm V (a_set_from m) x.
Proof. intros H. unfold a_set_from. apply v_then; [apply v_on, H|]. intros. apply v_modify. Qed.
Lemma v_check {S} k n (x : S * areader LW) : vm V (a_check_size k n) x.
Proof. unfold a_check_size. destruct (_ =? _); apply v_nop. Qed.
Lemma v_in_place k (x : list N * areader LW) : vm V (fun '(vec, r) => let '(y, vec', r') := a_into_slice LM (k vec) r in (y, (vec', r'))) x.
Proof.
  destruct x as [vec r]. intros y [vec' r'] E1 R. unfold a_into_slice in E1. destruct (a_read_all LM _ r) as [[z b] r2] eqn:Er.
  assert (y = map_err TagIO z /\ r' = r2) as [-> ->] by (split; congruence).
  destruct (v_read_all _ _ _ _ _ _ Er ltac:(now destruct z)) as (l & El & Hl & _). exists l. split; [exact El|now apply cv_calls].
Qed.
Lemma v_raw n x : vm V (a_raw LM n) x.
Proof. exact (v_in_place (resizeN n 0) x). Qed.
Lemma v_string r : vr V (a_string_tag LM) r.
Proof.
  assert (G : vm V (a_string_tag_into LM) ([], r)).
  { unfold a_string_tag_into. apply v_then; [apply v_on, v_ilint_v|]. intros id x1. apply v_then; [destruct (negb _); apply v_nop|]. intros _ x2.
    apply v_then; [apply v_on, v_ilint_v|]. intros len x3. apply v_then; [apply v_nop|]. intros k x4.
    apply v_then; [apply v_on, v_bytes|]. intros tmp x5. destruct (from_utf8 tmp); [apply v_modify|apply v_nop]. }
  intros y r' E1 R. unfold a_string_tag in E1. destruct (a_string_tag_into LM ([], r)) as [z [s1 r1]] eqn:Es.
  apply pair_inv in E1 as [<- <-]. exact (G _ _ Es ltac:(now destruct z)).
Qed.
End Std.
Section Values.
Context (M : reader_impl W).
Notation LM := (logged_reader (T := T) M).
Context {I : Type} (deser : areader LW -> res tag_error I * areader LW).
Hypothesis G : forall r, vr V deser r.
Lemma v_seq n s r : vm V (a_seq deser n) (s, r).
Proof. apply v_limited. intros x. apply v_then; [apply v_modify|]. intros _ x1. unfold a_fuelled. now apply v_while. Qed.
Lemma v_arr n s r : vm V (a_arr LM deser n) (s, r).
Proof.
  apply v_limited. intros x. apply v_then; [apply v_on, v_ilint_v|]. intros count x1. apply v_then; [destruct (_ <? _); apply v_nop|]. intros _ x2.
  apply v_then; [apply v_modify|]. intros _ x3. apply v_then; [unfold a_fuelled; now apply v_repeat|]. intros _ x4. apply v_ensure_empty.
Qed.
Lemma v_dict n s r : vm V (a_dict LM deser n) (s, r).
Proof.
  apply v_limited. intros x. apply v_then; [apply v_on, v_ilint_v|]. intros count x1.
  apply v_then; [apply v_modify|]. intros _ x3. apply v_then; [unfold a_fuelled; apply v_repeat|intros _ x4; apply v_ensure_empty].
  intros r0. apply v_then; [apply v_string|]. intros k r1. apply v_then; [apply G|]. intros. apply v_nop.
Qed.
End Values.
Ltac step := apply v_then; [|intros].
Lemma v_std (M : reader_impl W) v n r : vo (fun _ _ l => calls_value made l) (a_value (logged_reader M) (fun r => (Panic, r)) v n) r.
Proof.
  assert (R : forall S (m : @amethod LW S unit) s mk, vm V m (s, r) -> vo (fun _ _ l => calls_value made l) (a_run m s mk) r).
  { intros S m s mk H y v' r' E1 Ry. unfold a_run in E1. destruct (m (s, r)) as [z [s1 r1]] eqn:Em.
    assert (y = z /\ r' = r1) as [-> ->] by (split; congruence). exact (H _ _ Em Ry). }
  assert (Gn : forall r, vr (E := tag_error) (A := tag) V (fun r => (Panic, r)) r) by (intros; apply v_nop).
  destruct v; cbn [a_value]; apply R.
  - apply v_check.
  - unfold a_bool. step; [apply v_check|]. step; [apply v_on, v_uint|]. destruct (_ =? 0); [apply v_modify|]. destruct (_ =? 1); [apply v_modify|apply v_nop].
  - unfold a_uint_value. step; [apply v_check|]. apply v_set. apply v_uint.
  - unfold a_sint_value. step; [apply v_check|]. apply v_set. apply v_sint.
  - unfold a_bin32. step; [apply v_check|]. apply v_set. apply v_uint.
  - unfold a_bin64. step; [apply v_check|]. apply v_set. apply v_uint.
  - unfold a_bin128. step; [apply v_check|]. apply (v_in_place M (fun x => x)).
  - apply v_set, v_ilint_v.
  - apply v_set, v_silint.
  - apply v_raw.
  - apply v_raw.
  - unfold a_string. step; [apply v_on, v_bytes|]. destruct (from_utf8 _); [apply v_modify|apply v_nop].
  - apply v_raw.
  - unfold a_bigdec. step; [destruct (_ <? _); apply v_nop|]. step; [apply v_on, v_sint|]. step; [apply v_modify|].
    destruct x'1 as [[z bs'] r1]. intros y [[z' bs''] r'] E1 Ry. unfold a_on_snd in E1. destruct (a_raw _ _ (bs', r1)) as [k [b' r2]] eqn:Ek.
    assert (y = k /\ r' = r2) as [-> ->] by (split; congruence). exact (v_raw M _ _ _ _ Ek Ry).
  - unfold a_ilintarray. apply v_limited'. intros x. step; [apply v_on, v_ilint_v|]. step; [destruct (_ <? _); apply v_nop|]. step; [apply v_modify|].
    step; [unfold a_fuelled; apply v_repeat, v_ilint_v|apply v_ensure_empty].
  - now apply v_seq.
  - now apply v_arr.
  - unfold a_range. apply v_limited'. intros x. step; [apply v_on, v_ilint_v|]. step; [apply v_modify|]. step; [apply v_on, v_uint|]. step; [apply v_modify|apply v_ensure_empty].
  - unfold a_version. step; [apply v_check|]. step; [apply v_on, v_sint|]. step; [apply v_modify|]. step; [apply v_on, v_sint|]. step; [apply v_modify|].
    step; [apply v_on, v_sint|]. step; [apply v_modify|]. step; [apply v_on, v_sint|]. apply v_modify.
  - unfold a_ilintarray. apply v_limited'. intros x. step; [apply v_on, v_ilint_v|]. step; [destruct (_ <? _); apply v_nop|]. step; [apply v_modify|].
    step; [unfold a_fuelled; apply v_repeat, v_ilint_v|apply v_ensure_empty].
  - now apply v_dict.
  - unfold a_strdict. apply v_limited'. intros x. step; [apply v_on, v_ilint_v|]. step; [apply v_modify|].
    step; [unfold a_fuelled; apply v_repeat|apply v_ensure_empty]. intros r1. step; [apply v_string|]. step; [apply v_string|]. apply v_nop.
Qed.

(** ** The code of the user *)
Definition ov (u u' : LW) : Prop := exists l, snd u' = snd u ++ l /\ calls_value made l.
Section Exec.
Context (c : cfg) (M : reader_impl W).
Notation LM := (logged_reader (T := T) M).
Context (deser : areader LW -> res tag_error (otag T) * areader LW) (into : areader LW -> otag T -> res tag_error unit * otag T * areader LW).
Context (odeser : reader_impl LW -> LW -> res tag_error (otag T) * LW) (ointo : reader_impl LW -> otag T -> LW -> res tag_error unit * otag T * LW).
Hypothesis Gd : forall r, vr V deser r.
Hypothesis Gi : forall r t, vo (fun _ _ l => calls_value made l) (fun r => into r t) r.
Hypothesis God : forall M' u x u', odeser (logged_reader M') u = (x, u') -> returns x -> ov u u'.
Hypothesis Goi : forall M' t u x t' u', ointo (logged_reader M') t u = (x, t', u') -> returns x -> ov u u'.
Lemma v_after {E A B} (x : res E B) (f : res E B -> areader LW -> res tag_error A * areader LW) r r1 :
  (returns x -> exists l, the_log r1 = the_log r ++ l /\ calls_value made l) -> (forall r1, vr V (f x) r1) ->
  forall y r', a_after x f r1 = (y, r') -> returns y -> exists l, the_log r' = the_log r ++ l /\ calls_value made l.
Proof.
  intros H F y r' E1 R. destruct x as [a|err| |]; cbn [a_after] in E1; try (apply pair_inv in E1 as [<- _]; now elim R);
    (destruct (H Logic.I) as (l1 & El & H1); destruct (F _ _ _ E1 R) as (l2 & E2 & H2); exists (l1 ++ l2); rewrite E2, El, app_assoc; split; [reflexivity|now apply cv_app]).
Qed.
Lemma v_exec {A} (p : wprog (otag T) W A) : forall r, vr V (w_exec c LM deser into odeser ointo (logged_prog p)) r.
Proof.
  induction p as [A a|A|A B f k IH|A k IH|A old k IH|A n k IH|A n k IH|A k IH|A t k IH|A B n body IHb k IH|A M' k IH|A M' t k IH];
    intros r y r' E1 R; cbn [logged_prog w_exec] in E1.
  - apply pair_inv in E1 as [_ <-]. exists []. rewrite app_nil_r. split; [reflexivity|constructor].
  - apply pair_inv in E1 as [<- _]. elim R.
  - destruct (a_state r) as [u l] eqn:Es. destruct (f u) as [b u']. destruct (IH b _ _ _ E1 R) as (l2 & E2 & H2). exists l2. split; [|exact H2].
    rewrite E2. unfold the_log. rewrite state_put, Es. reflexivity.
  - destruct (a_read LM r) as [x r1] eqn:Er. revert E1 R. apply v_after; [exact (v_read_v M r _ _ Er)|]. intros. apply IH.
  - destruct (a_read_all LM _ r) as [[x b] r1] eqn:Er. revert E1 R. apply v_after; [|intros; apply IH]. intros Rx.
    destruct (v_read_all _ _ _ _ _ _ Er Rx) as (l & El & Hl & _). exists l. split; [exact El|now apply cv_calls].
  - destruct (a_skip LM n r) as [x r1] eqn:Er. revert E1 R. apply v_after; [exact (v_skip M n r _ _ Er)|]. intros. apply IH.
  - destruct (a_skip_u64 LM c n r) as [x r1] eqn:Er. revert E1 R. apply v_after; [exact (v_skip64 M c n r _ _ Er)|]. intros. apply IH.
  - destruct (deser r) as [x r1] eqn:Er. revert E1 R. apply v_after; [exact (Gd r _ _ Er)|]. intros. apply IH.
  - destruct (into r t) as [[x t'] r1] eqn:Er. revert E1 R. apply v_after; [exact (Gi r t _ _ _ Er)|]. intros. apply IH.
  - destruct (w_exec c LM deser into odeser ointo (logged_prog body) (ALimited r n)) as [x lr] eqn:Eb. destruct x as [b|err| |].
    + destruct lr as [u|r1 n']; [apply pair_inv in E1 as [<- _]; elim R|]. destruct (IHb _ _ _ Eb Logic.I) as (l1 & El & H1). destruct (IH b n' _ _ _ E1 R) as (l2 & E2 & H2).
      exists (l1 ++ l2). rewrite log_limited in El. rewrite app_assoc. rewrite log_limited in El. rewrite E2, El. split; [reflexivity|now apply cv_app].
    + apply pair_inv in E1 as [<- <-]. rewrite log_unlimit. exact (IHb _ _ _ Eb Logic.I).
    + apply pair_inv in E1 as [<- _]. elim R.
    + apply pair_inv in E1 as [<- _]. elim R.
  - destruct (odeser _ (a_state r)) as [x u'] eqn:Er. revert E1 R. apply v_after; [|intros; apply IH]. intros Rx.
    destruct (God _ _ _ _ Er Rx) as (l & El & Hl). exists l. unfold the_log. rewrite state_put. auto.
  - destruct (ointo _ t (a_state r)) as [[x t'] u'] eqn:Er. revert E1 R. apply v_after; [|intros; apply IH]. intros Rx.
    destruct (Goi _ _ _ _ _ _ Er Rx) as (l & El & Hl). exists l. unfold the_log. rewrite state_put. auto.
Qed.
End Exec.
End WorldLog.

Section Factory.
Context {T W : Type} (c : cfg) (Z : reading_impl T W) (e : engine).
Notation LW := (W * list (ev T))%type.
Implicit Type r : areader LW.
Definition made (id : N) : Prop := z_create Z id <> None.
Notation LZ := (logged Z).
Definition is_user (t : otag T) : Prop := match t with OUser _ => True | _ => False end.
Definition closing (b : bool) (t : otag T) (i : list (ev T)) : Prop := match t with OUser x => at_end x b i | _ => i = [] end.
Lemma v_ask x r y r' : on_state (or_panic (z_id LZ x)) r = (y, r') -> returns y -> exists id, y = Ok id /\ the_log r' = the_log r ++ [VId x (Some id)].
Proof.
  intros E1 R. unfold on_state, or_panic in E1. cbn [z_id logged] in E1. unfold the_log. destruct (a_state r) as [u l] eqn:Es. cbn [logging] in E1.
  destruct (z_id Z x u) as [[id|] u']; apply pair_inv in E1 as [<- <-]; [|elim R]. exists id. rewrite state_put. split; reflexivity.
Qed.
Lemma v_closing t r : vr (fun b i => closing b t i) (w_check LZ t) r.
Proof.
  destruct t as [id v|x|id l|id l|id l]; cbn [closing].
  2:{ intros y r' E1 R. unfold w_check, w_id, bind in E1. destruct (on_state (or_panic (z_id LZ x)) r) as [[i|err| |] r1] eqn:Ea.
    2:{ destruct (v_ask _ _ _ _ Ea Logic.I) as (? & ? & _). discriminate. }
    2,3: apply pair_inv in E1 as [<- _]; elim R.
    destruct (v_ask _ _ _ _ Ea Logic.I) as (i0 & Hi & El). assert (i0 = i) as -> by congruence. destruct (N.eqb_spec i IL_ILINT_TAG_ID) as [->|Ni].
    - apply pair_inv in E1 as [<- <-]. exists [VId x (Some IL_ILINT_TAG_ID)]. split; [exact El|]. right. left. auto.
    - destruct (on_state (or_panic (z_id LZ x)) r1) as [[j|err| |] r2] eqn:Eb.
      2:{ destruct (v_ask _ _ _ _ Eb Logic.I) as (? & ? & _). discriminate. }
      2,3: apply pair_inv in E1 as [<- _]; elim R.
      destruct (v_ask _ _ _ _ Eb Logic.I) as (j0 & Hj & El2). assert (j0 = j) as -> by congruence. exists [VId x (Some i); VId x (Some j)].
      assert (r' = r2) as -> by (destruct (j =? _); unfold ret in E1; congruence). split; [rewrite El2, El, <- app_assoc; reflexivity|].
      right. right. exists i, j. split; [reflexivity|]. split; [exact Ni|]. intros ->. rewrite N.eqb_refl in E1. apply pair_inv in E1 as [<- _]. reflexivity. }
  all: intros y r' E1 R; exists []; split; [|reflexivity]; rewrite app_nil_r; f_equal; unfold w_check, w_id, bind, ret in E1;
    destruct (id =? IL_ILINT_TAG_ID); [congruence|]; destruct (id =? IL_SIGNED_ILINT_TAG_ID); congruence.
Qed.
Section One.
Context (M : reader_impl W).
Notation LM := (logged_reader (T := T) M).
Context (deser : areader LW -> res tag_error (otag T) * areader LW) (into : areader LW -> otag T -> res tag_error unit * otag T * areader LW).
Context (odeser : reader_impl LW -> LW -> res tag_error (otag T) * LW) (ointo : reader_impl LW -> otag T -> LW -> res tag_error unit * otag T * LW).
Hypothesis Gd : forall r, vr (V made) deser r.
Hypothesis Gi : forall r t, vo (fun _ _ l => calls_value made l) (fun r => into r t) r.
Hypothesis God : forall M' u x u', odeser (logged_reader M') u = (x, u') -> returns x -> ov made u u'.
Hypothesis Goi : forall M' t u x t' u', ointo (logged_reader M') t u = (x, t', u') -> returns x -> ov made u u'.
Notation user := (w_user c LZ LM deser into odeser ointo).
Notation value := (av_value LM user deser).
Lemma v_value t n r : vo (fun _ t' l => calls_value made l /\ (is_user t' <-> is_user t)) (value t n) r.
Proof.
  assert (R : forall S (m : @amethod LW S unit) s (mk : S -> otag T) q, vm (V made) m (s, r) -> (forall s', is_user (mk s') <-> q) ->
     vo (fun _ t' l => calls_value made l /\ (is_user t' <-> q)) (ao_run m s mk) r).
  { intros S m s mk q H K y v' r' E1 Ry. unfold ao_run in E1. destruct (m (s, r)) as [z [s1 r1]] eqn:Em.
    assert (y = z /\ v' = mk s1 /\ r' = r1) as (-> & -> & ->) by (repeat split; congruence). destruct (H _ _ Em Ry) as (l & El & Hl). exists l. auto. }
  destruct t as [id v|x|id l|id l|id l].
  - intros y t' r' E1 Ry. cbn [av_value] in E1. destruct (a_value LM _ v n r) as [[z v'] r1] eqn:Ev.
    assert (y = z /\ t' = OStd id v' /\ r' = r1) as (-> & -> & ->) by (repeat split; congruence).
    destruct (v_std made M v n r _ _ _ Ev Ry) as (l & El & Hl). exists l. split; [exact El|]. split; [exact Hl|]. cbn. tauto.
  - apply (R _ (user n) x OUser True); [|cbn; tauto]. intros y [x' r'] E1 Ry. unfold w_user in E1. cbn [z_value logged] in E1.
    destruct (w_exec c LM deser into odeser ointo (logged_prog (z_value Z n x)) r) as [z r1] eqn:Ee.
    assert (Rz : returns z) by (destruct z as [[[err|] x1]|err| |]; [exact Logic.I..| |]; apply pair_inv in E1 as [<- _]; elim Ry).
    assert (r' = r1) as -> by (destruct z as [[[err|] x1]|err| |]; congruence).
    exact (v_exec made c M _ _ _ _ Gd Gi God Goi _ _ _ _ Ee Rz).
  - apply (R _ (a_seq deser n) l (OSeq id) False); [now apply v_seq|cbn; tauto].
  - apply (R _ (a_arr LM deser n) l (OArr id) False); [now apply v_arr|cbn; tauto].
  - apply (R _ (a_dict LM deser n) l (ODict id) False); [now apply v_dict|cbn; tauto].
Qed.
Notation vinto := (w_value_into LZ value).
Lemma v_value_into n t r : vo (fun b t' l => exists v i, l = v ++ i /\ calls_value made v /\ closing b t' i /\ (is_user t' <-> is_user t)) (vinto n t) r.
Proof.
  intros y t' r' E1 R. unfold w_value_into in E1. destruct (value t n (ALimited r n)) as [[x t1] lr] eqn:Ev.
  destruct x as [[]|err| |].
  - destruct (v_value t n _ _ _ _ Ev Logic.I) as (v & Hv & Cv & Ht). rewrite log_limited in Hv. destruct (w_check LZ t1 lr) as [z lr'] eqn:Ek.
    assert (y = z /\ t' = t1 /\ r' = a_unlimit lr') as (-> & -> & ->) by (repeat split; congruence). destruct (v_closing t1 lr _ _ Ek R) as (i & Hi & Ci).
    exists (v ++ i). rewrite log_unlimit, Hi, Hv, app_assoc. split; [reflexivity|]. exists v, i. auto.
  - destruct (v_value t n _ _ _ _ Ev Logic.I) as (v & Hv & Cv & Ht). rewrite log_limited in Hv.
    assert (y = Err err /\ t' = t1 /\ r' = a_unlimit lr) as (-> & -> & ->) by (repeat split; congruence).
    exists v. rewrite log_unlimit. split; [exact Hv|]. exists v, []. rewrite app_nil_r. split; [reflexivity|]. split; [exact Cv|]. split; [|exact Ht].
    destruct t1; cbn; auto. left. auto.
  - assert (y = Panic) as -> by congruence. elim R.
  - assert (y = OutOfFuel) as -> by congruence. elim R.
Qed.
Ltac gone := match goal with H : (?x, _) = (_, _), R : returns _ |- _ => apply pair_inv in H as [<- _]; exact (False_ind _ R) end.
Lemma v_tag r : vr (calls_tag made) (w_step LZ e LM vinto) r.
Proof.
  intros y r' E1 R. unfold w_step in E1. unfold bind at 1 in E1. destruct (a_ilint LM r) as [[id|err| |] r1] eqn:Ei; try gone.
  2:{ apply pair_inv in E1 as [<- <-]. destruct (v_ilint M r _ _ Ei Logic.I) as (l & El & [H1 H2] & _). exists l. split; [exact El|]. apply ct_header. split; [exact H1|lia]. }
  destruct (v_ilint M r _ _ Ei Logic.I) as (h1 & E2 & _ & H1). specialize (H1 eq_refl). clear Ei.
  unfold bind at 1 in E1. destruct (a_tag_size LM id r1) as [[n|err| |] r2] eqn:En; try gone.
  2:{ apply pair_inv in E1 as [<- <-]. destruct (v_tag_size M id r1 _ _ En Logic.I) as (h2 & E3 & H2). exists (h1 ++ h2). rewrite E3, E2, app_assoc. split; [reflexivity|].
    apply ct_header. pose proof (from_app 2 2 4 _ _ H1 H2 (le_n _)) as [K1 K2]. split; [exact K1|lia]. }
  destruct (v_tag_size M id r1 _ _ En Logic.I) as (h2 & E3 & H2). pose proof (from_app 2 2 4 _ _ H1 H2 (le_n _)) as H. clear En.
  assert (Eh : the_log r2 = the_log r ++ (h1 ++ h2)) by now rewrite E3, E2, app_assoc. clear E2 E3 H1 H2. set (h := h1 ++ h2) in *. clearbody h. clear h1 h2 r1.
  unfold bind at 1 in E1. unfold w_create in E1. cbn [z_create logged] in E1.
  destruct (z_create Z id) as [f|] eqn:Ef; cbn [option_map] in E1.
  - assert (Hm : made id) by (unfold made; congruence). unfold bind, on_state, or_panic in E1. unfold the_log in Eh. destruct (a_state r2) as [u l] eqn:Es. cbn [logging] in E1.
    destruct (f u) as [[t|] u']; [|gone]. unfold ret in E1.
    destruct (vinto n t (a_put (u', l ++ [VCreate id]) r2)) as [[x t'] r4] eqn:Ev. apply pair_inv in E1 as [<- <-].
    assert (Rx : returns x) by now destruct x. destruct (v_value_into n t _ _ _ _ Ev Rx) as (k & Ek & v & i & -> & Cv & Ci & _).
    unfold the_log at 2 in Ek. rewrite state_put in Ek. cbn [snd] in Ek, Eh. exists (h ++ VCreate id :: v ++ i). split.
    { rewrite Ek, Eh, <- app_assoc, <- app_assoc. reflexivity. }
    assert (Eb : is_ok (map_ok (fun _ : unit => t') x) = is_ok x) by now destruct x. rewrite Eb.
    destruct t'; cbn [closing] in Ci; try (subst i; rewrite app_nil_r; now apply ct_made). eapply ct_user; eauto.
  - destruct (create_tag e id) as [[t|]|err| |] eqn:Ec; cbn [map_ok option_map] in E1; try gone.
    + destruct (vinto n (emb t) r2) as [[x t'] r4] eqn:Ev. apply pair_inv in E1 as [<- <-].
      assert (Rx : returns x) by now destruct x. destruct (v_value_into n _ _ _ _ _ Ev Rx) as (k & Ek & v & i & -> & Cv & Ci & Hu).
      assert (i = []) as ->. { destruct t' as [| x' | | |]; cbn [closing] in Ci; auto. exfalso. assert (K : is_user (emb t)) by now apply Hu. now destruct t as [i0 []]. }
      exists (h ++ v). rewrite app_nil_r in Ek. split; [rewrite Ek, Eh, app_assoc; reflexivity|].
      now apply ct_library.
    + apply pair_inv in E1 as [<- <-]. exists h. split; [exact Eh|]. apply ct_header. destruct H. split; [assumption|lia].
    + apply pair_inv in E1 as [<- <-]. exists h. split; [exact Eh|]. apply ct_header. destruct H. split; [assumption|lia].
Qed.
Lemma v_tag_into r t : vo (fun b _ l => calls_into made b l) (fun r => w_into LZ LM vinto r t) r.
Proof.
  intros y t' r' E1 R. unfold w_into in E1. unfold bind at 1 in E1. destruct (a_ilint LM r) as [[id|err| |] r1] eqn:Ei;
    try (apply pair_inv in E1 as [E1 _]; apply pair_inv in E1 as [<- _]; exact (False_ind _ R)).
  2:{ assert (y = Err err /\ r' = r1) as [-> ->] by (split; congruence). destruct (v_ilint M r _ _ Ei Logic.I) as (l & El & H1 & _). exists l. split; [exact El|]. now apply ci_header. }
  destruct (v_ilint M r _ _ Ei Logic.I) as (h1 & E2 & _ & H1). specialize (H1 eq_refl). clear Ei.
  destruct (w_id LZ t r1) as [mine r2] eqn:Em. unfold bind in E1. rewrite Em in E1.
  assert (K : returns mine -> exists q, the_log r2 = the_log r ++ h1 ++ q /\ match t with OUser x => exists a, q = [VId x a] | _ => q = [] end).
  { intros Rm. destruct t as [i v|x|i l|i l|i l]; cbn [w_id] in Em;
      try (apply pair_inv in Em as [_ <-]; exists []; rewrite app_nil_r; split; [exact E2|reflexivity]).
    destruct (v_ask _ _ _ _ Em Rm) as (a & _ & El). exists [VId x (Some a)]. rewrite El, E2, app_assoc. split; [reflexivity|]. now exists (Some a). }
  destruct mine as [mine|err| |]; try (apply pair_inv in E1 as [E1 _]; apply pair_inv in E1 as [<- _]; exact (False_ind _ R)).
  2:{ exfalso. destruct t as [i v|x|i l|i l|i l]; cbn [w_id] in Em; try discriminate. destruct (v_ask _ _ _ _ Em Logic.I) as (? & ? & _). discriminate. }
  destruct (K Logic.I) as (q & E3 & Hq). clear K.
  assert (S : exists z r3 h2, (if negb (id =? mine) then fail UnexpectedTagType r2 else a_tag_size LM id r2) = (z, r3) /\
     (returns z -> upto 2 h2 /\ the_log r3 = the_log r2 ++ h2)).
  { destruct (negb (id =? mine)).
    - eexists _, _, []. split; [reflexivity|]. intros _. rewrite app_nil_r. split; [repeat constructor|reflexivity].
    - destruct (a_tag_size LM id r2) as [z r3] eqn:En. destruct z as [n|err| |].
      3,4: eexists _, _, []; split; [reflexivity|intros []].
      all: destruct (v_tag_size M id r2 _ _ En Logic.I) as (h2 & E4 & H2); eauto 10. }
  destruct S as (z & r3 & h2 & Ez & Hz).
  assert (E1' : match z with Ok n => vinto n t r3 | Err err => (Err err, t, r3) | Panic => (Panic, t, r3) | OutOfFuel => (OutOfFuel, t, r3) end = (y, t', r'))
    by (destruct (negb (id =? mine)); rewrite Ez in E1; exact E1).
  clear E1 Ez. rename E1' into E1.
  destruct z as [n|err| |]; try (apply pair_inv in E1 as [E1 _]; apply pair_inv in E1 as [<- _]; exact (False_ind _ R)).
  - destruct (Hz Logic.I) as [H2 E4]. destruct (v_value_into n t _ _ _ _ E1 R) as (k & Ek & v & i & -> & Cv & Ci & Hu).
    exists (h1 ++ q ++ h2 ++ v ++ i). split; [rewrite Ek, E4, E3, !app_assoc; reflexivity|].
    destruct t as [j w|x|j l|j l|j l].
    2:{ destruct Hq as [a ->]. destruct t' as [|x'| | |]; cbn [is_user] in Hu; try tauto. cbn [closing] in Ci. exact (ci_user made h1 x a h2 v x' _ i H1 H2 Cv Ci). }
    all: subst q; destruct t'; cbn [is_user closing] in Hu, Ci; try tauto; subst i; rewrite app_nil_r; cbn [app]; rewrite app_assoc; exact (ci_library made (h1 ++ h2) v _ (from_app 2 2 4 _ _ H1 H2 (le_n _)) Cv).
  - destruct (Hz Logic.I) as [H2 E4]. assert (y = Err err /\ r' = r3) as [-> ->] by (split; congruence). exists (h1 ++ q ++ h2). split; [rewrite E4, E3, !app_assoc; reflexivity|].
    destruct t as [j w|x|j l|j l|j l].
    2:{ destruct Hq as [a ->]. exact (ci_other made h1 x a h2 H1 H2). }
    all: subst q; cbn [app is_ok]; rewrite <- (app_nil_r (h1 ++ h2)); exact (ci_library made (h1 ++ h2) [] false (from_app 2 2 4 _ _ H1 H2 (le_n _)) (cv_none made)).
Qed.
End One.

Theorem log_calls f : forall (M : reader_impl W) r,
  vr (calls_tag made) (w_deserialize c LZ e f (logged_reader M)) r /\
  forall t, vo (fun b _ l => calls_into made b l) (fun r => w_deserialize_into c LZ e f (logged_reader M) r t) r.
Proof.
  unfold w_deserialize, w_deserialize_into. induction f as [|f IH]; intros M r; cbn [w_fuel fst snd].
  - split; [intros y r' [= <- <-] []|intros t y t' r' [= <- _ _] []].
  - assert (Gd : forall M r, vr (V made) (fst (w_fuel c LZ e f (logged_reader M))) r).
    { intros M0 r0. eapply v_weaken; [exact (proj1 (IH M0 r0))|]. intros b l. apply cv_one. }
    assert (Gi : forall M r t, vo (fun _ _ l => calls_value made l) (fun r => snd (w_fuel c LZ e f (logged_reader M)) r t) r).
    { intros M0 r0 t y t' r' E1 R. destruct (proj2 (IH M0 r0) t _ _ _ E1 R) as (l & El & Hl). exists l. split; [exact El|]. eapply cv_one_into, Hl. }
    split; [apply v_tag|intros t; apply v_tag_into]; try apply Gd; try apply Gi.
    1,3: intros M' u x u' Eo R; destruct (fst (w_fuel c LZ e f (logged_reader M')) (ABase u)) as [z r1] eqn:Ez; apply pair_inv in Eo as [<- <-];
        destruct (Gd M' (ABase u) _ _ Ez R) as (l & El & Hl); exists l; split; [exact El|exact Hl].
    all: intros M' t0 u x t' u' Eo R; destruct (snd (w_fuel c LZ e f (logged_reader M')) (ABase u) t0) as [[z t1] r1] eqn:Ez;
        assert (x = z /\ u' = a_state r1) as [-> ->] by (split; congruence);
        destruct (Gi M' (ABase u) t0 _ _ _ Ez R) as (l & El & Hl); exists l; split; [exact El|exact Hl].
Qed.
End Factory.

(** Proofs about WorldRead.v: readers kept in the state.  A program that makes readers
    of the library and calls the factory on them (FullProg.v, AnyFull.v) is a program
    of WorldRead.v that keeps them on a stack in its state: its calls do the same. *)
From Verif Require Import Base BaseFacts Types IO IOSpec IOFacts Logic ILInt Data Tags Factory Open Prog OtherProg IntoProg FullProg FullProgFacts AnyProgFacts DeserFacts IntoProg ClosedFacts IntoProgFacts.
From Verif Require Import Any AnyScan AnyFacts AnyProg AnyFull AnyFullRuns PAnyFull WorldRead WorldReadRuns WorldReadSim.

(** Where the second function returns, the first gives the same. *)
Definition psim {X1 X2 E A} (q : X1 -> X2 -> Prop) (m1 : X1 -> res E A * X1) (m2 : X2 -> res E A * X2) : Prop :=
  forall x1 x2 y x2', q x1 x2 -> m2 x2 = (y, x2') -> returns y -> exists x1', m1 x1 = (y, x1') /\ q x1' x2'.
Definition osim {X1 X2 E A V} (q : X1 -> X2 -> Prop) (m1 : X1 -> res E A * V * X1) (m2 : X2 -> res E A * V * X2) : Prop :=
  forall x1 x2 y v x2', q x1 x2 -> m2 x2 = (y, v, x2') -> returns y -> exists x1', m1 x1 = (y, v, x1') /\ q x1' x2'.
Section Basic.
Context {X1 X2 : Type} (q : X1 -> X2 -> Prop).
Lemma p_of {E A} (m1 : X1 -> res E A * X1) m2 : msim q m1 m2 -> psim q m1 m2.
Proof. intros G x1 x2 y x2' H E2 _. destruct (G _ _ H) as (v & y1 & y2 & E1 & E3 & K). exists y1. split; congruence. Qed.
Lemma o_of {E A V} (m1 : X1 -> res E A * V * X1) m2 : msim q m1 m2 -> osim q m1 m2.
Proof. intros G x1 x2 y v x2' H E2 _. destruct (G _ _ H) as (w & y1 & y2 & E1 & E3 & K). exists y1. split; congruence. Qed.
Lemma p_bind {E A B} (m1 : X1 -> res E A * X1) m2 (f1 : A -> X1 -> res E B * X1) f2 :
  psim q m1 m2 -> (forall a, psim q (f1 a) (f2 a)) -> psim q (bind m1 f1) (bind m2 f2).
Proof.
  intros G F x1 x2 y x2' H E2 R. unfold bind in *. destruct (m2 x2) as [z x3] eqn:Em. specialize (G _ _ z x3 H Em).
  destruct z as [a|err| |]; try (apply pair_inv in E2 as [<- _]; contradiction).
  - destruct (G Logic.I) as (x4 & -> & K). exact (F a _ _ _ _ K E2 R).
  - apply pair_inv in E2 as [<- <-]. destruct (G Logic.I) as (x4 & -> & K). eauto.
Qed.
End Basic.

Section Stack.
Context {V U : Type} (R : V -> U -> Prop).
Lemma p_on {S A} (m1 : areader V -> res tag_error A * areader V) m2 : psim (asim R) m1 m2 -> psim (qs R (S := S)) (a_on_reader m1) (a_on_reader m2).
Proof.
  intros G x1 x2 y x2' H E Ry. destruct (qs_elim _ _ _ H) as (s & r1 & r2 & -> & -> & K). cbn [a_on_reader] in *.
  destruct (m2 r2) as [z r3] eqn:Em. apply pair_inv in E as [<- <-]. destruct (G _ _ _ _ K Em Ry) as (r4 & -> & K'). eexists. split; [reflexivity|]. now apply qs_intro.
Qed.
Lemma p_limited {S A} n (m1 : @amethod V S A) m2 : psim (qs R) m1 m2 -> psim (qs R) (a_limited n m1) (a_limited n m2).
Proof.
  intros G x1 x2 y x2' H E Ry. destruct (qs_elim _ _ _ H) as (s & r1 & r2 & -> & -> & K). cbn [a_limited] in *.
  destruct (m2 (s, ALimited r2 n)) as [z [s' r3]] eqn:Em. apply pair_inv in E as [<- <-].
  destruct (G (s, ALimited r1 n) (s, ALimited r2 n) _ _ (qs_intro R s (ALimited r1 n) (ALimited r2 n) (conj K eq_refl)) Em Ry) as (x4 & -> & K').
  destruct (qs_elim _ _ _ K') as (s'' & r4 & r5 & -> & E5 & K5). apply pair_inv in E5 as [-> ->]. eexists. split; [reflexivity|]. apply qs_intro. now apply asim_unlimit.
Qed.
Lemma p_repeat {S A} (m1 : areader V -> res tag_error A * areader V) m2 (store : A -> S -> S) : psim (asim R) m1 m2 ->
  forall f n, psim (qs R) (a_repeat f m1 store n) (a_repeat f m2 store n).
Proof.
  intros G. induction f as [|f IH]; intros n; cbn [a_repeat]; (destruct (n =? 0); [apply p_of, s_ret|]); [apply p_of, s_pure|].
  apply p_bind; [now apply p_on|]. intros a. apply p_bind; [apply p_of, s_modify|]. intros _. apply IH.
Qed.
Lemma p_while {S A} (m1 : areader V -> res tag_error A * areader V) m2 (store : A -> S -> S) : psim (asim R) m1 m2 ->
  forall f, psim (qs R) (a_while f m1 store) (a_while f m2 store).
Proof.
  intros G. induction f as [|f IH]; intros x1 x2 y x2' H E Ry; cbn [a_while] in *; rewrite (asim_empty R _ _ (proj2 H)); destruct (a_empty (snd x2)).
  1,3: apply pair_inv in E as [<- <-]; eauto.
  - apply pair_inv in E as [<- <-]. eauto.
  - revert x1 x2 y x2' H E Ry. apply p_bind; [now apply p_on|]. intros a. apply p_bind; [apply p_of, s_modify|]. intros _. apply IH.
Qed.
Lemma p_fuelled {S A} (m1 : nat -> @amethod V S A) m2 : (forall f, psim (qs R) (m1 f) (m2 f)) -> psim (qs R) (a_fuelled m1) (a_fuelled m2).
Proof. intros G x1 x2 y x2' H E Ry. unfold a_fuelled in *. rewrite (asim_room R _ _ (proj2 H)). eapply G; eauto. Qed.
Lemma p_run {S V'} (m1 : @amethod V S unit) m2 s (mk : S -> V') : psim (qs R) m1 m2 ->
  osim (asim R) (fun r => let '(x, (s', r')) := m1 (s, r) in (x, mk s', r')) (fun r => let '(x, (s', r')) := m2 (s, r) in (x, mk s', r')).
Proof.
  intros G x1 x2 y v x2' H E Ry. destruct (m2 (s, x2)) as [z [s' r3]] eqn:Em. apply pair_inv in E as [E <-]. apply pair_inv in E as [<- <-].
  destruct (G (s, x1) _ _ _ (qs_intro R s x1 x2 H) Em Ry) as (x4 & -> & K'). destruct (qs_elim _ _ _ K') as (s'' & r4 & r5 & -> & E5 & K5).
  apply pair_inv in E5 as [-> ->]. eauto.
Qed.
Section Readers.
Context (M1 : reader_impl V) (M2 : reader_impl U) (HM : same_reader R M1 M2).
Section Values.
Context {I : Type} (d1 : areader V -> res tag_error I * areader V) (d2 : areader U -> res tag_error I * areader U).
Hypothesis G : psim (asim R) d1 d2.
Lemma p_seq n : psim (qs R) (a_seq d1 n) (a_seq d2 n).
Proof. apply p_limited, p_bind; [apply p_of, s_modify|]. intros _. apply p_fuelled. intros f. now apply p_while. Qed.
Lemma p_arr n : psim (qs R) (a_arr M1 d1 n) (a_arr M2 d2 n).
Proof.
  apply p_limited, p_bind; [now apply p_of, s_on, s_ilint|]. intros count. apply p_bind; [apply p_of, s_if; [apply s_fail|apply s_ret]|]. intros _.
  apply p_bind; [apply p_of, s_modify|]. intros _. apply p_bind; [apply p_fuelled; intros f; now apply p_repeat|]. intros _. apply p_of, s_ensure_empty.
Qed.
Lemma p_dict n : psim (qs R) (a_dict M1 d1 n) (a_dict M2 d2 n).
Proof.
  apply p_limited, p_bind; [now apply p_of, s_on, s_ilint|]. intros count. apply p_bind; [apply p_of, s_modify|]. intros _.
  apply p_bind; [apply p_fuelled; intros f; apply p_repeat|intros _; apply p_of, s_ensure_empty].
  apply p_bind; [now apply p_of, s_string_tag|]. intros k. apply p_bind; [exact G|]. intros. apply p_of, s_ret.
Qed.
End Values.
End Readers.
End Stack.

(** ** The readers of the library on a stack *)
(** Reader::read and read_all (src/io/mod.rs:74-100) of the reader on top, which is one
    of IO.v; for the programs there is always one. *)
Definition top {W} : reader_impl (W * list reader) :=
  ReaderImpl _
    (fun u => match snd u with
              | q :: st => (fst (read q), (fst u, snd (read q) :: st))
              | [] => (Panic, u)
              end)
    (fun buff u => match snd u with
                   | q :: st =>
                       let got := snd (fst (read_all (lenN buff) q)) in
                       (fst (fst (read_all (lenN buff) q)), got ++ dropN (lenN got) buff, (fst u, snd (read_all (lenN buff) q) :: st))
                   | [] => (Panic, buff, u)
                   end).
(** The code of the program around a call (ILTag::deserialize_value,
    src/tags/mod.rs:250-255, is any code). *)
Definition push {W} (q : reader) (u : W * list reader) : unit * (W * list reader) := (tt, (fst u, q :: snd u)).
Definition pop {W} (q : reader) (u : W * list reader) : reader * (W * list reader) :=
  match snd u with q' :: st => (q', (fst u, st)) | [] => (q, u) end.
(** A program that keeps the readers it makes there while the factory
    (src/tags/mod.rs:462-477) reads from them. *)
Fixpoint on_stack {W I A} (p : yprog I A) : wprog I (W * list reader) A :=
  match p with
  | YDone a => WDone a
  | YAbort => WAbort
  | YRead k => WRead (fun x => on_stack (k x))
  | YReadAll old k => WReadAll old (fun x b => on_stack (k x b))
  | YSkip n k => WSkip n (fun x => on_stack (k x))
  | YSkip64 n k => WSkip64 n (fun x => on_stack (k x))
  | YTag k => WTag (fun x => on_stack (k x))
  | YLimited n body k => WLimited n (on_stack body) (fun b m => on_stack (k b m))
  | YInto t k => WInto t (fun x t' => on_stack (k x t'))
  | YOther q k => WAct (push q) (fun _ => WOther top (fun x => WAct (pop q) (fun q' => on_stack (k x q'))))
  | YOtherInto q t k => WAct (push q) (fun _ => WOtherInto top t (fun x t' => WAct (pop q) (fun q' => on_stack (k x t' q'))))
  end.
(** Its type: id and creator (src/tags/mod.rs:182, 505-515) without state. *)
Definition stacked {T W} (D : user_impl T) (Y : yscript T) : reading_impl T (W * list reader) := {|
  z_id x u := (Some (u_id D x), u);
  z_value n x := on_stack (Y n x);
  z_create id := option_map (fun o u => (option_map OUser o, u)) (u_create D id) |}.
(** A reader of the user (src/io/mod.rs:74-100), whose state is beside the stack. *)
Definition beside {W} (M : reader_impl W) : reader_impl (W * list reader) :=
  ReaderImpl _
    (fun u => let '(x, w) := u_read M (fst u) in (x, (w, snd u)))
    (fun buff u => let '(x, b, w) := u_read_all M buff (fst u) in (x, b, (w, snd u))).
Lemma beside_same {W} (M : reader_impl W) st : same_reader (fun v u => u = (v, st)) M (beside M).
Proof.
  split; [|intros buff]; intros v u ->; cbn.
  - destruct (u_read M v) as [x w]. eauto 8.
  - destruct (u_read_all M buff v) as [[x b] w]. eauto 8.
Qed.
Lemma top_same {W} (w : W) st : same_reader (fun (v : wreader) u => u = (w, proj1_sig v :: st)) reader_as_impl top.
Proof.
  split; [|intros buff]; intros [q Wq] u ->; cbn; do 3 eexists; (split; [reflexivity|]; split; reflexivity).
Qed.
Lemma state_put {W} (u : W) r : a_state (a_put u r) = u.
Proof. induction r as [|s IH n]; cbn; auto. Qed.
Lemma put_put {W} (u v : W) r : a_put u (a_put v r) = a_put u r.
Proof. induction r as [|s IH n]; cbn; congruence. Qed.

Section Stacked.
Context {T W : Type} (c : cfg) (D : user_impl T) (Y : yscript T) (e : engine).
Notation SW := (W * list reader)%type.
Notation Z := (stacked (W := W) D Y).
Lemma stacked_id t r : w_id Z t r = (Ok (o_id D t), r).
Proof. destruct t; cbn [w_id o_id]; try reflexivity. unfold on_state, or_panic. cbn [z_id stacked]. now rewrite put_state. Qed.
Lemma stacked_create id r : w_create Z e id r = (o_create D e id, r).
Proof.
  unfold w_create, o_create. cbn [z_create stacked]. destruct (u_create D id) as [[x|]|]; cbn [option_map]; try reflexivity;
    unfold bind, on_state, or_panic; cbn [option_map]; now rewrite put_state.
Qed.
Lemma stacked_check t r : w_check Z t r = (if negb (o_id D t =? IL_ILINT_TAG_ID) && negb (o_id D t =? IL_SIGNED_ILINT_TAG_ID) && negb (a_empty r) then Err CorruptedData else Ok tt, r).
Proof.
  unfold w_check, bind. rewrite stacked_id. destruct (o_id D t =? IL_ILINT_TAG_ID); [reflexivity|]. cbn [negb andb]. rewrite stacked_id.
  destruct (o_id D t =? IL_SIGNED_ILINT_TAG_ID); [reflexivity|]. cbn [negb andb]. now destruct (a_empty r).
Qed.

Section Exec.
Context {V : Type} (N1 : reader_impl V) (N2 : reader_impl SW) (put : V -> SW).
Notation R := (fun (v : V) (u : SW) => u = put v).
Context (HM : same_reader R N1 N2).
Context (d1 : areader V -> res tag_error (otag T) * areader V) (d2 : areader SW -> res tag_error (otag T) * areader SW).
Context (i1 : areader V -> otag T -> res tag_error unit * otag T * areader V) (i2 : areader SW -> otag T -> res tag_error unit * otag T * areader SW).
Context (od1 : reader -> res tag_error (otag T) * reader) (od2 : reader_impl SW -> SW -> res tag_error (otag T) * SW).
Context (oi1 : reader -> otag T -> res tag_error unit * otag T * reader) (oi2 : reader_impl SW -> otag T -> SW -> res tag_error unit * otag T * SW).
Hypothesis Gd : psim (asim R) d1 d2.
Hypothesis Td : forall r t r', d1 r = (Ok t, r') -> target t.
Hypothesis Gi : forall t, target t -> osim (asim R) (fun r => i1 r t) (fun r => i2 r t).
Hypothesis Ti : forall r t x t' r', target t -> i1 r t = (x, t', r') -> target t'.
Hypothesis God : forall q w st y u', rwf q -> od2 top (w, q :: st) = (y, u') -> returns y ->
  exists q', od1 q = (y, q') /\ rwf q' /\ u' = (w, q' :: st) /\ forall t, y = Ok t -> target t.
Hypothesis Goi : forall q t w st y t' u', rwf q -> target t -> oi2 top t (w, q :: st) = (y, t', u') -> returns y ->
  exists q', oi1 q t = (y, t', q') /\ rwf q' /\ u' = (w, q' :: st) /\ target t'.

Lemma p_after {E A B} (x : res E B) (f1 : res E B -> areader V -> res tag_error A * areader V) f2 :
  (returns x -> psim (asim R) (f1 x) (f2 x)) -> psim (asim R) (a_after x f1) (a_after x f2).
Proof. intros G. destruct x; cbn [a_after]; try (apply G; exact Logic.I); apply p_of, s_pure. Qed.
Lemma after_returns {E A B} (x : res E B) (f : res E B -> areader SW -> res tag_error A * areader SW) r y r' : a_after x f r = (y, r') -> returns y -> returns x.
Proof. destruct x; cbn [a_after]; intros H K; try exact Logic.I; apply pair_inv in H as [<- _]; exact K. Qed.
Lemma p_exec A (p : yprog (otag T) A) : yaims p -> psim (asim R) (ay_exec N1 c d1 i1 od1 oi1 p) (w_exec c N2 d2 i2 od2 oi2 (on_stack p)).
Proof.
  induction p as [A a0|A|A k IH|A old k IH|A n k IH|A n k IH|A k IH|A B n body IHb k IH|A t k IH|A q k IH|A q t k IH];
    intros Hp r1 r2 y r2' H E Ry; cbn [ay_exec w_exec on_stack yaims] in *.
  - apply pair_inv in E as [<- <-]. eauto.
  - apply pair_inv in E as [<- _]. contradiction.
  - destruct (s_read R N1 N2 HM _ _ H) as (v & y1 & y2 & E1 & E2 & K). rewrite E2 in E. rewrite E1. exact (p_after v _ _ (fun _ => IH v (Hp v)) _ _ _ _ K E Ry).
  - destruct (s_read_all R N1 N2 HM (u8s old) _ _ H) as ([v b] & y1 & y2 & E1 & E2 & K). rewrite E2 in E. rewrite E1. revert E Ry. apply p_after; auto.
  - destruct (s_skip R N1 N2 HM n _ _ H) as (v & y1 & y2 & E1 & E2 & K). rewrite E2 in E. rewrite E1. revert E Ry. apply p_after; auto.
  - destruct (s_skip64 R N1 N2 HM c n _ _ H) as (v & y1 & y2 & E1 & E2 & K). rewrite E2 in E. rewrite E1. revert E Ry. apply p_after; auto.
  - destruct (d2 r2) as [v r3] eqn:Ed. destruct (Gd _ _ _ _ H Ed (after_returns _ _ _ _ _ E Ry)) as (r4 & E4 & K). rewrite E4. revert E Ry.
    apply p_after; [|exact K]. intros _. apply IH, Hp. intros t ->. eapply Td; eauto.
  - destruct Hp as [Hb Hk]. destruct (w_exec c N2 d2 i2 od2 oi2 (on_stack body) (ALimited r2 n)) as [x lr] eqn:Eb.
    assert (Rx : returns x).
    { destruct x; try exact Logic.I; apply pair_inv in E as [<- _]; exact Ry. }
    destruct (IHb Hb (ALimited r1 n) (ALimited r2 n) _ _ (conj H eq_refl) Eb Rx) as (lr1 & -> & K).
    destruct x as [b|err| |]; try contradiction.
    + destruct lr1 as [u1|s1 n1], lr as [u2|s2 n2]; cbn [asim] in K; try contradiction; [apply pair_inv in E as [<- _]; contradiction|].
      destruct K as [K ->]. exact (IH b n2 (Hk b n2) _ _ _ _ K E Ry).
    + apply pair_inv in E as [<- <-]. eexists. split; [reflexivity|]. now apply asim_unlimit.
  - destruct Hp as [Tt Hk]. destruct (i2 r2 t) as [[v t'] r3] eqn:Ei. destruct (Gi t Tt _ _ _ _ _ H Ei (after_returns _ _ _ _ _ E Ry)) as (r4 & E4 & K). cbv beta in E4.
    rewrite E4. revert E Ry. apply p_after; [|exact K]. intros _. apply IH, Hk. eapply Ti; eauto.
  - destruct Hp as [Wq Hk]. unfold push in E. rewrite state_put in E. destruct (od2 top _) as [v u] eqn:Eo. pose proof (after_returns _ _ _ _ _ E Ry) as Rv.
    destruct (God _ _ _ _ _ Wq Eo Rv) as (q' & Eq & Wq' & -> & Tv). rewrite Eq. revert E Ry. rewrite put_put. destruct v as [t|err| |]; try contradiction; cbn [a_after].
    all: rewrite state_put; unfold pop; cbn [fst snd]; rewrite put_put, <- surjective_pairing, put_state; intros E Ry;
      exact (IH _ _ (Hk _ _ Tv Wq') _ _ _ _ H E Ry).
  - destruct Hp as (Wq & Tt & Hk). unfold push in E. rewrite state_put in E. destruct (oi2 top t _) as [[v t'] u] eqn:Eo. pose proof (after_returns _ _ _ _ _ E Ry) as Rv.
    destruct (Goi _ _ _ _ _ _ _ Wq Tt Eo Rv) as (q' & Eq & Wq' & -> & Tv). rewrite Eq. revert E Ry. rewrite put_put. destruct v as [u|err| |]; try contradiction; cbn [a_after].
    all: rewrite state_put; unfold pop; cbn [fst snd]; rewrite put_put, <- surjective_pairing, put_state; intros E Ry;
      exact (IH _ _ _ (Hk _ _ _ Tv Wq') _ _ _ _ H E Ry).
Qed.
Hypothesis Haims : forall n x, yaims (Y n x).
Notation user1 := (ay_user N1 c d1 i1 od1 oi1 Y).
Notation user2 := (w_user c Z N2 d2 i2 od2 oi2).
Lemma p_user n : psim (qs R) (user1 n) (user2 n).
Proof.
  intros x1 x2 y x2' H E Ry. destruct (qs_elim _ _ _ H) as (x & r1 & r2 & -> & -> & K). cbn [w_user ay_user z_value stacked] in *.
  destruct (w_exec c N2 d2 i2 od2 oi2 (on_stack (Y n x)) r2) as [z r3] eqn:Ez. pose proof (p_exec _ (Y n x) (Haims n x) r1 r2 z r3 K Ez) as Kx.
  destruct z as [[[err|] x']|err| |]; apply pair_inv in E as [<- <-]; try contradiction; destruct (Kx Logic.I) as (r4 & -> & K'); eexists; (split; [reflexivity|]); now apply qs_intro.
Qed.
Notation val1 := (av_value N1 user1 d1).
Notation val2 := (av_value N2 user2 d2).
Lemma p_avalue t n : osim (asim R) (val1 t n) (val2 t n).
Proof.
  destruct t as [id v|x|id l|id l|id l]; unfold av_value, ao_run.
  - apply o_of. intros r1 r2 H. destruct (s_value R N1 N2 HM (fun r => (Panic, r)) (fun r => (Panic, r)) v n (s_pure _ _) _ _ H) as ([x v'] & y1 & y2 & -> & -> & K). eauto 7.
  - apply p_run, p_user.
  - now apply p_run, p_seq.
  - now apply p_run, p_arr.
  - now apply p_run, p_dict.
Qed.
Notation into1 := (av_value_into D val1).
Notation into2 := (w_value_into Z val2).
Lemma p_value_into n t : osim (asim R) (into1 n t) (into2 n t).
Proof.
  intros r1 r2 y t' r2' H E Ry. unfold w_value_into, av_value_into in *. destruct (val2 t n (ALimited r2 n)) as [[x t1] lr] eqn:Ev.
  assert (Rx : returns x) by (destruct x; try exact Logic.I; apply pair_inv in E as [E _]; apply pair_inv in E as [<- _]; exact Ry).
  destruct (p_avalue t n (ALimited r1 n) (ALimited r2 n) _ _ _ (conj H eq_refl) Ev Rx) as (lr1 & -> & K). rewrite (asim_empty R _ _ K).
  destruct x as [[]|err| |]; try contradiction.
  - rewrite stacked_check in E. apply pair_inv in E as [E <-]. apply pair_inv in E as [<- <-]. eexists. split; [reflexivity|]. now apply asim_unlimit.
  - apply pair_inv in E as [E <-]. apply pair_inv in E as [<- <-]. eexists. split; [reflexivity|]. now apply asim_unlimit.
Qed.
Lemma p_step : psim (asim R) (av_step N1 D into1 e) (w_step Z e N2 into2).
Proof.
  apply p_bind; [now apply p_of, s_ilint|]. intros id. apply p_bind; [now apply p_of, s_tag_size|]. intros n. apply p_bind.
  - apply p_of. intros r1 r2 H. rewrite stacked_create. eauto 7.
  - intros [t|]; [|apply p_of, s_fail]. intros r1 r2 y r2' H E Ry. destruct (into2 n t r2) as [[x t'] r3] eqn:Ei. apply pair_inv in E as [<- <-].
    destruct (p_value_into n t _ _ _ _ _ H Ei) as (r4 & -> & K); [now destruct x|]. eauto.
Qed.
Lemma p_into t : osim (asim R) (fun r => av_into N1 D into1 r t) (fun r => w_into Z N2 into2 r t).
Proof.
  intros r1 r2 y t' r2' H E Ry. cbv beta in *. unfold w_into, av_into, bind in *. 
  destruct (s_ilint R N1 N2 HM _ _ H) as (x & r3 & r4 & E1 & E2 & K). rewrite E1. rewrite E2 in E. destruct x as [id|err| |].
  2-4: apply pair_inv in E as [E <-]; apply pair_inv in E as [<- <-]; eauto.
  rewrite stacked_id in E. destruct (negb _); [apply pair_inv in E as [E <-]; apply pair_inv in E as [<- <-]; eauto|].
  destruct (s_tag_size R N1 N2 HM id _ _ K) as (x & r5 & r6 & E3 & E4 & K'). rewrite E3. rewrite E4 in E. destruct x as [n|err| |].
  2-4: apply pair_inv in E as [E <-]; apply pair_inv in E as [<- <-]; eauto.
  exact (p_value_into n t _ _ _ _ _ K' E Ry).
Qed.
End Exec.

Hypothesis Hc : cfg_ok c.
Hypothesis Hcalm : forall n x, ycalm (Y n x).
Hypothesis Haims : forall n x, yaims (Y n x).
Hypothesis Hcr : forall id, u_create D id <> Some None.
Hypothesis Htot : engine_total e.
Hypothesis He : engine_bytes e.
Lemma stacked_sim f : forall V (N1 : reader_impl V) (N2 : reader_impl SW) (put : V -> SW), impl_ok N1 -> same_reader (fun v u => u = put v) N1 N2 ->
  psim (asim (fun v u => u = put v)) (ay_deserialize N1 c D Y e f) (w_deserialize c Z e f N2) /\
  forall t, target t -> osim (asim (fun v u => u = put v)) (fun r => ay_deserialize_into N1 c D Y e f r t) (fun r => w_deserialize_into c Z e f N2 r t).
Proof.
  unfold ay_deserialize, ay_deserialize_into, w_deserialize, w_deserialize_into. induction f as [|f IH]; intros V N1 N2 put HN HS; cbn [ay_fuel w_fuel fst snd].
  - split; [|intros t _]; intros r1 r2 y; [intros r2' _ E Ry; apply pair_inv in E as [<- _]|intros t' r2' _ E Ry; apply pair_inv in E as [E _]; apply pair_inv in E as [<- _]]; contradiction.
  - destruct (IH V N1 N2 put HN HS) as [Gd Gi]. destruct (ay_targets N1 HN c D Y e He f) as [Td Ti].
    assert (God : forall q w st y u', rwf q -> (let '(x, r) := fst (w_fuel c Z e f top) (ABase (w, q :: st)) in (x, a_state r)) = (y, u') -> returns y ->
      exists q', y_deserialize c D Y e f q = (y, q') /\ rwf q' /\ u' = (w, q' :: st) /\ forall t, y = Ok t -> target t).
    { intros q w st y u' Wq E Ry. destruct (fst (w_fuel c Z e f top) (ABase (w, q :: st))) as [x r] eqn:Ex. apply pair_inv in E as [-> <-].
      destruct (IH _ reader_as_impl top (fun v => (w, proj1_sig v :: st)) reader_as_impl_ok (top_same w st)) as [G _].
      destruct (G (ABase (exist _ q Wq)) (ABase (w, q :: st)) _ _ eq_refl Ex Ry) as (r1 & E1 & K).
      destruct (C87_library_readers T c D Y e f q Wq y r1 Hc Hcalm Haims Hcr Htot He E1 Ry) as (q' & W' & -> & E2).
      destruct r as [u|]; cbn [asim proj1_sig] in K; [|contradiction]. subst u. exists q'. split; [exact E2|]. split; [exact W'|]. split; [reflexivity|].
      intros t ->. exact (proj1 (ay_targets reader_as_impl reader_as_impl_ok c D Y e He f) _ _ _ E1). }
    assert (Goi : forall q t w st y t' u', rwf q -> target t -> (let '(x, t', r) := snd (w_fuel c Z e f top) (ABase (w, q :: st)) t in (x, t', a_state r)) = (y, t', u') -> returns y ->
      exists q', y_deserialize_into c D Y e f q t = (y, t', q') /\ rwf q' /\ u' = (w, q' :: st) /\ target t').
    { intros q t w st y t' u' Wq Tt E Ry. destruct (snd (w_fuel c Z e f top) (ABase (w, q :: st)) t) as [[x t1] r] eqn:Ex. apply pair_inv in E as [E <-]. apply pair_inv in E as [-> ->].
      destruct (IH _ reader_as_impl top (fun v => (w, proj1_sig v :: st)) reader_as_impl_ok (top_same w st)) as [_ G].
      destruct (G t Tt (ABase (exist _ q Wq)) (ABase (w, q :: st)) _ _ _ eq_refl Ex Ry) as (r1 & E1 & K). cbv beta in E1.
      destruct (C87_same_answers _ _ AnyFacts.same_reader T c D Y e f (exist _ q Wq) q reader_as_impl_ok reader_as_impl_buffers Hc Hcalm Haims Hcr Htot He eq_refl Wq) as [_ C].
      destruct (C _ _ _ _ Tt E1 Ry) as ([q' Wq'] & rr & -> & E2 & Hs). unfold AnyFacts.same_reader in Hs. cbn [proj1_sig] in Hs. subst rr.
      destruct r as [u|]; cbn [asim proj1_sig] in K; [|contradiction]. subst u. exists q'. split; [exact E2|]. split; [exact Wq'|]. split; [reflexivity|].
      exact (proj2 (ay_targets reader_as_impl reader_as_impl_ok c D Y e He f) _ _ _ _ _ Tt E1). }
    split; [|intros t Tt].
    + apply p_step; auto.
    + apply p_into; auto.
Qed.
End Stacked.

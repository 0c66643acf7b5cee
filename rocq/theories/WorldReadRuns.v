(** Proofs about WorldRead.v: more fuel changes nothing, and code without state is
    that of AnyFull.v. *)
From Verif Require Import Base BaseFacts Types IO ILInt Data Tags Factory Open Prog IntoProg OtherProg FullProg Any AnyScan AnyProg AnyFull AnyFullRuns WorldRead WorldReadSim.

(** ** More fuel *)
Section Deeper.
Context {T W : Type} (c : cfg) (Z : reading_impl T W) (e : engine).
Definition oale {V} (d1 d2 : W -> res tag_error V * W) : Prop := forall u x u', d1 u = (x, u') -> x <> OutOfFuel -> d2 u = (x, u').
Definition ooale {V} (d1 d2 : W -> res tag_error unit * V * W) : Prop := forall u x v u', d1 u = (x, v, u') -> x <> OutOfFuel -> d2 u = (x, v, u').
Lemma w_exec_ale {A} M (d1 d2 : areader W -> res tag_error (otag T) * areader W) i1 i2 od1 od2 oi1 oi2 (p : wprog (otag T) W A) :
  ale d1 d2 -> (forall t r x t' r', i1 r t = (x, t', r') -> x <> OutOfFuel -> i2 r t = (x, t', r')) ->
  (forall N, oale (od1 N) (od2 N)) -> (forall N t, ooale (oi1 N t) (oi2 N t)) -> ale (w_exec c M d1 i1 od1 oi1 p) (w_exec c M d2 i2 od2 oi2 p).
Proof.
  intros Hd Hi Hod Hoi.
  induction p as [A a|A|A B f k IH|A k IH|A old k IH|A n k IH|A n k IH|A k IH|A t k IH|A B n body IHb k IH|A M' k IH|A M' t k IH];
    intros r y r' E1 N; cbn [w_exec] in *; try exact E1.
  - destruct (f (a_state r)) as [b u]. now apply IH.
  - destruct (a_read M r) as [x r1]. revert E1 N. now apply after_ale.
  - destruct (a_read_all M (u8s old) r) as [[x b] r1]. revert E1 N. now apply after_ale.
  - destruct (a_skip M n r) as [x r1]. revert E1 N. now apply after_ale.
  - destruct (a_skip_u64 M c n r) as [x r1]. revert E1 N. now apply after_ale.
  - destruct (d1 r) as [x r1] eqn:E. rewrite (Hd _ _ _ E) by (intros ->; cbn in E1; congruence). revert E1 N. now apply after_ale.
  - destruct (i1 r t) as [[x t'] r1] eqn:E. rewrite (Hi _ _ _ _ _ E) by (intros ->; cbn in E1; congruence). revert E1 N. now apply after_ale.
  - destruct (w_exec c M d1 i1 od1 oi1 body (ALimited r n)) as [x lr] eqn:E.
    rewrite (IHb _ _ _ E) by (intros ->; congruence). destruct x; auto. destruct lr; auto. now apply IH.
  - destruct (od1 M' (a_state r)) as [x u] eqn:E. rewrite (Hod _ _ _ _ E) by (intros ->; cbn in E1; congruence). revert E1 N. now apply after_ale.
  - destruct (oi1 M' t (a_state r)) as [[x t'] u] eqn:E. rewrite (Hoi _ _ _ _ _ _ E) by (intros ->; cbn in E1; congruence). revert E1 N. now apply after_ale.
Qed.
Lemma w_value_le M (u1 u2 : N -> @amethod W T unit) (d1 d2 : areader W -> res tag_error (otag T) * areader W) n :
  (forall n, mle' (u1 n) (u2 n)) -> ale d1 d2 -> ole (w_value_into Z (av_value M u1 d1) n) (w_value_into Z (av_value M u2 d2) n).
Proof.
  intros Hu Hd t r x t' r' E N. unfold w_value_into in *.
  destruct (av_value M u1 d1 t n (ALimited r n)) as [[y t1] lr] eqn:E1.
  assert (K : y <> OutOfFuel -> av_value M u2 d2 t n (ALimited r n) = (y, t1, lr)).
  { intros Ny. assert (R : forall S (m1 m2 : @amethod W S unit) s (mk : S -> otag T), mle' m1 m2 ->
      ao_run m1 s mk (ALimited r n) = (y, t1, lr) -> ao_run m2 s mk (ALimited r n) = (y, t1, lr)).
    { intros S m1 m2 s mk H. unfold ao_run. destruct (m1 (s, ALimited r n)) as [z [s1 r1]] eqn:Em. intros Ez.
      rewrite (H _ _ _ _ Em) by (intros ->; congruence). exact Ez. }
    destruct t as [id v|x0|id l|id l|id l]; cbn [av_value] in *; [exact E1|..]; (eapply R; [|exact E1]); [apply Hu|now apply mle_seq|now apply mle_arr|now apply mle_dict]. }
  rewrite K; [exact E|]. intros ->. congruence.
Qed.
Lemma w_fuel_mono f : forall g M, (f <= g)%nat ->
  ale (w_deserialize c Z e f M) (w_deserialize c Z e g M) /\
  (forall t r x t' r', w_deserialize_into c Z e f M r t = (x, t', r') -> x <> OutOfFuel -> w_deserialize_into c Z e g M r t = (x, t', r')).
Proof.
  unfold w_deserialize, w_deserialize_into. induction f as [|f IH]; intros g M L.
  - split; [intros r x r' [= <- _] N; now elim N|intros t r x t' r' [= <- _ _] N; now elim N].
  - destruct g as [|g]; [lia|]. destruct (IH g M ltac:(lia)) as [H1 H2]. cbn [w_fuel fst snd].
    set (od1 := fun M' u => let '(x, r) := fst (w_fuel c Z e f M') (ABase u) in (x, a_state r)).
    set (od2 := fun M' u => let '(x, r) := fst (w_fuel c Z e g M') (ABase u) in (x, a_state r)).
    set (oi1 := fun M' t u => let '(x, t', r) := snd (w_fuel c Z e f M') (ABase u) t in (x, t', a_state r)).
    set (oi2 := fun M' t u => let '(x, t', r) := snd (w_fuel c Z e g M') (ABase u) t in (x, t', a_state r)).
    set (u1 := w_user c Z M (fst (w_fuel c Z e f M)) (snd (w_fuel c Z e f M)) od1 oi1).
    set (u2 := w_user c Z M (fst (w_fuel c Z e g M)) (snd (w_fuel c Z e g M)) od2 oi2).
    assert (Ho : forall N, oale (od1 N) (od2 N)).
    { intros M' u x u' E N. unfold od1, od2 in *. destruct (fst (w_fuel c Z e f M') (ABase u)) as [z r] eqn:Ez.
      rewrite (proj1 (IH g M' ltac:(lia)) _ _ _ Ez) by congruence. exact E. }
    assert (Hoi : forall N t, ooale (oi1 N t) (oi2 N t)).
    { intros M' t u x v u' E N. unfold oi1, oi2 in *. destruct (snd (w_fuel c Z e f M') (ABase u) t) as [[z t'] r] eqn:Ez.
      rewrite (proj2 (IH g M' ltac:(lia)) _ _ _ _ _ Ez) by congruence. exact E. }
    assert (Hu : forall n, mle' (u1 n) (u2 n)).
    { intros n s r x s' E N. unfold u1, u2, w_user in *.
      destruct (w_exec c M (fst (w_fuel c Z e f M)) (snd (w_fuel c Z e f M)) od1 oi1 (z_value Z n s) r) as [y r1] eqn:Ee.
      rewrite (w_exec_ale M _ _ _ _ od1 od2 oi1 oi2 (z_value Z n s) H1 H2 Ho Hoi _ _ _ Ee) by (intros ->; congruence). exact E. }
    assert (Hv : forall n, ole (w_value_into Z (av_value M u1 (fst (w_fuel c Z e f M))) n) (w_value_into Z (av_value M u2 (fst (w_fuel c Z e g M))) n)).
    { intros n. now apply w_value_le. }
    split.
    + unfold w_step. apply ale_bind; [apply ale_refl|]. intros id. apply ale_bind; [apply ale_refl|]. intros n. apply ale_bind; [apply ale_refl|].
      intros [t|]; [|apply ale_refl]. intros r x r' E N. destruct (w_value_into Z (av_value M u1 (fst (w_fuel c Z e f M))) n t r) as [[y t'] r1] eqn:Ev.
      rewrite (Hv n _ _ _ _ _ Ev) by (intros ->; cbn in E; congruence). exact E.
    + intros t r x t' r' E N. unfold w_into in *.
      destruct ((id <- a_ilint M ;; mine <- w_id Z t ;; if negb (id =? mine) then fail UnexpectedTagType else a_tag_size M id) r) as [[n|err| |] r2]; try exact E. now apply (Hv n).
Qed.
End Deeper.

(** ** Code without state *)
(** Programs that use no reader but their own. *)
Fixpoint ydirect {I A} (p : yprog I A) : Prop :=
  match p with
  | YDone _ | YAbort => True
  | YRead k => forall x, ydirect (k x)
  | YReadAll _ k => forall x b, ydirect (k x b)
  | YSkip _ k => forall x, ydirect (k x)
  | YSkip64 _ k => forall x, ydirect (k x)
  | YTag k => forall x, ydirect (k x)
  | YLimited _ body k => ydirect body /\ forall b n, ydirect (k b n)
  | YInto _ k => forall x t, ydirect (k x t)
  | YOther _ _ | YOtherInto _ _ _ => False
  end.
Fixpoint to_w {I W A} (p : yprog I A) : wprog I W A :=
  match p with
  | YDone a => WDone a
  | YAbort => WAbort
  | YRead k => WRead (fun x => to_w (k x))
  | YReadAll old k => WReadAll old (fun x b => to_w (k x b))
  | YSkip n k => WSkip n (fun x => to_w (k x))
  | YSkip64 n k => WSkip64 n (fun x => to_w (k x))
  | YTag k => WTag (fun x => to_w (k x))
  | YLimited n body k => WLimited n (to_w body) (fun b m => to_w (k b m))
  | YInto t k => WInto t (fun x t' => to_w (k x t'))
  | YOther _ _ => WAbort
  | YOtherInto _ _ _ => WAbort
  end.
Definition without_state {T W} (D : user_impl T) (Y : yscript T) : reading_impl T W := {|
  z_id := fun x u => (Some (u_id D x), u);
  z_value := fun n x => to_w (Y n x);
  z_create := fun id => option_map (fun x u => (option_map OUser x, u)) (u_create D id) |}.
Section Stateless.
Context {T W : Type} (M : reader_impl W) (c : cfg) (D : user_impl T) (Y : yscript T) (e : engine).
Hypothesis HY : forall n x, ydirect (Y n x).
Notation Z := (without_state (W := W) D Y).
Lemma asim_eq (r1 : areader W) : forall r2, asim eq r1 r2 <-> r1 = r2.
Proof.
  induction r1 as [u1|s1 IH n1]; intros [u2|s2 n2]; cbn [asim]; split; try tauto; try discriminate; try congruence.
  - intros [H ->]. apply IH in H. congruence.
  - intros [= -> ->]. split; [now apply IH|reflexivity].
Qed.
Lemma same_refl : same_reader eq M M.
Proof.
  split.
  - intros u1 u2 <-. destruct (u_read M u1) as [x u']. eauto 7.
  - intros buff u1 u2 <-. destruct (u_read_all M buff u1) as [x u']. eauto 7.
Qed.
Lemma msim_eq {V} (m1 m2 : areader W -> V * areader W) : msim (asim eq) m1 m2 <-> forall r, m1 r = m2 r.
Proof.
  split.
  - intros H r. destruct (H r r) as (v & y1 & y2 & -> & -> & K); [now apply asim_eq|]. apply asim_eq in K. congruence.
  - intros H r1 r2 E. apply asim_eq in E as ->. rewrite H. destruct (m2 r2) as [v r']. exists v, r', r'. split; [reflexivity|]. split; [reflexivity|]. now apply asim_eq.
Qed.
Lemma put_state (r : areader W) : a_put (a_state r) r = r.
Proof. induction r as [|s IH n]; cbn; congruence. Qed.
Lemma w_id_less t r : w_id Z t r = (Ok (o_id D t), r).
Proof. destruct t; cbn [w_id o_id]; try reflexivity. unfold on_state, or_panic. cbn [z_id without_state]. now rewrite put_state. Qed.
Lemma w_create_less id r : w_create Z e id r = (o_create D e id, r).
Proof.
  unfold w_create, o_create. cbn [z_create without_state]. destruct (u_create D id) as [[x|]|]; cbn [option_map]; try reflexivity;
    unfold bind, on_state, or_panic; cbn [option_map]; now rewrite put_state.
Qed.
Lemma w_check_less t r : w_check Z t r = (if negb (o_id D t =? IL_ILINT_TAG_ID) && negb (o_id D t =? IL_SIGNED_ILINT_TAG_ID) && negb (a_empty r) then Err CorruptedData else Ok tt, r).
Proof.
  unfold w_check, bind. rewrite w_id_less. destruct (o_id D t =? IL_ILINT_TAG_ID); [reflexivity|]. cbn [negb andb]. rewrite w_id_less.
  destruct (o_id D t =? IL_SIGNED_ILINT_TAG_ID); [reflexivity|]. cbn [negb andb]. now destruct (a_empty r).
Qed.
Lemma exec_less {A} d1 d2 i1 i2 od1 oi1 od2 oi2 (p : yprog (otag T) A) : ydirect p -> (forall r, d1 r = d2 r) -> (forall r t, i1 r t = i2 r t) ->
  forall r, w_exec c M d1 i1 od1 oi1 (to_w p) r = ay_exec M c d2 i2 od2 oi2 p r.
Proof.
  intros Hp Hd Hi.
  assert (Ha : forall E A B (x : res E B) (f1 f2 : res E B -> areader W -> res tag_error A * areader W) r, (forall x r, f1 x r = f2 x r) -> a_after x f1 r = a_after x f2 r)
    by (intros E0 A0 B0 x f1 f2 r H; destruct x; cbn [a_after]; auto).
  induction p as [A a0|A|A k IH|A old k IH|A n k IH|A n k IH|A k IH|A B n body IHb k IH|A t k IH|A q k IH|A q t k IH];
    intros r; cbn [ay_exec w_exec to_w ydirect] in *; try reflexivity; try contradiction.
  - destruct (a_read M r). apply Ha. auto.
  - destruct (a_read_all M (u8s old) r) as [[? ?] ?]. apply Ha. auto.
  - destruct (a_skip M n r). apply Ha. auto.
  - destruct (a_skip_u64 M c n r). apply Ha. auto.
  - rewrite Hd. destruct (d2 r). apply Ha. auto.
  - destruct Hp as [Hb Hk]. rewrite (IHb Hb). destruct (ay_exec M c d2 i2 od2 oi2 body (ALimited r n)) as [x lr]. destruct x; try reflexivity. destruct lr; auto.
  - rewrite Hi. destruct (i2 r t) as [[? ?] ?]. apply Ha. auto.
Qed.
Lemma less f : (forall r, w_deserialize c Z e f M r = ay_deserialize M c D Y e f r) /\
  forall r t, w_deserialize_into c Z e f M r t = ay_deserialize_into M c D Y e f r t.
Proof.
  unfold w_deserialize, w_deserialize_into, ay_deserialize, ay_deserialize_into. induction f as [|f [IH1 IH2]]; cbn [w_fuel ay_fuel fst snd]; [auto|].
  set (od := fun M' u => let '(x, r) := fst (w_fuel c Z e f M') (ABase u) in (x, a_state r)).
  set (oi := fun M' t u => let '(x, t', r) := snd (w_fuel c Z e f M') (ABase u) t in (x, t', a_state r)).
  set (u1 := w_user c Z M (fst (w_fuel c Z e f M)) (snd (w_fuel c Z e f M)) od oi).
  set (u2 := ay_user M c (fst (ay_fuel M c D Y e f)) (snd (ay_fuel M c D Y e f)) (y_deserialize c D Y e f) (y_deserialize_into c D Y e f) Y).
  assert (Hd : msim (asim eq) (fst (w_fuel c Z e f M)) (fst (ay_fuel M c D Y e f))) by now apply msim_eq.
  assert (Hu : forall n, msim (qs eq) (u1 n) (u2 n)).
  { intros n x1 x2 H. destruct (qs_elim _ _ _ H) as (x & r1 & r2 & -> & -> & K). apply asim_eq in K as ->.
    unfold u1, u2. cbn [w_user ay_user z_value without_state]. 
    rewrite (exec_less (fst (w_fuel c Z e f M)) (fst (ay_fuel M c D Y e f)) (snd (w_fuel c Z e f M)) (snd (ay_fuel M c D Y e f)) od oi
      (y_deserialize c D Y e f) (y_deserialize_into c D Y e f) (Y n x) (HY n x) IH1 IH2 r2).
    destruct (ay_exec M c _ _ _ _ (Y n x) r2) as [z r']. destruct z as [[[err|] x']|err| |]; eexists _, _, _; (split; [reflexivity|]; split; [reflexivity|]; apply qs_intro; now apply asim_eq). }
  assert (Hv : forall t n r, av_value M u1 (fst (w_fuel c Z e f M)) t n r = av_value M u2 (fst (ay_fuel M c D Y e f)) t n r).
  { intros t n. apply msim_eq. pose proof same_refl as Hs. destruct t as [id v|x|id l|id l|id l]; unfold av_value, ao_run.
    - intros r1 r2 H. destruct (s_value eq M M Hs (fun r => (Panic, r)) (fun r => (Panic, r)) v n (s_pure _ _) _ _ H) as ([x v'] & y1 & y2 & -> & -> & K). eauto 7.
    - apply s_run, Hu.
    - now apply s_run, s_seq.
    - now apply s_run, s_arr.
    - now apply s_run, s_dict. }
  assert (Hi : forall n t r, w_value_into Z (av_value M u1 (fst (w_fuel c Z e f M))) n t r = av_value_into D (av_value M u2 (fst (ay_fuel M c D Y e f))) n t r).
  { intros n t r. unfold w_value_into, av_value_into. rewrite Hv. destruct (av_value M u2 _ t n (ALimited r n)) as [[x t'] lr].
    destruct x as [[]|err| |]; try reflexivity. rewrite w_check_less. reflexivity. }
  split.
  - intros r. unfold w_step, av_step, bind. destruct (a_ilint M r) as [[id|err| |] r1]; try reflexivity. destruct (a_tag_size M id r1) as [[n|err| |] r2]; try reflexivity.
    rewrite w_create_less. destruct (o_create D e id) as [[t|]|err| |]; try reflexivity. now rewrite Hi.
  - intros r t. unfold w_into, av_into, bind. destruct (a_ilint M r) as [[id|err| |] r1]; try reflexivity. rewrite w_id_less. destruct (negb _); [reflexivity|].
    destruct (a_tag_size M id r1) as [[n|err| |] r2]; try reflexivity. apply Hi.
Qed.
End Stateless.

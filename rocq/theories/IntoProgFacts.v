(** Proofs about IntoProg.v. *)
From Verif Require Import Base BaseFacts Types Spec SpecFacts IO IOSpec IOFacts Logic HistFacts ILInt ILIntFacts Data DataFacts Tags
  Factory FactoryFacts DecodeFacts DeserFacts ClosedFacts Open KinFacts OpenFacts Prog ProgFacts IntoProg.

(** ** Limits only go down *)
Fixpoint shrinks (r r' : reader) : Prop :=
  match r, r' with
  | RLimited s n, RLimited s' n' => n' <= n /\ shrinks s s'
  | RLimited _ _, _ | _, RLimited _ _ => False
  | _, _ => True
  end.
Definition Rshrink (E A : Type) (m : reader -> res E A * reader) : Prop := forall r x r', m r = (x, r') -> shrinks r r'.
Definition Mshrink (S A : Type) (m : method S A) : Prop := forall s r x s' r', m (s, r) = (x, (s', r')) -> shrinks r r'.
Lemma shrinks_refl r : shrinks r r.
Proof. induction r; cbn [shrinks]; auto. split; [lia|assumption]. Qed.
Lemma shrinks_trans r r1 r2 : shrinks r r1 -> shrinks r1 r2 -> shrinks r r2.
Proof.
  revert r1 r2; induction r; intros r1 r2; destruct r1; cbn [shrinks]; try contradiction; destruct r2; cbn [shrinks]; auto.
  intros [? ?] [? ?]. split; [lia|]. eapply IHr; eauto.
Qed.
Lemma shrinks_limited s n r' : shrinks (RLimited s n) r' -> exists s' n', r' = RLimited s' n' /\ shrinks s s' /\ n' <= n.
Proof. destruct r'; cbn [shrinks]; try contradiction. intros [? ?]. eauto. Qed.
Lemma shrinks_read_all n r x got r' : read_all n r = (x, got, r') -> shrinks r r'.
Proof.
  revert n x got r'; induction r as [a o|v o|s IH m|d sc|s|sc]; intros n x got r'; cbn [read_all].
  - destruct (mem_read_all n a o) as [[y g] o']. intros H. apply pair_inv in H as [_ <-]. exact I.
  - destruct (vecr_read_all n v o) as [[y g] o']. intros H. apply pair_inv in H as [_ <-]. exact I.
  - destruct (m <? n); [intros H; apply pair_inv in H as [_ <-]; apply shrinks_refl|].
    destruct (read_all n s) as [[y g] s'] eqn:E. intros H. apply pair_inv in H as [_ <-]. cbn [shrinks]. split; [destruct (is_ok y); lia|eauto].
  - destruct (read_exact n d sc) as [[[y g] d'] sc']. intros H. apply pair_inv in H as [_ <-]. exact I.
  - destruct (seek_read_all n s) as [[y g] s']. intros H. apply pair_inv in H as [_ <-]. exact I.
  - destruct (read_custom_all _ sc) as [[y g] sc']. intros H. apply pair_inv in H as [_ <-]. exact I.
Qed.
Lemma shrinks_read : Rshrink _ _ read.
Proof.
  intros r. induction r as [a o|v o|s IH m|d sc|s|sc]; intros x r'; cbn [read].
  - destruct (mem_read a o). intros [= _ <-]. exact I.
  - destruct (vecr_read v o). intros [= _ <-]. exact I.
  - destruct (m <? 1); [intros [= _ <-]; apply shrinks_refl|]. destruct (read s) as [y s'] eqn:E. intros H.
    apply pair_inv in H as [_ <-]. cbn [shrinks]. split; [destruct (is_ok y); lia|eauto].
  - destruct (read_exact 1 d sc) as [[[y g] d'] sc']. intros H. apply pair_inv in H as [_ <-]. exact I.
  - destruct (seek_read_all 1 s) as [[y g] s']. intros H. apply pair_inv in H as [_ <-]. exact I.
  - destruct sc as [|[e|b] sc]; intros [= _ <-]; exact I.
Qed.
Lemma shrinks_skip_loop f : forall n, Rshrink _ _ (skip_loop f n).
Proof.
  induction f as [|f IH]; intros n r x r'; cbn [skip_loop]; destruct (n =? 0); try (intros [= _ <-]; apply shrinks_refl).
  destruct (read_all _ r) as [[y g] r1] eqn:E. apply shrinks_read_all in E.
  destruct y; intros H; try (injection H as _ <-; exact E). apply IH in H. eapply shrinks_trans; eauto.
Qed.
Lemma shrinks_skip c n : Rshrink _ _ (skip c n).
Proof.
  intros r x r'. destruct r as [a o|v o|s m|d sc|s|sc]; try (apply shrinks_skip_loop); cbn [skip].
  - destruct (mem_skip _ _ _). intros [= _ <-]. exact I.
  - destruct (vecr_skip _ _ _). intros [= _ <-]. exact I.
  - destruct (seek_skip_u64 c n s). intros [= _ <-]. exact I.
Qed.
Lemma shrinks_skip_u64_loop c f : forall n, Rshrink _ _ (skip_u64_loop c f n).
Proof.
  induction f as [|f IH]; intros n r x r'; cbn [skip_u64_loop]; destruct (n =? 0); try (intros [= _ <-]; apply shrinks_refl).
  destruct (skip c _ r) as [y r1] eqn:E. apply shrinks_skip in E.
  destruct y; intros H; try (injection H as _ <-; exact E). apply IH in H. eapply shrinks_trans; eauto.
Qed.
Lemma shrinks_skip_u64 c n : Rshrink _ _ (skip_u64 c n).
Proof.
  intros r x r'. destruct r as [a o|v o|s m|d sc|s|sc]; try (apply shrinks_skip_u64_loop); cbn [skip_u64].
  destruct (seek_skip_u64 c n s). intros [= _ <-]. exact I.
Qed.
Lemma closed_shrinks : closed Rshrink Mshrink.
Proof.
  constructor.
  - exact shrinks_read.
  - intros n r x r'. unfold fetch. destruct (read_all n r) as [[y g] r1] eqn:E. intros H. apply pair_inv in H as [_ <-].
    eapply shrinks_read_all; eauto.
  - intros E A x r y r' [= _ <-]. apply shrinks_refl.
  - intros E A B m f Hm Hf r x r'. unfold bind. destruct (m r) as [y r1] eqn:E1. apply Hm in E1.
    destruct y as [a|e| |]; try (intros [= _ <-]; exact E1). intros E2. apply Hf in E2. eapply shrinks_trans; eauto.
  - intros E E' A f m Hm r x r'. unfold lift_err. destruct (m r) as [y r1] eqn:E1. intros H. apply pair_inv in H as [_ <-]. eauto.
  - intros S A g s r x s' r' [= _ _ <-]. apply shrinks_refl.
  - intros S f s r x s' r' [= _ _ <-]. apply shrinks_refl.
  - intros S A B m f Hm Hf s r x s' r'. unfold bind. destruct (m (s, r)) as [y [s1 r1]] eqn:E1. apply Hm in E1.
    destruct y as [a|e| |]; try (intros [= _ _ <-]; exact E1). intros E2. apply Hf in E2. eapply shrinks_trans; eauto.
  - intros S A c m1 m2 H1 H2 s r x s' r'. destruct (c (s, r)); [apply H1|apply H2].
  - intros S A g m H s r x s' r'. apply H.
  - intros S A m Hm s r x s' r'. unfold on_reader. destruct (m r) as [y r1] eqn:E1. intros [= _ _ <-]. eauto.
  - intros S A n m Hm s r x s' r'. unfold limited, LimitedReader_new.
    destruct (m (s, RLimited r n)) as [y [s1 r1]] eqn:E1. intros [= _ _ <-]. apply Hm in E1.
    apply shrinks_limited in E1 as (q & n' & -> & Hq & _). exact Hq.
  - intros s r x s' r'. unfold in_place, into_slice. destruct (read_all (lenN s) r) as [[y g] r1] eqn:E.
    intros H. apply pair_inv in H as [_ H]. apply pair_inv in H as [_ <-]. eapply shrinks_read_all; eauto.
  - intros S T A get put m Hm s r x s' r'. cbn [fst snd]. destruct (m (get s, r)) as [y [t1 r1]] eqn:E1. intros [= _ _ <-]. eauto.
  - intros S A B s m g Hg Hm r x r'. destruct (m (s, r)) as [y [s1 r1]] eqn:E1. intros [= _ <-]. eauto.
  - intros E A m m' Hx Hm r x r' E1. rewrite <- Hx in E1. eauto.
  - intros S A m m' Hx Hm s r x s' r' E1. rewrite <- Hx in E1. eauto.
Qed.
Lemma exec_shrinks {I A} c (deser : reader -> res tag_error I * reader) (p : prog I A) : Rshrink _ _ deser -> Rshrink _ _ (exec c deser p).
Proof.
  intros Kd. induction p as [A a|A|A k IH|A n k IH|A n k IH|A n k IH|A k IH|A B n body IHb k IH]; intros r y r'; cbn [exec].
  - intros [= _ <-]. apply shrinks_refl.
  - intros [= _ <-]. apply shrinks_refl.
  - destruct (read r) as [x r1] eqn:E. apply shrinks_read in E. intros H.
    apply after_inv in H as [(_ & _ & ->)|[(_ & _ & ->)|[_ H]]]; auto. apply IH in H. eapply shrinks_trans; eauto.
  - destruct (read_all (lenN n) r) as [[x g] r1] eqn:E. apply shrinks_read_all in E. intros H.
    apply after_inv in H as [(_ & _ & ->)|[(_ & _ & ->)|[_ H]]]; auto. apply IH in H. eapply shrinks_trans; eauto.
  - destruct (skip c n r) as [x r1] eqn:E. apply shrinks_skip in E. intros H.
    apply after_inv in H as [(_ & _ & ->)|[(_ & _ & ->)|[_ H]]]; auto. apply IH in H. eapply shrinks_trans; eauto.
  - destruct (skip_u64 c n r) as [x r1] eqn:E. apply shrinks_skip_u64 in E. intros H.
    apply after_inv in H as [(_ & _ & ->)|[(_ & _ & ->)|[_ H]]]; auto. apply IH in H. eapply shrinks_trans; eauto.
  - destruct (deser r) as [x r1] eqn:E. apply Kd in E. intros H.
    apply after_inv in H as [(_ & _ & ->)|[(_ & _ & ->)|[_ H]]]; auto. apply IH in H. eapply shrinks_trans; eauto.
  - unfold LimitedReader_new. destruct (exec c deser body (RLimited r n)) as [x lr] eqn:E. apply IHb in E.
    apply shrinks_limited in E as (r1 & n1 & -> & K & _).
    destruct x; cbn [unlimit]; intros H; try (injection H as _ <-; exact K). apply IH in H. eapply shrinks_trans; eauto.
Qed.
Lemma scripted_shrinks {T} c (U : user_impl T) P deser n : Rshrink _ _ deser -> Mshrink _ _ (u_deserialize_value (scripted c U P) deser n).
Proof.
  intros Kd s r x s' r'. cbn [u_deserialize_value scripted]. destruct (exec c deser (P n s) r) as [y r1] eqn:E.
  apply (exec_shrinks _ _ _ Kd) in E. destruct y as [[[e|] x1]|e| |]; intros [= _ _ <-]; exact E.
Qed.
(** A tag that was read took a byte at least from every limit. *)
Definition nibbles {A} (m : reader -> res tag_error A * reader) : Prop :=
  forall s n a r', m (RLimited s n) = (Ok a, r') -> exists s' n', r' = RLimited s' n' /\ n' < n.
Lemma ilint_nibbles : nibbles deserialize_ilint.
Proof.
  intros s n a r'. unfold deserialize_ilint, read_ilint, decode, lift_err, bind. cbn [read].
  destruct (N.ltb_spec n 1); [discriminate|]. destruct (read s) as [[b|e| |] s1] eqn:E; cbn [map_err]; try discriminate.
  destruct (decoded_size b =? 1); [intros [= _ <-]; exists s1, (n - 1); split; [reflexivity|lia]|].
  destruct (fetch _ _) as [y r2] eqn:Ef.
  assert (K : shrinks (RLimited s1 (n - 1)) r2) by (eapply (c_fetch _ _ closed_shrinks); exact Ef).
  apply shrinks_limited in K as (s2 & n2 & -> & _ & L). intros Ey.
  exists s2, n2. destruct y; cbn [map_err] in Ey; try discriminate. split; [congruence|lia].
Qed.
Lemma o_fuel_nibbles {T} c (U : user_impl T) P e f : nibbles (o_deserialize_fuel (scripted c U P) f e).
Proof.
  intros s n a r' E. destruct f as [|f]; [discriminate|]. cbn [o_deserialize_fuel] in E.
  apply bind_inv_ok in E as (id & r1 & E1 & E).
  apply ilint_nibbles in E1 as (s1 & n1 & -> & L1).
  assert (K : Rshrink _ _ (o_deserialize_fuel (scripted c U P) f e)).
  { apply (co_deserialize_fuel _ _ closed_shrinks). intros d m. apply scripted_shrinks. }
  apply bind_inv_ok in E as (m & r2 & E2 & E).
  assert (K2 : shrinks (RLimited s1 n1) r2) by (eapply (cl_tag_size _ _ closed_shrinks); exact E2).
  apply bind_inv_ok in E as (t & r3 & E3 & E). cbn beta in E3. injection E3 as Ec <-. destruct t as [t|]; [|discriminate].
  unfold o_value_into, LimitedReader_new in E.
  assert (K3 : Rshrink _ _ (fun r => let '(x, t', r') := o_deserialize_value (scripted c U P) (o_deserialize_fuel (scripted c U P) f e) t m r in (map_ok (fun _ => t') x, r'))).
  { apply (co_value _ _ closed_shrinks _ (fun d k => scripted_shrinks c U P d k) _ K t m (fun x t' => map_ok (fun _ => t') x)).
    intros [[]|x| |] t'; reflexivity. }
  specialize (K3 (RLimited r2 m)). cbn beta in K3. destruct (o_deserialize_value _ _ t m (RLimited r2 m)) as [[x t'] lr].
  specialize (K3 _ _ eq_refl). apply shrinks_limited in K3 as (q & m' & -> & Hq & _).
  cbn [unlimit] in E. injection E as _ <-.
  destruct (shrinks_limited _ _ _ (shrinks_trans _ _ _ K2 Hq)) as (s' & n' & -> & _ & L'). exists s', n'. split; [reflexivity|lia].
Qed.

(** ** More fuel gives the same result *)
Definition Rle {E A} (m1 m2 : reader -> res E A * reader) : Prop := forall r, fst (m1 r) = OutOfFuel \/ m1 r = m2 r.
Definition Mle {S A} (m1 m2 : method S A) : Prop := forall st, fst (m1 st) = OutOfFuel \/ m1 st = m2 st.
Lemma le_bind {S E A B} (m1 m2 : S -> res E A * S) (f1 f2 : A -> S -> res E B * S) :
  (forall s, fst (m1 s) = OutOfFuel \/ m1 s = m2 s) -> (forall a s, fst (f1 a s) = OutOfFuel \/ f1 a s = f2 a s) ->
  forall s, fst (bind m1 f1 s) = OutOfFuel \/ bind m1 f1 s = bind m2 f2 s.
Proof.
  intros Hm Hf s. unfold bind. destruct (Hm s) as [H|<-].
  - destruct (m1 s) as [x s1]. cbn [fst] in H. subst x. now left.
  - destruct (m1 s) as [[a|e| |] s1]; auto.
Qed.
Lemma Mle_refl {S A} (m : method S A) : Mle m m.
Proof. intros st. now right. Qed.
Lemma Mle_on_reader {S A} (m1 m2 : reader -> res tag_error A * reader) : Rle m1 m2 -> Mle (@on_reader S A m1) (on_reader m2).
Proof.
  intros H [s r]. unfold on_reader. destruct (H r) as [Hr|<-]; [|now right].
  destruct (m1 r) as [x r1]. cbn [fst] in *. subst x. now left.
Qed.
Lemma Mle_limited {S A} n (m1 m2 : method S A) : Mle m1 m2 -> Mle (limited n m1) (limited n m2).
Proof.
  intros H [s r]. unfold limited. destruct (H (s, LimitedReader_new r n)) as [Hr|<-]; [|now right].
  destruct (m1 _) as [x [s1 r1]]. cbn [fst] in *. subst x. now left.
Qed.
Lemma Mle_repeat {S A} (m1 m2 : reader -> res tag_error A * reader) (store : A -> S -> S) f :
  Rle m1 m2 -> forall count, Mle (repeat_read f m1 store count) (repeat_read f m2 store count).
Proof.
  intros H. induction f as [|f IH]; intros count; [apply Mle_refl|]. cbn [repeat_read]. destruct (count =? 0); [apply Mle_refl|].
  intros st. apply le_bind; [now apply Mle_on_reader|]. intros a. apply le_bind; [now right|]. intros _. apply IH.
Qed.
Lemma Mle_while {S A} (m1 m2 : reader -> res tag_error A * reader) (store : A -> S -> S) f :
  Rle m1 m2 -> Mle (while_read f m1 store) (while_read f m2 store).
Proof.
  intros H. induction f as [|f IH]; [apply Mle_refl|]. intros st. cbn [while_read]. destruct (limit_empty _); [now right|].
  apply le_bind; [now apply Mle_on_reader|]. intros a. apply le_bind; [now right|]. intros _. apply IH.
Qed.
Lemma exec_le {I A} c (d1 d2 : reader -> res tag_error I * reader) (p : prog I A) : Rle d1 d2 -> Rle (exec c d1 p) (exec c d2 p).
Proof.
  intros H.
  assert (Step : forall A E B (x : res E B) (g1 g2 : res E B -> reader -> res tag_error A * reader) r,
    (forall x, Rle (g1 x) (g2 x)) -> fst (after x g1 r) = OutOfFuel \/ after x g1 r = after x g2 r).
  { intros A0 E B [a|e| |] g1 g2 r Hg; cbn [after]; auto; apply Hg. }
  induction p as [A a|A|A k IH|A n k IH|A n k IH|A n k IH|A k IH|A B n body IHb k IH]; intros r; cbn [exec]; try (now right).
  - destruct (read r) as [x r1]. apply Step; auto.
  - destruct (read_all (lenN n) r) as [[x g] r1]. apply Step; auto.
  - destruct (skip c n r) as [x r1]. apply Step; auto.
  - destruct (skip_u64 c n r) as [x r1]. apply Step; auto.
  - destruct (H r) as [Hr|<-].
    + destruct (d1 r) as [x r1]. cbn [fst] in Hr. subst x. now left.
    + destruct (d1 r) as [x r1]. apply Step; auto.
  - destruct (IHb (LimitedReader_new r n)) as [Hr|<-].
    + destruct (exec c d1 body _) as [x lr]. cbn [fst] in Hr. subst x. now left.
    + destruct (exec c d1 body _) as [x lr]. destruct x; auto. destruct lr; auto. apply IH.
Qed.
Section Fuel.
Context {T : Type} (c : cfg) (U0 : user_impl T) (P : script T).
Notation U := (scripted c U0 P).
Lemma o_value_le d1 d2 t n r : Rle d1 d2 ->
  fst (fst (o_deserialize_value U d1 t n r)) = OutOfFuel \/ o_deserialize_value U d1 t n r = o_deserialize_value U d2 t n r.
Proof.
  intros H.
  assert (K : forall S (m1 m2 : method S unit) s mk, Mle m1 m2 ->
    fst (fst (@o_run T S m1 s mk r)) = OutOfFuel \/ o_run m1 s mk r = o_run m2 s mk r).
  { intros S m1 m2 s mk Hm. unfold o_run. destruct (Hm (s, r)) as [Hr|<-]; [|now right].
    destruct (m1 (s, r)) as [x [s1 r1]]. cbn [fst] in *. now left. }
  destruct t as [id v|x|id l|id l|id l]; cbn [o_deserialize_value]; try (now right); apply K.
  - intros [s q]. cbn [u_deserialize_value scripted]. destruct (exec_le c d1 d2 (P n s) H q) as [Hr|<-]; [|now right].
    destruct (exec c d1 (P n s) q) as [y r1]. cbn [fst] in Hr. subst y. now left.
  - apply Mle_limited. intros st. apply le_bind; [now right|]. intros _ st'. now apply Mle_while.
  - apply Mle_limited. intros st. apply le_bind; [now right|]. intros count. apply le_bind; [now right|]. intros _.
    apply le_bind; [now right|]. intros _. apply le_bind; [|now right]. intros st'. now apply Mle_repeat.
  - apply Mle_limited. intros st. apply le_bind; [now right|]. intros count. apply le_bind; [now right|]. intros _.
    apply le_bind; [|now right]. intros st'. apply Mle_repeat. intros r0. apply le_bind; [now right|]. intros k.
    apply le_bind; [exact H|now right].
Qed.
Lemma o_value_into_le d1 d2 n t r : Rle d1 d2 ->
  fst (fst (o_value_into U d1 n t r)) = OutOfFuel \/ o_value_into U d1 n t r = o_value_into U d2 n t r.
Proof.
  intros H. unfold o_value_into. destruct (o_value_le d1 d2 t n (LimitedReader_new r n) H) as [Hr|<-]; [|now right].
  destruct (o_deserialize_value U d1 _ _ _) as [[x t'] lr]. cbn [fst] in *. subst x. now left.
Qed.
Lemma o_fuel_le e f : Rle (o_deserialize_fuel U f e) (o_deserialize_fuel U (Datatypes.S f) e).
Proof.
  induction f as [|f IH]; [now left|].
  change (Rle (o_deserialize_fuel U (Datatypes.S f) e) (o_deserialize_fuel U (Datatypes.S (Datatypes.S f)) e)).
  cbn [o_deserialize_fuel] in IH |- *. intros r. apply le_bind; [now right|]. intros id. apply le_bind; [now right|]. intros n.
  apply le_bind; [now right|]. intros [t|]; [|now right]. intros r1.
  destruct (o_value_into_le _ _ n t r1 IH) as [Hr|<-]; [|now right].
  destruct (o_value_into _ _ n t r1) as [[x t'] r']. cbn [fst] in *. subst x. now left.
Qed.
Lemma o_fuel_mono e f f' : (f <= f')%nat -> Rle (o_deserialize_fuel U f e) (o_deserialize_fuel U f' e).
Proof.
  induction 1 as [|f' L IH]; [now right|]. intros r. destruct (IH r) as [Hr| ->]; [now left|]. apply o_fuel_le.
Qed.
End Fuel.

(** ** The programs do what the functions do *)
(** What a program gives that does the same as a function with the outcome [y]: a
    panic unwinds through the program. *)
Definition told {E A} (y : res E A * reader) : res tag_error (res E A) * reader :=
  let '(x, r) := y in match x with Panic => (Panic, r) | OutOfFuel => (OutOfFuel, r) | _ => (Ok x, r) end.
Definition toldm {S A} (y : res tag_error A * (S * reader)) : res tag_error (res tag_error A * S) * reader :=
  let '(x, (s, r)) := y in match x with Panic => (Panic, r) | OutOfFuel => (OutOfFuel, r) | _ => (Ok (x, s), r) end.
Lemma resizeN_bytes n vec : bytes_ok vec -> bytes_ok (resizeN n 0 vec).
Proof.
  intros H. unfold resizeN. destruct (_ <=? _); [now apply Forall_takeN|]. apply Forall_app. split; [exact H|].
  apply Forall_forall. intros x Hx. apply repeat_spec in Hx. subst x. unfold byte_ok. lia.
Qed.
Section Same.
Context {I : Type} (c : cfg) (b : nat) (deser : reader -> res tag_error I * reader).
Hypothesis Hc : 1 <= usize_max c.
Hypothesis Sd : rsafe True b deser.
Hypothesis Pd : rprogress b deser.
Hypothesis Kd : Rkin _ _ deser.
Hypothesis Nd : nibbles deser.

Lemma exec_seqp {A B} (p : prog I A) : forall (f : A -> prog I B) r,
  exec c deser (seqp p f) r =
  match exec c deser p r with
  | (Ok a, r') => exec c deser (f a) r'
  | (Err e, r') => (Err e, r')
  | (Panic, r') => (Panic, r')
  | (OutOfFuel, r') => (OutOfFuel, r')
  end.
Proof.
  induction p as [A a|A|A k IH|A n k IH|A n k IH|A n k IH|A k IH|A C n body IHb k IH]; intros f r; cbn [seqp exec]; try reflexivity.
  - destruct (read r) as [[x|e| |] r1]; cbn [after]; auto.
  - destruct (read_all (lenN n) r) as [[[x|e| |] g] r1]; cbn [after]; auto.
  - destruct (skip c n r) as [[x|e| |] r1]; cbn [after]; auto.
  - destruct (skip_u64 c n r) as [[x|e| |] r1]; cbn [after]; auto.
  - destruct (deser r) as [[x|e| |] r1]; cbn [after]; auto.
  - destruct (exec c deser body (LimitedReader_new r n)) as [[x|e| |] lr]; auto. destruct lr; auto.
Qed.
Definition there (r : reader) : Prop := limited_reader r /\ rwf r /\ (left r < b)%nat.
Lemma exec_there {A} (p : prog I A) r x r' : there r -> exec c deser p r = (x, r') -> there r'.
Proof.
  intros (L & W & Lf) E. pose proof (exec_kin _ _ _ Kd _ _ _ E) as K.
  apply (exec_safe c True b deser p Hc Sd Kd) in E as (_ & W' & L' & _); auto.
  split; [exact (kin_limited_reader _ _ K L)|]. split; [exact W'|lia].
Qed.
Definition rsame {A} (p : @rprog I A) (m : reader -> res tag_error A * reader) : Prop :=
  forall r, there r -> exec c deser p r = told (m r).
Definition msame {S A} (p : @mprog I S A) (m : method S A) : Prop :=
  forall s r, there r -> exec c deser (p s) r = toldm (m (s, r)).
Lemma rsame_answer {A} (x : res tag_error A) : x <> OutOfFuel -> rsame (answer x) (fun r => (x, r)).
Proof. intros Hx r _. destruct x; try reflexivity. contradiction. Qed.
Lemma rsame_then {A B} (p : rprog A) m (f : A -> rprog B) g : rsame p m -> (forall a, rsame (f a) (g a)) -> rsame (rthen p f) (bind m g).
Proof.
  intros Hp Hf r Tr. unfold rthen, bind. rewrite exec_seqp. pose proof (Hp r Tr) as E. destruct (m r) as [x r1].
  destruct x as [a|e| |]; cbn [told] in E; rewrite E; try reflexivity. apply Hf. exact (exec_there _ _ _ _ Tr E).
Qed.
Lemma rsame_ext {A} (p : @rprog I A) m m' : (forall r, m r = m' r) -> rsame p m -> rsame p m'.
Proof. intros H Hp r Tr. rewrite <- H. auto. Qed.
Lemma msame_ext {S A} (p : @mprog I S A) m m' : (forall st, m st = m' st) -> msame p m -> msame p m'.
Proof. intros H Hp s r Tr. rewrite <- H. auto. Qed.
Lemma msame_ret {S A} (x : res tag_error A) : x <> OutOfFuel -> msame (@mret I S A x) (fun st => (x, st)).
Proof. intros Hx s r _. destruct x; try reflexivity. contradiction. Qed.
Lemma msame_then {S A B} (p : mprog S A) m (f : A -> mprog S B) g : msame p m -> (forall a, msame (f a) (g a)) -> msame (mthen p f) (bind m g).
Proof.
  intros Hp Hf s r Tr. unfold mthen, bind. rewrite exec_seqp. pose proof (Hp s r Tr) as E. destruct (m (s, r)) as [x [s1 r1]].
  destruct x as [a|e| |]; cbn [toldm] in E; rewrite E; try reflexivity. apply Hf. exact (exec_there _ _ _ _ Tr E).
Qed.
Lemma msame_read {S A} (p : rprog A) m : rsame p m -> msame (@mread I S A p) (on_reader m).
Proof.
  intros Hp s r Tr. unfold mread, on_reader. rewrite exec_seqp, (Hp r Tr). destruct (m r) as [[a|e| |] r1]; reflexivity.
Qed.
Lemma msame_set {S} (f : S -> S) : msame (@mset I S f) (modify f).
Proof. intros s r _. reflexivity. Qed.
Lemma there_limited r n : there r -> there (RLimited r n).
Proof. intros (L & W & Lf). repeat split; auto. Qed.
Lemma msame_limited {S} n e (p : mprog S unit) m : msame p m ->
  msame (mlimited n e p) (limited n (m ;;; limited_reader_ensure_empty e)).
Proof.
  intros Hp s r Tr. unfold mlimited, limited, bind, limited_reader_ensure_empty. cbn [exec]. unfold LimitedReader_new.
  pose proof (Hp s (RLimited r n) (there_limited _ _ Tr)) as E.
  destruct (exec c deser (p s) (RLimited r n)) as [y lr] eqn:Ex. pose proof (exec_kin _ _ _ Kd _ _ _ Ex) as K.
  apply kin_limited in K as (r1 & n1 & -> & _).
  destruct (m (s, RLimited r n)) as [[[]|err| |] [s1 r2]]; cbn [toldm] in E; apply pair_inv in E as [-> <-];
    cbn [fst snd limit_empty unlimit toldm exec]; try reflexivity.
  destruct (n1 =? 0); reflexivity.
Qed.
Lemma msame_repeat_fuel {S A} (p : rprog A) m (store : A -> S -> S) : rsame p m -> rprogress b m ->
  forall f count s r, there r -> (left r < f)%nat ->
    exec c deser (mrepeat (N.to_nat count) p store s) r = toldm (repeat_read f m store count (s, r)).
Proof.
  intros Hp Pm. induction f as [|f IH]; intros count s r Tr L; [lia|].
  cbn [repeat_read]. destruct (N.eqb_spec count 0) as [->|Hn]; [reflexivity|].
  replace (N.to_nat count) with (Datatypes.S (N.to_nat (count - 1))) by lia. cbn [mrepeat].
  unfold mthen at 1, mread, bind at 1, on_reader. rewrite !exec_seqp, (Hp r Tr).
  destruct (m r) as [[a|e| |] r1] eqn:Em; cbn [told exec fst snd]; try reflexivity.
  unfold mthen, mset, bind, modify. cbn [seqp fst snd]. apply IH.
  - pose proof (Hp r Tr) as E. rewrite Em in E. cbn [told] in E. exact (exec_there _ _ _ _ Tr E).
  - destruct Tr as (_ & W & Lb). pose proof (Pm _ _ _ W Lb Em). lia.
Qed.
Lemma msame_repeated {S A} (p : rprog A) m (store : A -> S -> S) count : rsame p m -> rprogress b m ->
  msame (mrepeat (N.to_nat count) p store) (fuelled (fun f => repeat_read f m store count)).
Proof. intros Hp Pm s r Tr. unfold fuelled. cbn [snd]. apply msame_repeat_fuel; auto. Qed.
Lemma rsame_tag : rsame tag_p deser.
Proof. intros r _. unfold tag_p. cbn [exec]. destruct (deser r) as [[x|e| |] r1]; reflexivity. Qed.
Lemma msame_while {S} (store : I -> S -> S) : forall f n k s r, there r -> (left r < f)%nat -> (N.to_nat n <= k)%nat ->
  exec c deser (mwhile k n store s) r =
  toldm (let '(x, (s', lr)) := while_read f deser store (s, RLimited r n) in (x, (s', unlimit lr))).
Proof.
  induction f as [|f IH]; intros n k s r Tr L Ln; [lia|]. cbn [while_read snd limit_empty].
  destruct (N.eqb_spec n 0) as [->|Hn].
  - destruct k; reflexivity.
  - destruct k as [|k]; [lia|]. cbn [mwhile]. destruct (N.eqb_spec n 0) as [|_]; [contradiction|].
    cbn [exec]. unfold LimitedReader_new, bind at 1, on_reader.
    destruct (deser (RLimited r n)) as [x lr] eqn:Ed. pose proof (Kd _ _ _ Ed) as K. apply kin_limited in K as (r1 & n1 & -> & Kr).
    pose proof (there_limited r n Tr) as (_ & Wl & Ll). destruct (Sd _ _ _ Wl Ll Ed) as (_ & W1 & L1).
    destruct x as [t|e| |]; cbn [after exec unlimit toldm]; try reflexivity.
    unfold bind, modify. apply IH.
    + destruct Tr as (Lr & _ & Lb). split; [exact (kin_limited_reader _ _ Kr Lr)|]. split; [exact W1|]. cbn [left] in L1. lia.
    + pose proof (Pd _ _ _ Wl Ll Ed) as Lt. cbn [left] in Lt. lia.
    + destruct (Nd _ _ _ _ Ed) as (r2 & n2 & H & Lt). injection H as <- <-. lia.
Qed.

(** Values. *)
Lemma rsame_byte : rsame byte_p (lift_err TagIO read).
Proof.
  intros r _. unfold byte_p, lift_err. cbn [exec]. destruct (read r) as [[x|e| |] r1]; reflexivity.
Qed.
Lemma rsame_fetch n : rsame (fetch_p n) (deserialize_bytes n).
Proof.
  intros r _. unfold fetch_p, deserialize_bytes, lift_err, fetch. cbn [exec]. rewrite lenN_repeatN.
  destruct (read_all n r) as [[x g] r1] eqn:E. destruct x as [[]|e| |]; try reflexivity.
  apply read_all_ok in E as [Lg _]. cbn [after map_ok map_err answer exec told].
  rewrite filled_all by (now rewrite lenN_repeatN). reflexivity.
Qed.
Lemma rsame_map {A B} (p : rprog A) m (g : A -> B) m' : rsame p m -> (forall r, m' r = (let '(x, r') := m r in (map_ok g x, r'))) ->
  rsame (rthen p (fun a => Done (Ok (g a)))) m'.
Proof.
  intros Hp Hm. apply (rsame_ext _ (bind m (fun a => ret (g a)))).
  - intros r. rewrite Hm. unfold bind, ret. destruct (m r) as [[a|e| |] r1]; reflexivity.
  - apply rsame_then; [exact Hp|]. intros a. apply (rsame_answer (Ok (g a))). discriminate.
Qed.
Lemma rsame_ilint : rsame ilint_p deserialize_ilint.
Proof.
  apply (rsame_ext _ (h <- lift_err TagIO read ;;
    (fun r => if decoded_size h =? 1 then (Ok h, r)
     else (b <- deserialize_bytes (decoded_size h - 1) ;; (fun r => (map_err (fun e => TagIO (ilint_read_error e)) (decode_body b), r))) r))).
  - intros r. unfold deserialize_ilint, read_ilint, decode, deserialize_bytes, lift_err, bind, ret.
    destruct (read r) as [[h|e| |] r1]; cbn [map_err ilint_read_error]; try reflexivity.
    destruct (decoded_size h =? 1); [reflexivity|].
    destruct (fetch _ r1) as [[g|e| |] r2]; cbn [map_err ilint_read_error]; try reflexivity.
    destruct (decode_body g); reflexivity.
  - apply rsame_then; [apply rsame_byte|]. intros h r Tr. destruct (decoded_size h =? 1); [reflexivity|].
    revert r Tr. change (rsame (rthen (@fetch_p I (decoded_size h - 1)) (fun body =>
           answer (map_err (fun e => TagIO (ilint_read_error e)) (decode_body body))))
      (b <- deserialize_bytes (decoded_size h - 1) ;; (fun r => (map_err (fun e => TagIO (ilint_read_error e)) (decode_body b), r)))).
    apply rsame_then; [apply rsame_fetch|]. intros g. apply rsame_answer.
    unfold decode_body. destruct (_ || _)%bool; [discriminate|]. destruct (_ <? _); discriminate.
Qed.
Lemma rsame_signed_ilint : rsame signed_ilint_p deserialize_signed_ilint.
Proof.
  apply (rsame_map _ _ decode_sign _ rsame_ilint). intros r.
  unfold deserialize_signed_ilint, read_signed_ilint, signed_decode, deserialize_ilint, read_ilint, lift_err, bind, ret.
  destruct (decode r) as [[v|e| |] r1]; reflexivity.
Qed.
Lemma rsame_uint w : rsame (uint_p w) (deserialize_uint w).
Proof.
  destruct w; [exact rsame_byte| | |];
    (apply (rsame_map _ _ from_be_bytes _ (rsame_fetch _)); intros r;
     unfold deserialize_uint, read_uint, deserialize_bytes, lift_err, bind, ret;
     destruct (fetch _ r) as [[v|e| |] r1]; reflexivity).
Qed.
Lemma rsame_sint w : rsame (sint_p w) (deserialize_sint w).
Proof.
  destruct w.
  - apply (rsame_map _ _ (cast_signed W8) _ rsame_byte). intros r. unfold deserialize_sint, read_sint, lift_err, bind, ret.
    destruct (read r) as [[v|e| |] r1]; reflexivity.
  - apply (rsame_map _ _ (fun v => cast_signed W16 (from_be_bytes v)) _ (rsame_fetch _)). intros r.
    unfold deserialize_sint, read_sint, deserialize_bytes, lift_err, bind, ret. destruct (fetch _ r) as [[v|e| |] r1]; reflexivity.
  - apply (rsame_map _ _ (fun v => cast_signed W32 (from_be_bytes v)) _ (rsame_fetch _)). intros r.
    unfold deserialize_sint, read_sint, deserialize_bytes, lift_err, bind, ret. destruct (fetch _ r) as [[v|e| |] r1]; reflexivity.
  - apply (rsame_map _ _ (fun v => cast_signed W64 (from_be_bytes v)) _ (rsame_fetch _)). intros r.
    unfold deserialize_sint, read_sint, deserialize_bytes, lift_err, bind, ret. destruct (fetch _ r) as [[v|e| |] r1]; reflexivity.
Qed.
Lemma rsame_f32 : rsame (uint_p W32) deserialize_f32.
Proof.
  apply (rsame_ext _ (deserialize_uint W32)); [|apply rsame_uint]. intros r.
  unfold deserialize_f32, read_f32, deserialize_uint, lift_err, bind, ret. destruct (read_uint W32 r) as [[v|e| |] r1]; reflexivity.
Qed.
Lemma rsame_f64 : rsame (uint_p W64) deserialize_f64.
Proof.
  apply (rsame_ext _ (deserialize_uint W64)); [|apply rsame_uint]. intros r.
  unfold deserialize_f64, read_f64, deserialize_uint, lift_err, bind, ret. destruct (read_uint W64 r) as [[v|e| |] r1]; reflexivity.
Qed.
Lemma usize_answers n : tag_size_to_usize n <> OutOfFuel.
Proof. unfold tag_size_to_usize. destruct (_ <? _); discriminate. Qed.
Lemma rsame_string_tag : rsame string_tag_p deserialize_string_tag_from_value.
Proof.
  apply (rsame_ext _ (id <- deserialize_ilint ;;
    (fun r => if negb (id =? IL_STRING_TAG_ID) then (Err CorruptedData, r)
     else (len <- deserialize_ilint ;; n <- (fun r => (tag_size_to_usize len, r)) ;; s <- deserialize_bytes n ;;
           (fun r => if from_utf8 s then (Ok s, r) else (Err CorruptedData, r))) r))).
  - intros r. unfold deserialize_string_tag_from_value, deserialize_string_tag_from_value_into, on_reader, bind, modify, ret, fail.
    destruct (deserialize_ilint r) as [[id|e| |] r1]; try reflexivity. destruct (negb _); [reflexivity|].
    destruct (deserialize_ilint r1) as [[len|e| |] r2]; try reflexivity.
    destruct (tag_size_to_usize len) as [n|e| |]; try reflexivity.
    destruct (deserialize_bytes n r2) as [[s|e| |] r3]; try reflexivity. destruct (from_utf8 s); reflexivity.
  - apply rsame_then; [apply rsame_ilint|]. intros id r Tr. destruct (negb _); [reflexivity|]. revert r Tr.
    match goal with |- forall r, there r -> exec c deser ?p r = told (?m r) => change (rsame p m) end.
    apply rsame_then; [apply rsame_ilint|]. intros len. apply rsame_then; [apply rsame_answer, usize_answers|]. intros n.
    apply rsame_then; [apply rsame_fetch|]. intros s r Tr. destruct (from_utf8 s); reflexivity.
Qed.

(** Methods. *)
Lemma msame_sized {S} n k (p : mprog S unit) m : msame p m -> msame (sized n k p) (check_size n k ;;; m).
Proof.
  intros Hp. unfold sized, check_size. apply msame_then; [|intros _; exact Hp].
  intros s r Tr. destruct (n =? k); reflexivity.
Qed.
Lemma msame_set_from {A} (p : rprog A) m : rsame p m -> msame (set_p p) (set_from m).
Proof. intros Hp. apply msame_then; [now apply msame_read|]. intros x. apply msame_set. Qed.
Lemma msame_in_place vec r : bytes_ok vec -> there r -> exec c deser (in_place_p vec) r = toldm (in_place (vec, r)).
Proof.
  intros Hv _. unfold in_place_p, in_place, into_slice. cbn [exec]. destruct (read_all (lenN vec) r) as [[x g] r1].
  assert (Ef : filled vec g = g ++ dropN (lenN g) vec) by (unfold filled; now rewrite u8s_id).
  destruct x as [[]|e| |]; cbn [after exec map_err toldm]; rewrite ?Ef; reflexivity.
Qed.
Lemma msame_raw n vec r : bytes_ok vec -> there r -> exec c deser (raw_p n vec) r = toldm (raw_deserialize n (vec, r)).
Proof.
  intros Hv Tr. unfold raw_p. rewrite msame_in_place by (auto using resizeN_bytes). reflexivity.
Qed.
Lemma progress_at {A} (m : reader -> res tag_error A * reader) : progress m -> rprogress b m.
Proof. intros H r a r' W _ E. eauto. Qed.
Lemma msame_counted {A} n (p : rprog A) m : rsame p m -> rprogress b m ->
  msame (counted_p n p) (limited n (
    count <- on_reader deserialize_ilint ;;
    (if n <? count then fail CorruptedData else ret tt) ;;;
    modify (fun _ => []) ;;;
    fuelled (fun f => repeat_read f m push count) ;;;
    limited_reader_ensure_empty CorruptedData)).
Proof.
  intros Hp Pm. apply (msame_ext _ (limited n ((
    count <- on_reader deserialize_ilint ;;
    (if n <? count then fail CorruptedData else ret tt) ;;;
    modify (fun _ => []) ;;;
    fuelled (fun f => repeat_read f m push count)) ;;;
    limited_reader_ensure_empty CorruptedData))).
  - intros [s r]. unfold limited. f_equal. unfold bind, on_reader, LimitedReader_new.
    destruct (deserialize_ilint (RLimited r n)) as [[count|e| |] r1]; try reflexivity.
    destruct (n <? count); [reflexivity|]. unfold ret, modify. destruct (fuelled _ _) as [[x|e| |] [s1 r2]]; reflexivity.
  - apply msame_limited. apply msame_then; [apply msame_read, rsame_ilint|]. intros count.
    apply msame_then; [intros s r _; destruct (n <? count); reflexivity|]. intros _.
    apply msame_then; [apply msame_set|]. intros _. now apply msame_repeated.
Qed.
Lemma msame_entries {A} n (p : rprog A) m : rsame p m ->
  rprogress b (k <- deserialize_string_tag_from_value ;; t <- m ;; ret (k, t)) ->
  msame (entries_p n p) (limited n (
    count <- on_reader deserialize_ilint ;;
    modify (fun _ => []) ;;;
    fuelled (fun f => repeat_read f
      (k <- deserialize_string_tag_from_value ;; t <- m ;; ret (k, t))
      (fun e => hm_insert (fst e) (snd e)) count) ;;;
    limited_reader_ensure_empty CorruptedData)).
Proof.
  intros Hp Pm. apply (msame_ext _ (limited n ((
    count <- on_reader deserialize_ilint ;;
    modify (fun _ => []) ;;;
    fuelled (fun f => repeat_read f
      (k <- deserialize_string_tag_from_value ;; t <- m ;; ret (k, t))
      (fun e => hm_insert (fst e) (snd e)) count)) ;;;
    limited_reader_ensure_empty CorruptedData))).
  - intros [s r]. unfold limited. f_equal. unfold bind, on_reader, LimitedReader_new.
    destruct (deserialize_ilint (RLimited r n)) as [[count|e| |] r1]; reflexivity.
  - apply msame_limited. apply msame_then; [apply msame_read, rsame_ilint|]. intros count.
    apply msame_then; [apply msame_set|]. intros _. apply msame_repeated; [|exact Pm].
    apply rsame_then; [apply rsame_string_tag|]. intros k. apply rsame_then; [exact Hp|]. intros t.
    apply (rsame_answer (Ok (k, t))). discriminate.
Qed.
Lemma msame_seq n : msame (seq_p n) (seq_deserialize deser n).
Proof.
  intros s r Tr. unfold seq_p, seq_deserialize, limited, LimitedReader_new, bind, modify, fuelled. cbn [snd].
  destruct Tr as (L & W & Lb). change (left (RLimited r n)) with (left r).
  apply (msame_while push (Datatypes.S (left r)) n (N.to_nat n) [] r); [repeat split; auto|lia|lia].
Qed.
Lemma fields_same {S R} (p : mprog S unit) (m : method S unit) (mk : S -> R) s r :
  exec c deser (p s) r = toldm (m (s, r)) ->
  exec c deser (on_fields p s mk) r = toldm (let '(x, (s', r')) := m (s, r) in (x, (mk s', r'))).
Proof. intros E. unfold on_fields. rewrite exec_seqp, E. destruct (m (s, r)) as [[[]|e| |] [s1 r1]]; reflexivity. Qed.
Lemma std_same v n r : leaf v -> holds_bytes v -> there r ->
  exec c deser (std_p v n) r = toldm (let '(x, v', r') := deserialize_value untouchable_deserialize v n r in (x, (v', r'))).
Proof.
  intros Hl Hv Tr.
  assert (K : forall S (p : mprog S unit) (m : method S unit) (mk : S -> value) s,
    exec c deser (p s) r = toldm (m (s, r)) ->
    exec c deser (on_fields p s mk) r = toldm (let '(x, v', r') := run m s mk r in (x, (v', r')))).
  { intros S p m mk s E. rewrite (fields_same p m mk s r E). unfold run. destruct (m (s, r)) as [x [s1 r1]]. reflexivity. }
  destruct v; cbn [leaf holds_bytes std_p deserialize_value] in *; try contradiction; apply K.
  - unfold sized, null_deserialize, check_size. unfold mthen, mret. destruct (n =? 0); reflexivity.
  - revert r Tr K. intros r Tr _. apply (msame_sized n 1); [|exact Tr]. apply msame_then; [apply msame_read, rsame_uint|].
    intros v. destruct (v =? 0); [apply msame_set|]. destruct (v =? 1); [apply msame_set|]. intros s q _. reflexivity.
  - apply msame_sized; [|exact Tr]. apply msame_set_from, rsame_uint.
  - apply msame_sized; [|exact Tr]. apply msame_set_from, rsame_sint.
  - apply msame_sized; [|exact Tr]. apply msame_set_from, rsame_f32.
  - apply msame_sized; [|exact Tr]. apply msame_set_from, rsame_f64.
  - unfold sized, bin128_deserialize, check_size, mthen, mret, bind, ret, fail. destruct (n =? 16); [|reflexivity].
    cbn [seqp fst snd]. now apply msame_in_place.
  - apply msame_set_from; [apply rsame_ilint|exact Tr].
  - apply msame_set_from; [apply rsame_signed_ilint|exact Tr].
  - now apply msame_raw.
  - now apply msame_raw.
  - apply msame_then; [apply msame_read, rsame_fetch| |exact Tr]. intros s. destruct (from_utf8 s); [apply msame_set|]. intros s' q _. reflexivity.
  - now apply msame_raw.
  - unfold bigdec_p, bigdec_deserialize. unfold mthen at 1, mret, bind at 1, ret, fail. destruct (n <? 4); [reflexivity|].
    cbn [seqp fst snd]. unfold mthen at 1, mread, bind at 1, on_reader. rewrite !exec_seqp.
    pose proof (rsame_sint W32 r Tr) as E. rewrite E. destruct (deserialize_sint W32 r) as [[sc|e| |] r1]; cbn [told exec fst snd]; try reflexivity.
    cbn [told] in E. pose proof (exec_there _ _ _ _ Tr E) as Tr1.
    unfold mthen, mset, bind, modify. cbn [seqp fst snd]. rewrite exec_seqp, msame_raw by auto. unfold on_snd.
    destruct (raw_deserialize (n - 4) _) as [[[]|e| |] [s1 r2]]; reflexivity.
  - apply msame_counted; [apply rsame_ilint|apply progress_at, progress_ilint|exact Tr].
  - apply (msame_ext _ (limited n ((
      start <- on_reader deserialize_ilint ;;
      modify (fun s => (start, snd s)) ;;;
      count <- on_reader (deserialize_uint W16) ;;
      modify (fun s => (fst s, count))) ;;;
      limited_reader_ensure_empty CorruptedData))); [| |exact Tr].
    + intros [s q]. unfold range_deserialize, limited. f_equal. unfold bind, on_reader, modify, LimitedReader_new.
      destruct (deserialize_ilint (RLimited q n)) as [[a|e| |] r1]; try reflexivity.
      destruct (deserialize_uint W16 r1) as [[a2|e| |] r2]; reflexivity.
    + apply msame_limited. apply msame_then; [apply msame_read, rsame_ilint|]. intros a. apply msame_then; [apply msame_set|]. intros _.
      apply msame_then; [apply msame_read, rsame_uint|]. intros k. apply msame_set.
  - apply msame_sized; [|exact Tr].
    do 3 (apply msame_then; [apply msame_read, rsame_sint|]; intros ?; apply msame_then; [apply msame_set|]; intros _).
    apply msame_then; [apply msame_read, rsame_sint|]; intros ?. apply msame_set.
  - apply msame_counted; [apply rsame_ilint|apply progress_at, progress_ilint|exact Tr].
  - apply msame_entries; [apply rsame_string_tag| |exact Tr].
    intros q a q' W L E. apply bind_inv_ok in E as (k & r1 & E1 & E).
    apply bind_inv_ok in E as (t & r2 & E2 & E). injection E as <- <-.
    destruct (rsafe_string True b _ _ _ W L E1) as (_ & W1 & L1).
    destruct (rsafe_string True b _ _ _ W1 ltac:(lia) E2) as (_ & W2 & L2).
    assert (Lt : (left r1 < left q)%nat); [|lia].
    unfold deserialize_string_tag_from_value, deserialize_string_tag_from_value_into, on_reader, bind in E1.
    destruct (deserialize_ilint q) as [[id|e| |] q1] eqn:Ei; try discriminate. pose proof (progress_ilint _ _ _ W Ei) as Lq.
    destruct (safe_deserialize_ilint _ _ _ W Ei) as (_ & Wq & _).
    assert (Ls : (left r1 <= left q1)%nat); [|lia].
    revert E1. destruct (negb _); [discriminate|]. unfold ret, fail.
    destruct (deserialize_ilint q1) as [[len|e| |] q2] eqn:El; try discriminate.
    destruct (safe_deserialize_ilint _ _ _ Wq El) as (_ & Wq2 & Lq2).
    destruct (tag_size_to_usize len); try discriminate.
    destruct (deserialize_bytes _ q2) as [[tmp|e| |] q3] eqn:Eb; try discriminate.
    destruct (from_utf8 tmp); unfold modify; [|discriminate]. intros [= _ <-].
    unfold deserialize_bytes, lift_err, fetch in Eb. destruct (read_all _ q2) as [[z g] q4] eqn:Er.
    destruct (read_all_wf _ _ _ _ _ Wq2 Er) as (_ & _ & L4 & _). apply pair_inv in Eb as [_ ->]. lia.
Qed.
End Same.

(** ** deserialize_into *)
Definition tolds {A B} (y : res tag_error A * B * reader) : res tag_error (res tag_error A * B) * reader :=
  let '(x, t, r) := y in match x with Panic => (Panic, r) | OutOfFuel => (OutOfFuel, r) | _ => (Ok (x, t), r) end.
Section IntoSame.
Context {T : Type} (c : cfg) (U0 : user_impl T) (P : script T) (b : nat) (deser : reader -> res tag_error (otag T) * reader).
Notation U := (scripted c U0 P).
Hypothesis Hc : 1 <= usize_max c.
Hypothesis Sd : rsafe True b deser.
Hypothesis Pd : rprogress b deser.
Hypothesis Kd : Rkin _ _ deser.
Hypothesis Nd : nibbles deser.
Lemma value_same t n r : target t -> there b r ->
  exec c deser (value_p P t n) r = tolds (o_deserialize_value U deser t n r).
Proof.
  intros Ht Tr.
  assert (K : forall S (p : @mprog (otag T) S unit) m s mk, msame c b deser p m ->
    exec c deser (on_fields p s mk) r = tolds (@o_run T S m s mk r)).
  { intros S p m s mk H. rewrite (fields_same c deser p m mk s r (H s r Tr)). unfold o_run.
    destruct (m (s, r)) as [x [s1 r1]]. reflexivity. }
  destruct t as [id v|x|id l|id l|id l]; cbn [value_p o_deserialize_value].
  - destruct Ht as [Hl Hv]. rewrite exec_seqp, (std_same c b deser Hc Sd Kd v n r Hl Hv Tr).
    destruct (deserialize_value _ v n r) as [[x v'] r1]. destruct x; reflexivity.
  - rewrite exec_seqp. unfold o_run. cbn [u_deserialize_value scripted].
    destruct (exec_safe c True b deser (P n x) Hc Sd Kd (or_introl Logic.I) r (fst (exec c deser (P n x) r)) (snd (exec c deser (P n x) r)))
      as (_ & _ & _ & Q); [apply Tr|apply Tr|apply Tr|now destruct (exec c deser (P n x) r)|].
    destruct (exec c deser (P n x) r) as [[[[e|] x1]|e| |] r1]; cbn [fst] in Q; try reflexivity. now elim (Q e).
  - apply K, msame_seq; auto.
  - apply K, msame_counted; auto. apply rsame_tag.
  - apply K, msame_entries; auto; [apply rsame_tag|].
    intros q a q' W0 L0 E. apply bind_inv_ok in E as (k & r1 & E1 & E).
    destruct (rsafe_string True b _ _ _ W0 L0 E1) as (_ & W1 & L1).
    apply bind_inv_ok in E as (t & r2 & E2 & E). injection E as <- <-.
    pose proof (Pd _ _ _ W1 ltac:(lia) E2). lia.
Qed.
Lemma value_into_same n t r : target t -> there b r ->
  exec c deser (value_into_p U0 P n t) r = tolds (o_value_into U deser n t r).
Proof.
  intros Ht Tr. unfold value_into_p, o_value_into. cbn [exec]. unfold LimitedReader_new.
  pose proof (value_same t n (RLimited r n) Ht (there_limited _ _ _ Tr)) as E.
  destruct (exec c deser (value_p P t n) (RLimited r n)) as [y lr] eqn:Ex. pose proof (exec_kin _ _ _ Kd _ _ _ Ex) as K.
  apply kin_limited in K as (r1 & n1 & -> & _).
  destruct (o_deserialize_value U deser t n (RLimited r n)) as [[[[]|err| |] t1] r2]; cbn [tolds] in E; apply pair_inv in E as [-> <-];
    cbn [fst snd limit_empty unlimit tolds exec]; try reflexivity.
  change (o_id U t1) with (o_id U0 t1). destruct (_ && _)%bool; reflexivity.
Qed.
Lemma tag_size_same id : rsame c b deser (@tag_size_p T id) (deserialize_tag_size id).
Proof.
  unfold tag_size_p, deserialize_tag_size. apply rsame_then; auto.
  - destruct (is_implicit_tag id); [apply (rsame_answer _ _ _ (Ok (implicit_tag_size id))); discriminate|now apply rsame_ilint].
  - intros n. apply rsame_answer, usize_answers.
Qed.
Lemma into_same t r : target t -> there b r ->
  exec c deser (into_p U0 P t) r = tolds (into_with U deser r t).
Proof.
  intros Ht Tr. unfold into_p, into_with. rewrite exec_seqp. pose proof (rsame_ilint c b deser Hc Sd Kd r Tr) as E. rewrite E.
  destruct (deserialize_ilint r) as [[id|e| |] r1]; cbn [told exec] in *; try reflexivity.
  change (o_id U t) with (o_id U0 t). destruct (negb (id =? o_id U0 t)); [reflexivity|].
  pose proof (exec_there _ _ _ Hc Sd Kd _ _ _ _ Tr E) as Tr1. rewrite exec_seqp.
  pose proof (tag_size_same id r1 Tr1) as E2. rewrite E2.
  destruct (deserialize_tag_size id r1) as [[n|e| |] r2]; cbn [told exec] in *; try reflexivity.
  apply value_into_same; [exact Ht|]. exact (exec_there _ _ _ Hc Sd Kd _ _ _ _ Tr1 E2).
Qed.
End IntoSame.
Section IntoFactory.
Context {T : Type} (c : cfg) (U0 : user_impl T) (P : script T) (e : engine).
Notation U := (scripted c U0 P).
Hypothesis Hc : 1 <= usize_max c.
Lemma created_okres id : okres True (o_create U e id).
Proof.
  unfold o_create. destruct (u_create U id) as [[x|]|]; try exact Logic.I.
  unfold create_tag. destruct (cr_get id (creators e)) as [cr|]; [destruct (cr id); exact Logic.I|].
  destruct (_ && _)%bool; [|exact Logic.I]. unfold ILRawTag_new. destruct (_ : bool); exact Logic.I.
Qed.
Lemma scripted_fuel f : rsafe True f (o_deserialize_fuel U f e) /\ rprogress f (o_deserialize_fuel U f e).
Proof. apply o_deserialize_fuel_safe; [now apply scripted_behaves; [|left]|apply created_okres]. Qed.
Lemma scripted_fuel_kin f : Rkin _ _ (o_deserialize_fuel U f e).
Proof. apply (co_deserialize_fuel _ _ closed_kin). intros d n. apply scripted_kin. Qed.
(** Any fuel above the data that is left will do. *)
Lemma fuel_enough f f' r : rwf r -> (left r < f)%nat -> (left r < f')%nat -> o_deserialize_fuel U f e r = o_deserialize_fuel U f' e r.
Proof.
  assert (K : forall f f', (f <= f')%nat -> rwf r -> (left r < f)%nat -> o_deserialize_fuel U f e r = o_deserialize_fuel U f' e r).
  { clear f f'. intros f f' L W Lf. destruct (o_fuel_mono c U0 P e f f' L r) as [H|H]; [|exact H].
    destruct (o_deserialize_fuel U f e r) as [x r'] eqn:E. cbn [fst] in H. subst x.
    destruct (proj1 (scripted_fuel f) _ _ _ W Lf E) as (H & _). contradiction. }
  intros W L L'. destruct (Nat.le_ge_cases f f') as [Le|Le]; [now apply K|symmetry; now apply K].
Qed.
Lemma value_into_enough f f' n t r : leaf_tag t -> rwf r -> (left r < f)%nat -> (left r < f')%nat ->
  o_value_into U (o_deserialize_fuel U f e) n t r = o_value_into U (o_deserialize_fuel U f' e) n t r.
Proof.
  intros Ht.
  assert (K : forall f f', (f <= f')%nat -> rwf r -> (left r < f)%nat ->
    o_value_into U (o_deserialize_fuel U f e) n t r = o_value_into U (o_deserialize_fuel U f' e) n t r).
  { clear f f'. intros f f' L W Lf. destruct (o_value_into_le c U0 P _ _ n t r (o_fuel_mono c U0 P e f f' L)) as [H|H]; [|exact H].
    destruct (scripted_fuel f) as [Sd Pd]. unfold o_value_into, LimitedReader_new in H.
    destruct (o_deserialize_value U (o_deserialize_fuel U f e) t n (RLimited r n)) as [[y t1] lr] eqn:E4.
    destruct (o_deserialize_value_safe U e True (scripted_behaves c True U0 P Hc (or_introl Logic.I)) created_okres f _ _ _ r _ _ _ _ Sd Pd (scripted_fuel_kin f) Ht W Lf E4) as (R & _).
    cbn [fst] in H. destruct y; try discriminate; [|contradiction]. destruct (_ && _)%bool; discriminate. }
  intros W L L'. destruct (Nat.le_ge_cases f f') as [Le|Le]; [now apply K|symmetry; now apply K].
Qed.
Lemma target_leaf (t : otag T) : target t -> leaf_tag t.
Proof. destruct t; cbn; tauto. Qed.
Lemma into_factory f t r : target t -> limited_reader r -> rwf r -> (left r < f)%nat ->
  exec c (o_deserialize_fuel U f e) (into_p U0 P t) r = tolds (o_deserialize_into U e r t).
Proof.
  intros Ht Lr W L. destruct (scripted_fuel f) as [Sd Pd].
  rewrite (into_same c U0 P f _ Hc Sd Pd (scripted_fuel_kin f) (o_fuel_nibbles c U0 P e f) t r Ht) by (repeat split; auto).
  f_equal. unfold into_with, o_deserialize_into. destruct (deserialize_ilint r) as [x r1] eqn:E1.
  destruct (safe_deserialize_ilint _ _ _ W E1) as (_ & W1 & L1). destruct x as [id|err| |]; try reflexivity.
  destruct (negb _); [reflexivity|]. destruct (deserialize_tag_size id r1) as [x r2] eqn:E2.
  destruct (safe_tag_size _ _ _ _ W1 E2) as (_ & W2 & L2). destruct x as [n|err| |]; try reflexivity.
  apply value_into_enough; auto; [now apply target_leaf|lia].
Qed.
End IntoFactory.

(** ** They propagate failures and do not panic by themselves *)
Section Manners.
Context {I : Type}.
Lemma ends_seqp {A B} (p : prog I A) : forall (G : A -> Prop) (f : A -> prog I B) F,
  ends_in p G -> (forall a, G a -> ends_in (f a) F) -> ends_in (seqp p f) F.
Proof.
  induction p as [A a|A|A k IH|A n k IH|A n k IH|A n k IH|A k IH|A C n body IHb k IH]; intros G f F Hp Hf; cbn [seqp ends_in] in *; eauto.
Qed.
Lemma calm_seqp {A B} (p : prog I A) : forall (G : A -> Prop) (f : A -> prog I B),
  calm p -> ends_in p G -> (forall a, G a -> calm (f a)) -> calm (seqp p f).
Proof.
  induction p as [A a|A|A k IH|A n k IH|A n k IH|A n k IH|A k IH|A C n body IHb k IH]; intros G f Hp He Hf; cbn [seqp ends_in calm] in *; eauto.
  destruct Hp as [Hb Hk]. split; [exact Hb|]. intros x m. eapply IH; eauto.
Qed.
Lemma strict_seqp {A B} (p : prog I A) : forall (G : A -> Prop) (f : A -> prog I B) F,
  strict p G -> (forall a, strict (f a) F) -> (forall a, G a -> ends_in (f a) F) -> strict (seqp p f) F.
Proof.
  induction p as [A a|A|A k IH|A n k IH|A n k IH|A n k IH|A k IH|A C n body IHb k IH]; intros G f F Hp Hf He; cbn [seqp strict] in *; auto.
  - destruct Hp as [H1 H2]. split; [eauto|]. intros e. eapply ends_seqp; eauto.
  - destruct Hp as [H1 H2]. split; [eauto|]. intros e got. eapply ends_seqp; eauto.
  - destruct Hp as [H1 H2]. split; [eauto|]. intros e. eapply ends_seqp; eauto.
  - destruct Hp as [H1 H2]. split; [eauto|]. intros e. eapply ends_seqp; eauto.
  - destruct Hp as [H1 H2]. split; [eauto|]. intros e. eapply ends_seqp; eauto.
  - destruct Hp as (G1 & H1 & H2 & H3). exists G1. split; [exact H1|]. split; [eauto|]. intros x m Hx. eapply ends_seqp; eauto.
Qed.
(** A program for a [Result]: it does not panic, it gives [Ok] or [Err], and [Err]
    after a failure. *)
Definition failed {E A} (x : res E A) : Prop := is_ok x = false.
Record nice {A} (p : prog I A) (R F : A -> Prop) : Prop := { n_calm : calm p; n_ends : ends_in p R; n_strict : strict p F }.
Definition rnice {A} (p : @rprog I A) : Prop := nice p returns failed.
Definition mnice {S A} (p : @mprog I S A) : Prop := forall s, nice (p s) (fun xs => returns (fst xs)) (fun xs => failed (fst xs)).
Lemma nice_done {A} (a : A) (R F : A -> Prop) : R a -> nice (Done a) R F.
Proof. intros H. constructor; cbn; auto. Qed.
Lemma rnice_answer {A} (x : res tag_error A) : returns x -> rnice (answer x).
Proof. intros H. destruct x; try contradiction; now apply nice_done. Qed.
Lemma nice_seqp {A B} (p : prog I A) R F (f : A -> prog I B) R' F' : nice p R F ->
  (forall a, R a -> nice (f a) R' F') -> (forall a, strict (f a) F') -> (forall a, F a -> ends_in (f a) F') -> nice (seqp p f) R' F'.
Proof.
  intros [H1 H2 H3] Hf Hs He. constructor.
  - apply (calm_seqp p R); auto. intros a Ha. apply Hf, Ha.
  - apply (ends_seqp p R); auto. intros a Ha. apply Hf, Ha.
  - apply (strict_seqp p F); auto.
Qed.
Lemma rnice_then {A B} (p : rprog A) (f : A -> rprog B) : rnice p -> (forall a, rnice (f a)) -> rnice (rthen p f).
Proof.
  intros Hp Hf. unfold rthen. apply (nice_seqp p returns failed); [exact Hp| | |].
  - intros [a|e| |] H; try contradiction; [apply Hf|]. now apply nice_done.
  - intros [a|e| |]; try exact Logic.I. apply Hf.
  - intros [a|e| |] H; try discriminate H; try exact Logic.I. reflexivity.
Qed.
Lemma mnice_ret {S A} (x : res tag_error A) : returns x -> mnice (@mret I S A x).
Proof. intros H s. destruct x; try contradiction; now apply nice_done. Qed.
Lemma mnice_then {S A B} (p : mprog S A) (f : A -> mprog S B) : mnice p -> (forall a, mnice (f a)) -> mnice (mthen p f).
Proof.
  intros Hp Hf s. unfold mthen. apply (nice_seqp (p s) (fun xs => returns (fst xs)) (fun xs => failed (fst xs))); [apply Hp| | |].
  - intros [[a|e| |] s1] H; try contradiction; [apply Hf|]. now apply nice_done.
  - intros [[a|e| |] s1]; try exact Logic.I. apply Hf.
  - intros [[a|e| |] s1] H; try discriminate H; try exact Logic.I. reflexivity.
Qed.
Lemma mnice_read {S A} (p : rprog A) : rnice p -> mnice (@mread I S A p).
Proof.
  intros Hp s. unfold mread. apply (nice_seqp p returns failed); [exact Hp| | |].
  - intros x H. now apply nice_done.
  - intros x. exact Logic.I.
  - intros x H. exact H.
Qed.
Lemma mnice_set {S} (f : S -> S) : mnice (@mset I S f).
Proof. intros s. now apply nice_done. Qed.
Lemma mnice_limited {S} n e (p : mprog S unit) : mnice p -> mnice (mlimited n e p).
Proof.
  intros Hp s. destruct (Hp s) as [H1 H2 H3]. constructor.
  - split; [exact H1|]. intros xs m. exact Logic.I.
  - intros [[[]|e1| |] s1] m; cbn; auto. destruct (m =? 0); exact Logic.I.
  - exists (fun xs => failed (fst xs)). split; [exact H3|]. split; [intros; exact Logic.I|].
    intros [[[]|e1| |] s1] m H; try discriminate H; reflexivity.
Qed.
Lemma mnice_repeat {S A} (p : rprog A) (store : A -> S -> S) k : rnice p -> mnice (mrepeat k p store).
Proof.
  intros Hp. induction k as [|k IH]; [now apply mnice_ret|]. cbn [mrepeat].
  apply mnice_then; [now apply mnice_read|]. intros x. apply mnice_then; [apply mnice_set|]. intros _. exact IH.
Qed.
Lemma rnice_tag : rnice tag_p.
Proof.
  constructor.
  - intros x H. exact Logic.I.
  - intros x H. exact H.
  - split; [intros t; exact Logic.I|intros e; reflexivity].
Qed.
Lemma mnice_while {S} (store : I -> S -> S) k : forall n, mnice (mwhile k n store).
Proof.
  induction k as [|k IH]; intros n s; cbn [mwhile]; [now apply nice_done|]. destruct (n =? 0); [now apply nice_done|].
  constructor.
  - split; [apply rnice_tag|]. intros [t|e| |] m; try exact Logic.I. apply IH.
  - intros [t|e| |] m; try exact Logic.I. apply IH.
  - exists failed. split; [apply rnice_tag|]. split; [intros [t|e| |] m; try exact Logic.I; apply IH|].
    intros [t|e| |] m H; try discriminate H; reflexivity.
Qed.
Lemma rnice_byte : rnice byte_p.
Proof.
  constructor.
  - intros [x|e| |] H; try contradiction; exact Logic.I.
  - intros [x|e| |] H; try contradiction; exact Logic.I.
  - split; [intros t; exact Logic.I|intros e; reflexivity].
Qed.
Lemma rnice_fetch n : rnice (fetch_p n).
Proof.
  constructor.
  - intros [x|e| |] got H; try contradiction; exact Logic.I.
  - intros [x|e| |] got H; try contradiction; exact Logic.I.
  - split; [intros got; exact Logic.I|intros e got; reflexivity].
Qed.
Lemma rnice_ok {A} (a : A) : rnice (Done (Ok a)).
Proof. now apply nice_done. Qed.
Lemma rnice_err {A} e : rnice (@Done I (res tag_error A) (Err e)).
Proof. now apply nice_done. Qed.
Lemma rnice_ilint : rnice ilint_p.
Proof.
  apply rnice_then; [apply rnice_byte|]. intros h. destruct (_ =? 1); [apply rnice_ok|]. apply rnice_then; [apply rnice_fetch|].
  intros g. apply rnice_answer. unfold decode_body. destruct (_ || _)%bool; [exact Logic.I|]. destruct (_ <? _); exact Logic.I.
Qed.
Lemma rnice_uint w : rnice (uint_p w).
Proof. destruct w; [apply rnice_byte| | |]; (apply rnice_then; [apply rnice_fetch|intros; apply rnice_ok]). Qed.
Lemma rnice_sint w : rnice (sint_p w).
Proof. destruct w; (apply rnice_then; [apply rnice_byte || apply rnice_fetch|intros; apply rnice_ok]). Qed.
Lemma rnice_usize n : @rnice N (answer (tag_size_to_usize n)).
Proof. apply rnice_answer. unfold tag_size_to_usize. destruct (_ <? _); exact Logic.I. Qed.
Lemma rnice_string_tag : rnice string_tag_p.
Proof.
  apply rnice_then; [apply rnice_ilint|]. intros id. destruct (negb _); [apply rnice_err|].
  apply rnice_then; [apply rnice_ilint|]. intros len. apply rnice_then; [apply rnice_usize|]. intros n.
  apply rnice_then; [apply rnice_fetch|]. intros s. destruct (from_utf8 s); [apply rnice_ok|apply rnice_err].
Qed.
Lemma mnice_sized {S} n k (p : mprog S unit) : mnice p -> mnice (sized n k p).
Proof. intros Hp. apply mnice_then; [|intros _; exact Hp]. apply mnice_ret. destruct (n =? k); exact Logic.I. Qed.
Lemma mnice_set_p {A} (p : rprog A) : rnice p -> mnice (set_p p).
Proof. intros Hp. apply mnice_then; [now apply mnice_read|]. intros x. apply mnice_set. Qed.
Lemma mnice_in_place : mnice in_place_p.
Proof.
  intros s. constructor.
  - intros [x|e| |] got H; try contradiction; exact Logic.I.
  - intros [x|e| |] got H; try contradiction; exact Logic.I.
  - split; [intros got; exact Logic.I|intros e got; reflexivity].
Qed.
Lemma mnice_counted {A} n (p : rprog A) : rnice p -> mnice (counted_p n p).
Proof.
  intros Hp. apply mnice_limited, mnice_then; [apply mnice_read, rnice_ilint|]. intros k.
  apply mnice_then; [apply mnice_ret; destruct (n <? k); exact Logic.I|]. intros _. apply mnice_then; [apply mnice_set|]. intros _.
  now apply mnice_repeat.
Qed.
Lemma mnice_entries {A} n (p : rprog A) : rnice p -> mnice (entries_p n p).
Proof.
  intros Hp. apply mnice_limited, mnice_then; [apply mnice_read, rnice_ilint|]. intros k.
  apply mnice_then; [apply mnice_set|]. intros _. apply mnice_repeat.
  apply rnice_then; [apply rnice_string_tag|]. intros s. apply rnice_then; [exact Hp|]. intros t. apply rnice_ok.
Qed.
Definition onice {R} (p : prog I (res tag_error unit * R)) : Prop := nice p (fun xs => returns (fst xs)) (fun xs => failed (fst xs)).
Lemma onice_fields {S R} (p : mprog S unit) s (mk : S -> R) : mnice p -> onice (on_fields p s mk).
Proof.
  intros Hp. unfold on_fields. apply (nice_seqp (p s) (fun xs => returns (fst xs)) (fun xs => failed (fst xs))); [apply Hp| | |].
  - intros xs H. now apply nice_done.
  - intros xs. exact Logic.I.
  - intros xs H. exact H.
Qed.
Lemma std_nice v n : onice (std_p v n).
Proof.
  destruct v; cbn [std_p]; try (now apply nice_done); apply onice_fields;
    try (apply mnice_sized); try (apply mnice_set_p);
    try apply rnice_uint; try apply rnice_sint; try apply rnice_ilint; try apply mnice_in_place;
    try (apply mnice_counted, rnice_ilint); try (intros s0; apply mnice_in_place).
  - now apply mnice_ret.
  - apply mnice_then; [apply mnice_read, rnice_uint|]. intros v.
    destruct (v =? 0); [apply mnice_set|]. destruct (v =? 1); [apply mnice_set|]. now apply mnice_ret.
  - apply rnice_then; [apply rnice_ilint|]. intros; apply rnice_ok.
  - apply mnice_then; [apply mnice_read, rnice_fetch|]. intros s. destruct (from_utf8 s); [apply mnice_set|now apply mnice_ret].
  - apply mnice_then; [apply mnice_ret; destruct (n <? 4); exact Logic.I|]. intros _.
    apply mnice_then; [apply mnice_read, rnice_sint|]. intros z. apply mnice_then; [apply mnice_set|]. intros _ s.
    apply (nice_seqp (raw_p (n - 4) (snd s)) (fun xs => returns (fst xs)) (fun xs => failed (fst xs))); [apply mnice_in_place| | |].
    + intros xs Hx. now apply nice_done.
    + intros xs. exact Logic.I.
    + intros xs Hx. exact Hx.
  - apply mnice_limited, mnice_then; [apply mnice_read, rnice_ilint|]. intros a. apply mnice_then; [apply mnice_set|]. intros _.
    apply mnice_then; [apply mnice_read, rnice_uint|]. intros k. apply mnice_set.
  - do 3 (apply mnice_then; [apply mnice_read, rnice_sint|]; intros ?; apply mnice_then; [apply mnice_set|]; intros _).
    apply mnice_then; [apply mnice_read, rnice_sint|]; intros ?. apply mnice_set.
  - apply mnice_entries, rnice_string_tag.
Qed.
End Manners.
Section IntoNice.
Context {T : Type} (U : user_impl T) (P : script T).
Notation settled := (fun xs : res tag_error unit * otag T => returns (fst xs)).
Notation lost := (fun xs : res tag_error unit * otag T => failed (fst xs)).
Lemma ends_anyhow {I A} (p : prog I A) : ends_in p (fun _ => True).
Proof. induction p; cbn [ends_in]; auto. Qed.
Lemma value_nice t n : (forall x, t <> OUser x) -> onice (value_p P t n).
Proof.
  intros Ht. destruct t as [id v|x|id l|id l|id l]; cbn [value_p].
  - apply (nice_seqp (std_p v n) (fun xs => returns (fst xs)) (fun xs => failed (fst xs))); [now apply std_nice| | |].
    + intros xs H. now apply nice_done.
    + intros xs. exact Logic.I.
    + intros xs H. exact H.
  - now elim (Ht x).
  - apply onice_fields. intros s. apply mnice_while.
  - apply onice_fields, mnice_counted, rnice_tag.
  - apply onice_fields, mnice_entries, rnice_tag.
Qed.
Lemma user_dec (t : otag T) : (exists x, t = OUser x) \/ (forall x, t <> OUser x).
Proof. destruct t; eauto; right; discriminate. Qed.
Lemma value_ends t n : ends_in (value_p P t n) settled.
Proof.
  destruct (user_dec t) as [[x ->]|Ht]; [|exact (n_ends _ _ _ (value_nice t n Ht))]. cbn [value_p].
  apply (ends_seqp _ (fun _ => True)); [apply ends_anyhow|]. intros [[e|] x1] _; exact Logic.I.
Qed.
Lemma value_calm t n : (forall x, calm (P n x)) -> calm (value_p P t n).
Proof.
  intros Hp. destruct (user_dec t) as [[x ->]|Ht]; [|exact (n_calm _ _ _ (value_nice t n Ht))]. cbn [value_p].
  apply (calm_seqp _ (fun _ => True)); [apply Hp|apply ends_anyhow|]. intros a _. exact Logic.I.
Qed.
Lemma value_strict t n : (forall x, strict (P n x) is_error) -> strict (value_p P t n) lost.
Proof.
  intros Hp. destruct (user_dec t) as [[x ->]|Ht]; [|exact (n_strict _ _ _ (value_nice t n Ht))]. cbn [value_p].
  apply (strict_seqp _ is_error); [apply Hp|intros a; exact Logic.I|]. intros [[e|] x1] H; cbn; [reflexivity|]. now elim H.
Qed.
Lemma tag_size_nice id : rnice (@tag_size_p T id).
Proof.
  apply rnice_then; [destruct (is_implicit_tag id); [apply rnice_ok|apply rnice_ilint]|]. intros n. apply rnice_usize.
Qed.
Lemma value_into_ends n t : ends_in (value_into_p U P n t) settled.
Proof. intros [[[]|e| |] t1] m; cbn; auto. destruct (_ && _)%bool; exact Logic.I. Qed.
Lemma value_into_strict n t : (forall x, strict (P n x) is_error) -> strict (value_into_p U P n t) lost.
Proof.
  intros Hp. exists lost. split; [now apply value_strict|]. split; [intros; exact Logic.I|].
  intros [[[]|e| |] t1] m H; try discriminate H; reflexivity.
Qed.
Lemma into_ends t : ends_in (into_p U P t) settled.
Proof.
  apply (ends_seqp _ returns); [apply rnice_ilint|]. intros [id|e| |] H; try contradiction; [|exact Logic.I].
  destruct (negb _); [exact Logic.I|]. apply (ends_seqp _ returns); [apply tag_size_nice|].
  intros [n|e| |] H1; try contradiction; [apply value_into_ends|exact Logic.I].
Qed.
Lemma into_calm t : (forall n x, calm (P n x)) -> calm (into_p U P t).
Proof.
  intros Hp. apply (calm_seqp _ returns); [apply rnice_ilint|apply rnice_ilint|]. intros [id|e| |] H; try contradiction; [|exact Logic.I].
  destruct (negb _); [exact Logic.I|]. apply (calm_seqp _ returns); [apply tag_size_nice|apply tag_size_nice|].
  intros [n|e| |] H1; try contradiction; [|exact Logic.I]. split; [apply value_calm, Hp|]. intros; exact Logic.I.
Qed.
Lemma into_strict t : (forall n x, strict (P n x) is_error) -> strict (into_p U P t) lost.
Proof.
  intros Hp.
  assert (K : forall id, strict (seqp (@tag_size_p T id) (fun y =>
               match y with
               | Ok n => value_into_p U P n t
               | Err e => Done (Err e, t)
               | _ => Abort
               end)) lost).
  { intros id. apply (strict_seqp _ failed); [apply tag_size_nice| |].
    - intros [n|e| |]; try exact Logic.I. now apply value_into_strict.
    - intros [n|e| |] H; try discriminate H; try exact Logic.I. reflexivity. }
  apply (strict_seqp _ failed); [apply rnice_ilint| |].
  - intros [id|e| |]; try exact Logic.I. destruct (negb _); [exact Logic.I|]. apply K.
  - intros [id|e| |] H; try discriminate H; try exact Logic.I. reflexivity.
Qed.
End IntoNice.

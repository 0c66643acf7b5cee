(** Facts about programs that call the factory on readers of their own. *)
From Verif Require Import Base BaseFacts Types Spec SpecFacts IO IOSpec IOFacts Logic HistFacts ILInt ILIntFacts Data DataFacts Tags
  Factory FactoryFacts DecodeFacts DeserFacts EngineFacts ClosedFacts Open KinFacts OpenFacts POpen Prog ProgFacts IntoProg IntoProgFacts OtherProg.

(** ** What [m1] answers [m2] answers too *)
(** Whenever [m1] ends (with a panic only if [pan]). *)
Definition rle (pan : Prop) {E A} (m1 m2 : reader -> res E A * reader) : Prop :=
  forall r, okres pan (fst (m1 r)) -> m2 r = m1 r.
Definition mle (pan : Prop) {S A} (m1 m2 : method S A) : Prop :=
  forall s r, okres pan (fst (m1 (s, r))) -> m2 (s, r) = m1 (s, r).
Lemma rle_refl pan {E A} (m : reader -> res E A * reader) : rle pan m m.
Proof. intros r _. reflexivity. Qed.
Lemma rle_trans pan {E A} (m1 m2 m3 : reader -> res E A * reader) : rle pan m1 m2 -> rle pan m2 m3 -> rle pan m1 m3.
Proof. intros H K r Q. rewrite <- (H r Q) in Q |- *. now apply K. Qed.
Lemma mle_refl pan {S A} (m : method S A) : mle pan m m.
Proof. intros s r _. reflexivity. Qed.
Lemma rle_bind pan {E A B} (m1 m2 : reader -> res E A * reader) (f1 f2 : A -> reader -> res E B * reader) :
  rle pan m1 m2 -> (forall a, rle pan (f1 a) (f2 a)) -> rle pan (bind m1 f1) (bind m2 f2).
Proof.
  intros H Hf r. unfold bind. pose proof (H r) as K. destruct (m1 r) as [x r1]; cbn [fst] in K.
  destruct x as [a|e| |]; cbn [fst]; intros Q; try (rewrite K by exact Q; reflexivity).
  rewrite K by exact I. now apply Hf.
Qed.
Lemma mle_bind pan {S A B} (m1 m2 : method S A) (f1 f2 : A -> method S B) :
  mle pan m1 m2 -> (forall a, mle pan (f1 a) (f2 a)) -> mle pan (bind m1 f1) (bind m2 f2).
Proof.
  intros H Hf s r. unfold bind. pose proof (H s r) as K. destruct (m1 (s, r)) as [x [s1 r1]]; cbn [fst] in K.
  destruct x as [a|e| |]; cbn [fst]; intros Q; try (rewrite K by exact Q; reflexivity).
  rewrite K by exact I. now apply Hf.
Qed.
Lemma mle_on_reader pan {S A} (m1 m2 : reader -> res tag_error A * reader) : rle pan m1 m2 -> mle pan (@on_reader S A m1) (on_reader m2).
Proof.
  intros H s r. unfold on_reader. pose proof (H r) as K. destruct (m1 r) as [x r1]. cbn [fst] in *. intros Q. now rewrite K.
Qed.
Lemma mle_limited pan {S A} n (m1 m2 : method S A) : mle pan m1 m2 -> mle pan (limited n m1) (limited n m2).
Proof.
  intros H s r. unfold limited. pose proof (H s (LimitedReader_new r n)) as K.
  destruct (m1 (s, LimitedReader_new r n)) as [x [s1 lr]]. cbn [fst] in *. intros Q. now rewrite K.
Qed.
Lemma mle_fuelled pan {S A} (m1 m2 : nat -> method S A) : (forall f, mle pan (m1 f) (m2 f)) -> mle pan (fuelled m1) (fuelled m2).
Proof. intros H s r. unfold fuelled. apply H. Qed.
Lemma mle_repeat pan {S A} (m1 m2 : reader -> res tag_error A * reader) (store : A -> S -> S) f count :
  rle pan m1 m2 -> mle pan (repeat_read f m1 store count) (repeat_read f m2 store count).
Proof.
  intros H. revert count. induction f as [|f IH]; intros count; [apply mle_refl|]. cbn [repeat_read].
  destruct (count =? 0); [apply mle_refl|].
  apply mle_bind; [now apply mle_on_reader|]. intros a.
  apply mle_bind; [apply mle_refl|]. intros _. apply IH.
Qed.
Lemma mle_while pan {S A} (m1 m2 : reader -> res tag_error A * reader) (store : A -> S -> S) f :
  rle pan m1 m2 -> mle pan (while_read f m1 store) (while_read f m2 store).
Proof.
  intros H. induction f as [|f IH]; [apply mle_refl|]. intros s r. cbn [while_read].
  destruct (limit_empty _); [reflexivity|]. revert s r.
  match goal with |- forall s r, okres _ (fst (?m (s, r))) -> ?m' (s, r) = _ => change (mle pan m m') end.
  apply mle_bind; [now apply mle_on_reader|]. intros a.
  apply mle_bind; [apply mle_refl|]. intros _. exact IH.
Qed.

(** ** The factory *)
Section Step.
Context (pan : Prop) {T : Type} (U1 U2 : user_impl T) (e : engine).
Hypothesis Hid : forall x, u_id U1 x = u_id U2 x.
Hypothesis Hcr : forall id, u_create U1 id = u_create U2 id.
Lemma o_value_le d1 d2 t n r : rle pan d1 d2 -> mle pan (u_deserialize_value U1 d1 n) (u_deserialize_value U2 d2 n) ->
  okres pan (fst (fst (o_deserialize_value U1 d1 t n r))) ->
  o_deserialize_value U2 d2 t n r = o_deserialize_value U1 d1 t n r.
Proof.
  intros H Hu.
  assert (Run : forall S (m1 m2 : method S unit) s mk, mle pan m1 m2 ->
    okres pan (fst (fst (o_run m1 s mk r))) -> @o_run T S m2 s mk r = o_run m1 s mk r).
  { intros S m1 m2 s mk Hm. unfold o_run. pose proof (Hm s r) as K. destruct (m1 (s, r)) as [x [s1 r1]]. cbn [fst] in *.
    intros Q. now rewrite K. }
  destruct t as [id v|x|id l|id l|id l]; cbn [o_deserialize_value]; try reflexivity; apply Run.
  - exact Hu.
  - apply mle_limited, mle_bind; [apply mle_refl|]. intros _.
    apply mle_fuelled. intros f. now apply mle_while.
  - apply mle_limited.
    apply mle_bind; [apply mle_refl|]. intros c.
    apply mle_bind; [apply mle_refl|]. intros _.
    apply mle_bind; [apply mle_refl|]. intros _.
    apply mle_bind; [apply mle_fuelled; intros f; now apply mle_repeat|]. intros _. apply mle_refl.
  - apply mle_limited.
    apply mle_bind; [apply mle_refl|]. intros c.
    apply mle_bind; [apply mle_refl|]. intros _.
    apply mle_bind; [apply mle_fuelled; intros f; apply mle_repeat|intros _; apply mle_refl].
    apply rle_bind; [apply rle_refl|]. intros k. apply rle_bind; [exact H|]. intros t. apply rle_refl.
Qed.
Lemma o_fuel_le f1 f2 : rle pan (o_deserialize_fuel U1 f1 e) (o_deserialize_fuel U2 f2 e) ->
  (forall n, mle pan (u_deserialize_value U1 (o_deserialize_fuel U1 f1 e) n) (u_deserialize_value U2 (o_deserialize_fuel U2 f2 e) n)) ->
  rle pan (o_deserialize_fuel U1 (S f1) e) (o_deserialize_fuel U2 (S f2) e).
Proof.
  intros H Hu. cbn [o_deserialize_fuel].
  apply rle_bind; [apply rle_refl|]. intros id.
  apply rle_bind; [apply rle_refl|]. intros n.
  assert (Ec : o_create U2 e id = o_create U1 e id) by (unfold o_create; now rewrite Hcr).
  rewrite Ec. apply rle_bind; [apply rle_refl|]. intros [t|]; [|apply rle_refl]. intros r.
  unfold o_value_into, LimitedReader_new.
  pose proof (o_value_le _ _ t n (RLimited r n) H (Hu n)) as K.
  destruct (o_deserialize_value U1 _ t n (RLimited r n)) as [[x t'] lr]. cbn [fst] in *. intros Q.
  rewrite K by (destruct x; cbn [map_ok] in Q; auto; exact I).
  replace (o_id U1 t') with (o_id U2 t') by (destruct t'; cbn [o_id]; auto). reflexivity.
Qed.
End Step.

(** ** Programs *)
Lemma after_le pan {E A B} (x : res E A) (g1 g2 : res E A -> reader -> res tag_error B * reader) r :
  (forall x, rle pan (g1 x) (g2 x)) -> okres pan (fst (after x g1 r)) -> after x g2 r = after x g1 r.
Proof. intros H. destruct x; cbn [after]; auto; apply H. Qed.
Lemma called_le pan {E A B} (d1 d2 : reader -> res E A * reader) (g1 g2 : reader -> res E A -> reader -> res tag_error B * reader) :
  rle pan d1 d2 -> (forall q x, rle pan (g1 q x) (g2 q x)) -> forall q r,
  okres pan (fst (let '(x, q') := d1 q in after x (g1 q') r)) ->
  (let '(x, q') := d2 q in after x (g2 q') r) = (let '(x, q') := d1 q in after x (g1 q') r).
Proof.
  intros H Hg q r. pose proof (H q) as K. destruct (d1 q) as [x q']. cbn [fst] in K. intros Q.
  assert (Qx : okres pan x) by (destruct x; cbn [after] in Q; exact Q || exact I).
  rewrite (K Qx). apply (after_le pan); auto.
Qed.
Lemma tagged_le pan {E A B} (d1 d2 : reader -> res E A * reader) (g1 g2 : res E A -> reader -> res tag_error B * reader) :
  rle pan d1 d2 -> (forall x, rle pan (g1 x) (g2 x)) -> forall r,
  okres pan (fst (let '(x, r') := d1 r in after x g1 r')) ->
  (let '(x, r') := d2 r in after x g2 r') = (let '(x, r') := d1 r in after x g1 r').
Proof.
  intros H Hg r. pose proof (H r) as K. destruct (d1 r) as [x q']. cbn [fst] in K. intros Q.
  assert (Qx : okres pan x) by (destruct x; cbn [after] in Q; exact Q || exact I).
  rewrite (K Qx). apply (after_le pan); auto.
Qed.
Lemma limited_le pan {A B} (m1 m2 : reader -> res tag_error B * reader) (g1 g2 : B -> N -> reader -> res tag_error A * reader) n r :
  rle pan m1 m2 -> (forall b j, rle pan (g1 b j) (g2 b j)) ->
  let go (m : reader -> res tag_error B * reader) (g : B -> N -> reader -> res tag_error A * reader) :=
    let '(x, lr) := m (LimitedReader_new r n) in
    match x, lr with
    | Ok b, RLimited r' n' => g b n' r'
    | Ok _, _ => (Panic, lr)
    | Err e, _ => (Err e, unlimit lr)
    | Panic, _ => (Panic, unlimit lr)
    | OutOfFuel, _ => (OutOfFuel, unlimit lr)
    end in
  okres pan (fst (go m1 g1)) -> go m2 g2 = go m1 g1.
Proof.
  intros H Hg. cbn zeta beta. pose proof (H (LimitedReader_new r n)) as K. destruct (m1 (LimitedReader_new r n)) as [x lr]. cbn [fst] in K.
  intros Q. assert (Qx : okres pan x) by (destruct x; exact Q || exact I).
  rewrite (K Qx). destruct x; auto. destruct lr; auto. now apply Hg.
Qed.
(** A program under a better factory. *)
Lemma xexec_le pan {I A} c (d1 d2 : reader -> res tag_error I * reader) (p : xprog I A) :
  rle pan d1 d2 -> rle pan (xexec c d1 p) (xexec c d2 p).
Proof.
  intros H. induction p as [A a|A|A k IH|A old k IH|A n k IH|A n k IH|A k IH|A B n body IHb k IH|A q k IH]; intros r; cbn [xexec]; try reflexivity.
  - destruct (read r) as [x r1]. now apply after_le.
  - destruct (read_all (lenN old) r) as [[x g] r1]. apply after_le. auto.
  - destruct (skip c n r) as [x r1]. now apply after_le.
  - destruct (skip_u64 c n r) as [x r1]. now apply after_le.
  - apply (tagged_le pan d1 d2 _ _ H). auto.
  - apply limited_le; auto.
  - apply (called_le pan d1 d2 (fun q' x => xexec c d1 (k x q')) (fun q' x => xexec c d2 (k x q')) H). auto.
Qed.
(** The program that has its answers filled in, from a factory that knows them. *)
Lemma settle_le pan {I A} c (d1 d2 D : reader -> res tag_error I * reader) (p : xprog I A) :
  rle pan d1 d2 -> rle pan d1 D -> rle pan (xexec c d1 p) (exec c d2 (settle D p)).
Proof.
  intros H HD. induction p as [A a|A|A k IH|A old k IH|A n k IH|A n k IH|A k IH|A B n body IHb k IH|A q k IH]; intros r; cbn [xexec settle exec]; try reflexivity.
  - destruct (read r) as [x r1]. apply after_le. intros x0. apply IH.
  - destruct (read_all (lenN old) r) as [[x g] r1]. apply after_le. intros x0. apply IH.
  - destruct (skip c n r) as [x r1]. apply after_le. intros x0. apply IH.
  - destruct (skip_u64 c n r) as [x r1]. apply after_le. intros x0. apply IH.
  - apply (tagged_le pan d1 d2 _ _ H). intros x. apply IH.
  - apply limited_le; [apply IHb|]. intros b j. apply IH.
  - pose proof (HD q) as K. destruct (d1 q) as [x q']. cbn [fst] in K. intros Q.
    assert (Qx : okres pan x) by (destruct x; cbn [after] in Q; exact Q || exact Logic.I).
    rewrite (K Qx). destruct x as [t|err| |]; cbn [after] in *; try (now apply IH); [reflexivity|contradiction].
Qed.
Lemma unsettle_le {I A} c (d1 d2 D : reader -> res tag_error I * reader) (p : xprog I A) :
  rle False d1 d2 -> rle False D d2 -> rle False (exec c d1 (settle D p)) (xexec c d2 p).
Proof.
  intros H HD. induction p as [A a|A|A k IH|A old k IH|A n k IH|A n k IH|A k IH|A B n body IHb k IH|A q k IH]; intros r; cbn [xexec settle exec]; try reflexivity.
  - destruct (read r) as [x r1]. apply after_le. intros x0. apply IH.
  - destruct (read_all (lenN old) r) as [[x g] r1]. apply after_le. intros x0. apply IH.
  - destruct (skip c n r) as [x r1]. apply after_le. intros x0. apply IH.
  - destruct (skip_u64 c n r) as [x r1]. apply after_le. intros x0. apply IH.
  - apply (tagged_le False d1 d2 _ _ H). intros x. apply IH.
  - apply limited_le; [apply IHb|]. intros b j. apply IH.
  - pose proof (HD q) as K. destruct (D q) as [x q']. cbn [fst] in K. intros Q.
    destruct x as [t|err| |]; try contradiction; rewrite (K Logic.I); cbn [after]; now apply IH.
Qed.
Section Users.
Context (pan : Prop) {T : Type} (c : cfg) (U : user_impl T) (P : xscript T).
Lemma xscripted_le d1 d2 n : rle pan d1 d2 -> mle pan (u_deserialize_value (xscripted c U P) d1 n) (u_deserialize_value (xscripted c U P) d2 n).
Proof.
  intros H s r. cbn [u_deserialize_value xscripted]. pose proof (xexec_le pan c d1 d2 (P n s) H r) as K.
  destruct (xexec c d1 (P n s) r) as [y r1]. cbn [fst] in K. intros Q. rewrite K; [reflexivity|].
  destruct y as [[[?|] ?]|?| |]; exact Q || exact I.
Qed.
Lemma settled_le d1 d2 D n : rle pan d1 d2 -> rle pan d1 D ->
  mle pan (u_deserialize_value (xscripted c U P) d1 n) (u_deserialize_value (scripted c U (settled D P)) d2 n).
Proof.
  intros H HD s r. cbn [u_deserialize_value xscripted scripted]. pose proof (settle_le pan c d1 d2 D (P n s) H HD r) as K.
  unfold settled. destruct (xexec c d1 (P n s) r) as [y r1]. cbn [fst] in K. intros Q. rewrite K; [reflexivity|].
  destruct y as [[[?|] ?]|?| |]; exact Q || exact I.
Qed.
End Users.
Lemma unsettled_le {T} c (U : user_impl T) (P : xscript T) d1 d2 D n : rle False d1 d2 -> rle False D d2 ->
  mle False (u_deserialize_value (scripted c U (settled D P)) d1 n) (u_deserialize_value (xscripted c U P) d2 n).
Proof.
  intros H HD s r. cbn [u_deserialize_value xscripted scripted]. unfold settled.
  pose proof (unsettle_le c d1 d2 D (P n s) H HD r) as K.
  destruct (exec c d1 (settle D (P n s)) r) as [y r1]. cbn [fst] in K. intros Q. rewrite K; [reflexivity|].
  destruct y as [[[?|] ?]|?| |]; exact Q || exact I.
Qed.
Lemma exec_le pan {I A} c (d1 d2 : reader -> res tag_error I * reader) (p : prog I A) :
  rle pan d1 d2 -> rle pan (exec c d1 p) (exec c d2 p).
Proof.
  intros H. induction p as [A a|A|A k IH|A old k IH|A n k IH|A n k IH|A k IH|A B n body IHb k IH]; intros r; cbn [exec]; try reflexivity.
  - destruct (read r) as [x r1]. now apply after_le.
  - destruct (read_all (lenN old) r) as [[x g] r1]. apply after_le. auto.
  - destruct (skip c n r) as [x r1]. now apply after_le.
  - destruct (skip_u64 c n r) as [x r1]. now apply after_le.
  - apply (tagged_le pan d1 d2 _ _ H). auto.
  - apply limited_le; auto.
Qed.
Lemma scripted_le pan {T} c (U : user_impl T) (P : script T) d1 d2 n : rle pan d1 d2 ->
  mle pan (u_deserialize_value (scripted c U P) d1 n) (u_deserialize_value (scripted c U P) d2 n).
Proof.
  intros H s r. cbn [u_deserialize_value scripted]. pose proof (exec_le pan c d1 d2 (P n s) H r) as K.
  destruct (exec c d1 (P n s) r) as [y r1]. cbn [fst] in K. intros Q. rewrite K; [reflexivity|].
  destruct y as [[[?|] ?]|?| |]; exact Q || exact I.
Qed.

(** ** Bounds on the depth *)
Lemma bottom_le pan {T} (U : user_impl T) e (m : reader -> res tag_error (otag T) * reader) : rle pan (o_deserialize_fuel U 0 e) m.
Proof. intros r []. Qed.
(** A deeper bound gives the same answers. *)
Lemma x_mono pan {T} c (U : user_impl T) P e f : forall g, (f <= g)%nat -> rle pan (x_deserialize c U P e f) (x_deserialize c U P e g).
Proof.
  induction f as [|f IH]; intros g L; [apply bottom_le|]. destruct g as [|g]; [lia|].
  apply o_fuel_le; auto; [apply IH; lia|]. intros n. apply xscripted_le, IH. lia.
Qed.
Lemma s_mono pan {T} c (U : user_impl T) P e f : forall g, (f <= g)%nat ->
  rle pan (o_deserialize_fuel (scripted c U P) f e) (o_deserialize_fuel (scripted c U P) g e).
Proof.
  induction f as [|f IH]; intros g L; [apply bottom_le|]. destruct g as [|g]; [lia|].
  apply o_fuel_le; auto; [apply IH; lia|]. intros n. apply scripted_le, IH. lia.
Qed.
(** The factory of the programs that have their answers filled in. *)
Lemma x_settled pan {T} c (U : user_impl T) P e D F : rle pan (x_deserialize c U P e F) D -> forall f, (f <= S F)%nat ->
  rle pan (x_deserialize c U P e f) (o_deserialize_fuel (scripted c U (settled D P)) f e).
Proof.
  intros HD. induction f as [|f IH]; intros L; [apply bottom_le|].
  apply o_fuel_le; auto; [apply IH; lia|]. intros n. apply settled_le; [apply IH; lia|].
  eapply rle_trans; [|exact HD]. apply x_mono. lia.
Qed.
Lemma x_unsettled {T} c (U : user_impl T) P e F : forall f,
  rle False (o_deserialize_fuel (scripted c U (settled (x_deserialize c U P e F) P)) f e) (x_deserialize c U P e (f + F)).
Proof.
  induction f as [|f IH]; [apply bottom_le|]. cbn [Nat.add].
  apply o_fuel_le; auto. intros n. apply unsettled_le; [exact IH|]. apply x_mono. lia.
Qed.
(** The bound of o_deserialize is deep enough for programs with no such calls. *)
Lemma s_enough {T} c (U : user_impl T) P e f r x r' : 1 <= usize_max c -> rwf r ->
  o_deserialize_fuel (scripted c U P) f e r = (x, r') -> x <> OutOfFuel -> o_deserialize (scripted c U P) e r = (x, r').
Proof.
  intros Hc W E N. unfold o_deserialize.
  assert (Q : okres True x) by (destruct x; cbn; auto).
  destruct (Nat.le_ge_cases f (S (left r))) as [L|L].
  - rewrite (s_mono True c U P e f _ L r); rewrite E; auto.
  - destruct (o_deserialize_fuel (scripted c U P) (S (left r)) e r) as [y r1] eqn:E1.
    destruct (o_deserialize_safe (scripted c U P) e True (scripted_behaves c True U P Hc (or_introl Logic.I)) (created_okres c U P e) r y r1 W E1) as (Qy & _).
    rewrite <- E, (s_mono True c U P e _ _ L r); rewrite E1; auto.
Qed.

(** ** No panic *)
Lemma settle_calm {I A} (D : reader -> res tag_error I * reader) (p : xprog I A) :
  (forall q, rwf q -> returns (fst (D q)) /\ rwf (snd (D q))) -> xcalm p -> calm (settle D p).
Proof.
  intros HD. induction p as [A a|A|A k IH|A old k IH|A n k IH|A n k IH|A k IH|A B n body IHb k IH|A q k IH]; cbn [xcalm settle calm]; auto.
  - intros [Hb Hk]. auto.
  - intros [Wq Hk]. destruct (HD q Wq) as [R W]. destruct (D q) as [x q']. cbn [fst snd] in *.
    destruct x; try contradiction; apply IH, Hk; auto.
Qed.
(** The answers, with an error for those that are too deep. *)
Definition patched {I} (d : reader -> res tag_error I * reader) (q : reader) : res tag_error I * reader :=
  match d q with (OutOfFuel, _) => (Err CorruptedData, q) | other => other end.
Lemma patched_le pan {I} (d : reader -> res tag_error I * reader) : rle pan d (patched d).
Proof. intros q. unfold patched. destruct (d q) as [[| | |] q']; cbn; auto. contradiction. Qed.
Lemma x_no_panic {T} c (U : user_impl T) P e : 1 <= usize_max c -> (forall n x, xcalm (P n x)) ->
  (forall id, u_create U id <> Some None) -> engine_total e -> forall f r x r', rwf r ->
  x_deserialize c U P e f r = (x, r') -> x <> Panic /\ (returns x -> rwf r' /\ (left r' <= left r)%nat).
Proof.
  intros Hc Hp Hcr Ht. induction f as [|f IH]; intros r x r' W E.
  { injection E as <- <-. split; [discriminate|contradiction]. }
  set (D := patched (x_deserialize c U P e f)).
  assert (HD : forall q, rwf q -> returns (fst (D q)) /\ rwf (snd (D q))).
  { intros q Wq. unfold D, patched. destruct (x_deserialize c U P e f q) as [y q'] eqn:Eq.
    destruct (IH _ _ _ Wq Eq) as [Np Wr]. destruct y; cbn [fst snd returns]; auto; try (now elim Np); destruct (Wr I); auto. }
  assert (Cm : forall n y, calm (settled D P n y)) by (intros n y; now apply settle_calm).
  assert (Le : rle True (x_deserialize c U P e (S f)) (o_deserialize_fuel (scripted c U (settled D P)) (S f) e)).
  { apply (x_settled True c U P e D f); [apply patched_le|lia]. }
  assert (K : x <> OutOfFuel -> o_deserialize (scripted c U (settled D P)) e r = (x, r')).
  { intros N. apply s_enough with (f := S f); auto. rewrite Le; rewrite E; auto. destruct x; cbn; auto. }
  assert (Tot : exists y q, o_deserialize (scripted c U (settled D P)) e r = (y, q) /\ returns y /\ rwf q /\ (left q <= left r)%nat).
  { apply (C63_total T (scripted c U (settled D P)) e r); auto. apply scripted_behaves; auto. }
  destruct Tot as (y & q & Ey & Ry & Wy & Ly).
  destruct x as [t|err| |]; try (split; [discriminate|contradiction]);
    rewrite K in Ey by discriminate; injection Ey as <- <-; try contradiction; (split; [discriminate|auto]).
Qed.

(** ** Termination *)
Lemma xexec_kin {I A} c (deser : reader -> res tag_error I * reader) (p : xprog I A) : Rkin _ _ deser -> Rkin _ _ (xexec c deser p).
Proof.
  intros Kd.
  assert (Step : forall A E B (x : res E B) (go : res E B -> reader -> res tag_error A * reader) r r1 y r', kin r r1 ->
    (forall x, Rkin _ _ (go x)) -> after x go r1 = (y, r') -> kin r r').
  { intros A0 E B x go r r1 y r' K Hgo H. apply after_inv in H as [(_ & _ & ->)|[(_ & _ & ->)|[_ H]]]; auto.
    apply Hgo in H. eapply kin_trans; eauto. }
  induction p as [A a|A|A k IH|A old k IH|A n k IH|A n k IH|A k IH|A B n body IHb k IH|A q k IH]; intros r y r'; cbn [xexec].
  - intros [= _ <-]. apply kin_refl.
  - intros [= _ <-]. apply kin_refl.
  - destruct (read r) as [x r1] eqn:E. apply kin_read in E. now apply Step.
  - destruct (read_all (lenN old) r) as [[x g] r1] eqn:E. apply kin_read_all in E. apply Step; auto.
  - destruct (skip c n r) as [x r1] eqn:E. apply kin_skip in E. now apply Step.
  - destruct (skip_u64 c n r) as [x r1] eqn:E. apply kin_skip_u64 in E. now apply Step.
  - destruct (deser r) as [x r1] eqn:E. apply Kd in E. now apply Step.
  - unfold LimitedReader_new. destruct (xexec c deser body (RLimited r n)) as [x lr] eqn:E.
    apply IHb in E. apply kin_limited in E as (r1 & n1 & -> & K). cbn [unlimit].
    destruct x; try (intros [= _ <-]; exact K). intros H. apply IH in H. eapply kin_trans; eauto.
  - destruct (deser q) as [x q']. apply Step; [apply kin_refl|]. auto.
Qed.
Lemma xscripted_kin {T} c (U : user_impl T) P deser n : Rkin _ _ deser -> Mkin _ _ (u_deserialize_value (xscripted c U P) deser n).
Proof.
  intros Kd s r x s' r'. cbn [u_deserialize_value xscripted]. destruct (xexec c deser (P n s) r) as [y r1] eqn:E.
  apply (xexec_kin _ _ _ Kd) in E. destruct y as [[[e|] x1]|e| |]; intros [= _ _ <-]; exact E.
Qed.
Lemma xexec_safe {I A} c pan b (deser : reader -> res tag_error I * reader) (p : xprog I A) :
  1 <= usize_max c -> rsafe pan b deser -> rprogress b deser -> Rkin _ _ deser -> (pan \/ xcalm p) ->
  forall m r x r', frugal 0 p m -> limited_reader r -> rwf r -> (left r + m < b)%nat -> xexec c deser p r = (x, r') ->
    okres pan x /\ rwf r' /\ (left r' <= left r)%nat /\ (forall e, x <> Err e).
Proof.
  intros Hc Sd Pd Kd. induction p as [A a|A|A k IH|A old k IH|A n k IH|A n k IH|A k IH|A B n body IHb k IH|A q k IH];
    intros Hp m r y r' Fr Lr W L; cbn [xexec frugal] in *.
  - intros [= <- <-]. cbn. repeat split; auto. discriminate.
  - intros [= <- <-]. cbn. repeat split; auto; [cbn in Hp; tauto|discriminate].
  - destruct Fr as [Fo Fe]. destruct (read r) as [x r1] eqn:E. destruct (read_wf _ _ _ W E) as (R1 & W1 & L1 & _).
    pose proof (kin_limited_reader _ _ (kin_read _ _ _ E) Lr) as Lr1.
    destruct x as [a|e| |]; try contradiction; cbn [after]; intros H.
    + pose proof (delivers_left _ _ _ (read_ok _ _ _ E)) as Ld. cbn [length] in Ld.
      apply (IH (Ok a)) with (m := S m) in H as (R & W' & L' & Q); auto; [repeat split; auto; lia|destruct Hp as [?|Hp]; [auto|right; now apply Hp]|lia].
    + apply (IH (Err e)) with (m := m) in H as (R & W' & L' & Q); auto; [repeat split; auto; lia|destruct Hp as [?|Hp]; [auto|right; now apply Hp]|lia].
  - destruct Fr as [Fo Fe]. destruct (read_all (lenN old) r) as [[x g] r1] eqn:E. destruct (read_all_wf _ _ _ _ _ W E) as (R1 & W1 & L1 & _).
    pose proof (kin_limited_reader _ _ (kin_read_all _ _ _ _ _ E) Lr) as Lr1.
    destruct x as [[]|e| |]; try contradiction; cbn [after]; intros H.
    + destruct (read_all_ok _ _ _ _ E) as [Lg D]. pose proof (delivers_left _ _ _ D) as Ld. rewrite (filled_all _ _ Lg) in H.
      unfold lenN in Lg. assert (Lg' : length g = length old) by lia.
      apply (IH (Ok tt) g) with (m := (length old + m)%nat) in H as (R & W' & L' & Q); auto; [repeat split; auto; lia|destruct Hp as [?|Hp]; [auto|right; now apply Hp]|lia].
    + apply (IH (Err e)) with (m := m) in H as (R & W' & L' & Q); auto; [repeat split; auto; lia|destruct Hp as [?|Hp]; [auto|right; now apply Hp]|lia].
  - assert (Ns : no_seek r) by (destruct r; cbn in *; auto).
    destruct Fr as [Fo Fe]. destruct (skip c n r) as [x r1] eqn:E. destruct (skip_safe _ _ _ _ _ W Ns E) as (R1 & W1 & L1).
    pose proof (kin_limited_reader _ _ (kin_skip _ _ _ _ _ E) Lr) as Lr1.
    destruct x as [[]|e| |]; try contradiction; cbn [after]; intros H.
    + destruct (skip_sound _ _ _ _ W Ns E) as (g & Lg & D). pose proof (delivers_left _ _ _ D) as Ld. unfold lenN in Lg.
      apply (IH (Ok tt)) with (m := (N.to_nat n + m)%nat) in H as (R & W' & L' & Q); auto; [repeat split; auto; lia|destruct Hp as [?|Hp]; [auto|right; now apply Hp]|lia].
    + apply (IH (Err e)) with (m := m) in H as (R & W' & L' & Q); auto; [repeat split; auto; lia|destruct Hp as [?|Hp]; [auto|right; now apply Hp]|lia].
  - assert (Ns : no_seek r) by (destruct r; cbn in *; auto).
    destruct Fr as [Fo Fe]. destruct (skip_u64 c n r) as [x r1] eqn:E. destruct (skip_u64_safe _ _ _ _ _ Hc W Ns E) as (R1 & W1 & L1).
    pose proof (kin_limited_reader _ _ (kin_skip_u64 _ _ _ _ _ E) Lr) as Lr1.
    destruct x as [[]|e| |]; try contradiction; cbn [after]; intros H.
    + destruct (skip_u64_sound _ _ _ _ W Ns E) as (g & Lg & D). pose proof (delivers_left _ _ _ D) as Ld. unfold lenN in Lg.
      apply (IH (Ok tt)) with (m := (N.to_nat n + m)%nat) in H as (R & W' & L' & Q); auto; [repeat split; auto; lia|destruct Hp as [?|Hp]; [auto|right; now apply Hp]|lia].
    + apply (IH (Err e)) with (m := m) in H as (R & W' & L' & Q); auto; [repeat split; auto; lia|destruct Hp as [?|Hp]; [auto|right; now apply Hp]|lia].
  - destruct Fr as [Fo Fe]. destruct (deser r) as [x r1] eqn:E. destruct (Sd _ _ _ W ltac:(lia) E) as (R1 & W1 & L1).
    pose proof (kin_limited_reader _ _ (Kd _ _ _ E) Lr) as Lr1.
    destruct x as [a|e| |]; cbn [after]; intros H; try contradiction;
      try (injection H as <- <-; repeat split; auto; discriminate).
    + pose proof (Pd _ _ _ W ltac:(lia) E) as Ld.
      apply (IH (Ok a)) with (m := S m) in H as (R & W' & L' & Q); auto; [repeat split; auto; lia|destruct Hp as [?|Hp]; [auto|right; now apply Hp]|lia].
    + apply (IH (Err e)) with (m := m) in H as (R & W' & L' & Q); auto; [repeat split; auto; lia|destruct Hp as [?|Hp]; [auto|right; now apply Hp]|lia].
  - destruct Fr as [Fb Fk]. unfold LimitedReader_new. destruct (xexec c deser body (RLimited r n)) as [x lr] eqn:E.
    pose proof (xexec_kin _ _ _ Kd _ _ _ E) as K. apply kin_limited in K as (r1 & n1 & -> & K).
    apply IHb with (m := m) in E as (R1 & W1 & L1 & Q1); cbn; auto; [|destruct Hp as [|[]]; auto].
    cbn [rwf left] in *. pose proof (kin_limited_reader _ _ K Lr) as Lr1.
    destruct x as [a|e| |]; cbn [unlimit]; intros H; try (now elim (Q1 e)); try contradiction;
      try (injection H as <- <-; repeat split; auto; discriminate).
    apply IH with (m := m) in H as (R & W' & L' & Q); auto; [repeat split; auto; lia|destruct Hp as [|[]]; auto|lia].
  - destruct Fr as (Wq & Lq & Fk). destruct (deser q) as [x q'] eqn:E. destruct (Sd _ _ _ Wq ltac:(lia) E) as (R1 & W1 & L1).
    assert (Go : returns x -> xexec c deser (k x q') r = (y, r') ->
      okres pan y /\ rwf r' /\ (left r' <= left r)%nat /\ (forall e, y <> Err e)).
    { intros R H. apply (IH x q') with (m := m) in H; auto. destruct Hp as [?|[_ Hp]]; auto. }
    destruct x as [a|e| |]; cbn [after]; try (apply Go; exact Logic.I); try contradiction.
    intros [= <- <-]. repeat split; auto; discriminate.
Qed.
Lemma xscripted_behaves {T} c pan (U : user_impl T) P : 1 <= usize_max c -> (pan \/ forall n x, xcalm (P n x)) ->
  (forall n x, frugal 0 (P n x) 0) -> behaves pan (xscripted c U P).
Proof.
  intros Hc Hp Hf. split; [intros deser n; apply xscripted_kin|].
  intros b deser n x r m y x' r' Sd Pd Kd W L. cbn [u_deserialize_value xscripted].
  destruct (xexec c deser (P n x) (RLimited r m)) as [z r1] eqn:E.
  apply (xexec_safe c pan b deser _ Hc Sd Pd Kd) with (m := O) in E as (R & W' & L' & Q); cbn [limited_reader left rwf]; auto; [| |lia].
  - destruct z as [[[e|] x1]|e| |]; intros H; injection H as <- <- <-; cbn; auto.
  - destruct Hp; auto.
Qed.

(** ** Strictness *)
Lemma settle_ends {I A} (D : reader -> res tag_error I * reader) (p : xprog I A) : forall F, xends_in p F -> ends_in (settle D p) F.
Proof.
  induction p as [A a|A|A k IH|A old k IH|A n k IH|A n k IH|A k IH|A B n body IHb k IH|A q k IH]; intros F; cbn [xends_in settle ends_in]; auto.
  intros H. destruct (D q) as [x q']. destruct x; try exact Logic.I; apply IH, H; exact Logic.I.
Qed.
Lemma settle_strict {I A} (D : reader -> res tag_error I * reader) (p : xprog I A) : forall F, xstrict p F -> strict (settle D p) F.
Proof.
  induction p as [A a|A|A k IH|A old k IH|A n k IH|A n k IH|A k IH|A B n body IHb k IH|A q k IH]; intros F; cbn [xstrict settle strict]; auto.
  - intros [H K]. split; auto using settle_ends.
  - intros [H K]. split; auto using settle_ends.
  - intros [H K]. split; auto using settle_ends.
  - intros [H K]. split; auto using settle_ends.
  - intros [H K]. split; auto using settle_ends.
  - intros (G & H & K & L). exists G. repeat split; auto using settle_ends.
  - intros H. destruct (D q) as [x q']. destruct x; try exact Logic.I; apply IH, H; exact Logic.I.
Qed.

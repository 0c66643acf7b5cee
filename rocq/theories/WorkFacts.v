(** Proofs about Work.v: without the counters it is Any.v, and the work is bounded. *)
From Verif Require Import Base BaseFacts Types IO ILInt Data Tags Factory Any Work.

(** ** Without the counters *)
Fixpoint strip {U V} (h : U -> N -> V) (r : wreader U) : areader V :=
  match r with WBase u b _ => ABase (h u b) | WLimited src n => ALimited (strip h src) n end.
Definition strip2 {U V S} (h : U -> N -> V) (st : S * wreader U) : S * areader V := (fst st, strip h (snd st)).
Definition simulates {E A Sw Sa} (q : Sw -> Sa) (mw : Sw -> res E A * Sw) (ma : Sa -> res E A * Sa) : Prop :=
  forall s, ma (q s) = (fst (mw s), q (snd (mw s))).
Definition simulates3 {E A B Sw Sa} (q : Sw -> Sa) (mw : Sw -> res E A * B * Sw) (ma : Sa -> res E A * B * Sa) : Prop :=
  forall s, ma (q s) = (fst (mw s), q (snd (mw s))).

Section Sim.
(** [M'] is [M] on objects that may keep the count of the bytes, with [h]. *)
Context {U V : Type} (M : reader_impl U) (M' : reader_impl V) (h : U -> N -> V).
Hypothesis Hread : forall u b, u_read M' (h u b) =
  let '(x, u') := u_read M u in (x, h u' (if is_ok x then b + 1 else b)).
Hypothesis Hall : forall buff u b, u_read_all M' buff (h u b) =
  let '(x, buff', u') := u_read_all M buff u in (x, buff', h u' (if is_ok x then b + lenN buff else b)).
Notation sim := (simulates (strip h)).
Notation msim := (simulates (strip2 h)).

Lemma strip_tick (r : wreader U) : strip h (w_tick r) = strip h r.
Proof. induction r; cbn [w_tick strip]; congruence. Qed.
Lemma strip_unlimit (r : wreader U) : strip h (w_unlimit r) = a_unlimit (strip h r).
Proof. now destruct r. Qed.
Lemma strip_empty (r : wreader U) : a_empty (strip h r) = w_empty r.
Proof. now destruct r. Qed.
Lemma strip_room (r : wreader U) : room (strip h r) = w_room r.
Proof. now destruct r. Qed.

Lemma sim_bind {E A B Sw Sa} (q : Sw -> Sa) (m : Sw -> res E A * Sw) m' (f : A -> Sw -> res E B * Sw) f' :
  simulates q m m' -> (forall a, simulates q (f a) (f' a)) -> simulates q (bind m f) (bind m' f').
Proof.
  intros Hm Hf s. unfold bind. rewrite (Hm s). destruct (m s) as [[a|e| |] s']; cbn [fst snd]; try reflexivity. apply Hf.
Qed.
Lemma sim_const {E A Sw Sa} (q : Sw -> Sa) (x : res E A) : simulates q (fun s => (x, s)) (fun s => (x, s)).
Proof. intros s. reflexivity. Qed.
Lemma sim_ret {E A Sw Sa} (q : Sw -> Sa) (a : A) : simulates (E := E) q (ret a) (ret a).
Proof. intros s. reflexivity. Qed.
Lemma sim_fail {E A Sw Sa} (q : Sw -> Sa) (e : E) : simulates (A := A) q (fail e) (fail e).
Proof. intros s. reflexivity. Qed.
Lemma sim_lift {E E' A Sw Sa} (q : Sw -> Sa) (g : E -> E') (m : Sw -> res E A * Sw) m' :
  simulates q m m' -> simulates q (lift_err g m) (lift_err g m').
Proof. intros H s. unfold lift_err. rewrite (H s). now destruct (m s) as [[a|e| |] s']. Qed.
Lemma sim_if {E A Sw Sa} (q : Sw -> Sa) (b : bool) (m n : Sw -> res E A * Sw) m' n' :
  simulates q m m' -> simulates q n n' -> simulates q (if b then m else n) (if b then m' else n').
Proof. now destruct b. Qed.

Lemma sim_read : sim (w_read M) (a_read M').
Proof.
  intros r. induction r as [u b w|src IH n]; cbn [w_read strip a_read].
  - rewrite Hread. now destruct (u_read M u) as [x u'].
  - destruct (n <? 1); [cbn [fst snd]; now rewrite strip_tick|].
    rewrite IH. destruct (w_read M src) as [x src']. cbn [fst snd]. now rewrite strip_tick.
Qed.
Lemma sim_read_all buff : simulates3 (strip h) (w_read_all M buff) (a_read_all M' buff).
Proof.
  intros r. induction r as [u b w|src IH n]; cbn [w_read_all strip a_read_all].
  - rewrite Hall. now destruct (u_read_all M buff u) as [[x bf] u'].
  - destruct (n <? lenN buff); [cbn [fst snd]; now rewrite strip_tick|].
    rewrite IH. destruct (w_read_all M buff src) as [[x bf] src']. cbn [fst snd]. now rewrite strip_tick.
Qed.
Lemma sim_fetch n : sim (w_fetch M n) (a_fetch M' n).
Proof. intros r. unfold a_fetch, w_fetch. rewrite (sim_read_all _ r). now destruct (w_read_all M (repeatN 0 n) r) as [[x bf] r']. Qed.
Lemma sim_into_slice buff : simulates3 (strip h) (w_into_slice M buff) (a_into_slice M' buff).
Proof. intros r. unfold a_into_slice, w_into_slice. rewrite (sim_read_all _ r). now destruct (w_read_all M buff r) as [[x bf] r']. Qed.

Lemma sim_on_reader {S A} m m' : sim m m' -> msim (w_on_reader (S := S) (A := A) m) (a_on_reader m').
Proof. intros H [s r]. unfold strip2. cbn [a_on_reader w_on_reader fst snd]. rewrite (H r). now destruct (m r). Qed.
Lemma sim_modify {S} (f : S -> S) : msim (w_modify f) (a_modify f).
Proof. now intros [s r]. Qed.
Lemma sim_limited {S A} n (m : wmethod S A) m' : msim m m' -> msim (w_limited n m) (a_limited n m').
Proof.
  intros H [s r]. unfold strip2. cbn [a_limited w_limited fst snd].
  change (s, ALimited (strip h r) n) with (strip2 h (s, WLimited r n)). rewrite H.
  destruct (m (s, WLimited r n)) as [x [s' r']]. unfold strip2. cbn [fst snd]. now rewrite strip_unlimit.
Qed.
Lemma sim_ensure_empty {S} e : msim (w_ensure_empty (S := S) e) (a_ensure_empty e).
Proof. intros [s r]. unfold a_ensure_empty, w_ensure_empty, strip2. cbn [fst snd]. now rewrite strip_empty. Qed.
Lemma sim_repeat {S A} m m' (store : A -> S -> S) : sim m m' -> forall f count, msim (w_repeat f m store count) (a_repeat f m' store count).
Proof.
  intros H. induction f as [|f IH]; intros count; cbn [a_repeat w_repeat]; destruct (count =? 0); try apply sim_ret; [apply sim_const|].
  apply sim_bind; [now apply sim_on_reader|]. intros a. apply sim_bind; [apply sim_modify|]. intros _. apply IH.
Qed.
Lemma sim_while {S A} m m' (store : A -> S -> S) : sim m m' -> forall f, msim (w_while f m store) (a_while f m' store).
Proof.
  intros H. induction f as [|f IH]; intros st; cbn [a_while w_while]; replace (a_empty (snd (strip2 h st))) with (w_empty (snd st))
    by (destruct st; unfold strip2; cbn [snd]; now rewrite strip_empty); destruct (w_empty (snd st)); try reflexivity.
  refine (_ st). apply sim_bind; [now apply sim_on_reader|]. intros a. apply sim_bind; [apply sim_modify|]. intros _. apply IH.
Qed.
Lemma sim_fuelled {S A} (m : nat -> wmethod S A) m' : (forall f, msim (m f) (m' f)) -> msim (w_fuelled m) (a_fuelled m').
Proof.
  intros H st. unfold a_fuelled, w_fuelled. replace (room (snd (strip2 h st))) with (w_room (snd st)); [apply H|].
  destruct st. unfold strip2. cbn [snd]. now rewrite strip_room.
Qed.
Lemma sim_run {S} m m' (s : S) (mk : S -> value) : msim m m' -> simulates3 (strip h) (w_run m s mk) (a_run m' s mk).
Proof.
  intros H r. unfold a_run, w_run. change (s, strip h r) with (strip2 h (s, r)). rewrite H.
  now destruct (m (s, r)) as [x [s' r']].
Qed.
Lemma sim_slice (buff : list N -> list N) :
  msim (fun '(vec, r) => let '(x, vec', r') := w_into_slice M (buff vec) r in (x, (vec', r')))
       (fun '(vec, r) => let '(x, vec', r') := a_into_slice M' (buff vec) r in (x, (vec', r'))).
Proof.
  intros [vec r]. unfold strip2. cbn [fst snd]. rewrite (sim_into_slice _ r). now destruct (w_into_slice M (buff vec) r) as [[x v] r'].
Qed.
Lemma sim_on_snd {S T A} (m : wmethod T A) m' : msim m m' -> msim (w_on_snd (S := S) m) (a_on_snd m').
Proof.
  intros H [[s t] r]. unfold strip2. cbn [a_on_snd w_on_snd fst snd]. change (t, strip h r) with (strip2 h (t, r)). rewrite H.
  now destruct (m (t, r)) as [x [t' r']].
Qed.

Ltac sims := repeat first
  [ apply sim_bind; [|intros ?] | apply sim_ret | apply sim_fail | apply sim_const | apply sim_lift | apply sim_if
  | apply sim_read | apply sim_fetch | apply sim_on_reader | apply sim_modify | apply sim_limited | apply sim_ensure_empty
  | apply sim_fuelled; intros ? | apply sim_repeat | apply sim_while ].
Lemma sim_decode : sim (w_decode M) (a_decode M').
Proof. unfold w_decode, a_decode. sims. Qed.
Lemma sim_uint w : sim (w_uint M w) (a_uint M' w).
Proof. unfold w_uint, a_uint. destruct w; sims. Qed.
Lemma sim_sint w : sim (w_sint M w) (a_sint M' w).
Proof. unfold w_sint, a_sint. destruct w; sims. Qed.
Lemma sim_ilint : sim (w_ilint M) (a_ilint M').
Proof. unfold w_ilint, a_ilint. sims; try apply sim_decode. Qed.
Lemma sim_silint : sim (w_silint M) (a_silint M').
Proof. unfold w_silint, a_silint, w_signed_decode, a_signed_decode. sims; try apply sim_decode. Qed.
Lemma sim_bytes n : sim (w_bytes M n) (a_bytes M' n).
Proof. unfold w_bytes, a_bytes. sims. Qed.
Lemma sim_string_tag : sim (w_string_tag M) (a_string_tag M').
Proof.
  intros r. unfold a_string_tag, w_string_tag. change ([], strip h r) with (strip2 h (@nil N, r)).
  assert (H : msim (w_string_tag_into M) (a_string_tag_into M')).
  { unfold w_string_tag_into, a_string_tag_into. sims; try apply sim_ilint; try apply sim_bytes. }
  rewrite H. now destruct (w_string_tag_into M ([], r)) as [[x|x| |] [s r']].
Qed.
Lemma sim_raw n : msim (w_raw M n) (a_raw M' n).
Proof. exact (sim_slice (resizeN n 0)). Qed.
Ltac simv := repeat first
  [ apply sim_ilint | apply sim_silint | apply sim_uint | apply sim_sint | apply sim_bytes | apply sim_string_tag
  | apply sim_bind; [|intros ?] | apply sim_ret | apply sim_fail | apply sim_const | apply sim_if
  | apply sim_on_reader | apply sim_modify | apply sim_limited | apply sim_ensure_empty
  | apply sim_fuelled; intros ? | apply sim_repeat | apply sim_while ].
Lemma sim_value deser deser' v n : sim deser deser' -> simulates3 (strip h) (w_value M deser v n) (a_value M' deser' v n).
Proof.
  intros H. destruct v; cbn [w_value a_value]; apply sim_run.
  all: unfold w_null, a_null, w_bool, a_bool, w_uint_value, a_uint_value, w_sint_value, a_sint_value, w_bin32, a_bin32, w_bin64, a_bin64,
    w_bin128, a_bin128, w_check_size, a_check_size, w_set_from, a_set_from, w_f32, a_f32, w_f64, a_f64.
  all: unfold w_string, a_string, w_bigdec, a_bigdec, w_ilintarray, a_ilintarray, w_seq, a_seq, w_arr, a_arr, w_range, a_range,
    w_version, a_version, w_dict, a_dict, w_strdict, a_strdict.
  all: try apply sim_raw.
  all: simv; try exact H; try (apply sim_on_snd, sim_raw).
  exact (sim_slice (fun v => v)).
Qed.
Lemma sim_value_into deser deser' n t : sim deser deser' -> simulates3 (strip h) (w_value_into M deser n t) (a_value_into M' deser' n t).
Proof.
  intros H r. unfold a_value_into, w_value_into. change (ALimited (strip h r) n) with (strip h (WLimited r n)).
  rewrite (sim_value deser deser' (tag_val t) n H). destruct (w_value M deser (tag_val t) n (WLimited r n)) as [[x v] lr].
  cbn [fst snd]. now rewrite strip_empty, strip_unlimit.
Qed.
Lemma sim_tag_size id : sim (w_tag_size M id) (a_tag_size M' id).
Proof. unfold w_tag_size, a_tag_size. sims; try apply sim_ilint. Qed.
Lemma sim_step deser deser' e : (forall n, sim (deser n) (deser' n)) -> sim (w_deserialize_step M deser e) (a_deserialize_step M' deser' e).
Proof.
  intros H. unfold w_deserialize_step, a_deserialize_step. apply sim_bind; [apply sim_ilint|]. intros id.
  apply sim_bind; [apply sim_tag_size|]. intros n. apply sim_bind; [apply sim_const|]. intros [t|]; [|apply sim_fail].
  intros r. rewrite (sim_value_into (deser n) (deser' n) n t (H n)). now destruct (w_value_into M (deser n) n t r) as [[x t'] r'].
Qed.
Lemma sim_fuel e f : sim (w_deserialize_fuel M f e) (a_deserialize_fuel M' f e).
Proof. induction f as [|f IH]; cbn [w_deserialize_fuel a_deserialize_fuel]; [apply sim_const|]. now apply sim_step. Qed.
Lemma sim_deserialize e : sim (w_deserialize M e) (a_deserialize M' e).
Proof. apply sim_step. intros n. apply sim_fuel. Qed.
Lemma sim_deserialize_into e t : simulates3 (strip h) (fun r => w_deserialize_into M e r t) (fun r => a_deserialize_into M' e r t).
Proof.
  intros r. unfold a_deserialize_into, w_deserialize_into. rewrite (sim_ilint r).
  destruct (w_ilint M r) as [[id|x| |] r1]; cbn [fst snd]; try reflexivity. destruct (negb (id =? tag_id t)); [reflexivity|].
  rewrite (sim_tag_size id r1). destruct (w_tag_size M id r1) as [[n|x| |] r2]; cbn [fst snd]; try reflexivity.
  apply sim_value_into, sim_fuel.
Qed.
End Sim.

(** ** The bound *)
Fixpoint layers {U} (r : wreader U) : N := match r with WBase _ _ _ => 0 | WLimited src _ => layers src + 1 end.
Fixpoint got {U} (r : wreader U) : N := match r with WBase _ b _ => b | WLimited src _ => got src end.
Fixpoint work {U} (r : wreader U) : N := match r with WBase _ _ w => w | WLimited src _ => work src end.

(** From [r] to [r'] at most [2 * b + z] calls (one more than [2 * b] if it did
    not succeed), [b] the bytes delivered, each through all the limits of [r] and
    [e] and two for each byte more. *)
Definition paid {U} (ok : bool) (e z g : Z) (r r' : wreader U) : Prop :=
  let b := (Z.of_N (got r') - Z.of_N (got r))%Z in
  let w := (Z.of_N (work r') - Z.of_N (work r))%Z in
  layers r' = layers r /\ (0 <= b)%Z /\ (0 <= w)%Z /\
  (w <= (2 * b + (if ok then z else 1)) * (Z.of_N (layers r) + 1 + e + 2 * b))%Z /\ (ok = true -> (g <= b)%Z).
Definition pays {U E A St} (p : St -> wreader U) (e z g : Z) (m : St -> res E A * St) : Prop :=
  forall s x s', m s = (x, s') -> paid (is_ok x) e z g (p s) (p s').
Definition pays3 {U E A B} (e z g : Z) (m : wreader U -> res E A * B * wreader U) : Prop :=
  forall r x v r', m r = (x, v, r') -> paid (is_ok x) e z g r r'.

Lemma step_arith (a1 a2 x1 x2 x w1 w2 : Z) :
  (0 <= w1 -> 0 <= w2 -> w1 <= a1 * x1 -> w2 <= a2 * x2 -> 0 < x1 -> 0 < x2 -> x1 <= x -> x2 <= x -> w1 + w2 <= (a1 + a2) * x)%Z.
Proof.
  intros H1 H2 H3 H4 H5 H6 H7 H8. assert (0 <= a1)%Z by nia. assert (0 <= a2)%Z by nia. nia.
Qed.
Lemma grow_arith (a a' x x' w : Z) : (0 <= w -> w <= a * x -> 0 < x -> x <= x' -> a <= a' -> w <= a' * x')%Z.
Proof. intros. assert (0 <= a)%Z by nia. nia. Qed.

Section Pays.
Context {U : Type} (M : reader_impl U).
Notation wr := (wreader U).

Lemma paid_weaken ok e z g e' z' g' (r r' : wr) :
  (0 <= e <= e')%Z -> (z <= z')%Z -> (g' <= g)%Z -> paid ok e z g r r' -> paid ok e' z' g' r r'.
Proof.
  intros He Hz Hg (L & B & W & H & G). unfold paid. split; [exact L|]. split; [exact B|]. split; [exact W|]. split.
  - eapply grow_arith; [exact W|exact H| | |]; try lia. destruct ok; lia.
  - intros Ho. specialize (G Ho). lia.
Qed.
Lemma pays_weaken {E A St} (p : St -> wr) e z g e' z' g' (m : St -> res E A * St) :
  (0 <= e <= e')%Z -> (z <= z')%Z -> (g' <= g)%Z -> pays p e z g m -> pays p e' z' g' m.
Proof. intros He Hz Hg H s x s' R. exact (paid_weaken _ _ _ _ _ _ _ _ _ He Hz Hg (H s x s' R)). Qed.
Lemma paid_refl ok e g (r : wr) : (0 <= e)%Z -> (g <= 0)%Z -> paid ok e 0 g r r.
Proof. intros He Hg. unfold paid. rewrite !Z.sub_diag. repeat split; try lia. destruct ok; lia. Qed.
(** After a step that read something the next one may have two limits more. *)
Lemma paid_trans ok e e2 z1 z2 g1 g2 (r r1 r2 : wr) :
  (0 <= e)%Z -> (0 <= e2 <= e + 2 * Z.max 0 g1)%Z -> (z1 <= 0)%Z -> paid true e z1 g1 r r1 -> paid ok e2 z2 g2 r1 r2 -> paid ok e (z1 + z2) (g1 + g2) r r2.
Proof.
  intros He He2 Hz (L1 & B1 & W1 & H1 & G1) (L2 & B2 & W2 & H2 & G2). specialize (G1 eq_refl). unfold paid. rewrite L2, L1 in *.
  split; [reflexivity|]. split; [lia|]. split; [lia|]. split; [|intros Ho; specialize (G2 Ho); lia].
  set (b1 := (Z.of_N (got r1) - Z.of_N (got r))%Z) in *. set (b2 := (Z.of_N (got r2) - Z.of_N (got r1))%Z) in *.
  replace (Z.of_N (got r2) - Z.of_N (got r))%Z with (b1 + b2)%Z by lia.
  set (w1 := (Z.of_N (work r1) - Z.of_N (work r))%Z) in *. set (w2 := (Z.of_N (work r2) - Z.of_N (work r1))%Z) in *.
  replace (Z.of_N (work r2) - Z.of_N (work r))%Z with (w1 + w2)%Z by lia.
  pose proof (step_arith _ _ _ _ (Z.of_N (layers r) + 1 + e + 2 * (b1 + b2)) _ _ W1 W2 H1 H2 ltac:(lia) ltac:(lia) ltac:(lia) ltac:(lia)) as H.
  eapply grow_arith; [| exact H | | |]; try lia. destruct ok; lia.
Qed.
Lemma pays_bind {E A B St} (p : St -> wr) e e2 z1 z2 g1 g2 (m : St -> res E A * St) (f : A -> St -> res E B * St) :
  (0 <= e)%Z -> (0 <= e2 <= e + 2 * Z.max 0 g1)%Z -> (z1 <= 0)%Z ->
  pays p e z1 g1 m -> (forall a, pays p e2 z2 g2 (f a)) -> pays p e (z1 + z2) (g1 + g2) (bind m f).
Proof.
  intros He He2 Hz Hm Hf s x s' R. unfold bind in R. destruct (m s) as [[a|y| |] s1] eqn:Em.
  - exact (paid_trans _ _ _ _ _ _ _ _ _ _ He He2 Hz (Hm _ _ _ Em) (Hf a _ _ _ R)).
  - injection R as <- <-. destruct (Hm _ _ _ Em) as (L & B1 & W & H & _). repeat split; auto. discriminate.
  - injection R as <- <-. destruct (Hm _ _ _ Em) as (L & B1 & W & H & _). repeat split; auto. discriminate.
  - injection R as <- <-. destruct (Hm _ _ _ Em) as (L & B1 & W & H & _). repeat split; auto. discriminate.
Qed.
Lemma pays_const {E A St} (p : St -> wr) e (x : res E A) : (0 <= e)%Z -> pays p e 0 0 (fun s => (x, s)).
Proof. intros He s y s' [= <- <-]. now apply paid_refl. Qed.
Lemma pays_ret {E A St} (p : St -> wr) e (a : A) : (0 <= e)%Z -> pays p e 0 0 (ret (E := E) a).
Proof. intros. now apply pays_const. Qed.
Lemma pays_fail {E A St} (p : St -> wr) e g (y : E) : (0 <= e)%Z -> pays p e 0 g (fail (A := A) y).
Proof. intros He s x s' [= <- <-]. destruct (paid_refl false e 0 (p s) He ltac:(lia)) as (? & ? & ? & ? & _). repeat split; auto. discriminate. Qed.
Lemma pays_lift {E E' A St} (p : St -> wr) e z g (h : E -> E') (m : St -> res E A * St) : pays p e z g m -> pays p e z g (lift_err h m).
Proof.
  intros H s x s' R. unfold lift_err in R. destruct (m s) as [y s1] eqn:Em. specialize (H _ _ _ Em).
  destruct y; injection R as <- <-; exact H.
Qed.
Lemma pays_if {E A St} (p : St -> wr) e z g (b : bool) (m n : St -> res E A * St) : pays p e z g m -> pays p e z g n -> pays p e z g (if b then m else n).
Proof. now destruct b. Qed.

Lemma tick_layers (r : wr) : layers (w_tick r) = layers r. Proof. induction r; cbn [w_tick layers]; congruence. Qed.
Lemma tick_got (r : wr) : got (w_tick r) = got r. Proof. induction r; cbn [w_tick got]; congruence. Qed.
Lemma tick_work (r : wr) : work (w_tick r) = work r + 1. Proof. induction r; cbn [w_tick work]; congruence. Qed.

(** A call costs at most one for each limit and one for the object. *)
Lemma read_cost (r : wr) x r' : w_read M r = (x, r') ->
  layers r' = layers r /\ got r' = got r + (if is_ok x then 1 else 0) /\ work r < work r' <= work r + layers r + 1.
Proof.
  revert x r'. induction r as [u b w|src IH n]; intros x r'; cbn [w_read].
  - destruct (u_read M u) as [y u']. intros [= <- <-]. cbn [layers got work]. destruct (is_ok y); lia.
  - destruct (n <? 1).
    + intros [= <- <-]. cbn [layers got work is_ok w_tick]. rewrite tick_layers, tick_got, tick_work. lia.
    + destruct (w_read M src) as [y src'] eqn:E. intros [= <- <-]. destruct (IH _ _ eq_refl) as (A & B & C).
      cbn [layers got work w_tick]. rewrite tick_layers, tick_got, tick_work. lia.
Qed.
Lemma read_all_cost buff (r : wr) x v r' : w_read_all M buff r = (x, v, r') ->
  layers r' = layers r /\ got r' = got r + (if is_ok x then lenN buff else 0) /\ work r < work r' <= work r + layers r + 1.
Proof.
  revert x v r'. induction r as [u b w|src IH n]; intros x v r'; cbn [w_read_all].
  - destruct (u_read_all M buff u) as [[y v'] u']. intros [= <- <- <-]. cbn [layers got work]. destruct (is_ok y); lia.
  - destruct (n <? lenN buff).
    + intros [= <- <- <-]. cbn [layers got work is_ok w_tick]. rewrite tick_layers, tick_got, tick_work. lia.
    + destruct (w_read_all M buff src) as [[y v'] src'] eqn:E. intros [= <- <- <-]. destruct (IH _ _ _ eq_refl) as (A & B & C).
      cbn [layers got work w_tick]. rewrite tick_layers, tick_got, tick_work. lia.
Qed.
(** One call that delivers [n] bytes. *)
Lemma call_paid (ok : bool) (n : N) (r r' : wr) : layers r' = layers r -> got r' = got r + (if ok then n else 0) ->
  work r < work r' <= work r + layers r + 1 -> paid ok 0 (1 - 2 * Z.of_N n) (Z.of_N n) r r' /\ paid ok 0 1 0 r r'.
Proof.
  intros L G W. assert (H : forall z g : Z, (1 <= 2 * Z.of_N n + z)%Z -> (g <= Z.of_N n)%Z -> paid ok 0 z g r r').
  { intros z g Hz Hg. unfold paid. split; [exact L|]. split; [destruct ok; lia|]. split; [lia|].
    split; [|intros ->; lia]. rewrite G. destruct ok.
    - eapply (grow_arith 1 _ (Z.of_N (layers r) + 1)); lia.
    - eapply (grow_arith 1 _ (Z.of_N (layers r) + 1)); lia. }
  split; apply H; lia.
Qed.
Lemma pays_read : pays id 0 (-1) 1 (w_read M).
Proof. intros r x r' R. destruct (read_cost _ _ _ R) as (A & B & C). exact (proj1 (call_paid (is_ok x) 1 _ _ A B C)). Qed.
Lemma pays_read_all buff : pays3 0 1 0 (w_read_all M buff).
Proof. intros r x v r' R. destruct (read_all_cost _ _ _ _ _ R) as (A & B & C). exact (proj2 (call_paid (is_ok x) _ _ _ A B C)). Qed.
Lemma pays_fetch n : pays id 0 1 0 (w_fetch M n).
Proof.
  intros r x r' R. unfold w_fetch in R. destruct (w_read_all M (repeatN 0 n) r) as [[y v] r1] eqn:E.
  pose proof (pays_read_all _ _ _ _ _ E) as H. destruct y; injection R as <- <-; exact H.
Qed.
Lemma pays_fetch_some n : 1 <= n -> pays id 0 (-1) 1 (w_fetch M n).
Proof.
  intros Hn r x r' R. unfold w_fetch in R. destruct (w_read_all M (repeatN 0 n) r) as [[y v] r1] eqn:E.
  destruct (read_all_cost _ _ _ _ _ E) as (A & B & C). rewrite lenN_repeatN in B.
  pose proof (proj1 (call_paid (is_ok y) _ _ _ A B C)) as H.
  apply (paid_weaken _ 0 _ _ 0 (-1) 1) in H; [|lia|lia|lia].
  destruct y; injection R as <- <-; exact H.
Qed.
Lemma pays_into_slice buff : pays3 0 1 0 (w_into_slice M buff).
Proof.
  intros r x v r' R. unfold w_into_slice in R. destruct (w_read_all M buff r) as [[y v'] r1] eqn:E.
  pose proof (pays_read_all _ _ _ _ _ E) as H. destruct y; injection R as <- <- <-; exact H.
Qed.

(** What makes no call may follow the last one. *)
Lemma paid_end ok ok' e z g (r r' : wr) : (0 <= e)%Z -> (z <= 1)%Z -> (ok' = true -> ok = true) -> paid ok e z g r r' -> paid ok' e z g r r'.
Proof.
  intros He Hz Ho (L & B & W & H & G). unfold paid. split; [exact L|]. split; [exact B|]. split; [exact W|]. split; [|auto].
  eapply grow_arith; [exact W|exact H|lia|lia|]. destruct ok, ok'; try lia.
Qed.
Lemma pays_bind_end {E A B St} (p : St -> wr) e z g (m : St -> res E A * St) (f : A -> St -> res E B * St) :
  (0 <= e)%Z -> (z <= 1)%Z -> pays p e z g m -> (forall a s, p (snd (f a s)) = p s) -> pays p e z g (bind m f).
Proof.
  intros He Hz Hm Hf s x s' R. unfold bind in R. destruct (m s) as [[a|y| |] s1] eqn:Em.
  - pose proof (Hf a s1) as P. rewrite R in P. cbn [snd] in P. rewrite P. apply (paid_end true); auto. exact (Hm _ _ _ Em).
  - injection R as <- <-. exact (Hm _ _ _ Em).
  - injection R as <- <-. exact (Hm _ _ _ Em).
  - injection R as <- <-. exact (Hm _ _ _ Em).
Qed.

Lemma pays_on_reader {S A} e z g (m : wr -> res tag_error A * wr) : pays id e z g m -> pays (U := U) snd e z g (w_on_reader (S := S) m).
Proof.
  intros H [s r] x [s' r'] R. cbn [w_on_reader] in R. destruct (m r) as [y r1] eqn:E. injection R as <- <- <-. exact (H _ _ _ E).
Qed.
Lemma pays_modify {S} e (f : S -> S) : (0 <= e)%Z -> pays (U := U) snd e 0 0 (w_modify f).
Proof. intros He [s r] x [s' r'] [= <- <- <-]. now apply paid_refl. Qed.
Lemma paid_limit ok e z g (r : wr) n r' : paid ok e z g (WLimited r n) r' -> paid ok (e + 1) z g r (w_unlimit r').
Proof.
  intros (L & H). destruct r' as [u b w|src a]; cbn [layers] in L; [lia|]. unfold paid in *. cbn [w_unlimit layers got work] in *.
  split; [lia|]. replace (Z.of_N (layers r) + 1 + (e + 1))%Z with (Z.of_N (layers r + 1) + 1 + e)%Z by lia. exact H.
Qed.
Lemma pays_limited {S A} n e z g (m : wmethod S A) : pays (U := U) snd e z g m -> pays (U := U) snd (e + 1) z g (w_limited n m).
Proof.
  intros H [s r] x [s' r'] R. cbn [w_limited] in R. destruct (m (s, WLimited r n)) as [y [s1 r1]] eqn:E.
  injection R as <- <- <-. exact (paid_limit _ _ _ _ _ _ _ (H _ _ _ E)).
Qed.
Lemma pays_ensure_empty {S} e err : (0 <= e)%Z -> pays (U := U) snd e 0 0 (w_ensure_empty (S := S) err).
Proof. intros He s x s' R. unfold w_ensure_empty in R. injection R as <- <-. now apply paid_refl. Qed.
Lemma pays_repeat {S A} (m : wr -> res tag_error A * wr) (store : A -> S -> S) : pays id 0 0 0 m ->
  forall f count, pays (U := U) snd 0 0 0 (w_repeat f m store count).
Proof.
  intros H. induction f as [|f IH]; intros count; cbn [w_repeat]; destruct (count =? 0);
    try (apply pays_ret; lia); [apply pays_const; lia|].
  apply (pays_bind snd 0 0 0 0 0 0); try lia; [now apply pays_on_reader|]. intros a.
  apply (pays_bind snd 0 0 0 0 0 0); try lia; [apply pays_modify; lia|]. intros _. apply IH.
Qed.
Lemma pays_while {S A} (m : wr -> res tag_error A * wr) (store : A -> S -> S) : pays id 0 0 0 m ->
  forall f, pays (U := U) snd 0 0 0 (w_while f m store).
Proof.
  intros H. induction f as [|f IH]; intros st x st'; cbn [w_while]; destruct (w_empty (snd st));
    try (intros [= <- <-]; apply paid_refl; lia).
  revert st x st'. apply (pays_bind snd 0 0 0 0 0 0); try lia; [now apply pays_on_reader|]. intros a.
  apply (pays_bind snd 0 0 0 0 0 0); try lia; [apply pays_modify; lia|]. intros _. apply IH.
Qed.
Lemma pays_fuelled {S A} e z g (m : nat -> wmethod S A) : (forall f, pays (U := U) snd e z g (m f)) -> pays (U := U) snd e z g (w_fuelled m).
Proof. intros H s x s' R. exact (H _ _ _ _ R). Qed.
Lemma pays_run {S} e z g m (s : S) (mk : S -> value) : pays (U := U) snd e z g m -> pays3 e z g (w_run m s mk).
Proof.
  intros H r x v r' R. unfold w_run in R. destruct (m (s, r)) as [y [s1 r1]] eqn:E. injection R as <- <- <-. exact (H _ _ _ E).
Qed.
Lemma pays_slice (buff : list N -> list N) :
  pays (U := U) snd 0 1 0 (fun '(vec, r) => let '(x, vec', r') := w_into_slice M (buff vec) r in (x, (vec', r'))).
Proof.
  intros [vec r] x [v r'] R. destruct (w_into_slice M (buff vec) r) as [[y v1] r1] eqn:E. injection R as <- <- <-.
  exact (pays_into_slice _ _ _ _ _ E).
Qed.
Lemma pays_on_snd {S T A} e z g (m : wmethod T A) : pays (U := U) snd e z g m -> pays (U := U) snd e z g (w_on_snd (S := S) m).
Proof.
  intros H [[s t] r] x [[s' t'] r'] R. cbn [w_on_snd] in R. destruct (m (t, r)) as [y [t1 r1]] eqn:E.
  injection R as <- <- <- <-. exact (H _ _ _ E).
Qed.

Lemma pays_decode : pays id 0 (-1) 1 (w_decode M).
Proof.
  apply (pays_bind id 0 0 (-1) 0 1 0); try lia; [apply pays_lift, pays_read|]. intros h. cbv zeta.
  match goal with |- context [if ?c then _ else _] => destruct c eqn:Ec end; [apply pays_ret; lia|].
  apply pays_bind_end; [lia|lia| |reflexivity]. apply pays_lift.
  apply (pays_weaken id 0 (-1) 1); [lia|lia|lia|]. apply pays_fetch_some.
  unfold decoded_size in *. destruct (h <? ILINT_BASE); lia.
Qed.
Lemma pays_ilint : pays id 0 (-1) 1 (w_ilint M).
Proof. unfold w_ilint. apply pays_lift, pays_lift, pays_decode. Qed.
Lemma pays_silint : pays id 0 (-1) 1 (w_silint M).
Proof. unfold w_silint. apply pays_lift, pays_lift, pays_bind_end; [lia|lia|apply pays_decode|reflexivity]. Qed.
Lemma pays_uint w : pays id 0 (-1) 1 (w_uint M w).
Proof.
  unfold w_uint. apply pays_lift. destruct w; try apply pays_read;
    (apply pays_bind_end; [lia|lia|apply pays_fetch_some; vm_compute; discriminate|reflexivity]).
Qed.
Lemma pays_sint w : pays id 0 (-1) 1 (w_sint M w).
Proof.
  unfold w_sint. apply pays_lift. destruct w; (apply pays_bind_end; [lia|lia| |reflexivity]);
    [apply pays_read|apply pays_fetch_some; vm_compute; discriminate..].
Qed.
Lemma pays_bytes n : pays id 0 1 0 (w_bytes M n).
Proof. unfold w_bytes. apply pays_lift, pays_fetch. Qed.
Lemma pays_raw n : pays (U := U) snd 0 1 0 (w_raw M n).
Proof. exact (pays_slice (resizeN n 0)). Qed.
Lemma pays_check {S} (b : bool) : pays (U := U) snd 0 0 0 (if b then fail CorruptedData else ret (S := S * wr) tt).
Proof. destruct b; [apply pays_fail|apply pays_ret]; lia. Qed.
Lemma pays_check_size {S} a b : pays (U := U) snd 0 0 0 (w_check_size (S := S) a b).
Proof. unfold w_check_size. destruct (a =? b); [apply pays_ret|apply pays_fail]; lia. Qed.
(** Rules for one step of a method. *)
Lemma then_read {S A B} z g (m : wr -> res tag_error A * wr) (f : A -> S * wr -> res tag_error B * (S * wr)) :
  pays id 0 (-1) 1 m -> (forall a, pays (U := U) snd 0 z g (f a)) -> pays (U := U) snd 0 (z - 1) g (bind (w_on_reader m) f).
Proof.
  intros Hm Hf. apply (pays_weaken snd 0 (-1 + z) (1 + g)); try lia.
  apply (pays_bind snd 0 0); try lia; [now apply pays_on_reader|exact Hf].
Qed.
Lemma then_free {S A B} z g (m : S * wr -> res tag_error A * (S * wr)) (f : A -> S * wr -> res tag_error B * (S * wr)) :
  pays (U := U) snd 0 0 0 m -> (forall a, pays (U := U) snd 0 z g (f a)) -> pays (U := U) snd 0 z g (bind m f).
Proof. intros Hm Hf. exact (pays_bind snd 0 0 0 z 0 g _ _ ltac:(lia) ltac:(lia) ltac:(lia) Hm Hf). Qed.
Lemma pays_string_tag : pays id 0 (-1) 0 (w_string_tag M).
Proof.
  assert (H : pays (U := U) snd 0 (-1) 0 (w_string_tag_into M)).
  { unfold w_string_tag_into. apply (then_read 0); [apply pays_ilint|]. intros i.
    apply then_free; [apply pays_check|]. intros _. apply (then_read 1); [apply pays_ilint|]. intros n.
    apply then_free; [apply pays_const; lia|]. intros k.
    apply pays_bind_end; [lia|lia|apply pays_on_reader, pays_bytes|]. intros a [s r]. now destruct (from_utf8 a). }
  intros r x r' R. unfold w_string_tag in R. destruct (w_string_tag_into M ([], r)) as [y [s r1]] eqn:E.
  specialize (H _ _ _ E). destruct y; injection R as <- <-; exact H.
Qed.
Lemma pays_set {A} (m : wr -> res tag_error A * wr) : pays id 0 (-1) 1 m -> pays (U := U) snd 0 1 0 (w_set_from m).
Proof.
  intros H. apply (pays_weaken snd 0 (-1) 0); try lia. apply (then_read 0); [exact H|]. intros a. apply pays_modify. lia.
Qed.
Lemma inner {S A} n (m : wmethod S A) : pays (U := U) snd 0 0 0 m -> pays (U := U) snd 1 1 0 (w_limited n m).
Proof. intros H. apply (pays_weaken snd 1 0 0); try lia. exact (pays_limited n 0 0 0 m H). Qed.
Lemma relax {S A} (m : wmethod S A) : pays (U := U) snd 0 0 0 m -> pays (U := U) snd 0 1 0 m.
Proof. apply pays_weaken; lia. Qed.
Lemma loose {S A B} z (m : wr -> res tag_error A * wr) (f : A -> S * wr -> res tag_error B * (S * wr)) :
  (z <= 1)%Z -> pays id 0 (-1) 1 m -> (forall a, pays (U := U) snd 0 z 0 (f a)) -> pays (U := U) snd 0 0 0 (bind (w_on_reader m) f).
Proof. intros Hz Hm Hf. apply (pays_weaken snd 0 (z - 1) 0); try lia. now apply then_read. Qed.

Lemma pays_value deser v n : pays id 0 0 1 deser -> pays3 1 1 0 (w_value M deser v n).
Proof.
  intros H. assert (H0 : pays id 0 0 0 deser) by (revert H; apply pays_weaken; lia).
  assert (HI : pays id 0 0 0 (w_ilint M)) by (generalize pays_ilint; apply pays_weaken; lia).
  assert (Hup : forall S (m : wmethod S unit), pays (U := U) snd 0 1 0 m -> pays (U := U) snd 1 1 0 m) by (intros; eapply pays_weaken; [..|eassumption]; lia).
  destruct v; cbn [w_value]; apply pays_run.
  - apply Hup, relax, pays_check_size.
  - apply Hup, relax. apply then_free; [apply pays_check_size|]. intros _. apply (loose 0); [lia|apply pays_uint|]. intros a.
    repeat apply pays_if; try (apply pays_modify; lia). apply pays_fail. lia.
  - apply Hup, then_free; [apply pays_check_size|]. intros _. apply pays_set, pays_uint.
  - apply Hup, then_free; [apply pays_check_size|]. intros _. apply pays_set, pays_sint.
  - apply Hup, then_free; [apply pays_check_size|]. intros _. apply pays_set, pays_uint.
  - apply Hup, then_free; [apply pays_check_size|]. intros _. apply pays_set, pays_uint.
  - apply Hup, then_free; [apply pays_check_size|]. intros _. exact (pays_slice (fun v => v)).
  - apply Hup, pays_set, pays_ilint.
  - apply Hup, pays_set, pays_silint.
  - apply Hup, pays_raw.
  - apply Hup, pays_raw.
  - apply Hup. apply pays_bind_end; [lia|lia|apply pays_on_reader, pays_bytes|]. intros a [s' r]. now destruct (from_utf8 a).
  - apply Hup, pays_raw.
  - apply Hup. apply then_free; [apply pays_check|]. intros _. apply relax. apply (loose 1); [lia|apply pays_sint|]. intros a.
    apply then_free; [apply pays_modify; lia|]. intros _. apply pays_on_snd, pays_raw.
  - apply inner. apply (loose 0); [lia|apply pays_ilint|]. intros a. apply then_free; [apply pays_check|]. intros _.
    apply then_free; [apply pays_modify; lia|]. intros _. apply then_free; [|intros _; apply pays_ensure_empty; lia].
    apply pays_fuelled. intros f. now apply pays_repeat.
  - apply inner. apply then_free; [apply pays_modify; lia|]. intros _. apply pays_fuelled. intros f. now apply pays_while.
  - apply inner. apply (loose 0); [lia|apply pays_ilint|]. intros a. apply then_free; [apply pays_check|]. intros _.
    apply then_free; [apply pays_modify; lia|]. intros _. apply then_free; [|intros _; apply pays_ensure_empty; lia].
    apply pays_fuelled. intros f. now apply pays_repeat.
  - apply inner. apply (loose 0); [lia|apply pays_ilint|]. intros a. apply then_free; [apply pays_modify; lia|]. intros _.
    apply (loose 0); [lia|apply pays_uint|]. intros b. apply then_free; [apply pays_modify; lia|]. intros _. apply pays_ensure_empty. lia.
  - apply Hup, relax. apply then_free; [apply pays_check_size|]. intros _.
    repeat (apply (loose 0); [lia|apply pays_sint|]; intros ?; first [apply pays_modify; lia | apply then_free; [apply pays_modify; lia|]; intros _]).
  - apply inner. apply (loose 0); [lia|apply pays_ilint|]. intros a. apply then_free; [apply pays_check|]. intros _.
    apply then_free; [apply pays_modify; lia|]. intros _. apply then_free; [|intros _; apply pays_ensure_empty; lia].
    apply pays_fuelled. intros f. now apply pays_repeat.
  - apply inner. apply (loose 0); [lia|apply pays_ilint|]. intros a.
    apply then_free; [apply pays_modify; lia|]. intros _. apply then_free; [|intros _; apply pays_ensure_empty; lia].
    apply pays_fuelled. intros f. apply pays_repeat. apply (pays_weaken id 0 (-1 + 0) (0 + 0)); try lia.
    apply (pays_bind id 0 0); try lia; [apply pays_string_tag|]. intros k. apply pays_bind_end; [lia|lia|exact H0|reflexivity].
  - apply inner. apply (loose 0); [lia|apply pays_ilint|]. intros a.
    apply then_free; [apply pays_modify; lia|]. intros _. apply then_free; [|intros _; apply pays_ensure_empty; lia].
    apply pays_fuelled. intros f. apply pays_repeat. apply (pays_weaken id 0 (-1 + -1) (0 + 0)); try lia.
    apply (pays_bind id 0 0); try lia; [apply pays_string_tag|]. intros k. apply pays_bind_end; [lia|lia|apply pays_string_tag|reflexivity].
Qed.
Lemma pays_value_into deser n t : pays id 0 0 1 deser -> pays3 2 1 0 (w_value_into M deser n t).
Proof.
  intros H r x t' r' R. unfold w_value_into in R. destruct (w_value M deser (tag_val t) n (WLimited r n)) as [[y v] lr] eqn:E.
  apply (pays_value deser (tag_val t) n H) in E. apply paid_limit in E. injection R as Hx _ <-.
  apply (paid_end (is_ok y)); try lia; [|exact E]. subst x. now destruct y.
Qed.
Lemma pays_tag_size i : pays id 2 0 0 (w_tag_size M i).
Proof.
  unfold w_tag_size. apply pays_bind_end; [lia|lia| |reflexivity]. apply (pays_weaken id 0 0 0); try lia.
  apply pays_if; [apply pays_ret; lia|]. generalize pays_ilint. apply pays_weaken; lia.
Qed.
Lemma pays_step deser e : (forall n, pays id 0 0 1 (deser n)) -> pays id 0 0 1 (w_deserialize_step M deser e).
Proof.
  intros H. unfold w_deserialize_step. apply (pays_bind id 0 2 (-1) 1 1 0); try lia; [apply pays_ilint|]. intros i.
  apply (pays_bind id 2 2 0 1 0 0); try lia; [apply pays_tag_size|]. intros n.
  apply (pays_bind id 2 2 0 1 0 0); try lia; [apply pays_const; lia|]. intros [t|].
  - intros r x r' R. destruct (w_value_into M (deser n) n t r) as [[y t'] r1] eqn:E. injection R as <- <-.
    pose proof (pays_value_into (deser n) n t (H n) _ _ _ _ E) as K. now destruct y.
  - apply (pays_weaken id 2 0 0); try lia. apply pays_fail. lia.
Qed.
Lemma pays_fuel e f : pays id 0 0 1 (w_deserialize_fuel M f e).
Proof.
  induction f as [|f IH]; cbn [w_deserialize_fuel].
  - intros r x r' [= <- <-]. destruct (paid_refl false 0 0 r ltac:(lia) ltac:(lia)) as (? & ? & ? & ? & _). repeat split; auto. discriminate.
  - apply pays_step. intros _. exact IH.
Qed.
Lemma pays_deserialize e : pays id 0 0 1 (w_deserialize M e).
Proof. apply pays_step. intros n. apply pays_fuel. Qed.
Lemma pays_deserialize_into e t : pays3 0 0 1 (fun r => w_deserialize_into M e r t).
Proof.
  intros r x t' r' R. unfold w_deserialize_into in R. destruct (w_ilint M r) as [[i|y| |] r1] eqn:E1.
  - pose proof (pays_ilint _ _ _ E1) as P1. change (paid true 0 (-1) 1 r r1) in P1.
    destruct (negb (i =? tag_id t)).
    { injection R as <- _ <-. apply (paid_weaken false 0 (-1) 1); try lia. refine (paid_end true false 0 (-1) 1 _ _ _ _ _ P1); (lia || discriminate). }
    destruct (w_tag_size M i r1) as [[n|y| |] r2] eqn:E2.
    + pose proof (pays_tag_size i _ _ _ E2) as P2. change (paid true 2 0 0 r1 r2) in P2.
      pose proof (pays_value_into _ n t (pays_fuel e (S (N.to_nat n))) _ _ _ _ R) as P3.
      refine (paid_trans _ 0 2 (-1) 1 1 0 _ _ _ ltac:(lia) ltac:(lia) ltac:(lia) P1 _).
      exact (paid_trans _ 2 2 0 1 0 0 _ _ _ ltac:(lia) ltac:(lia) ltac:(lia) P2 P3).
    + pose proof (pays_tag_size i _ _ _ E2) as P2. injection R as <- _ <-.
      apply (paid_weaken _ 0 (-1 + 0) (1 + 0)); try lia. exact (paid_trans _ 0 2 (-1) 0 1 0 _ _ _ ltac:(lia) ltac:(lia) ltac:(lia) P1 P2).
    + pose proof (pays_tag_size i _ _ _ E2) as P2. injection R as <- _ <-.
      apply (paid_weaken _ 0 (-1 + 0) (1 + 0)); try lia. exact (paid_trans _ 0 2 (-1) 0 1 0 _ _ _ ltac:(lia) ltac:(lia) ltac:(lia) P1 P2).
    + pose proof (pays_tag_size i _ _ _ E2) as P2. injection R as <- _ <-.
      apply (paid_weaken _ 0 (-1 + 0) (1 + 0)); try lia. exact (paid_trans _ 0 2 (-1) 0 1 0 _ _ _ ltac:(lia) ltac:(lia) ltac:(lia) P1 P2).
  - pose proof (pays_ilint _ _ _ E1) as P1. injection R as <- _ <-. now apply (paid_weaken _ 0 (-1) 1); try lia.
  - pose proof (pays_ilint _ _ _ E1) as P1. injection R as <- _ <-. now apply (paid_weaken _ 0 (-1) 1); try lia.
  - pose proof (pays_ilint _ _ _ E1) as P1. injection R as <- _ <-. now apply (paid_weaken _ 0 (-1) 1); try lia.
Qed.
End Pays.

(** ** How much work there is *)
(** A tag inside [k] others is read through [2 * k] LimitedReaders: its id takes
    [2 * k + 1] calls. *)
Fixpoint toll (k : N) (t : tag) : N :=
  match t with
  | Tag _ (VSeq l) | Tag _ (VArr l) => 2 * k + 1 + fold_right (fun t n => toll (k + 1) t + n) 0 l
  | Tag _ (VDict l) => 2 * k + 1 + fold_right (fun p n => toll (k + 1) (snd p) + n) 0 l
  | Tag _ _ => 2 * k + 1
  end.
Definition tolls (k : N) (l : list tag) : N := fold_right (fun t n => toll (k + 1) t + n) 0 l.
Definition dict_tolls (k : N) (l : list (list N * tag)) : N := fold_right (fun p n => toll (k + 1) (snd p) + n) 0 l.
Definition inside (k : N) (v : value) : N :=
  match v with VSeq l | VArr l => tolls k l | VDict l => dict_tolls k l | _ => 0 end.
Lemma toll_inside k i v : toll k (Tag i v) = 2 * k + 1 + inside k v.
Proof. destruct v; cbn [toll inside]; unfold tolls, dict_tolls; lia. Qed.
Lemma tolls_push k t l : tolls k (push t l) = tolls k l + toll (k + 1) t.
Proof. unfold push. induction l as [|x l IH]; cbn [app tolls fold_right] in *; unfold tolls in *; [cbn; lia|]. rewrite IH. lia. Qed.
Lemma tolls_insert k s t l : dict_tolls k (hm_insert s t l) <= dict_tolls k l + toll (k + 1) t.
Proof.
  unfold dict_tolls. induction l as [|[s' x] l IH]; cbn [hm_insert fold_right snd]; [lia|].
  destruct (str_eqb s s'); cbn [fold_right snd]; lia.
Qed.

Section Gains.
Context {U : Type} (M : reader_impl U).
Notation wr := (wreader U).
(** With [L] limits, what is stored is worth at most the calls made. *)
Definition gains {A} (L : N) (g : A -> N) (m : wr -> res tag_error A * wr) : Prop :=
  forall r a r', layers r = L -> m r = (Ok a, r') -> layers r' = L /\ work r + g a <= work r'.
Definition mgains {S A} (L : N) (f : S -> N) (m : wmethod (U := U) S A) : Prop :=
  forall s r a s' r', layers r = L -> m (s, r) = (Ok a, (s', r')) -> layers r' = L /\ work r + f s' <= work r' + f s.

Lemma read_all_layers (r : wr) x r' : w_read M r = (Ok x, r') -> work r' = work r + layers r + 1.
Proof.
  revert x r'. induction r as [u b w|src IH n]; intros x r'; cbn [w_read].
  - destruct (u_read M u) as [y u']. intros [= _ <-]. cbn [layers work]. lia.
  - destruct (n <? 1); [discriminate|]. destruct (w_read M src) as [y src'] eqn:E. intros [= -> <-].
    specialize (IH _ _ eq_refl). cbn [layers work w_tick]. rewrite tick_work. lia.
Qed.
Lemma pays_gains {A} e z g (m : wr -> res tag_error A * wr) L : pays id e z g m -> gains L (fun _ => 0) m.
Proof. intros H r a r' <- R. destruct (H _ _ _ R) as (P & _ & Q & _). unfold id in *. split; [exact P|lia]. Qed.
Lemma ilint_gains L : gains L (fun _ => L + 1) (w_ilint M).
Proof.
  intros r a r' <- R. split; [exact (proj1 (pays_ilint M _ _ _ R))|].
  unfold w_ilint, lift_err in R. destruct (w_decode M r) as [[x|x| |] r1] eqn:E; try discriminate R. injection R as -> ->.
  unfold w_decode, bind, lift_err in E. destruct (w_read M r) as [[hd|x| |] r1] eqn:E1; try discriminate E.
  apply read_all_layers in E1. cbn [map_err] in E. cbv zeta in E. destruct (decoded_size hd =? 1).
  - injection E as _ ->. lia.
  - destruct (w_fetch M (decoded_size hd - 1) r1) as [[x|x| |] r2] eqn:E2; cbn [map_err] in E; try discriminate E.
    injection E as _ ->. destruct (pays_fetch M _ _ _ _ E2) as (_ & _ & W & _). unfold id in W. lia.
Qed.

Lemma mg_bind {S A B} L (f : S -> N) (m : wmethod S A) (k : A -> wmethod S B) :
  mgains L f m -> (forall a, mgains L f (k a)) -> mgains L f (bind m k).
Proof.
  intros Hm Hk s r b s' r' HL R. unfold bind in R. destruct (m (s, r)) as [[a|e| |] [s1 r1]] eqn:E; try discriminate R.
  destruct (Hm _ _ _ _ _ HL E) as [L1 W1]. destruct (Hk a _ _ _ _ _ L1 R) as [L2 W2]. split; [exact L2|lia].
Qed.
Lemma mg_on_reader {S A} L (f : S -> N) (m : wr -> res tag_error A * wr) : gains L (fun _ => 0) m -> mgains L f (w_on_reader m).
Proof.
  intros H s r a s' r' HL R. cbn [w_on_reader] in R. destruct (m r) as [x r1] eqn:E. injection R as -> <- <-.
  destruct (H _ _ _ HL E). split; [assumption|lia].
Qed.
Lemma mg_stay {S A} L (f : S -> N) (x : wmethod (U := U) S A) : (forall st, snd (x st) = st) -> mgains L f x.
Proof. intros H s r a s' r' HL R. specialize (H (s, r)). rewrite R in H. injection H as -> ->. split; [exact HL|lia]. Qed.
Lemma mg_clear {S} L (f : S -> N) s0 : f s0 = 0 -> mgains L f (w_modify (fun _ => s0)).
Proof. intros H s r a s' r' HL [= _ <- <-]. split; [exact HL|lia]. Qed.
Lemma mg_store {S A B} L (f : S -> N) g (m : wr -> res tag_error A * wr) store (k : wmethod S B) :
  gains L g m -> (forall a s, f (store a s) <= f s + g a) -> mgains L f k ->
  mgains L f (x <- w_on_reader m ;; w_modify (store x) ;;; k).
Proof.
  intros Hm Hs Hk s r b s' r' HL R. unfold bind in R. cbn [w_on_reader] in R. destruct (m r) as [[a|e| |] r1] eqn:E; try discriminate R.
  destruct (Hm _ _ _ HL E) as [L1 W1]. cbn [w_modify] in R. destruct (Hk _ _ _ _ _ L1 R) as [L2 W2]. specialize (Hs a s). split; [exact L2|lia].
Qed.
Lemma mg_repeat {S A} L (f : S -> N) g (m : wr -> res tag_error A * wr) store :
  gains L g m -> (forall a s, f (store a s) <= f s + g a) -> forall fuel count, mgains L f (w_repeat fuel m store count).
Proof.
  intros Hm Hs. induction fuel as [|n IH]; intros count; cbn [w_repeat]; destruct (count =? 0); try (apply mg_stay; reflexivity).
  apply (mg_store L f g); auto.
Qed.
Lemma mg_while {S A} L (f : S -> N) g (m : wr -> res tag_error A * wr) store :
  gains L g m -> (forall a s, f (store a s) <= f s + g a) -> forall fuel, mgains L f (w_while fuel m store).
Proof.
  intros Hm Hs. induction fuel as [|n IH]; intros s r a s' r' HL; cbn [w_while]; destruct (w_empty (snd (s, r)));
    try (intros [= <- <- <-]; split; [exact HL|lia]); [discriminate|].
  revert s r a s' r' HL. exact (mg_store L f g m store _ Hm Hs IH).
Qed.
Lemma mg_fuelled {S A} L (f : S -> N) (m : nat -> wmethod S A) : (forall n, mgains L f (m n)) -> mgains L f (w_fuelled m).
Proof. intros H s r a s' r' HL R. exact (H _ _ _ _ _ _ HL R). Qed.
Lemma mg_ensure {S} L (f : S -> N) e : mgains L f (w_ensure_empty e).
Proof. now apply mg_stay. Qed.
Lemma mg_check {S} L (f : S -> N) (b : bool) (e : tag_error) : mgains L f (if b then fail e else ret tt).
Proof. apply mg_stay. intros st. now destruct b. Qed.
(** A container starts empty: the old contents of the target do not count. *)
Definition fresh {S A} (L : N) (f : S -> N) (m : wmethod (U := U) S A) : Prop :=
  forall s r a s' r', layers r = L -> m (s, r) = (Ok a, (s', r')) -> layers r' = L /\ work r + f s' <= work r'.
Lemma fr_after {S A B} L (f : S -> N) (m : wmethod S A) (k : A -> wmethod S B) :
  mgains L (fun _ => 0) m -> (forall a, fresh L f (k a)) -> fresh L f (bind m k).
Proof.
  intros Hm Hk s r b s' r' HL R. unfold bind in R. destruct (m (s, r)) as [[a|e| |] [s1 r1]] eqn:E; try discriminate R.
  destruct (Hm _ _ _ _ _ HL E) as [L1 W1]. destruct (Hk a _ _ _ _ _ L1 R) as [L2 W2]. split; [exact L2|lia].
Qed.
Lemma fr_clear {S A} L (f : S -> N) s0 (k : wmethod S A) : f s0 = 0 -> mgains L f k -> fresh L f (w_modify (fun _ => s0) ;;; k).
Proof. intros H0 Hk s r a s' r' HL R. unfold bind in R. cbn [w_modify] in R. destruct (Hk _ _ _ _ _ HL R). split; [assumption|lia]. Qed.
Lemma fr_limited {S A} L (f : S -> N) n (m : wmethod S A) : fresh (L + 1) f m -> fresh L f (w_limited n m).
Proof.
  intros H s r a s' r' HL R. cbn [w_limited] in R. destruct (m (s, WLimited r n)) as [x [s1 r1]] eqn:E. injection R as -> <- <-.
  destruct (H s (WLimited r n) _ _ _ ltac:(cbn [layers]; lia) E) as [L1 W1]. cbn [work] in W1.
  destruct r1 as [u b w|src k]; cbn [layers w_unlimit work] in *; split; lia.
Qed.

Lemma value_gains deser v k n (r : wr) v' r' : pays id 0 0 1 deser -> gains (2 * (k + 1)) (toll (k + 1)) deser ->
  layers r = 2 * k + 1 -> w_value M deser v n r = (Ok tt, v', r') -> layers r' = 2 * k + 1 /\ work r + inside k v' <= work r'.
Proof.
  intros Hp Hg HL R. pose proof (pays_value M deser v n Hp _ _ _ _ R) as (PL & _ & PW & _).
  assert (Plain : inside k v' = 0 -> layers r' = 2 * k + 1 /\ work r + inside k v' <= work r') by (intros ->; lia).
  assert (Hi : mgains (2 * k + 1 + 1) (fun _ : list tag => 0) (w_on_reader (w_ilint M)))
    by (apply mg_on_reader, (pays_gains 0 (-1) 1), pays_ilint).
  assert (Hd : mgains (2 * k + 1 + 1) (fun _ : list (list N * tag) => 0) (w_on_reader (w_ilint M)))
    by (apply mg_on_reader, (pays_gains 0 (-1) 1), pays_ilint).
  replace (2 * (k + 1)) with (2 * k + 1 + 1) in Hg by lia.
  assert (K : forall S (m : wmethod S unit) (s : S) (mk : S -> value), fresh (2 * k + 1) (fun s => inside k (mk s)) m ->
    w_run m s mk r = (Ok tt, v', r') -> layers r' = 2 * k + 1 /\ work r + inside k v' <= work r').
  { intros S m s mk H E. unfold w_run in E. destruct (m (s, r)) as [x [s1 r1]] eqn:Em. injection E as -> <- <-.
    exact (H _ _ _ _ _ HL Em). }
  assert (K0 : forall S (m : wmethod S unit) (s : S) (mk : S -> value), (forall s, inside k (mk s) = 0) ->
    w_run m s mk r = (Ok tt, v', r') -> layers r' = 2 * k + 1 /\ work r + inside k v' <= work r').
  { intros S m s mk H E. apply Plain. unfold w_run in E. destruct (m (s, r)) as [x [s1 r1]]. injection E as _ <- _. apply H. }
  destruct v; cbn [w_value] in R.
  all: try (revert R; apply K0; intros; repeat match goal with |- context [let '(_, _) := ?p in _] => destruct p end; reflexivity).
  - revert R. apply K. apply fr_limited, fr_clear; [reflexivity|]. apply mg_fuelled. intros f.
    apply (mg_while _ _ (toll (k + 1))); [exact Hg|]. intros t s. cbn [inside]. rewrite tolls_push. lia.
  - revert R. apply K. apply fr_limited. apply fr_after; [exact Hi|]. intros c. apply fr_after; [apply mg_check|]. intros _.
    apply fr_clear; [reflexivity|]. apply mg_bind; [|intros _; apply mg_ensure]. apply mg_fuelled. intros f.
    apply (mg_repeat _ _ (toll (k + 1))); [exact Hg|]. intros t s. cbn [inside]. rewrite tolls_push. lia.
  - revert R. apply K. apply fr_limited. apply fr_after; [exact Hd|]. intros c.
    apply fr_clear; [reflexivity|]. apply mg_bind; [|intros _; apply mg_ensure]. apply mg_fuelled. intros f.
    apply (mg_repeat _ _ (fun p => toll (k + 1) (snd p))).
    + intros q [s t] q' Lq E. unfold bind in E. destruct (w_string_tag M q) as [[s1|x| |] q1] eqn:E1; try discriminate E.
      destruct (pays_string_tag M _ _ _ E1) as (L1 & _ & W1 & _). unfold id in *.
      destruct (deser q1) as [[t1|x| |] q2] eqn:E2; try discriminate E. injection E as _ -> <-.
      destruct (Hg q1 t q2 ltac:(lia) E2) as [L2 W2]. cbn [snd]. split; [exact L2|lia].
    + intros [s t] l0. cbn [inside fst snd]. apply tolls_insert.
Qed.
Lemma value_into_gains deser n t k (r : wr) t' r' : pays id 0 0 1 deser -> gains (2 * (k + 1)) (toll (k + 1)) deser ->
  layers r = 2 * k -> w_value_into M deser n t r = (Ok tt, t', r') -> layers r' = 2 * k /\ work r + toll k t' <= work r' + (2 * k + 1).
Proof.
  intros Hp Hg HL R. unfold w_value_into in R. destruct (w_value M deser (tag_val t) n (WLimited r n)) as [[y v] lr] eqn:E.
  injection R as Hx <- <-. destruct y as [[]|y| |]; try discriminate Hx.
  assert (HL' : layers (WLimited r n) = 2 * k + 1) by (cbn [layers]; lia).
  destruct (value_gains _ _ k _ _ _ _ Hp Hg HL' E) as [L1 W1]. rewrite toll_inside. cbn [work] in W1.
  destruct lr as [u b w|src m]; cbn [layers w_unlimit work] in *; split; lia.
Qed.
Lemma step_gains deser e k : (forall n, pays id 0 0 1 (deser n)) -> (forall n, gains (2 * (k + 1)) (toll (k + 1)) (deser n)) ->
  gains (2 * k) (toll k) (w_deserialize_step M deser e).
Proof.
  intros Hp Hg r t r' HL R. unfold w_deserialize_step in R. unfold bind at 1 in R.
  destruct (w_ilint M r) as [[i|x| |] r1] eqn:E1; try discriminate R.
  destruct (ilint_gains _ _ _ _ HL E1) as [L1 W1]. unfold bind at 1 in R.
  destruct (w_tag_size M i r1) as [[n|x| |] r2] eqn:E2; try discriminate R.
  destruct (pays_tag_size M i _ _ _ E2) as (L2 & _ & W2 & _). unfold id in *. unfold bind in R.
  destruct (create_tag e i) as [[t0|]|x| |]; try discriminate R.
  destruct (w_value_into M (deser n) n t0 r2) as [[y t1] r3] eqn:E3. destruct y as [[]|y| |]; try discriminate R. injection R as -> ->.
  assert (L2' : layers r2 = 2 * k) by lia.
  destruct (value_into_gains _ _ _ k _ _ _ (Hp n) (Hg n) L2' E3) as [L3 W3]. split; [exact L3|lia].
Qed.
Lemma fuel_gains e f : forall k, gains (2 * k) (toll k) (w_deserialize_fuel M f e).
Proof.
  induction f as [|f IH]; intros k; cbn [w_deserialize_fuel]; [intros r t r' _ [=]|].
  apply step_gains; intros _; [apply pays_fuel|apply IH].
Qed.
Lemma deserialize_gains e k : gains (2 * k) (toll k) (w_deserialize M e).
Proof. apply step_gains; intros n; [apply pays_fuel|apply fuel_gains]. Qed.
Lemma into_gains e t k (r : wr) t' r' : layers r = 2 * k -> w_deserialize_into M e r t = (Ok tt, t', r') ->
  layers r' = 2 * k /\ work r + toll k t' <= work r'.
Proof.
  intros HL R. unfold w_deserialize_into in R. destruct (w_ilint M r) as [[i|x| |] r1] eqn:E1; try discriminate R.
  destruct (ilint_gains _ _ _ _ HL E1) as [L1 W1]. destruct (negb (i =? tag_id t)); [discriminate R|].
  destruct (w_tag_size M i r1) as [[n|x| |] r2] eqn:E2; try discriminate R.
  destruct (pays_tag_size M i _ _ _ E2) as (L2 & _ & W2 & _). unfold id in *.
  assert (L2' : layers r2 = 2 * k) by lia.
  destruct (value_into_gains _ _ _ k _ _ _ (pays_fuel M e (S (N.to_nat n))) (fuel_gains e (S (N.to_nat n)) (k + 1)) L2' R) as [L3 W3].
  split; [exact L3|lia].
Qed.
End Gains.

(** ** An object that counts the bytes itself *)
Definition counting {U} (M : reader_impl U) : reader_impl (U * N) :=
  ReaderImpl _
    (fun '(u, b) => let '(x, u') := u_read M u in (x, (u', if is_ok x then b + 1 else b)))
    (fun buff '(u, b) => let '(x, buff', u') := u_read_all M buff u in (x, buff', (u', if is_ok x then b + lenN buff else b))).

(** Facts about mended user code. *)
From Verif Require Import Base BaseFacts Types Spec SpecFacts IO IOSpec IOFacts Logic ILInt Data Tags SortFacts TagsFacts Factory FactoryFacts Open OpenFacts Prog IntoProg
  OtherProg OtherProgFacts FullProg FullProgFacts Any AnyScan AnyProg AnyFull AnyWriter SerProg SerProgFacts Panic.

(** ** Programs on the readers of the library *)
Section Step.
Context {T : Type} (U1 U2 : user_impl T) (e : engine).
Hypothesis Hcr : creators_mend U1 U2.
Lemma o_create_mends id : rle False (fun r : reader => (o_create U1 e id, r)) (fun r => (o_create U2 e id, r)).
Proof.
  intros r. cbn [fst]. unfold o_create. destruct Hcr as [_ H]. destruct (H id) as [K|K]; rewrite K; [|reflexivity].
  intros Q. contradiction.
Qed.
Lemma ids_mend x : u_id U1 x = u_id U2 x.
Proof. destruct Hcr as [H _]. now rewrite H. Qed.
Lemma o_fuel_mends f1 f2 : rle False (o_deserialize_fuel U1 f1 e) (o_deserialize_fuel U2 f2 e) ->
  (forall n, mle False (u_deserialize_value U1 (o_deserialize_fuel U1 f1 e) n) (u_deserialize_value U2 (o_deserialize_fuel U2 f2 e) n)) ->
  rle False (o_deserialize_fuel U1 (S f1) e) (o_deserialize_fuel U2 (S f2) e).
Proof.
  intros H Hu. cbn [o_deserialize_fuel].
  apply rle_bind; [apply rle_refl|]. intros id.
  apply rle_bind; [apply rle_refl|]. intros n.
  apply rle_bind; [apply o_create_mends|]. intros [t|]; [|apply rle_refl]. intros r.
  pose proof (value_into_le False U1 U2 _ _ ids_mend H Hu n t r) as K.
  destruct (o_value_into U1 _ n t r) as [[x t'] r']. cbn [fst] in *. intros Q.
  rewrite K by (destruct x; cbn [map_ok] in Q; exact Q || exact I). reflexivity.
Qed.
Lemma step_mends d1 d2 : rle False d1 d2 -> (forall n, mle False (u_deserialize_value U1 d1 n) (u_deserialize_value U2 d2 n)) ->
  rle False (step_with e U1 d1) (step_with e U2 d2).
Proof.
  intros H Hu. unfold step_with. apply rle_bind; [apply rle_refl|]. intros id. apply rle_bind; [apply rle_refl|]. intros n.
  apply rle_bind; [apply o_create_mends|]. intros [t|]; [|apply rle_refl]. intros r.
  pose proof (value_into_le False U1 U2 _ _ ids_mend H Hu n t r) as K.
  destruct (o_value_into U1 _ n t r) as [[x t'] r']. cbn [fst] in *. intros Q.
  rewrite K by (destruct x; cbn [map_ok] in Q; exact Q || exact I). reflexivity.
Qed.
End Step.

Lemma exec_mends {I A} c (d1 d2 : reader -> res tag_error I * reader) (p1 p2 : prog I A) : mends p1 p2 -> rle False d1 d2 ->
  rle False (exec c d1 p1) (exec c d2 p2).
Proof.
  intros Hm H. induction Hm as [A p|A a|A k1 k2 _ IH|A old k1 k2 _ IH|A n k1 k2 _ IH|A n k1 k2 _ IH|A k1 k2 _ IH|A B n b1 b2 k1 k2 _ IHb _ IH];
    intros r; cbn [exec]; try reflexivity.
  - intros [].
  - destruct (read r) as [x r1]. now apply after_le.
  - destruct (read_all (lenN old) r) as [[x g] r1]. apply after_le. auto.
  - destruct (skip c n r) as [x r1]. now apply after_le.
  - destruct (skip_u64 c n r) as [x r1]. now apply after_le.
  - apply (tagged_le False d1 d2 _ _ H). auto.
  - apply limited_le; auto.
Qed.
Lemma xexec_mends {I A} c (d1 d2 : reader -> res tag_error I * reader) (p1 p2 : xprog I A) : xmends p1 p2 -> rle False d1 d2 ->
  rle False (xexec c d1 p1) (xexec c d2 p2).
Proof.
  intros Hm H. induction Hm as [A p|A a|A k1 k2 _ IH|A old k1 k2 _ IH|A n k1 k2 _ IH|A n k1 k2 _ IH|A k1 k2 _ IH|A B n b1 b2 k1 k2 _ IHb _ IH
    |A q k1 k2 _ IH]; intros r; cbn [xexec]; try reflexivity.
  - intros [].
  - destruct (read r) as [x r1]. now apply after_le.
  - destruct (read_all (lenN old) r) as [[x g] r1]. apply after_le. auto.
  - destruct (skip c n r) as [x r1]. now apply after_le.
  - destruct (skip_u64 c n r) as [x r1]. now apply after_le.
  - apply (tagged_le False d1 d2 _ _ H). auto.
  - apply limited_le; auto.
  - apply (called_le False d1 d2 (fun q' x => xexec c d1 (k1 x q')) (fun q' x => xexec c d2 (k2 x q')) H). auto.
Qed.
Lemma iexec_mends {I A} c d1 d2 i1 i2 (p1 p2 : iprog I A) : imends p1 p2 -> rle False d1 d2 -> ile False i1 i2 ->
  rle False (iexec c d1 i1 p1) (iexec c d2 i2 p2).
Proof.
  intros Hm H Hi. induction Hm as [A p|A a|A k1 k2 _ IH|A old k1 k2 _ IH|A n k1 k2 _ IH|A n k1 k2 _ IH|A k1 k2 _ IH|A B n b1 b2 k1 k2 _ IHb _ IH
    |A t k1 k2 _ IH]; intros r; cbn [iexec]; try reflexivity.
  - intros [].
  - destruct (read r) as [x r1]. now apply after_le.
  - destruct (read_all (lenN old) r) as [[x g] r1]. apply after_le. auto.
  - destruct (skip c n r) as [x r1]. now apply after_le.
  - destruct (skip_u64 c n r) as [x r1]. now apply after_le.
  - apply (tagged_le False d1 d2 _ _ H). auto.
  - apply limited_le; auto.
  - apply (intoed_le False i1 i2 (fun t' x => iexec c d1 i1 (k1 x t')) (fun t' x => iexec c d2 i2 (k2 x t')) Hi). auto.
Qed.
Lemma yexec_mends {I A} c d1 d2 i1 i2 (p1 p2 : yprog I A) : ymends p1 p2 -> rle False d1 d2 -> ile False i1 i2 ->
  rle False (yexec c d1 i1 p1) (yexec c d2 i2 p2).
Proof.
  intros Hm H Hi. induction Hm as [A p|A a|A k1 k2 _ IH|A old k1 k2 _ IH|A n k1 k2 _ IH|A n k1 k2 _ IH|A k1 k2 _ IH|A B n b1 b2 k1 k2 _ IHb _ IH
    |A t k1 k2 _ IH|A q k1 k2 _ IH|A q t k1 k2 _ IH]; intros r; cbn [yexec]; try reflexivity.
  - intros [].
  - destruct (read r) as [x r1]. now apply after_le.
  - destruct (read_all (lenN old) r) as [[x g] r1]. apply after_le. auto.
  - destruct (skip c n r) as [x r1]. now apply after_le.
  - destruct (skip_u64 c n r) as [x r1]. now apply after_le.
  - apply (tagged_le False d1 d2 _ _ H). auto.
  - apply limited_le; auto.
  - apply (intoed_le False i1 i2 (fun t' x => yexec c d1 i1 (k1 x t')) (fun t' x => yexec c d2 i2 (k2 x t')) Hi). auto.
  - apply (called_le False d1 d2 (fun q' x => yexec c d1 i1 (k1 x q')) (fun q' x => yexec c d2 i2 (k2 x q')) H). auto.
  - apply (into_called_le False i1 i2 (fun t' q' x => yexec c d1 i1 (k1 x t' q')) (fun t' q' x => yexec c d2 i2 (k2 x t' q')) Hi). auto.
Qed.
(** The body of deserialize_value, from the run of a program. *)
Lemma body_mends {St T} (m1 m2 : res tag_error (option tag_error * T) * St) (x : T) :
  (returns (fst m1) -> m2 = m1) ->
  let body (m : res tag_error (option tag_error * T) * St) : res tag_error unit * (T * St) :=
    match m with
    | (Ok (None, x'), r') => (Ok tt, (x', r'))
    | (Ok (Some e, x'), r') => (Err e, (x', r'))
    | (Err e, r') => (Err e, (x, r'))
    | (Panic, r') => (Panic, (x, r'))
    | (OutOfFuel, r') => (OutOfFuel, (x, r'))
    end in
  returns (fst (body m1)) -> body m2 = body m1.
Proof.
  intros H body. destruct m1 as [[[[o|] x']|er| |] r1]; cbn [fst body returns] in *; intros Q; try contradiction; now rewrite H.
Qed.
Section Users.
Context {T : Type} (c : cfg) (U1 U2 : user_impl T) (e : engine).
Hypothesis Hcr : creators_mend U1 U2.
Lemma s_mends (P1 P2 : script T) : (forall n x, mends (P1 n x) (P2 n x)) -> forall f,
  rle False (o_deserialize_fuel (scripted c U1 P1) f e) (o_deserialize_fuel (scripted c U2 P2) f e).
Proof.
  intros HP. induction f as [|f IH]; [intros r []|].
  apply o_fuel_mends; [exact Hcr|exact IH|]. intros n s r. cbn [u_deserialize_value scripted].
  exact (body_mends _ _ s (exec_mends c _ _ _ _ (HP n s) IH r)).
Qed.
Lemma x_mends (P1 P2 : xscript T) : (forall n x, xmends (P1 n x) (P2 n x)) -> forall f,
  rle False (x_deserialize c U1 P1 e f) (x_deserialize c U2 P2 e f).
Proof.
  intros HP. unfold x_deserialize. induction f as [|f IH]; [intros r []|].
  apply o_fuel_mends; [exact Hcr|exact IH|]. intros n s r. cbn [u_deserialize_value xscripted].
  exact (body_mends _ _ s (xexec_mends c _ _ _ _ (HP n s) IH r)).
Qed.
Lemma i_mends (X1 X2 : iscript T) : (forall n x, imends (X1 n x) (X2 n x)) -> forall f,
  ble False (i_fuel c U1 X1 e f) (i_fuel c U2 X2 e f).
Proof.
  intros HP. induction f as [|f [IH1 IH2]]; [split; [intros r []|intros r t []]|].
  assert (Hu : forall n, mle False (irun c (fst (i_fuel c U1 X1 e f)) (snd (i_fuel c U1 X1 e f)) X1 n)
    (irun c (fst (i_fuel c U2 X2 e f)) (snd (i_fuel c U2 X2 e f)) X2 n)).
  { intros n s r. unfold irun. exact (body_mends _ _ s (iexec_mends c _ _ _ _ _ _ (HP n s) IH1 IH2 r)). }
  split; cbn [i_fuel fst snd].
  - apply step_mends; [exact Hcr|exact IH1|exact Hu].
  - apply into_le; [exact (ids_mend _ _ Hcr)|exact IH1|exact Hu].
Qed.
Lemma y_mends (Y1 Y2 : yscript T) : (forall n x, ymends (Y1 n x) (Y2 n x)) -> forall f,
  ble False (y_fuel c U1 Y1 e f) (y_fuel c U2 Y2 e f).
Proof.
  intros HP. induction f as [|f [IH1 IH2]]; [split; [intros r []|intros r t []]|].
  assert (Hu : forall n, mle False (yrun c (fst (y_fuel c U1 Y1 e f)) (snd (y_fuel c U1 Y1 e f)) Y1 n)
    (yrun c (fst (y_fuel c U2 Y2 e f)) (snd (y_fuel c U2 Y2 e f)) Y2 n)).
  { intros n s r. unfold yrun. exact (body_mends _ _ s (yexec_mends c _ _ _ _ _ _ (HP n s) IH1 IH2 r)). }
  split; cbn [y_fuel fst snd].
  - apply step_mends; [exact Hcr|exact IH1|exact Hu].
  - apply into_le; [exact (ids_mend _ _ Hcr)|exact IH1|exact Hu].
Qed.
End Users.

(** ** On any state *)
Definition gle {St E A} (m1 m2 : St -> res E A * St) : Prop := forall s, returns (fst (m1 s)) -> m2 s = m1 s.
Definition tle {St I A} (i1 i2 : St -> I -> res tag_error A * I * St) : Prop := forall s t, returns (fst (fst (i1 s t))) -> i2 s t = i1 s t.
Lemma gle_refl {St E A} (m : St -> res E A * St) : gle m m.
Proof. intros s _. reflexivity. Qed.
Lemma gle_bind {St E A B} (m1 m2 : St -> res E A * St) (f1 f2 : A -> St -> res E B * St) :
  gle m1 m2 -> (forall a, gle (f1 a) (f2 a)) -> gle (bind m1 f1) (bind m2 f2).
Proof.
  intros H Hf s. unfold bind. pose proof (H s) as K. destruct (m1 s) as [x s1]; cbn [fst] in K.
  destruct x as [a|e| |]; cbn [fst returns]; intros Q; try contradiction; rewrite K by exact Logic.I; [now apply Hf|reflexivity].
Qed.
Lemma gle_lift {St E E' A} (g : E -> E') (m1 m2 : St -> res E A * St) : gle m1 m2 -> gle (lift_err g m1) (lift_err g m2).
Proof.
  intros H s. unfold lift_err. pose proof (H s) as K. destruct (m1 s) as [x s1]; cbn [fst] in *. intros Q.
  rewrite K; [reflexivity|]. destruct x; exact Q.
Qed.
Lemma gle_each {St E A} (l : list A) (f1 f2 : A -> St -> res E unit * St) : (forall a, In a l -> gle (f1 a) (f2 a)) ->
  gle (for_each l f1) (for_each l f2).
Proof.
  induction l as [|a l IH]; intros H; [apply gle_refl|]. cbn [for_each].
  apply gle_bind; [apply H; now left|]. intros _. apply IH. intros b Hb. apply H. now right.
Qed.

(** ** Readers *)
Section Readers.
Context {U : Type} (M1 M2 : reader_impl U).
Hypothesis HM : reader_mends M1 M2.
Lemma a_read_mends : gle (a_read M1) (a_read M2).
Proof.
  intros r. induction r as [u|src IH avail]; cbn [a_read].
  - pose proof (proj1 HM u) as K. destruct (u_read M1 u) as [x u']. cbn [fst] in *. intros Q. now rewrite K.
  - destruct (avail <? 1); [reflexivity|]. destruct (a_read M1 src) as [x s']. cbn [fst] in *. intros Q. now rewrite IH.
Qed.
Lemma a_read_all_mends buff r : returns (fst (fst (a_read_all M1 buff r))) -> a_read_all M2 buff r = a_read_all M1 buff r.
Proof.
  induction r as [u|src IH avail]; cbn [a_read_all].
  - pose proof (proj2 HM buff u) as K. destruct (u_read_all M1 buff u) as [[x b'] u']. cbn [fst] in *. intros Q. now rewrite K.
  - destruct (avail <? lenN buff); [reflexivity|]. destruct (a_read_all M1 buff src) as [[x b'] s']. cbn [fst] in *. intros Q. now rewrite IH.
Qed.
Lemma a_fetch_mends n : gle (a_fetch M1 n) (a_fetch M2 n).
Proof.
  intros r. unfold a_fetch. pose proof (a_read_all_mends (repeatN 0 n) r) as K.
  destruct (a_read_all M1 (repeatN 0 n) r) as [[x b'] r']. cbn [fst] in *. intros Q.
  rewrite K; [reflexivity|]. destruct x; exact Q.
Qed.
Lemma a_decode_mends : gle (a_decode M1) (a_decode M2).
Proof.
  unfold a_decode. apply gle_bind; [apply gle_lift, a_read_mends|]. intros h. destruct (_ =? 1); [apply gle_refl|].
  apply gle_bind; [apply gle_lift, a_fetch_mends|]. intros b. apply gle_refl.
Qed.
Lemma a_ilint_mends : gle (a_ilint M1) (a_ilint M2).
Proof. apply gle_lift, gle_lift, a_decode_mends. Qed.
Lemma a_silint_mends : gle (a_silint M1) (a_silint M2).
Proof. apply gle_lift, gle_lift, gle_bind; [apply a_decode_mends|]. intros b. apply gle_refl. Qed.
Lemma a_uint_mends w : gle (a_uint M1 w) (a_uint M2 w).
Proof.
  apply gle_lift. destruct w; [apply a_read_mends|..]; (apply gle_bind; [apply a_fetch_mends|intros b; apply gle_refl]).
Qed.
Lemma a_sint_mends w : gle (a_sint M1 w) (a_sint M2 w).
Proof.
  apply gle_lift. destruct w; (apply gle_bind; [apply a_read_mends || apply a_fetch_mends|intros b; apply gle_refl]).
Qed.
Lemma a_bytes_mends n : gle (a_bytes M1 n) (a_bytes M2 n).
Proof. apply gle_lift, a_fetch_mends. Qed.
Lemma a_tag_size_mends id : gle (a_tag_size M1 id) (a_tag_size M2 id).
Proof.
  apply gle_bind; [destruct (is_implicit_tag id); [apply gle_refl|apply a_ilint_mends]|]. intros n. apply gle_refl.
Qed.
Lemma a_skip_mends n : gle (a_skip M1 n) (a_skip M2 n).
Proof.
  unfold a_skip, default_skip. generalize (repeatN 0 512). generalize (S (N.to_nat (n / 512))).
  intros f. revert n. induction f as [|f IH]; intros n buff r; cbn [skip_chunks]; destruct (n =? 0); try reflexivity.
  pose proof (a_read_all_mends (takeN (N.min n (lenN buff)) buff) r) as K.
  destruct (a_read_all M1 _ r) as [[x b'] r']. cbn [fst] in K.
  destruct x as [[]|er| |]; cbn [fst returns]; intros Q; try contradiction; rewrite K by exact Logic.I; [now apply IH|reflexivity].
Qed.
Lemma a_skip_u64_mends c n : gle (a_skip_u64 M1 c n) (a_skip_u64 M2 c n).
Proof.
  unfold a_skip_u64, default_skip_u64. generalize (S (N.to_nat (n / usize_max c))).
  intros f. revert n. induction f as [|f IH]; intros n r; cbn [skip_pieces]; destruct (n =? 0); try reflexivity.
  pose proof (a_skip_mends (N.min n (usize_max c)) r) as K.
  destruct (a_skip M1 _ r) as [x r']. cbn [fst] in K.
  destruct x as [[]|er| |]; cbn [fst returns]; intros Q; try contradiction; rewrite K by exact Logic.I; [now apply IH|reflexivity].
Qed.

(** Methods. *)
Lemma a_on_mends {S A} (m1 m2 : areader U -> res tag_error A * areader U) : gle m1 m2 -> gle (@a_on_reader U S A m1) (a_on_reader m2).
Proof. intros H [s r]. unfold a_on_reader. pose proof (H r) as K. destruct (m1 r) as [x r']. cbn [fst] in *. intros Q. now rewrite K. Qed.
Lemma a_limited_mends {S A} n (m1 m2 : @amethod U S A) : gle m1 m2 -> gle (a_limited n m1) (a_limited n m2).
Proof.
  intros H [s r]. unfold a_limited. pose proof (H (s, ALimited r n)) as K. destruct (m1 (s, ALimited r n)) as [x [s' r']].
  cbn [fst] in *. intros Q. now rewrite K.
Qed.
Lemma a_fuelled_mends {S A} (m1 m2 : nat -> @amethod U S A) : (forall f, gle (m1 f) (m2 f)) -> gle (a_fuelled m1) (a_fuelled m2).
Proof. intros H st. apply H. Qed.
Lemma a_repeat_mends {S A} (m1 m2 : areader U -> res tag_error A * areader U) (store : A -> S -> S) f : gle m1 m2 -> forall count,
  gle (a_repeat f m1 store count) (a_repeat f m2 store count).
Proof.
  intros H. induction f as [|f IH]; intros count; cbn [a_repeat]; destruct (count =? 0); try apply gle_refl.
  apply gle_bind; [now apply a_on_mends|]. intros x. apply gle_bind; [apply gle_refl|]. intros _. apply IH.
Qed.
Lemma a_while_mends {S A} (m1 m2 : areader U -> res tag_error A * areader U) (store : A -> S -> S) f : gle m1 m2 ->
  gle (a_while f m1 store) (a_while f m2 store).
Proof.
  intros H. induction f as [|f IH]; intros st; cbn [a_while]; destruct (a_empty (snd st)); try reflexivity. revert st.
  match goal with |- forall st, returns (fst (?m st)) -> ?m' st = _ => change (gle m m') end.
  apply gle_bind; [now apply a_on_mends|]. intros x. apply gle_bind; [apply gle_refl|]. intros _. apply IH.
Qed.
Lemma a_set_mends {A} (m1 m2 : areader U -> res tag_error A * areader U) : gle m1 m2 -> gle (a_set_from m1) (a_set_from m2).
Proof. intros H. apply gle_bind; [now apply a_on_mends|]. intros x. apply gle_refl. Qed.
Lemma a_raw_mends n : gle (a_raw M1 n) (a_raw M2 n).
Proof.
  intros [v r]. unfold a_raw, a_into_vec, a_into_slice. pose proof (a_read_all_mends (resizeN n 0 v) r) as K.
  destruct (a_read_all M1 _ r) as [[x b'] r']. cbn [fst] in *. intros Q. rewrite K; [reflexivity|]. destruct x; exact Q.
Qed.
Lemma a_bin128_mends n : gle (a_bin128 M1 n) (a_bin128 M2 n).
Proof.
  apply gle_bind; [apply gle_refl|]. intros _ [v r]. unfold a_into_slice. pose proof (a_read_all_mends v r) as K.
  destruct (a_read_all M1 _ r) as [[x b'] r']. cbn [fst] in *. intros Q. rewrite K; [reflexivity|]. destruct x; exact Q.
Qed.
Lemma a_snd_mends {S T A} (m1 m2 : @amethod U T A) : gle m1 m2 -> gle (@a_on_snd U S T A m1) (a_on_snd m2).
Proof.
  intros H [[s t] r]. unfold a_on_snd. pose proof (H (t, r)) as K. destruct (m1 (t, r)) as [x [t' r']]. cbn [fst] in *. intros Q. now rewrite K.
Qed.
Ltac mend :=
  repeat first
    [ apply gle_refl
    | apply a_raw_mends | apply a_bin128_mends
    | apply gle_bind; [|intros ?]
    | apply a_on_mends
    | apply a_limited_mends
    | apply a_fuelled_mends; intros ?
    | apply a_set_mends
    | apply a_ilint_mends | apply a_silint_mends | apply a_uint_mends | apply a_sint_mends | apply a_bytes_mends
    | apply a_snd_mends
    | apply a_repeat_mends | apply a_while_mends
    | match goal with |- gle (if ?b then _ else _) _ => destruct b end ].
Lemma a_string_tag_mends : gle (a_string_tag M1) (a_string_tag M2).
Proof.
  assert (H : gle (a_string_tag_into M1) (a_string_tag_into M2)) by (unfold a_string_tag_into; mend).
  intros r. unfold a_string_tag. pose proof (H ([], r)) as K. destruct (a_string_tag_into M1 ([], r)) as [x [s r']]. cbn [fst] in *.
  intros Q. rewrite K; [reflexivity|]. destruct x; exact Q.
Qed.
Lemma a_run_mends {S} (m1 m2 : @amethod U S unit) s mk r : gle m1 m2 -> returns (fst (fst (a_run m1 s mk r))) -> a_run m2 s mk r = a_run m1 s mk r.
Proof. intros H. unfold a_run. pose proof (H (s, r)) as K. destruct (m1 (s, r)) as [x [s' r']]. cbn [fst] in *. intros Q. now rewrite K. Qed.
Section Containers.
Context {I : Type} (d1 d2 : areader U -> res tag_error I * areader U).
Hypothesis Hd : gle d1 d2.
Lemma a_seq_mends n : gle (a_seq d1 n) (a_seq d2 n).
Proof. unfold a_seq. mend. exact Hd. Qed.
Lemma a_arr_mends n : gle (a_arr M1 d1 n) (a_arr M2 d2 n).
Proof. unfold a_arr. mend. exact Hd. Qed.
Lemma a_dict_mends n : gle (a_dict M1 d1 n) (a_dict M2 d2 n).
Proof. unfold a_dict. mend; [apply a_string_tag_mends|exact Hd]. Qed.
End Containers.
Lemma a_value_mends (d1 d2 : areader U -> res tag_error tag * areader U) v n r : gle d1 d2 ->
  returns (fst (fst (a_value M1 d1 v n r))) -> a_value M2 d2 v n r = a_value M1 d1 v n r.
Proof.
  intros Hd. destruct v; cbn [a_value]; apply a_run_mends;
    try (unfold a_null, a_bool, a_uint_value, a_sint_value, a_bin32, a_bin64, a_f32, a_f64, a_string, a_bigdec, a_ilintarray, a_range, a_version; mend; fail).
  - now apply a_seq_mends.
  - now apply a_arr_mends.
  - now apply a_dict_mends.
  - unfold a_strdict. mend; apply a_string_tag_mends.
Qed.
Lemma a_value_into_mends d1 d2 n t r : gle d1 d2 -> returns (fst (fst (a_value_into M1 d1 n t r))) -> a_value_into M2 d2 n t r = a_value_into M1 d1 n t r.
Proof.
  intros Hd. unfold a_value_into. pose proof (a_value_mends d1 d2 (tag_val t) n (ALimited r n) Hd) as K.
  destruct (a_value M1 d1 (tag_val t) n (ALimited r n)) as [[x v'] lr]. cbn [fst] in *. intros Q.
  rewrite K by (destruct x; exact Q || exact Logic.I). reflexivity.
Qed.
Lemma a_step_mends d1 d2 e : (forall n, gle (d1 n) (d2 n)) -> gle (a_deserialize_step M1 d1 e) (a_deserialize_step M2 d2 e).
Proof.
  intros Hd. unfold a_deserialize_step. apply gle_bind; [apply a_ilint_mends|]. intros id.
  apply gle_bind; [apply a_tag_size_mends|]. intros n. apply gle_bind; [apply gle_refl|]. intros [t|]; [|apply gle_refl]. intros r.
  pose proof (a_value_into_mends (d1 n) (d2 n) n t r (Hd n)) as K.
  destruct (a_value_into M1 (d1 n) n t r) as [[x t'] r']. cbn [fst] in *. intros Q.
  rewrite K by (destruct x; exact Q || exact Logic.I). reflexivity.
Qed.
Lemma a_fuel_mends e f : gle (a_deserialize_fuel M1 f e) (a_deserialize_fuel M2 f e).
Proof. induction f as [|f IH]; [intros r []|]. apply a_step_mends. intros _. exact IH. Qed.
Lemma a_deserialize_mends e : gle (a_deserialize M1 e) (a_deserialize M2 e).
Proof. apply a_step_mends. intros n. apply a_fuel_mends. Qed.
Lemma a_deserialize_into_mends e : tle (a_deserialize_into M1 e) (a_deserialize_into M2 e).
Proof.
  intros r t. unfold a_deserialize_into. pose proof (a_ilint_mends r) as K. destruct (a_ilint M1 r) as [x r1]. cbn [fst] in K.
  destruct x as [id|er| |]; cbn [fst returns]; intros Q; try contradiction; rewrite K by exact Logic.I; [|reflexivity].
  destruct (negb _); [reflexivity|].
  pose proof (a_tag_size_mends id r1) as K2. destruct (a_tag_size M1 id r1) as [x r2]. cbn [fst] in K2.
  destruct x as [n|er| |]; cbn [fst returns] in *; try contradiction; rewrite K2 by exact Logic.I; [|reflexivity].
  apply a_value_into_mends; [apply a_fuel_mends|exact Q].
Qed.

(** ** Programs on any reader *)
Lemma a_after_mends {E A B} (x : res E A) (g1 g2 : res E A -> areader U -> res tag_error B * areader U) r :
  (forall x, gle (g1 x) (g2 x)) -> returns (fst (a_after x g1 r)) -> a_after x g2 r = a_after x g1 r.
Proof. intros H. destruct x; cbn [a_after]; auto; apply H. Qed.
Lemma a_called_mends {E A B} (m1 m2 : areader U -> res E A * areader U) (g1 g2 : res E A -> areader U -> res tag_error B * areader U) :
  gle m1 m2 -> (forall x, gle (g1 x) (g2 x)) ->
  gle (fun r => let '(x, r') := m1 r in a_after x g1 r') (fun r => let '(x, r') := m2 r in a_after x g2 r').
Proof.
  intros H Hg r. pose proof (H r) as K. destruct (m1 r) as [x r']. cbn [fst] in K. intros Q.
  rewrite K by (destruct x; cbn [a_after fst returns] in *; exact Q || exact Logic.I). now apply a_after_mends.
Qed.
Definition a_lim {A B} n (m : areader U -> res tag_error B * areader U) (g : B -> N -> areader U -> res tag_error A * areader U) r :=
  let '(x, lr) := m (ALimited r n) in
  match x, lr with
  | Ok b, ALimited r' n' => g b n' r'
  | Ok _, _ => (Panic, lr)
  | Err e, _ => (Err e, a_unlimit lr)
  | Panic, _ => (Panic, a_unlimit lr)
  | OutOfFuel, _ => (OutOfFuel, a_unlimit lr)
  end.
Lemma a_lim_mends {A B} n m1 m2 (g1 g2 : B -> N -> areader U -> res tag_error A * areader U) :
  gle m1 m2 -> (forall b j, gle (g1 b j) (g2 b j)) -> gle (a_lim n m1 g1) (a_lim n m2 g2).
Proof.
  intros H Hg r. unfold a_lim. pose proof (H (ALimited r n)) as K. destruct (m1 (ALimited r n)) as [x lr]. cbn [fst] in K.
  destruct x as [b|er| |]; cbn [fst returns]; intros Q; try contradiction; rewrite K by exact Logic.I; [|reflexivity].
  destruct lr as [u|r' n']; [contradiction|]. now apply Hg.
Qed.
Lemma a_exec_mends {I A} c (d1 d2 : areader U -> res tag_error I * areader U) (p1 p2 : prog I A) : mends p1 p2 -> gle d1 d2 ->
  gle (a_exec M1 c d1 p1) (a_exec M2 c d2 p2).
Proof.
  intros Hm H. induction Hm as [A p|A a|A k1 k2 _ IH|A old k1 k2 _ IH|A n k1 k2 _ IH|A n k1 k2 _ IH|A k1 k2 _ IH|A B n b1 b2 k1 k2 _ IHb _ IH].
  - intros r [].
  - apply gle_refl.
  - exact (a_called_mends _ _ _ _ a_read_mends IH).
  - intros r. cbn [a_exec]. pose proof (a_read_all_mends (u8s old) r) as K. destruct (a_read_all M1 (u8s old) r) as [[x b'] r']. cbn [fst] in K. intros Q.
    rewrite K by (destruct x; cbn [a_after fst returns] in *; exact Q || exact Logic.I). apply a_after_mends; [|exact Q]. intros y. apply IH.
  - exact (a_called_mends _ _ _ _ (a_skip_mends n) IH).
  - exact (a_called_mends _ _ _ _ (a_skip_u64_mends c n) IH).
  - exact (a_called_mends _ _ _ _ H IH).
  - exact (a_lim_mends n _ _ _ _ IHb IH).
Qed.
Lemma ay_exec_mends {I A} c d1 d2 i1 i2 od1 od2 oi1 oi2 (p1 p2 : yprog I A) : ymends p1 p2 ->
  gle d1 d2 -> tle i1 i2 -> gle od1 od2 -> tle oi1 oi2 ->
  gle (ay_exec M1 c d1 i1 od1 oi1 p1) (ay_exec M2 c d2 i2 od2 oi2 p2).
Proof.
  intros Hm H Hi Ho Hoi. induction Hm as [A p|A a|A k1 k2 _ IH|A old k1 k2 _ IH|A n k1 k2 _ IH|A n k1 k2 _ IH|A k1 k2 _ IH|A B n b1 b2 k1 k2 _ IHb _ IH
    |A t k1 k2 _ IH|A q k1 k2 _ IH|A q t k1 k2 _ IH].
  - intros r [].
  - apply gle_refl.
  - exact (a_called_mends _ _ _ _ a_read_mends IH).
  - intros r. cbn [ay_exec]. pose proof (a_read_all_mends (u8s old) r) as K. destruct (a_read_all M1 (u8s old) r) as [[x b'] r']. cbn [fst] in K. intros Q.
    rewrite K by (destruct x; cbn [a_after fst returns] in *; exact Q || exact Logic.I). apply a_after_mends; [|exact Q]. intros y. apply IH.
  - exact (a_called_mends _ _ _ _ (a_skip_mends n) IH).
  - exact (a_called_mends _ _ _ _ (a_skip_u64_mends c n) IH).
  - exact (a_called_mends _ _ _ _ H IH).
  - exact (a_lim_mends n _ _ _ _ IHb IH).
  - intros r. cbn [ay_exec]. pose proof (Hi r t) as K. destruct (i1 r t) as [[x t'] r']. cbn [fst] in K. intros Q.
    rewrite K by (destruct x; cbn [a_after fst returns] in *; exact Q || exact Logic.I). apply a_after_mends; [|exact Q]. intros y. apply IH.
  - intros r. cbn [ay_exec]. pose proof (Ho q) as K. destruct (od1 q) as [x q']. cbn [fst] in K. intros Q.
    rewrite K by (destruct x; cbn [a_after fst returns] in *; exact Q || exact Logic.I). apply a_after_mends; [|exact Q]. intros y. apply IH.
  - intros r. cbn [ay_exec]. pose proof (Hoi q t) as K. destruct (oi1 q t) as [[x t'] q']. cbn [fst] in K. intros Q.
    rewrite K by (destruct x; cbn [a_after fst returns] in *; exact Q || exact Logic.I). apply a_after_mends; [|exact Q]. intros y. apply IH.
Qed.
Section Factory.
Context {T : Type} (c : cfg) (D1 D2 : user_impl T) (e : engine).
Hypothesis Hcr : creators_mend D1 D2.
Lemma av_value_mends (us1 us2 : N -> @amethod U T unit) d1 d2 t n r : gle (us1 n) (us2 n) -> gle d1 d2 ->
  returns (fst (fst (av_value M1 us1 d1 t n r))) -> av_value M2 us2 d2 t n r = av_value M1 us1 d1 t n r.
Proof.
  intros Hu Hd.
  assert (Run : forall S (m1 m2 : @amethod U S unit) s mk, gle m1 m2 ->
    returns (fst (fst (@ao_run U T S m1 s mk r))) -> ao_run m2 s mk r = ao_run m1 s mk r).
  { intros S m1 m2 s mk Hm. unfold ao_run. pose proof (Hm (s, r)) as K. destruct (m1 (s, r)) as [x [s1 r1]]. cbn [fst] in *.
    intros Q. now rewrite K. }
  destruct t as [id v|x|id l|id l|id l]; cbn [av_value].
  - pose proof (a_value_mends (fun r => (Panic, r)) (fun r => (Panic, r)) v n r (gle_refl _)) as K.
    destruct (a_value M1 _ v n r) as [[x v'] r']. cbn [fst] in *. intros Q. now rewrite K.
  - apply Run. exact Hu.
  - apply Run, a_seq_mends, Hd.
  - apply Run, a_arr_mends, Hd.
  - apply Run, a_dict_mends, Hd.
Qed.
Lemma av_value_into_mends v1 v2 n t r :
  (returns (fst (fst (v1 t n (ALimited r n)))) -> v2 t n (ALimited r n) = v1 t n (ALimited r n)) ->
  returns (fst (fst (@av_value_into U T D1 v1 n t r))) -> av_value_into D2 v2 n t r = av_value_into D1 v1 n t r.
Proof.
  intros K. unfold av_value_into. destruct (v1 t n (ALimited r n)) as [[x t'] lr]. cbn [fst] in *. intros Q.
  rewrite K by (destruct x; exact Q || exact Logic.I).
  replace (o_id D2 t') with (o_id D1 t') by (destruct t'; cbn [o_id]; auto using (ids_mend D1 D2 Hcr)). reflexivity.
Qed.
Lemma av_step_mends g1 g2 : (forall n t r, returns (fst (fst (g1 n t r))) -> g2 n t r = g1 n t r) ->
  gle (@av_step U M1 T D1 g1 e) (av_step M2 D2 g2 e).
Proof.
  intros Hg. unfold av_step. apply gle_bind; [apply a_ilint_mends|]. intros id. apply gle_bind; [apply a_tag_size_mends|]. intros n.
  apply gle_bind.
  - intros r. cbn [fst]. unfold o_create. destruct Hcr as [_ H]. destruct (H id) as [K|K]; rewrite K; [intros []|reflexivity].
  - intros [t|]; [|apply gle_refl]. intros r. pose proof (Hg n t r) as K. destruct (g1 n t r) as [[x t'] r']. cbn [fst] in *. intros Q.
    rewrite K by (destruct x; exact Q || exact Logic.I). reflexivity.
Qed.
Lemma av_into_mends g1 g2 : (forall n t r, returns (fst (fst (g1 n t r))) -> g2 n t r = g1 n t r) ->
  tle (@av_into U M1 T D1 g1) (av_into M2 D2 g2).
Proof.
  intros Hg r t. unfold av_into.
  replace (o_id D2 t) with (o_id D1 t) by (destruct t; cbn [o_id]; auto using (ids_mend D1 D2 Hcr)).
  pose proof (a_ilint_mends r) as K. destruct (a_ilint M1 r) as [x r1]. cbn [fst] in K.
  destruct x as [id|er| |]; cbn [fst returns]; intros Q; try contradiction; rewrite K by exact Logic.I; [|reflexivity].
  destruct (negb _); [reflexivity|].
  pose proof (a_tag_size_mends id r1) as K2. destruct (a_tag_size M1 id r1) as [x r2]. cbn [fst] in K2.
  destruct x as [n|er| |]; cbn [fst returns] in *; try contradiction; rewrite K2 by exact Logic.I; [|reflexivity].
  now apply Hg.
Qed.
Section Programs.
Context (P1 P2 : script T).
Hypothesis HP : forall n x, mends (P1 n x) (P2 n x).
Lemma ao_user_mends d1 d2 n : gle d1 d2 -> gle (ao_user M1 c P1 d1 n) (ao_user M2 c P2 d2 n).
Proof.
  intros H [x r]. unfold ao_user. exact (body_mends _ _ x (a_exec_mends c _ _ _ _ (HP n x) H r)).
Qed.
Lemma ao_value_into_mends d1 d2 n t r : gle d1 d2 ->
  returns (fst (fst (ao_value_into M1 c D1 P1 d1 n t r))) -> ao_value_into M2 c D2 P2 d2 n t r = ao_value_into M1 c D1 P1 d1 n t r.
Proof.
  intros H. apply av_value_into_mends. apply av_value_mends; [now apply ao_user_mends|exact H].
Qed.
Lemma ao_fuel_mends f : gle (ao_fuel M1 c D1 P1 f e) (ao_fuel M2 c D2 P2 f e).
Proof.
  induction f as [|f IH]; [intros r []|]. apply av_step_mends. intros n t r. now apply ao_value_into_mends.
Qed.
Lemma ao_deserialize_mends : gle (ao_deserialize M1 c D1 P1 e) (ao_deserialize M2 c D2 P2 e).
Proof. apply av_step_mends. intros n t r. apply ao_value_into_mends, ao_fuel_mends. Qed.
Lemma ao_deserialize_into_mends : tle (ao_deserialize_into M1 c D1 P1 e) (ao_deserialize_into M2 c D2 P2 e).
Proof. apply av_into_mends. intros n t r. apply ao_value_into_mends, ao_fuel_mends. Qed.
End Programs.
Section Full.
Context (Y1 Y2 : yscript T).
Hypothesis HY : forall n x, ymends (Y1 n x) (Y2 n x).
Lemma ay_mends f : gle (ay_deserialize M1 c D1 Y1 e f) (ay_deserialize M2 c D2 Y2 e f) /\
  tle (ay_deserialize_into M1 c D1 Y1 e f) (ay_deserialize_into M2 c D2 Y2 e f).
Proof.
  unfold ay_deserialize, ay_deserialize_into. induction f as [|f [IH1 IH2]]; [split; [intros r []|intros r t []]|].
  destruct (y_mends c D1 D2 e Hcr Y1 Y2 HY f) as [Ho Hoi].
  assert (Hv : forall n t r, let v1 := av_value M1 (ay_user M1 c (fst (ay_fuel M1 c D1 Y1 e f)) (snd (ay_fuel M1 c D1 Y1 e f)) (y_deserialize c D1 Y1 e f)
      (y_deserialize_into c D1 Y1 e f) Y1) (fst (ay_fuel M1 c D1 Y1 e f)) in
    let v2 := av_value M2 (ay_user M2 c (fst (ay_fuel M2 c D2 Y2 e f)) (snd (ay_fuel M2 c D2 Y2 e f)) (y_deserialize c D2 Y2 e f)
      (y_deserialize_into c D2 Y2 e f) Y2) (fst (ay_fuel M2 c D2 Y2 e f)) in
    returns (fst (fst (av_value_into D1 v1 n t r))) -> av_value_into D2 v2 n t r = av_value_into D1 v1 n t r).
  { intros n t r v1 v2. apply av_value_into_mends. apply av_value_mends; [|exact IH1].
    intros [x q]. unfold ay_user. exact (body_mends _ _ x (ay_exec_mends c _ _ _ _ _ _ _ _ _ _ (HY n x) IH1 IH2 Ho Hoi q)). }
  split; cbn [ay_fuel fst snd]; [apply av_step_mends|apply av_into_mends]; exact Hv.
Qed.
End Full.
End Factory.
End Readers.

(** ** The scanner *)
Section Scan.
Context {U : Type} (F1 F2 : full_reader U) (c : cfg).
Hypothesis HF : full_mends F1 F2.
Lemma on_base_mends {A} (m1 m2 : areader U -> res tag_error A * areader U) : gle m1 m2 -> gle (on_base m1) (on_base m2).
Proof. intros H u. unfold on_base. pose proof (H (ABase u)) as K. destruct (m1 (ABase u)) as [x r']. cbn [fst] in *. intros Q. now rewrite K. Qed.
Lemma on_source_mends {A} (m1 m2 : U -> res tag_error A * U) : gle m1 m2 -> gle (f_on_source m1) (f_on_source m2).
Proof. intros H [o u]. unfold f_on_source. pose proof (H u) as K. destruct (m1 u) as [x r']. cbn [fst] in *. intros Q. now rewrite K. Qed.
Lemma f_next_tag_mends : gle (f_next_tag F1 c) (f_next_tag F2 c).
Proof.
  destruct HF as [HM [_ Hs]]. unfold f_next_tag.
  apply gle_bind; [apply on_source_mends, on_base_mends, a_ilint_mends, HM|]. intros id.
  apply gle_bind.
  { apply on_source_mends. unfold f_tag_size. destruct (is_implicit_tag id).
    - destruct (_ || _); [|apply gle_refl]. apply gle_bind; [|intros h; apply gle_refl]. apply gle_lift. exact (proj1 HM).
    - apply gle_bind; [apply on_base_mends, a_ilint_mends, HM|intros h; apply gle_refl]. }
  intros [[ss vs] sk]. do 5 (apply gle_bind; [apply gle_refl|intros ?]).
  apply gle_bind; [|intros _; apply gle_refl]. apply on_source_mends, gle_lift. exact (Hs sk).
Qed.
Lemma f_next_tag_if_id_mends id : gle (f_next_tag_if_id F1 c id) (f_next_tag_if_id F2 c id).
Proof. apply gle_bind; [apply f_next_tag_mends|]. intros t. apply gle_refl. Qed.
Lemma f_next_tags_mends n : gle (f_next_tags F1 c n) (f_next_tags F2 c n).
Proof.
  induction n as [|n IH]; [apply gle_refl|]. cbn [f_next_tags]. apply gle_bind; [apply f_next_tag_mends|].
  intros [o|]; [|apply gle_refl]. apply gle_bind; [exact IH|]. intros l. apply gle_refl.
Qed.
End Scan.

(** ** Writers *)
Section Writers.
Context {W : Type} (M1 M2 : writer_impl W).
Hypothesis HM : writer_mends M1 M2.
Lemma w_ilint_mends v : gle (a_serialize_ilint M1 v) (a_serialize_ilint M2 v).
Proof.
  apply gle_lift, gle_lift. unfold a_encode. cbv zeta. destruct (_ =? 1); apply gle_lift; intros u; apply HM.
Qed.
Lemma w_silint_mends v : gle (a_serialize_signed_ilint M1 v) (a_serialize_signed_ilint M2 v).
Proof.
  apply gle_lift, gle_lift. unfold a_signed_encode, a_encode. cbv zeta. destruct (_ =? 1); apply gle_lift; intros u; apply HM.
Qed.
Lemma w_uint_mends w v : gle (a_serialize_uint M1 w v) (a_serialize_uint M2 w v).
Proof. apply gle_lift. destruct w; cbn [a_write_uint]; intros u; apply HM. Qed.
Lemma w_sint_mends w v : gle (a_serialize_sint M1 w v) (a_serialize_sint M2 w v).
Proof. apply gle_lift. destruct w; cbn [a_write_sint]; intros u; apply HM. Qed.
Lemma w_bytes_mends bs : gle (a_serialize_bytes M1 bs) (a_serialize_bytes M2 bs).
Proof. apply gle_lift. intros u. apply HM. Qed.
Lemma w_string_mends s : gle (a_serialize_string_tag M1 s) (a_serialize_string_tag M2 s).
Proof. apply gle_bind; [apply w_ilint_mends|]. intros _. apply gle_bind; [apply w_ilint_mends|]. intros _. apply w_bytes_mends. Qed.
Lemma w_dict_mends {A} (l : list (list N * A)) (f1 f2 : A -> W -> res tag_error unit * W) :
  (forall x, In x (map snd l) -> gle (f1 x) (f2 x)) ->
  gle (for_each (sort_unstable (map fst l)) (fun key =>
        match hm_get key (map (fun e => (fst e, f1 (snd e))) l) with
        | Some value => a_serialize_string_tag M1 key ;;; value
        | None => fail UnableToSerialize
        end))
      (for_each (sort_unstable (map fst l)) (fun key =>
        match hm_get key (map (fun e => (fst e, f2 (snd e))) l) with
        | Some value => a_serialize_string_tag M2 key ;;; value
        | None => fail UnableToSerialize
        end)).
Proof.
  intros H. apply gle_each. intros key _. rewrite !hm_get_map.
  destruct (hm_get key l) as [x|] eqn:Ek; cbn [option_map]; [|apply gle_refl].
  apply gle_bind; [apply w_string_mends|]. intros _. apply H. apply hm_get_some in Ek. exact (in_map snd _ _ Ek).
Qed.
Lemma w_with_mends id vs sv1 sv2 : gle sv1 sv2 -> gle (s_with M1 id vs sv1) (s_with M2 id vs sv2).
Proof.
  intros H. apply gle_bind; [apply w_ilint_mends|]. intros _. apply gle_bind; [|intros _; exact H].
  destruct (is_implicit_tag id); [apply gle_refl|apply w_ilint_mends].
Qed.
Lemma w_both_mends : (forall t, gle (a_serialize M1 t) (a_serialize M2 t)) /\ (forall v, gle (a_serialize_value M1 v) (a_serialize_value M2 v)).
Proof.
  apply value_induction.
  - intros v IH. rewrite Forall_forall in IH.
    destruct v; cbn [a_serialize_value children] in *; try apply gle_refl; try apply w_uint_mends; try apply w_sint_mends;
      try apply w_bytes_mends; try apply w_ilint_mends; try apply w_silint_mends.
    + apply gle_bind; [apply w_sint_mends|]. intros _. apply w_bytes_mends.
    + apply gle_bind; [apply w_ilint_mends|]. intros _. apply gle_each. intros; apply w_ilint_mends.
    + now apply gle_each.
    + apply gle_bind; [apply w_ilint_mends|]. intros _. now apply gle_each.
    + apply gle_bind; [apply w_ilint_mends|]. intros _. apply w_uint_mends.
    + apply gle_each. intros; apply w_sint_mends.
    + apply gle_bind; [apply w_ilint_mends|]. intros _. apply gle_each. intros; apply w_ilint_mends.
    + apply gle_bind; [apply w_ilint_mends|]. intros _. now apply w_dict_mends.
    + apply gle_bind; [apply w_ilint_mends|]. intros _. apply gle_each. intros key _.
      destruct (hm_get key l); [|apply gle_refl]. apply gle_bind; [apply w_string_mends|]. intros _. apply w_string_mends.
  - intros id v H. exact (w_with_mends id (value_size v) _ _ H).
Qed.
Lemma w_object_mends {T} (U : user_impl T) us1 us2 t : (forall x, gle (us1 x) (us2 x)) -> gle (s_object M1 U us1 t) (s_object M2 U us2 t).
Proof.
  intros Hu. induction t as [id v|x|id l IH|id l IH|id l IH] using otag_induction; cbn [s_object].
  - apply w_with_mends, (proj2 w_both_mends).
  - apply Hu.
  - apply w_with_mends, gle_each. now apply Forall_forall.
  - apply w_with_mends, gle_bind; [apply w_ilint_mends|]. intros _. apply gle_each. now apply Forall_forall.
  - cbv zeta. apply w_with_mends, gle_bind; [apply w_ilint_mends|]. intros _. apply w_dict_mends.
    intros x Hx. apply in_map_iff in Hx as (e & <- & He). rewrite Forall_forall in IH. exact (IH e He).
Qed.
Lemma s_after_mends {E} (x : res E unit) (g1 g2 : res E unit -> W -> res tag_error unit * W) u :
  (forall x, gle (g1 x) (g2 x)) -> returns (fst (s_after x g1 u)) -> s_after x g2 u = s_after x g1 u.
Proof. intros H. destruct x; cbn [s_after]; auto; apply H. Qed.
Lemma sexec_mends {I} (own1 own2 : I -> W -> res tag_error unit * W) other1 other2 (p1 p2 : sprog I) : smends p1 p2 ->
  (forall t, gle (own1 t) (own2 t)) -> (forall t, gle (other1 t) (other2 t)) -> gle (sexec M1 own1 other1 p1) (sexec M2 own2 other2 p2).
Proof.
  intros Hm Ho Hr. induction Hm as [p|e|b k1 k2 _ IH|bs k1 k2 _ IH|t k1 k2 _ IH|w t k1 k2 _ IH]; intros u; cbn [sexec].
  - intros [].
  - destruct e; reflexivity.
  - pose proof (proj1 HM b u) as K. destruct (u_write M1 b u) as [x u']. cbn [fst] in K. intros Q.
    rewrite K by (destruct x; cbn [s_after fst returns] in *; exact Q || exact Logic.I). now apply s_after_mends.
  - pose proof (proj2 HM bs u) as K. destruct (u_write_all M1 bs u) as [x u']. cbn [fst] in K. intros Q.
    rewrite K by (destruct x; cbn [s_after fst returns] in *; exact Q || exact Logic.I). now apply s_after_mends.
  - pose proof (Ho t u) as K. destruct (own1 t u) as [x u']. cbn [fst] in K. intros Q.
    rewrite K by (destruct x; cbn [s_after fst returns] in *; exact Q || exact Logic.I). now apply s_after_mends.
  - pose proof (Hr t w) as K. destruct (other1 t w) as [x w']. cbn [fst] in K. intros Q.
    rewrite K by (destruct x; cbn [s_after fst returns] in *; exact Q || exact Logic.I). apply s_after_mends; [|exact Q]. intros y. apply IH.
Qed.
End Writers.
Lemma s_serialize_mends {T} (U : user_impl T) (P1 P2 : sscript T) : (forall x, smends (P1 x) (P2 x)) -> forall f W (M1 M2 : writer_impl W),
  writer_mends M1 M2 -> forall t, gle (s_serialize U P1 f W M1 t) (s_serialize U P2 f W M2 t).
Proof.
  intros HP. induction f as [|f IH]; intros W M1 M2 HM t; [intros u []|]. cbn [s_serialize].
  apply w_object_mends; [exact HM|]. intros x. apply sexec_mends; [exact HM|apply HP|now apply IH|].
  apply IH. split; intros; reflexivity.
Qed.

(** ** User types with arbitrary code *)
Section Types.
Context {T : Type} (U1 U2 : user_impl T) (e : engine).
Hypothesis HU : types_mend U1 U2.
Lemma t_fuel_mends f : rle False (o_deserialize_fuel U1 f e) (o_deserialize_fuel U2 f e).
Proof.
  destruct HU as (Hc & _ & _ & _ & Hd). induction f as [|f IH]; [intros r []|].
  apply o_fuel_mends; [exact Hc|exact IH|]. intros n s r. apply Hd. exact IH.
Qed.
Lemma t_into_mends : tle (o_deserialize_into U1 e) (o_deserialize_into U2 e).
Proof.
  destruct HU as (Hc & _ & _ & _ & Hd). intros r t. unfold o_deserialize_into.
  replace (o_id U2 t) with (o_id U1 t) by (destruct t; cbn [o_id]; auto using (ids_mend U1 U2 Hc)).
  destruct (deserialize_ilint r) as [[id|err| |] r1]; try reflexivity. destruct (negb _); [reflexivity|].
  destruct (deserialize_tag_size id r1) as [[n|err| |] r2]; try reflexivity.
  apply (value_into_le False U1 U2); [exact (ids_mend U1 U2 Hc)|apply t_fuel_mends|]. intros k s q. apply Hd. apply t_fuel_mends.
Qed.
Lemma t_from_bytes_mends raw : returns (o_from_bytes U1 e raw) -> o_from_bytes U2 e raw = o_from_bytes U1 e raw.
Proof.
  unfold o_from_bytes, o_deserialize. pose proof (t_fuel_mends (S (left (ByteArrayReader_new raw))) (ByteArrayReader_new raw)) as K.
  destruct (o_deserialize_fuel U1 _ e _) as [x r']. cbn [fst] in K.
  destruct x as [t|er| |]; intros Q; try contradiction; rewrite K by exact Logic.I; reflexivity.
Qed.
Lemma t_sizes t : o_size U2 t = o_size U1 t.
Proof.
  destruct HU as (_ & Hs & _).
  assert (Fold : forall A (f g : A -> N) l, Forall (fun a => f a = g a) l -> forall z, fold_left (fun acc a => acc + f a) l z = fold_left (fun acc a => acc + g a) l z).
  { intros A f g l H. induction H as [|a l E _ IH]; intros z; cbn [fold_left]; [reflexivity|]. rewrite E. apply IH. }
  induction t as [id v|x|id l IH|id l IH|id l IH] using otag_induction; cbn [o_size]; try reflexivity; try apply Hs.
  - f_equal. now apply Fold.
  - f_equal. f_equal. now apply Fold.
  - f_equal. f_equal. apply Fold. eapply Forall_impl; [|exact IH]. cbn beta. intros a ->. reflexivity.
Qed.
Lemma t_serialize_mends t : gle (o_serialize U1 t) (o_serialize U2 t).
Proof.
  assert (Is : forall l, items_size U2 l = items_size U1 l).
  { intros l. unfold items_size. generalize 0. induction l as [|a l IH]; intros z; cbn [fold_left]; [reflexivity|]. rewrite t_sizes. apply IH. }
  assert (Es : forall l, entries_size U2 l = entries_size U1 l).
  { intros l. unfold entries_size. generalize 0. induction l as [|a l IH]; intros z; cbn [fold_left]; [reflexivity|]. rewrite t_sizes. apply IH. }
  assert (With : forall id vs sv1 sv2, gle sv1 sv2 -> gle (serialize_with id vs sv1) (serialize_with id vs sv2)).
  { intros id vs sv1 sv2 H. apply gle_bind; [apply gle_refl|]. intros _. apply gle_bind; [apply gle_refl|]. intros _. exact H. }
  destruct HU as (_ & _ & Hser & _).
  induction t as [id v|x|id l IH|id l IH|id l IH] using otag_induction; cbn [o_serialize].
  - apply gle_refl.
  - intros w. apply Hser.
  - rewrite Is. apply With, gle_each. now apply Forall_forall.
  - rewrite Is. apply With, gle_bind; [apply gle_refl|]. intros _. apply gle_each. now apply Forall_forall.
  - cbv zeta. rewrite Es. apply With, gle_bind; [apply gle_refl|]. intros _. apply gle_each. intros key _. rewrite !hm_get_map.
    destruct (hm_get key l) as [x|] eqn:Ek; cbn [option_map]; [|apply gle_refl].
    apply gle_bind; [apply gle_refl|]. intros _. apply hm_get_some in Ek. rewrite Forall_forall in IH. exact (IH _ Ek).
Qed.
Lemma t_to_bytes_mends t : returns (o_to_bytes U1 t) -> o_to_bytes U2 t = o_to_bytes U1 t.
Proof.
  assert (K : forall m1 m2, gle m1 m2 -> returns (to_bytes_over m1) -> to_bytes_over m2 = to_bytes_over m1).
  { intros m1 m2 H. unfold to_bytes_over. pose proof (H VecWriter_new) as Q. destruct (m1 VecWriter_new) as [x w]. cbn [fst] in Q.
    destruct x as [u|er| |]; intros R; try contradiction; rewrite Q by exact Logic.I; reflexivity. }
  destruct t as [id v|x|id l|id l|id l]; unfold o_to_bytes; try (apply K, t_serialize_mends). apply HU.
Qed.
End Types.

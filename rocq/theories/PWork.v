(** The work of deserialization: C94. *)
From Verif Require Import Base BaseFacts Types Spec SpecFacts IO IOSpec IOFacts Logic ILInt ILIntFacts Data DataFacts Tags TagsFacts
  Factory FactoryFacts DecodeFacts DeserFacts EngineFacts WireFacts StableFacts FromFacts DepthFacts Any AnyFacts CostFacts PCost PTrace PAny Work WorkFacts WorkCost.

Lemma counting_ok {U} (M : reader_impl U) : impl_ok M -> impl_ok (counting M).
Proof.
  intros [Hr Ha]. constructor; cbn [counting u_read u_read_all].
  - intros [u b] x u' E. destruct (u_read M u) as [y u1] eqn:Eu. injection E as <- <-. exact (Hr _ _ _ Eu).
  - intros buff [u b] x buff' u' E. destruct (u_read_all M buff u) as [[y v] u1] eqn:Eu. injection E as <- <- <-. exact (Ha _ _ _ _ _ Eu).
Qed.
Lemma counting_run {U} (M : reader_impl U) : impl_ok M -> forall p tr p', urun (counting M) p tr p' ->
  urun M (fst p) tr (fst p') /\ snd p' = snd p + lenN (bytes_of tr).
Proof.
  intros [Hr Ha] p tr p' H. induction H as [p|[u b] c p1 tr p2 E _ [I1 I2]|[u b] i p1 tr p2 E _ [I1 I2]
    |[u b] buff bs p1 tr p2 E _ [I1 I2]|[u b] buff i bs p1 tr p2 E _ [I1 I2]]; cbn [counting u_read u_read_all fst snd] in *.
  - split; [constructor|]. cbn. lia.
  - destruct (u_read M u) as [y u1] eqn:Eu. injection E as -> <-. cbn [fst snd is_ok] in *. split; [econstructor; eauto|].
    rewrite I2. change (bytes_of (CRead (inr c) :: tr)) with ([c] ++ bytes_of tr). rewrite lenN_app, lenN_cons, lenN_nil. lia.
  - destruct (u_read M u) as [y u1] eqn:Eu. injection E as -> <-. cbn [fst snd is_ok] in *. split; [econstructor; eauto|exact I2].
  - destruct (u_read_all M buff u) as [[y v] u1] eqn:Eu. injection E as -> -> <-. cbn [fst snd is_ok] in *. split; [econstructor; eauto|].
    destruct (Ha _ _ _ _ _ Eu) as (_ & Hl & _). rewrite I2. change (bytes_of (CFill (lenN buff) (inr bs) :: tr)) with (bs ++ bytes_of tr).
    rewrite lenN_app. lia.
  - destruct (u_read_all M buff u) as [[y v] u1] eqn:Eu. injection E as -> -> <-. cbn [fst snd is_ok] in *. split; [econstructor; eauto|exact I2].
Qed.

(** The counters change nothing: the results, the user object and the calls that
    it gets are those of Any.v. *)
Theorem C94_counts_only : forall U (M : reader_impl U) e u b w,
  (forall x r', w_deserialize M e (WBase u b w) = (x, r') ->
    exists u' b' w', r' = WBase u' b' w' /\ a_deserialize M e (ABase u) = (x, ABase u')) /\
  (forall t x t' r', w_deserialize_into M e (WBase u b w) t = (x, t', r') ->
    exists u' b' w', r' = WBase u' b' w' /\ a_deserialize_into M e (ABase u) t = (x, t', ABase u')).
Proof.
  intros U M e u b w.
  assert (H1 : forall u (b : N), u_read M u = let '(x, u') := u_read M u in (x, u')) by (intros; now destruct (u_read M u0)).
  assert (H2 : forall buff u (b : N), u_read_all M buff u = let '(x, v, u') := u_read_all M buff u in (x, v, u'))
    by (intros; now destruct (u_read_all M buff u0) as [[? ?] ?]).
  split.
  - intros x r' R. pose proof (sim_deserialize M M (fun u _ => u) H1 H2 e (WBase u b w)) as S. rewrite R in S. cbn [strip fst snd] in S.
    destruct (pays_deserialize M e _ _ _ R) as (L & _). destruct r' as [u' b' w'|]; cbn [layers id] in L; [|unfold id in L; cbn [layers] in L; lia].
    now exists u', b', w'.
  - intros t x t' r' R. pose proof (sim_deserialize_into M M (fun u _ => u) H1 H2 e t (WBase u b w)) as S. cbv beta in S. rewrite R in S. cbn [strip fst snd] in S.
    destruct (pays_deserialize_into M e t _ _ _ _ R) as (L & _). destruct r' as [u' b' w'|]; cbn [layers] in L; [|lia].
    now exists u', b', w'.
Qed.
Print Assumptions C94_counts_only.

(** What one call costs.  [open_for n r]: the LimitedReaders around the object, from
    the outermost on, that have [n] bytes left, up to the first that has not. *)
Fixpoint open_for {U} (n : N) (r : wreader U) : N :=
  match r with
  | WBase _ _ _ => 0
  | WLimited src avail => if n <=? avail then 1 + open_for n src else 0
  end.
Fixpoint limits {U} (r : wreader U) : list N :=
  match r with WBase _ _ _ => [] | WLimited src avail => avail :: limits src end.
Lemma tick_limits {U} (r : wreader U) : limits (w_tick r) = limits r /\ work (w_tick r) = work r + 1 /\ got (w_tick r) = got r.
Proof. induction r as [u b w|src IH a]; cbn [w_tick limits work got]; [auto|]. destruct IH as (-> & -> & ->). auto. Qed.
(** One call on each LimitedReader that lets it through, and one on the next in
    line: the object, or the LimitedReader that refuses. *)
Theorem C94_call : forall U (M : reader_impl U) r,
  (forall x r', w_read M r = (x, r') ->
     work r' = work r + open_for 1 r + 1 /\
     (is_ok x = true -> got r' = got r + 1 /\ open_for 1 r = lenN (limits r) /\ limits r' = map (fun a => a - 1) (limits r)) /\
     (is_ok x = false -> got r' = got r /\ limits r' = limits r)) /\
  (forall buff x buff' r', w_read_all M buff r = (x, buff', r') ->
     work r' = work r + open_for (lenN buff) r + 1 /\
     (is_ok x = true -> got r' = got r + lenN buff /\ open_for (lenN buff) r = lenN (limits r) /\
        limits r' = map (fun a => a - lenN buff) (limits r)) /\
     (is_ok x = false -> got r' = got r /\ limits r' = limits r)).
Proof.
  intros U M r. split.
  - induction r as [u b w|src IH a]; intros x r' E; cbn [w_read] in E.
    + destruct (u_read M u) as [y u']. injection E as <- <-. cbn [work open_for got limits map]. change (lenN (@nil N)) with 0.
      destruct (is_ok y); repeat split; intros; try discriminate; lia.
    + destruct (a <? 1) eqn:Ea.
      * injection E as <- <-. destruct (tick_limits src) as (Tl & Tw & Tg). cbn [open_for is_ok work got limits w_tick]. rewrite ?Tl, ?Tw, ?Tg.
        replace (1 <=? a) with false by lia. split; [lia|]. split; [discriminate|auto].
      * destruct (w_read M src) as [y src'] eqn:Es. injection E as <- <-. destruct (IH _ _ eq_refl) as (Hw & Ho & Hf).
        destruct (tick_limits src') as (Tl & Tw & Tg).
        cbn [open_for work got limits map]. replace (1 <=? a) with true by lia. rewrite lenN_cons, Tl, Tw, Tg, Hw. split; [lia|].
        split; intros Hx; rewrite Hx.
        -- destruct (Ho Hx) as (-> & -> & ->). repeat split; lia.
        -- destruct (Hf Hx) as (-> & ->). auto.
  - intros buff. induction r as [u b w|src IH a]; intros x buff' r' E; cbn [w_read_all] in E.
    + destruct (u_read_all M buff u) as [[y v] u']. injection E as <- <- <-. cbn [work open_for got limits map]. change (lenN (@nil N)) with 0.
      destruct (is_ok y); repeat split; intros; try discriminate; lia.
    + destruct (a <? lenN buff) eqn:Ea.
      * injection E as <- <- <-. destruct (tick_limits src) as (Tl & Tw & Tg). cbn [open_for is_ok work got limits w_tick]. rewrite ?Tl, ?Tw, ?Tg.
        replace (lenN buff <=? a) with false by lia. split; [lia|]. split; [discriminate|auto].
      * destruct (w_read_all M buff src) as [[y v] src'] eqn:Es. injection E as <- <- <-. destruct (IH _ _ _ eq_refl) as (Hw & Ho & Hf).
        destruct (tick_limits src') as (Tl & Tw & Tg).
        cbn [open_for work got limits map]. replace (lenN buff <=? a) with true by lia. rewrite lenN_cons, Tl, Tw, Tg, Hw. split; [lia|].
        split; intros Hx; rewrite Hx.
        -- destruct (Ho Hx) as (-> & -> & ->). repeat split; lia.
        -- destruct (Hf Hx) as (-> & ->). auto.
Qed.
Print Assumptions C94_call.

(** Upper bound: whatever the object does and whatever the outcome, reading [b]
    bytes takes at most [(2 * b + 1)^2] calls, those that the LimitedReaders pass
    on to each other included. *)
Theorem C94_bound : forall U (M : reader_impl U) e u x r',
  impl_ok M -> engine_ok e -> engine_total e -> w_deserialize M e (WBase u 0 0) = (x, r') ->
  exists u' b w tr, r' = WBase u' b w /\ urun M u tr u' /\ b = lenN (bytes_of tr) /\ b <= 18 + 536870912 /\
    w <= (2 * b + 1) * (2 * b + 1) /\ (is_ok x = true -> w <= 2 * b * (2 * b + 1)).
Proof.
  intros U M e u x r' HM He Ht R.
  assert (H1 : forall u b, u_read (counting M) (u, b) = let '(x, u') := u_read M u in (x, (u', if is_ok x then b + 1 else b))) by reflexivity.
  assert (H2 : forall buff u b, u_read_all (counting M) buff (u, b) =
    let '(x, v, u') := u_read_all M buff u in (x, v, (u', if is_ok x then b + lenN buff else b))) by reflexivity.
  pose proof (sim_deserialize M (counting M) pair H1 H2 e (WBase u 0 0)) as S. rewrite R in S. cbn [strip fst snd] in S.
  pose proof (pays_deserialize M e _ _ _ R) as (L & _ & _ & W & _). unfold id in *.
  destruct r' as [u' b w|]; cbn [layers got work strip] in *; [|lia].
  destruct (C69_deserialize _ _ e _ _ _ (counting_ok M HM) He Ht S) as ([u1 b1] & tr & E & Hr & _ & Hb & _). injection E as <- <-.
  destruct (counting_run M HM _ _ _ Hr) as [Hu Hc]. cbn [fst snd] in *. rewrite N.add_0_l in Hc.
  exists u', b, w, tr. split; [reflexivity|]. split; [exact Hu|]. split; [exact Hc|]. split; [lia|].
  split; [destruct (is_ok x); nia|]. intros Hx. rewrite Hx in W. nia.
Qed.
Print Assumptions C94_bound.
Theorem C94_bound_into : forall U (M : reader_impl U) e u t x t' r',
  impl_ok M -> engine_ok e -> engine_total e -> wf t -> w_deserialize_into M e (WBase u 0 0) t = (x, t', r') ->
  exists u' b w tr, r' = WBase u' b w /\ urun M u tr u' /\ b = lenN (bytes_of tr) /\ b <= 18 + 536870912 /\
    w <= (2 * b + 1) * (2 * b + 1) /\ (is_ok x = true -> w <= 2 * b * (2 * b + 1)).
Proof.
  intros U M e u t x t' r' HM He Ht Wt R.
  assert (H1 : forall u b, u_read (counting M) (u, b) = let '(x, u') := u_read M u in (x, (u', if is_ok x then b + 1 else b))) by reflexivity.
  assert (H2 : forall buff u b, u_read_all (counting M) buff (u, b) =
    let '(x, v, u') := u_read_all M buff u in (x, v, (u', if is_ok x then b + lenN buff else b))) by reflexivity.
  pose proof (sim_deserialize_into M (counting M) pair H1 H2 e t (WBase u 0 0)) as S. cbv beta in S. rewrite R in S. cbn [strip fst snd] in S.
  pose proof (pays_deserialize_into M e t _ _ _ _ R) as (L & _ & _ & W & _).
  destruct r' as [u' b w|]; cbn [layers got work strip] in *; [|lia].
  destruct (C69_deserialize_into _ _ e _ _ _ _ _ (counting_ok M HM) He Ht Wt S) as ([u1 b1] & tr & E & Hr & _ & Hb & _). injection E as <- <-.
  destruct (counting_run M HM _ _ _ Hr) as [Hu Hc]. cbn [fst snd] in *. rewrite N.add_0_l in Hc.
  exists u', b, w, tr. split; [reflexivity|]. split; [exact Hu|]. split; [exact Hc|]. split; [lia|].
  split; [destruct (is_ok x); nia|]. intros Hx. rewrite Hx in W. nia.
Qed.
Print Assumptions C94_bound_into.

(** Lower bound: each tag inside [k] others takes [2 * k + 1] calls at least. *)
Theorem C94_each_tag_costs : forall U (M : reader_impl U) e u,
  (forall t u' b w, w_deserialize M e (WBase u 0 0) = (Ok t, WBase u' b w) -> toll 0 t <= w) /\
  (forall t0 t u' b w, w_deserialize_into M e (WBase u 0 0) t0 = (Ok tt, t, WBase u' b w) -> toll 0 t <= w).
Proof.
  intros U M e u. split.
  - intros t u' b w R. destruct (deserialize_gains M e 0 (WBase u 0 0) t _ eq_refl R) as [_ W]. cbn [work] in W. lia.
  - intros t0 t u' b w R. destruct (into_gains M e t0 0 (WBase u 0 0) t _ eq_refl R) as [_ W]. cbn [work] in W. lia.
Qed.
Print Assumptions C94_each_tag_costs.

(** Exactly: a success takes the bytes and the calls that the tag costs, by its
    ids, its numbers and its nesting, in every engine whose tags have the ids they
    are created for. *)
Lemma std_truthful strict : truthful (create_std_engine strict).
Proof. intros i t E. rewrite std_create in E. apply Ok_inv in E. exact (proj1 (std_created_id _ _ _ E)). Qed.
Theorem C94_exact : forall U (M : reader_impl U) e u, impl_ok M -> truthful e ->
  (forall t u' b w, w_deserialize M e (WBase u 0 0) = (Ok t, WBase u' b w) -> costs 0 t b w) /\
  (forall t0 t u' b w, w_deserialize_into M e (WBase u 0 0) t0 = (Ok tt, t, WBase u' b w) -> costs 0 t b w).
Proof.
  intros U M e u HM He. split.
  - intros t u' b w R. destruct (deserialize_costs M HM e 0 He (WBase u 0 0) t _ eq_refl R) as (_ & b1 & c & V & W & H). unfold id in *. cbn [work moved] in *.
    replace w with c by lia. now replace b with b1 by lia.
  - intros t0 t u' b w R. destruct (into_costs M HM e t0 0 (WBase u 0 0) t _ He eq_refl R) as (b1 & c & V & W & H). cbn [work moved] in *.
    replace w with c by lia. now replace b with b1 by lia.
Qed.
Print Assumptions C94_exact.
(** A sequence with a null, a string, a range and a dictionary that repeats a key;
    ids and sizes, then each element through two more limits, each content through
    one more and those that have a limit of their own through another. *)
Example C94_exact_instance : truthful (create_std_engine true) /\
  w_deserialize queue (create_std_engine true) (WBase [22; 23; 0; 17; 2; 97; 98; 23; 4; 248; 2; 0; 7; 30; 10; 2; 17; 1; 97; 0; 17; 1; 97; 1; 1; 0] 0 0)
    = (Ok (Tag 22 (VSeq [Tag 0 VNull; Tag 17 (VString [97; 98]); Tag 23 (VRange 250 7); Tag 30 (VDict [([97], Tag 1 (VBool true))])])),
       WBase [0] 25 (2 + 3 * 1 + (3 * 2 + 4 * 1) + (3 * 2 + 5 * 3) + (3 * 2 + 5 * (1 + 3 + 3) + (5 * 1) + (5 * 1 + 6 * 1)))).
Proof. split; [apply std_truthful|vm_compute; reflexivity]. Qed.

(** With bounded nesting the work is linear after all.  [shallow d t]: no more than
    [d] sequences and arrays around anything in [t], and no dictionary of tags
    (which may have lost deep entries to a repeated key). *)
Fixpoint shallow (d : nat) (t : tag) : Prop :=
  match t with
  | Tag _ (VSeq l) | Tag _ (VArr l) => match d with O => False | Datatypes.S d' => Forall (shallow d') l end
  | Tag _ (VDict _) => False
  | Tag _ _ => True
  end.
Lemma int_bytes_calls v b : int_bytes v b -> 1 <= int_calls v <= b.
Proof. unfold int_bytes, int_calls. destruct (v <? 248); lia. Qed.
Lemma sums_le {A} (P : A -> N -> N -> Prop) K l b c : sums P l b c -> Forall (fun x => forall b c, P x b c -> c <= K * (2 * b)) l -> c <= K * (2 * b).
Proof.
  induction 1 as [|x b c l bs cs Hx _ IH]; intros F; [lia|]. inversion F as [|? ? F1 F2]; subst. specialize (IH F2). specialize (F1 _ _ Hx). lia.
Qed.
Lemma ints_le l b c : sums (fun x b (_ : N) => int_bytes x b) l b c -> total int_calls l <= b.
Proof.
  induction 1 as [|x b c l bs cs Hx _ IH]; [unfold total; cbn [fold_right]; lia|]. apply int_bytes_calls in Hx.
  unfold total in *. cbn [fold_right]. lia.
Qed.
Lemma leaf_le v b k : leaf v b k -> k <= b + 1.
Proof.
  destruct 1; try lia; try (destruct w; cbn [wbytes]; lia).
  - apply int_bytes_calls in H. lia.
  - apply int_bytes_calls in H. lia.
Qed.
Lemma boxed_le v b k : boxed v b k -> k <= b.
Proof.
  destruct 1 as [l b0 b H1 H2|l b0 b H1 H2|x y b H1]; apply int_bytes_calls in H1; try apply ints_le in H2; lia.
Qed.
Lemma str_le s b : str_bytes s b -> 2 <= b /\ str_calls s <= 2 * b.
Proof. intros (bs & H & ->). apply int_bytes_calls in H. unfold str_calls. lia. Qed.
Lemma value_le d : (forall L t b c, match d with O => False | Datatypes.S d' => shallow d' t end -> costs L t b c ->
    c <= (L + 2 * N.of_nat d + 1) * (2 * b)) ->
  forall L i v b c, shallow d (Tag i v) -> vcosts (L + 1) v b c -> c <= (L + 2 * N.of_nat d + 3) * (2 * b + 1).
Proof.
  intros IH L i v b c Hs Hc. assert (Up : forall K k n, K <= L + 2 * N.of_nat d + 3 -> k <= n -> K * k <= (L + 2 * N.of_nat d + 3) * n)
    by (intros; now apply N.mul_le_mono).
  assert (Items : forall l b c, match d with O => False | Datatypes.S d' => Forall (shallow d') l end -> sums (costs (L + 1 + 1)) l b c ->
    c <= (L + 2 * N.of_nat d + 3) * (2 * b)).
  { intros l b' c' F S. apply (sums_le _ _ _ _ _ S). destruct d as [|d']; [contradiction|]. apply (Forall_impl _ (fun t Ht b c H => IH (L + 1 + 1) t b c Ht H)) in F.
    eapply Forall_impl; [|exact F]. cbn beta. intros t H b1 c1 H1. specialize (H _ _ H1). replace (L + 2 * N.of_nat (Datatypes.S d') + 3) with (L + 1 + 1 + 2 * N.of_nat (Datatypes.S d') + 1) by lia. exact H. }
  inversion Hc; subst.
  - apply Up; [lia|]. apply leaf_le in H. lia.
  - apply Up; [lia|]. apply boxed_le in H. lia.
  - apply int_bytes_calls in H. assert (c0 <= (L + 3) * (2 * b1)).
    { apply (sums_le _ _ _ _ _ H0). apply Forall_forall. intros e _ b2 c2 [(bk & bv & Hk & Hv & ->) ->]. apply str_le in Hk, Hv.
      apply N.mul_le_mono; lia. }
    assert ((L + 3) * (2 * b1) <= (L + 2 * N.of_nat d + 3) * (2 * b1)) by (apply Up; lia).
    assert ((L + 1 + 2) * int_calls (lenN es) <= (L + 2 * N.of_nat d + 3) * b0) by (apply Up; lia). lia.
  - assert (F : match d with O => False | Datatypes.S d' => Forall (shallow d') l end) by (destruct d; exact Hs). specialize (Items l b c F H). lia.
  - assert (F : match d with O => False | Datatypes.S d' => Forall (shallow d') l end) by (destruct d; exact Hs). specialize (Items l b1 c0 F H0). apply int_bytes_calls in H.
    assert ((L + 1 + 2) * int_calls (lenN l) <= (L + 2 * N.of_nat d + 3) * b0) by (apply Up; lia). lia.
  - destruct d; contradiction.
Qed.
Lemma shallow_costs d : forall L t b c, shallow d t -> costs L t b c -> c <= (L + 2 * N.of_nat d + 3) * (2 * b).
Proof.
  assert (Header : forall K K' h hb v cv, K <= K' -> h <= hb -> 1 <= hb -> cv <= K' * (2 * v + 1) -> K * h + cv <= K' * (2 * (hb + v))).
  { intros K K' h hb v cv H1 H2 H3 H4. assert (K * h <= K' * hb) by (apply N.mul_le_mono; assumption).
    assert (K' * (2 * v + 1) <= K' * (2 * v + hb)) by (apply N.mul_le_mono_l; lia). lia. }
  assert (Step : forall d, (forall L t b c, match d with O => False | Datatypes.S d' => shallow d' t end -> costs L t b c ->
      c <= (L + 2 * N.of_nat d + 1) * (2 * b)) -> forall L t b c, shallow d t -> costs L t b c -> c <= (L + 2 * N.of_nat d + 3) * (2 * b)).
  { intros k IH L t b c Hs Hc. inversion Hc; subst.
    - apply (value_le k IH L i v _ _ Hs) in H1. apply int_bytes_calls in H0. apply Header; try lia; exact H1.
    - apply (value_le k IH L i v _ _ Hs) in H2. apply int_bytes_calls in H0, H1. apply Header; try lia; exact H2. }
  induction d as [|d IH]; apply Step; [contradiction|]. intros L t b c Hs Hc. specialize (IH L t b c Hs Hc).
  replace (L + 2 * N.of_nat (Datatypes.S d) + 1) with (L + 2 * N.of_nat d + 3) by lia. exact IH.
Qed.
Theorem C94_shallow : forall U (M : reader_impl U) e u d, impl_ok M -> truthful e ->
  (forall t u' b w, w_deserialize M e (WBase u 0 0) = (Ok t, WBase u' b w) -> shallow d t -> w <= (4 * N.of_nat d + 6) * b) /\
  (forall t0 t u' b w, w_deserialize_into M e (WBase u 0 0) t0 = (Ok tt, t, WBase u' b w) -> shallow d t -> w <= (4 * N.of_nat d + 6) * b).
Proof.
  intros U M e u d HM He. destruct (C94_exact U M e u HM He) as [H1 H2]. split.
  - intros t u' b w R Hs. pose proof (shallow_costs d _ _ _ _ Hs (H1 _ _ _ _ R)). lia.
  - intros t0 t u' b w R Hs. pose proof (shallow_costs d _ _ _ _ Hs (H2 _ _ _ _ _ R)). lia.
Qed.
Print Assumptions C94_shallow.
Example C94_shallow_instance :
  let t := Tag 22 (VSeq [Tag 0 VNull; Tag 21 (VArr [Tag 17 (VString [97; 98])])]) in
  shallow 2 t /\ ~ shallow 1 t /\
  w_deserialize queue (create_std_engine true) (WBase [22; 8; 0; 21; 5; 1; 17; 2; 97; 98] 0 0) = (Ok t, WBase [] 10 (2 + 3 + 3 * 2 + 5 * 1 + 5 * 2 + 6 * 1)).
Proof.
  cbv zeta. split; [repeat constructor|]. split; [|vm_compute; reflexivity].
  cbn [shallow]. intros F. inversion F as [|? ? _ F1]; subst. inversion F1 as [|? ? F2 _]; subst. exact F2.
Qed.

Lemma nest_toll d : forall k, toll k (nest d (Tag 0 VNull)) = (d + 1) * (2 * k + d + 1).
Proof.
  induction d as [|d IH] using N.peano_ind; intros k; [cbn [nest N.iter toll]; lia|].
  rewrite nest_succ. cbn [toll fold_right]. rewrite IH. lia.
Qed.
(** So the work is quadratic: for every depth [d] up to the greatest possible
    there is an accepted input of at most [6 * d + 1] bytes that takes [(d + 1)^2]
    calls, on every object that delivers these bytes. *)
Theorem C94_quadratic : forall strict d, d <= 90041106 -> exists bs t,
  lenN bs <= 6 * d + 1 /\ bytes_ok bs /\ from_bytes (create_std_engine strict) bs = Ok t /\
  forall U (M : reader_impl U) R u rr rest, impl_ok M -> same_answers M R -> R u rr -> rwf rr -> good rr -> pending rr = bs ++ rest ->
  exists u' b w, w_deserialize M (create_std_engine strict) (WBase u 0 0) = (Ok t, WBase u' b w) /\ (d + 1) * (d + 1) <= w.
Proof.
  intros s d L. set (t := nest d (Tag 0 VNull)). exists (enc t), t.
  split; [now apply nest_len_6|]. split; [now apply nest_bytes|].
  split; [apply from_bytes_iff; auto using std_engine_ok; [now apply nest_bytes|now apply nest_wire]|].
  intros U M R u rr rest HM HS HR W G P. destruct (w_deserialize M (create_std_engine s) (WBase u 0 0)) as [x r'] eqn:E.
  destruct (proj1 (C94_counts_only U M _ u 0 0) _ _ E) as (u' & b & w & -> & Ea). exists u', b, w.
  destruct (C71_same_answers U M R _ u rr _ _ HM HS (std_engine_ok s) (std_engine_total s) HR W Ea) as (_ & rr' & _ & Ed & _).
  destruct (deserialize_complete _ (std_engine_ok s) _ _ (nest_bytes d L) (nest_wire s d L) rr rest W G P) as (rr'' & Ed' & _).
  fold t in Ed'. rewrite Ed' in Ed. injection Ed as <- _. split; [reflexivity|].
  pose proof (proj1 (C94_each_tag_costs U M _ u) _ _ _ _ E) as H. unfold t in H. rewrite nest_toll in H. lia.
Qed.
Print Assumptions C94_quadratic.
Lemma custom_bytes bs : bytes_ok bs -> rwf (RCustom (map inr bs)) /\ good (RCustom (map inr bs)) /\ pending (RCustom (map inr bs)) = bs.
Proof.
  intros H. split; [|split].
  - induction H; constructor; assumption.
  - clear H. induction bs; constructor; [exact I|assumption].
  - clear H. cbn [pending]. induction bs as [|b bs IH]; [reflexivity|]. cbn [map IOSpec.script_bytes]. now rewrite IH.
Qed.
(** "The calls are at most [k] for each byte of the input", for any [k] up to
    twelve million. *)
Theorem C94_linear_refuted : forall strict k, k <= 12000000 -> exists bs t u' b w,
  bytes_ok bs /\ from_bytes (create_std_engine strict) bs = Ok t /\
  w_deserialize queue (create_std_engine strict) (WBase bs 0 0) = (Ok t, WBase u' b w) /\ k * lenN bs < w.
Proof.
  intros s k Hk. destruct (C94_quadratic s (7 * k)) as (bs & t & Ln & B & F & H); [lia|]. exists bs, t.
  destruct (custom_bytes bs B) as (Cw & Cg & Cp).
  destruct (H _ queue _ bs (RCustom (map inr bs)) [] queue_ok queue_same) as (u' & b & w & E & W); auto; [now rewrite app_nil_r|].
  exists u', b, w. split; [exact B|]. split; [exact F|]. split; [exact E|]. nia.
Qed.
Print Assumptions C94_linear_refuted.

(** The first levels of the quadratic growth, and one failure: the last call goes
    beyond the inner of four limits. *)
Example C94_instance :
  let calls bs := match w_deserialize queue (create_std_engine true) (WBase bs 0 0) with (x, WBase _ b w) => (is_ok x, b, w) | _ => (false, 0, 0) end in
  let nested := fix go n := match n with O => [0] | Datatypes.S k => let b := go k in 22 :: lenN b :: b end in
  map (fun n => calls (nested n)) [0; 1; 2; 3; 50]%nat = [(true, 1, 1); (true, 3, 5); (true, 5, 13); (true, 7, 25); (true, 101, 5101)] /\
  calls [22; 3; 22; 1; 17] = (false, 5, 1 + 1 + 3 + 3 + 5 + 1) /\
  toll 0 (Tag 22 (VSeq [Tag 22 (VSeq [Tag 0 VNull])])) = 9.
Proof. vm_compute. auto. Qed.

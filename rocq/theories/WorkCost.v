(** The calls of a successful deserialization, exactly: what a tag costs, and the
    proof that it is what Work.v counts. *)
From Verif Require Import Base BaseFacts Types Spec SpecFacts IO ILInt ILIntFacts Data Tags Factory FactoryFacts Any AnyFacts Work WorkFacts.

(** ** What a tag costs, from the format alone *)
(** Calls for an ILInt: the header, and the body if there is one.  It may have
    more bytes than it needs. *)
Definition int_calls (v : N) : N := if v <? 248 then 1 else 2.
Definition int_bytes (v b : N) : Prop := if v <? 248 then b = 1 else 2 <= b <= 9.
(** A string tag: its id, its size and its bytes. *)
Definition str_calls (s : list N) : N := 1 + int_calls (lenN s) + 1.
Definition str_bytes (s : list N) (b : N) : Prop := exists bs, int_bytes (lenN s) bs /\ b = 1 + bs + lenN s.
Definition total {A} (f : A -> N) (l : list A) : N := fold_right (fun x n => f x + n) 0 l.
(** [leaf v b k]: values that are read without a LimitedReader of their own; [b]
    bytes, [k] calls. *)
Inductive leaf : value -> N -> N -> Prop :=
| leaf_null : leaf VNull 0 0
| leaf_bool x : leaf (VBool x) 1 1
| leaf_uint w x : leaf (VUInt w x) (N.of_nat (wbytes w)) 1
| leaf_sint w x : leaf (VSInt w x) (N.of_nat (wbytes w)) 1
| leaf_bin32 x : leaf (VBin32 x) 4 1
| leaf_bin64 x : leaf (VBin64 x) 8 1
| leaf_bin128 x : leaf (VBin128 x) (lenN x) 1
| leaf_ilint x b : int_bytes x b -> leaf (VILInt x) b (int_calls x)
| leaf_silint z b : int_bytes (zigzag z) b -> leaf (VSILInt z) b (int_calls (zigzag z))
| leaf_raw x : leaf (VRaw x) (lenN x) 1
| leaf_bytes x : leaf (VBytes x) (lenN x) 1
| leaf_string x : leaf (VString x) (lenN x) 1
| leaf_bigint x : leaf (VBigInt x) (lenN x) 1
| leaf_bigdec z x : leaf (VBigDec z x) (4 + lenN x) 2
| leaf_version a b c d : leaf (VVersion a b c d) 16 4.
Inductive sums {A} (P : A -> N -> N -> Prop) : list A -> N -> N -> Prop :=
| sums_nil : sums P [] 0 0
| sums_cons x b c l bs cs : P x b c -> sums P l bs cs -> sums P (x :: l) (b + bs) (c + cs).
(** Those that make one, without tags in them. *)
Inductive boxed : value -> N -> N -> Prop :=
| boxed_ints l b0 b : int_bytes (lenN l) b0 -> sums (fun x b _ => int_bytes x b) l b (total int_calls l) ->
    boxed (VILIntArray l) (b0 + b) (int_calls (lenN l) + total int_calls l)
| boxed_oid l b0 b : int_bytes (lenN l) b0 -> sums (fun x b _ => int_bytes x b) l b (total int_calls l) ->
    boxed (VOID l) (b0 + b) (int_calls (lenN l) + total int_calls l)
| boxed_range x y b : int_bytes x b -> boxed (VRange x y) (b + 2) (int_calls x + 1).
Definition inserted {A} (es : list (list N * A)) : list (list N * A) :=
  fold_left (fun s e => hm_insert (fst e) (snd e) s) es [].
(** [costs L t b c]: [t], read through [L] LimitedReaders from [b] bytes, takes [c]
    calls.  Each call on the outermost is [L + 1] calls.  The size of an explicit
    tag is the bytes of its value.  The entries of a dictionary may repeat a key:
    all that are read are paid for. *)
Inductive costs : N -> tag -> N -> N -> Prop :=
| costs_implicit L i v bi b c : i < 16 -> int_bytes i bi -> vcosts (L + 1) v b c ->
    costs L (Tag i v) (bi + b) ((L + 1) * int_calls i + c)
| costs_explicit L i v bi bs b c : 16 <= i -> int_bytes i bi -> int_bytes b bs -> vcosts (L + 1) v b c ->
    costs L (Tag i v) (bi + bs + b) ((L + 1) * (int_calls i + int_calls b) + c)
with vcosts : N -> value -> N -> N -> Prop :=
| vcosts_leaf L v b k : leaf v b k -> vcosts L v b ((L + 1) * k)
| vcosts_boxed L v b k : boxed v b k -> vcosts L v b ((L + 2) * k)
| vcosts_strdict L es b0 b c : int_bytes (lenN es) b0 ->
    sums (fun e b c => (exists bk bv, str_bytes (fst e) bk /\ str_bytes (snd e) bv /\ b = bk + bv) /\
                       c = (L + 2) * (str_calls (fst e) + str_calls (snd e))) es b c ->
    vcosts L (VStrDict (inserted es)) (b0 + b) ((L + 2) * int_calls (lenN es) + c)
| vcosts_seq L l b c : sums (costs (L + 1)) l b c -> vcosts L (VSeq l) b c
| vcosts_arr L l b0 b c : int_bytes (lenN l) b0 -> sums (costs (L + 1)) l b c ->
    vcosts L (VArr l) (b0 + b) ((L + 2) * int_calls (lenN l) + c)
| vcosts_dict L es b0 b c : int_bytes (lenN es) b0 -> sums (entry_costs (L + 1)) es b c ->
    vcosts L (VDict (inserted es)) (b0 + b) ((L + 2) * int_calls (lenN es) + c)
with entry_costs : N -> list N * tag -> N -> N -> Prop :=
| entry_intro L k t bk b c : str_bytes k bk -> costs L t b c -> entry_costs L (k, t) (bk + b) ((L + 1) * str_calls k + c).

Lemma sums_ints (k : N) l b c : sums (fun x b c => int_bytes x b /\ c = k * int_calls x) l b c ->
  sums (fun x b _ => int_bytes x b) l b (total int_calls l) /\ c = k * total int_calls l.
Proof.
  induction 1 as [|x b c l bs cs [Hb ->] _ [IH ->]]; [split; [constructor|unfold total; cbn [fold_right]; lia]|].
  split; [now apply (sums_cons (fun x b _ => int_bytes x b))|]. unfold total. cbn [fold_right]. lia.
Qed.

Section Spends.
Context {U : Type} (M : reader_impl U) (HM : impl_ok M).
Notation wr := (wreader U).
(** [b] bytes delivered: every limit is lower by [b]. *)
Fixpoint moved (b : N) (r r' : wr) : Prop :=
  match r, r' with
  | WBase _ g _, WBase _ g' _ => g' = g + b
  | WLimited s a, WLimited s' a' => a' + b = a /\ moved b s s'
  | _, _ => False
  end.
Lemma moved_refl r : moved 0 r r. Proof. induction r; cbn [moved]; [lia|]. split; [lia|assumption]. Qed.
Lemma moved_trans b1 b2 r : forall r1 r2, moved b1 r r1 -> moved b2 r1 r2 -> moved (b1 + b2) r r2.
Proof.
  induction r as [u g w|s IH a]; intros [u1 g1 w1|s1 a1] [u2 g2 w2|s2 a2]; cbn [moved]; try tauto; [lia|].
  intros [H1 H2] [H3 H4]. split; [lia|eauto].
Qed.
Lemma moved_layers b r : forall r', moved b r r' -> layers r' = layers r.
Proof. induction r as [u g w|s IH a]; intros [u1 g1 w1|s1 a1]; cbn [moved layers]; try tauto. intros [_ H]. now rewrite (IH _ H). Qed.
Lemma moved_tick b r : forall r', moved b r r' -> moved b r (w_tick r').
Proof. induction r as [u g w|s IH a]; intros [u1 g1 w1|s1 a1]; cbn [moved w_tick]; try tauto. intros [H1 H2]. auto. Qed.

(** A success with [L] limits takes [b] bytes and [c] calls with [Q]. *)
Definition spends {E A St} (p : St -> wr) (L : N) (Q : St -> A -> St -> N -> N -> Prop) (m : St -> res E A * St) : Prop :=
  forall s a s', layers (p s) = L -> m s = (Ok a, s') ->
    layers (p s') = L /\ exists b c, moved b (p s) (p s') /\ work (p s') = work (p s) + c /\ Q s a s' b c.
Definition fixed {A St} (n k : N) : St -> A -> St -> N -> N -> Prop := fun _ _ _ b c => b = n /\ c = k.

Lemma sp_weaken {E A St} (p : St -> wr) L (Q Q' : St -> A -> St -> N -> N -> Prop) (m : St -> res E A * St) :
  spends p L Q m -> (forall s a s' b c, Q s a s' b c -> Q' s a s' b c) -> spends p L Q' m.
Proof. intros H K s a s' HL R. destruct (H _ _ _ HL R) as (L1 & b & c & V & W & q). eauto 8. Qed.
Lemma sp_bind {E A B St} (p : St -> wr) L Q1 Q2 (m : St -> res E A * St) (f : A -> St -> res E B * St) :
  spends p L Q1 m -> (forall a, spends p L (Q2 a) (f a)) ->
  spends p L (fun s z s' b c => exists a s1 b1 c1 b2 c2, Q1 s a s1 b1 c1 /\ Q2 a s1 z s' b2 c2 /\ b = b1 + b2 /\ c = c1 + c2) (bind m f).
Proof.
  intros Hm Hf s z s' HL R. unfold bind in R. destruct (m s) as [[a|y| |] s1] eqn:Em; try discriminate R.
  destruct (Hm _ _ _ HL Em) as (L1 & b1 & c1 & V1 & W1 & q1). destruct (Hf a _ _ _ L1 R) as (L2 & b2 & c2 & V2 & W2 & q2).
  split; [exact L2|]. exists (b1 + b2), (c1 + c2). split; [exact (moved_trans _ _ _ _ _ V1 V2)|]. split; [lia|]. exists a, s1, b1, c1, b2, c2. auto.
Qed.
Lemma sp_fixed {E A B St} (p : St -> wr) L n1 k1 n2 k2 (m : St -> res E A * St) (f : A -> St -> res E B * St) :
  spends p L (fixed n1 k1) m -> (forall a, spends p L (fixed n2 k2) (f a)) -> spends p L (fixed (n1 + n2) (k1 + k2)) (bind m f).
Proof.
  intros Hm Hf. eapply sp_weaken; [exact (sp_bind _ _ _ _ _ _ Hm Hf)|]. unfold fixed.
  intros s a s' b c (x & s1 & b1 & c1 & b2 & c2 & [-> ->] & [-> ->] & -> & ->). auto.
Qed.
Lemma sp_lift {E E' A St} (p : St -> wr) L Q (h : E -> E') (m : St -> res E A * St) : spends p L Q m -> spends p L Q (lift_err h m).
Proof.
  intros H s a s' HL R. unfold lift_err in R. destruct (m s) as [[x|x| |] s1] eqn:Em; try discriminate R.
  injection R as -> ->. exact (H _ _ _ HL Em).
Qed.
Lemma sp_stay {E A St} (p : St -> wr) L (m : St -> res E A * St) : (forall s, p (snd (m s)) = p s) -> spends p L (fixed 0 0) m.
Proof.
  intros H s a s' HL R. specialize (H s). rewrite R in H. cbn [snd] in H. rewrite H. split; [exact HL|]. exists 0, 0.
  split; [apply moved_refl|]. split; [lia|now split].
Qed.
Lemma sp_stays {E A St} (p : St -> wr) L (m : St -> res E A * St) : (forall s, snd (m s) = s) ->
  spends p L (fun s a s' b c => s' = s /\ b = 0 /\ c = 0 /\ m s = (Ok a, s)) m.
Proof.
  intros H s a s' HL R. specialize (H s). pose proof R as R'. rewrite R in H. cbn [snd] in H. subst s'.
  split; [exact HL|]. exists 0, 0. split; [apply moved_refl|]. split; [lia|auto].
Qed.
Lemma sp_modify {S} L (f : S -> S) : spends snd L (fun s _ s' b c => fst s' = f (fst s) /\ b = 0 /\ c = 0) (w_modify (U := U) f).
Proof. intros [s r] a [s' r'] HL [= <- <- <-]. split; [exact HL|]. exists 0, 0. cbn [snd fst]. split; [apply moved_refl|]. split; [lia|auto]. Qed.
Lemma sp_modify0 {S} L (f : S -> S) : spends snd L (fixed 0 0) (w_modify (U := U) f).
Proof. now apply sp_stay; intros [s r]. Qed.
Lemma sp_on_reader {S A} L (Q : A -> N -> N -> Prop) (m : wr -> res tag_error A * wr) :
  spends id L (fun _ a _ b c => Q a b c) m -> spends snd L (fun s a s' b c => fst s' = fst s /\ Q a b c) (w_on_reader (S := S) m).
Proof.
  intros H [s r] a [s' r'] HL R. cbn [w_on_reader] in R. destruct (m r) as [x r1] eqn:E. injection R as -> <- <-.
  destruct (H _ _ _ HL E) as (L1 & b & c & V & W & q). split; [exact L1|]. exists b, c. auto.
Qed.
Lemma sp_on_reader_fixed {S A} L n k (m : wr -> res tag_error A * wr) :
  spends id L (fixed n k) m -> spends snd L (fixed n k) (w_on_reader (S := S) m).
Proof. intros H. eapply sp_weaken; [exact (sp_on_reader L (fun _ b c => b = n /\ c = k) m H)|]. now intros s a s' b c [_ q]. Qed.
Lemma sp_limited {S A} L (Q : S -> A -> S -> N -> N -> Prop) n (m : wmethod S A) :
  spends snd (L + 1) (fun s a s' b c => Q (fst s) a (fst s') b c) m -> spends snd L (fun s a s' b c => Q (fst s) a (fst s') b c) (w_limited n m).
Proof.
  intros H [s r] a [s' r'] HL R. cbn [w_limited] in R. destruct (m (s, WLimited r n)) as [x [s1 r1]] eqn:E. injection R as -> <- <-.
  destruct (H (s, WLimited r n) _ _ ltac:(cbn [layers snd] in *; lia) E) as (L1 & b & c & V & W & q). cbn [snd fst work layers] in *.
  destruct r1 as [u g w|src k]; cbn [layers w_unlimit work moved] in *; [tauto|]. destruct V as [_ V]. split; [lia|]. eauto 6.
Qed.
Lemma sp_repeat {S A} L (P : A -> N -> N -> Prop) (m : wr -> res tag_error A * wr) store :
  spends id L (fun _ a _ b c => P a b c) m -> forall fuel count,
  spends snd L (fun s _ s' b c => exists xs, lenN xs = count /\ sums P xs b c /\ fst s' = fold_left (fun (s : S) x => store x s) xs (fst s))
    (w_repeat fuel m store count).
Proof.
  intros Hm. assert (Z : forall count, count = 0 -> spends snd L
    (fun s (_ : unit) s' b c => exists xs, lenN xs = count /\ sums P xs b c /\ fst s' = fold_left (fun (s : S) x => store x s) xs (fst s)) (ret (E := tag_error) tt)).
  { intros count -> s a s' HL [= <- <-]. split; [exact HL|]. exists 0, 0. split; [apply moved_refl|]. split; [lia|]. exists []. repeat split. constructor. }
  induction fuel as [|f IH]; intros count; cbn [w_repeat]; destruct (N.eqb_spec count 0) as [E|E]; auto; [intros s a s' _ [=]|].
  eapply sp_weaken; [apply (sp_bind _ _ (fun s a s' b c => fst s' = fst s /\ P a b c) (fun x s _ s' b c => exists xs, lenN xs = count - 1 /\ sums P xs b c /\ fst s' = fold_left (fun (s : S) x => store x s) xs (store x (fst s))))|].
  - exact (sp_on_reader _ _ _ Hm).
  - intros x. eapply sp_weaken; [exact (sp_bind _ _ _ _ _ _ (sp_modify _ _) (fun _ => IH (count - 1)))|].
    intros s z s' b c (? & s1 & b1 & c1 & b2 & c2 & (F & -> & ->) & (xs & Hl & Hs & Hf) & -> & ->). exists xs. rewrite F in Hf. rewrite !N.add_0_l. auto.
  - intros s z s' b c (x & s1 & b1 & c1 & b2 & c2 & [F Hx] & (xs & Hl & Hs & Hf) & -> & ->). exists (x :: xs). rewrite lenN_cons. split; [lia|].
    split; [now constructor|]. cbn [fold_left]. rewrite F in Hf. exact Hf.
Qed.
Lemma sp_while {S A} L (P : A -> N -> N -> Prop) (m : wr -> res tag_error A * wr) store :
  spends id L (fun _ a _ b c => P a b c) m -> forall fuel,
  spends snd L (fun s _ s' b c => exists xs, sums P xs b c /\ fst s' = fold_left (fun (s : S) x => store x s) xs (fst s))
    (w_while fuel m store).
Proof.
  intros Hm. induction fuel as [|f IH]; intros s a s' HL R; cbn [w_while] in R; destruct (w_empty (snd s)); try discriminate R;
    try (injection R as <- <-; split; [exact HL|]; exists 0, 0; split; [apply moved_refl|]; split; [lia|]; exists []; split; [constructor|reflexivity]).
  revert s a s' HL R. eapply sp_weaken; [apply (sp_bind _ _ (fun s a s' b c => fst s' = fst s /\ P a b c) (fun x s _ s' b c => exists xs, sums P xs b c /\ fst s' = fold_left (fun (s : S) x => store x s) xs (store x (fst s))))|].
  - exact (sp_on_reader _ _ _ Hm).
  - intros x. eapply sp_weaken; [exact (sp_bind _ _ _ _ _ _ (sp_modify _ _) (fun _ => IH))|].
    intros s z s' b c (? & s1 & b1 & c1 & b2 & c2 & (F & -> & ->) & (xs & Hs & Hf) & -> & ->). exists xs. rewrite F in Hf. rewrite !N.add_0_l. auto.
  - intros s z s' b c (x & s1 & b1 & c1 & b2 & c2 & [F Hx] & (xs & Hs & Hf) & -> & ->). exists (x :: xs).
    split; [now constructor|]. cbn [fold_left]. rewrite F in Hf. exact Hf.
Qed.
Lemma sp_fuelled {S A} L Q (m : nat -> wmethod S A) : (forall n, spends snd L Q (m n)) -> spends snd L Q (w_fuelled m).
Proof. intros H s a s' HL R. exact (H _ _ _ _ HL R). Qed.

(** *** Calls *)
Lemma read_moved (r : wr) : forall x r', w_read M r = (Ok x, r') -> moved 1 r r'.
Proof.
  induction r as [u g w|src IH n]; intros x r'; cbn [w_read].
  - destruct (u_read M u) as [y u']. intros [= -> <-]. cbn [moved is_ok]. reflexivity.
  - destruct (N.ltb_spec n 1); [discriminate|]. destruct (w_read M src) as [y src'] eqn:E. intros [= -> <-].
    cbn [is_ok w_tick moved]. split; [lia|]. apply moved_tick. eauto.
Qed.
Lemma sp_read L : spends id L (fixed 1 (L + 1)) (w_read M).
Proof.
  intros r a r' HL R. pose proof (read_all_layers M _ _ _ R) as H. pose proof (read_moved _ _ _ R) as V. unfold id in *.
  split; [rewrite (moved_layers _ _ _ V); exact HL|]. exists 1, (L + 1). split; [exact V|]. rewrite <- HL. split; [lia|now split].
Qed.
Lemma fill_calls buff (r : wr) : forall x buff' r', w_read_all M buff r = (x, buff', r') ->
  lenN buff' = lenN buff /\ (is_ok x = true -> moved (lenN buff) r r' /\ work r' = work r + layers r + 1).
Proof.
  induction r as [u g w|src IH n]; intros x buff' r'; cbn [w_read_all].
  - destruct (u_read_all M buff u) as [[y v] u'] eqn:E. intros [= <- <- <-]. destruct (io_read_all _ HM _ _ _ _ _ E) as (_ & Hl & _).
    cbn [layers work moved]. split; [exact Hl|]. intros ->. split; lia.
  - destruct (N.ltb_spec n (lenN buff)); [intros [= <- <- <-]; split; [reflexivity|discriminate]|].
    destruct (w_read_all M buff src) as [[y v] src'] eqn:E. intros [= <- <- <-]. destruct (IH _ _ _ eq_refl) as (Hb & Hw).
    cbn [layers work w_tick moved]. rewrite tick_work. split; [exact Hb|]. intros Hy. rewrite Hy. destruct (Hw Hy) as [V W].
    split; [|lia]. split; [lia|]. now apply moved_tick.
Qed.
Lemma sp_fetch L n : spends id L (fun _ bs _ b c => lenN bs = n /\ b = n /\ c = L + 1) (w_fetch M n).
Proof.
  intros r a r' HL R. unfold w_fetch in R. destruct (w_read_all M (repeatN 0 n) r) as [[x v] r1] eqn:E.
  destruct (fill_calls _ _ _ _ _ E) as (H2 & H3). destruct x; try discriminate R. injection R as <- <-. unfold id in *.
  destruct (H3 eq_refl) as [V W]. rewrite lenN_repeatN in *. split; [rewrite (moved_layers _ _ _ V); exact HL|].
  exists n, (L + 1). split; [exact V|]. split; [lia|auto].
Qed.

(** *** Values *)
Lemma body_big body v : decode_body body = Ok v -> 248 <= v < two64 /\ 1 <= lenN body <= 8.
Proof.
  unfold decode_body. destruct ((lenN body =? 0) || (8 <? lenN body)) eqn:El; [discriminate|]. cbv zeta.
  destruct (N.ltb_spec 18446744073709551367 (fold_left (fun v x => N.land (N.shiftl v 8) u64_max + x) body 0)) as [H|H]; [discriminate|].
  intros E. apply Ok_inv in E. unfold ILINT_BASE, two64 in *. lia.
Qed.
Definition int_price (L : N) (v b c : N) : Prop := int_bytes v b /\ c = (L + 1) * int_calls v.
Lemma sp_decode L : spends id L (fun _ v _ b c => v < two64 /\ int_price L v b c) (w_decode M).
Proof.
  intros r v r' HL R. unfold w_decode, bind, lift_err in R. destruct (w_read M r) as [[hd|x| |] r1] eqn:E1; try discriminate R.
  destruct (sp_read L _ _ _ HL E1) as (L1 & b1 & c1 & V1 & W1 & -> & ->). cbn [map_err] in R. cbv zeta in R. unfold id, int_price in *.
  destruct (N.eqb_spec (decoded_size hd) 1) as [D|D].
  - injection R as -> ->. split; [exact L1|]. exists 1, (L + 1). split; [exact V1|]. split; [exact W1|]. unfold decoded_size, ILINT_BASE in D. unfold int_calls, int_bytes, two64.
    destruct (N.ltb_spec v 248); repeat split; lia.
  - destruct (w_fetch M (decoded_size hd - 1) r1) as [[body|x| |] r2] eqn:E2; cbn [map_err] in R; try discriminate R.
    destruct (sp_fetch L _ _ _ _ L1 E2) as (L2 & b2 & c2 & V2 & W2 & Hn & -> & ->). unfold id in *. injection R as Hd ->. destruct (body_big _ _ Hd) as [[B1 B2] B3].
    split; [exact L2|]. exists (1 + (decoded_size hd - 1)), ((L + 1) * 2). split; [exact (moved_trans _ _ _ _ _ V1 V2)|]. split; [lia|]. split; [exact B2|].
    unfold int_calls, int_bytes. destruct (N.ltb_spec v 248); [lia|]. split; lia.
Qed.
Lemma sp_ilint L : spends id L (fun _ v _ b c => int_price L v b c) (w_ilint M).
Proof. unfold w_ilint. do 2 apply sp_lift. eapply sp_weaken; [exact (sp_decode L)|]. now intros s a s' b c [_ q]. Qed.
Lemma sp_silint L : spends id L (fun _ z _ b c => int_price L (zigzag z) b c) (w_silint M).
Proof.
  unfold w_silint. do 2 apply sp_lift. unfold w_signed_decode.
  eapply sp_weaken; [exact (sp_bind _ _ _ _ _ _ (sp_decode L) (fun a => sp_stays _ _ (ret (decode_sign a)) (fun s => eq_refl)))|].
  intros s z s' b c (v & s1 & b1 & c1 & b2 & c2 & [B q] & (-> & -> & -> & E) & -> & ->). unfold ret in E. apply pair_inv in E. destruct E as [E _]. apply Ok_inv in E. subst z.
  rewrite (proj1 (zigzag_decode_sign v B)), !N.add_0_r. exact q.
Qed.
Lemma sp_fetch1 L n : spends id L (fixed n (L + 1)) (w_fetch M n).
Proof. eapply sp_weaken; [exact (sp_fetch L n)|]. now intros s a s' b c [_ q]. Qed.
Lemma sp_then {E A B St} (p : St -> wr) L n k (m : St -> res E A * St) (f : A -> B) :
  spends p L (fixed n k) m -> spends p L (fixed n k) (x <- m ;; ret (f x)).
Proof.
  intros H. replace k with (k + 0) by lia. replace n with (n + 0) by lia. apply sp_fixed; [exact H|]. intros a. now apply sp_stay.
Qed.
Lemma sp_uint L w : spends id L (fixed (N.of_nat (wbytes w)) (L + 1)) (w_uint M w).
Proof. apply sp_lift. destruct w; try (apply sp_then, sp_fetch1). exact (sp_read L). Qed.
Lemma sp_sint L w : spends id L (fixed (N.of_nat (wbytes w)) (L + 1)) (w_sint M w).
Proof. apply sp_lift. destruct w; apply sp_then; try apply sp_fetch1. exact (sp_read L). Qed.
Lemma sp_bytes L n : spends id L (fun _ bs _ b c => lenN bs = n /\ b = n /\ c = L + 1) (w_bytes M n).
Proof. apply sp_lift, sp_fetch. Qed.
Lemma sp_slice L (buff : list N -> list N) : spends snd L (fun s _ s' b c => b = lenN (fst s') /\ lenN (fst s') = lenN (buff (fst s)) /\ c = L + 1)
  (fun '(vec, r) => let '(x, vec', r') := w_into_slice M (buff vec) r in (x, (vec', r'))).
Proof.
  intros [vec r] a [vec' r'] HL R. cbn [snd] in *. unfold w_into_slice in R. destruct (w_read_all M (buff vec) r) as [[x v] r1] eqn:E.
  destruct (fill_calls _ _ _ _ _ E) as (H2 & H3). destruct x; try discriminate R. injection R as <- <- <-. destruct (H3 eq_refl) as [V W].
  split; [rewrite (moved_layers _ _ _ V); exact HL|]. exists (lenN (buff vec)), (L + 1). cbn [fst]. split; [exact V|]. split; [lia|auto].
Qed.
Lemma sp_raw L n : spends snd L (fun _ _ s' b c => b = lenN (fst s') /\ c = L + 1) (w_raw M n).
Proof. eapply sp_weaken; [exact (sp_slice L (resizeN n 0))|]. cbn beta. intros s a s' b c (H1 & _ & H2). auto. Qed.
Lemma sp_check {S} L (b : bool) : spends (E := tag_error) snd L (fixed 0 0) (if b then fail CorruptedData else ret (S := S * wr) tt).
Proof. apply sp_stay. intros s. now destruct b. Qed.
Lemma sp_unit {S} L : spends (E := tag_error) snd L (fixed 0 0) (ret (S := S * wr) tt).
Proof. now apply sp_stay. Qed.
Lemma sp_check_size {S} L a b : spends snd L (fixed 0 0) (w_check_size (U := U) (S := S) a b).
Proof. apply sp_stay. intros s. unfold w_check_size. now destruct (a =? b). Qed.
Lemma sp_ensure {S} L e : spends snd L (fun s _ s' b c => s' = s /\ b = 0 /\ c = 0) (w_ensure_empty (U := U) (S := S) e).
Proof. eapply sp_weaken; [apply sp_stays; reflexivity|]. cbn beta. intros s a s' b c (-> & -> & -> & _). auto. Qed.
Lemma sp_set {A} L (Q : A -> N -> N -> Prop) (m : wr -> res tag_error A * wr) :
  spends id L (fun _ a _ b c => Q a b c) m -> spends snd L (fun _ _ s' b c => Q (fst s') b c) (w_set_from m).
Proof.
  intros H. eapply sp_weaken; [exact (sp_bind _ _ _ _ _ _ (sp_on_reader L Q m H) (fun x => sp_modify L (fun _ => x)))|].
  intros s a s' b c (x & s1 & b1 & c1 & b2 & c2 & [_ q] & (-> & -> & ->) & -> & ->). rewrite !N.add_0_r. exact q.
Qed.
Lemma sp_text L x : spends snd L (fun _ _ s' b c => fst s' = x /\ b = 0 /\ c = 0)
  (if from_utf8 x then w_modify (U := U) (fun _ => x) else fail CorruptedData).
Proof. destruct (from_utf8 x); [exact (sp_modify L (fun _ => x))|]. intros s a s' _ [=]. Qed.
Lemma sp_on_snd {S T A} L (Q : T -> N -> N -> Prop) (m : wmethod T A) : spends snd L (fun _ _ s' b c => Q (fst s') b c) m ->
  spends snd L (fun s _ s' b c => fst (fst s') = fst (fst s) /\ Q (snd (fst s')) b c) (w_on_snd (S := S) m).
Proof.
  intros H [[s t] r] a [[s' t'] r'] HL R. cbn [w_on_snd] in R. destruct (m (t, r)) as [x [t1 r1]] eqn:E. injection R as -> <- <- <-.
  destruct (H (t, r) _ _ HL E) as (L1 & b & c & V & W & q). cbn [fst snd] in *. split; [exact L1|]. eauto 8.
Qed.
Lemma sp_pre {E A St} (p : St -> wr) L (Q : A -> St -> N -> N -> Prop) (m : St -> res E unit * St) (k : St -> res E A * St) :
  spends p L (fixed 0 0) m -> spends p L (fun _ => Q) k -> spends p L (fun _ => Q) (m ;;; k).
Proof.
  intros Hm Hk. eapply sp_weaken; [exact (sp_bind _ _ _ _ _ _ Hm (fun _ => Hk))|].
  unfold fixed. intros s a s' b c (x & s1 & b1 & c1 & b2 & c2 & [-> ->] & q & -> & ->). rewrite !N.add_0_l. exact q.
Qed.
Lemma sp_string_tag L : spends id L (fun _ s _ b c => str_bytes s b /\ c = (L + 1) * str_calls s) (w_string_tag M).
Proof.
  intros r s r' HL R. unfold w_string_tag in R. destruct (w_string_tag_into M ([], r)) as [x [s0 r0]] eqn:E.
  destruct x; try discriminate R. injection R as -> ->. unfold w_string_tag_into in E.
  unfold bind in E at 1. cbn [w_on_reader] in E. destruct (w_ilint M r) as [[i|y| |] r1] eqn:E1; try discriminate E.
  destruct (sp_ilint L _ _ _ HL E1) as (L1 & b1 & c1 & V1 & W1 & B1 & ->). unfold bind in E at 1.
  destruct (N.eqb_spec i IL_STRING_TAG_ID) as [->|]; cbn [negb] in E; [|discriminate E]. unfold ret at 1 in E.
  unfold bind in E at 1. cbn [w_on_reader] in E. destruct (w_ilint M r1) as [[n|y| |] r2] eqn:E2; try discriminate E.
  destruct (sp_ilint L _ _ _ L1 E2) as (L2 & b2 & c2 & V2 & W2 & B2 & ->). unfold bind in E at 1.
  destruct (tag_size_to_usize n) as [n'|y| |] eqn:En; try discriminate E.
  assert (n' = n) as -> by (unfold tag_size_to_usize in En; destruct (_ <? n) in En; congruence).
  unfold bind in E at 1. cbn [w_on_reader] in E. destruct (w_bytes M n r2) as [[bs|y| |] r3] eqn:E3; try discriminate E.
  destruct (sp_bytes L _ _ _ _ L2 E3) as (L3 & b3 & c3 & V3 & W3 & Hn & -> & ->). unfold id in *.
  destruct (from_utf8 bs); [|discriminate E]. injection E as _ <- <-. split; [exact L3|]. exists (b1 + b2 + n), ((L + 1) * str_calls bs).
  split; [exact (moved_trans _ _ _ _ _ (moved_trans _ _ _ _ _ V1 V2) V3)|].
  change (b1 = 1) in B1. subst b1. unfold str_calls, str_bytes. rewrite Hn. change (int_calls IL_STRING_TAG_ID) with 1 in W1. split; [lia|]. eauto.
Qed.

(** The loop of a container: it starts empty, and what it stores is what it read. *)
Lemma sp_counted {S A} L (P : A -> N -> N -> Prop) (m : wr -> res tag_error A * wr) store (s0 : S) count :
  spends id L (fun _ a _ b c => P a b c) m ->
  spends snd L (fun _ _ s' b c => exists xs, lenN xs = count /\ sums P xs b c /\ fst s' = fold_left (fun s x => store x s) xs s0)
    (w_modify (fun _ => s0) ;;; w_fuelled (fun f => w_repeat f m store count) ;;; w_ensure_empty CorruptedData).
Proof.
  intros Hm. eapply sp_weaken.
  - exact (sp_bind _ _ _ _ _ _ (sp_modify _ _) (fun _ =>
      sp_bind _ _ _ _ _ _ (sp_fuelled _ _ _ (fun f => sp_repeat L P m store Hm f count)) (fun _ => sp_ensure L CorruptedData))).
  - intros s a s' b c (? & s1 & b1 & c1 & b2 & c2 & (F & -> & ->) & (? & s2 & b3 & c3 & b4 & c4 & (xs & Hl & Hs & Hf) & (-> & -> & ->) & -> & ->) & -> & ->). exists xs.
    rewrite F in Hf. rewrite !N.add_0_l, !N.add_0_r. auto.
Qed.
Lemma sp_with_count {S A} L (P : A -> N -> N -> Prop) (m : wr -> res tag_error A * wr) store (s0 : S) (pre : N -> wmethod S unit) :
  (forall n, spends snd L (fixed 0 0) (pre n)) -> spends id L (fun _ a _ b c => P a b c) m ->
  spends snd L (fun _ _ s' b c => exists xs b0 b' c', b = b0 + b' /\ int_bytes (lenN xs) b0 /\ c = (L + 1) * int_calls (lenN xs) + c' /\
      sums P xs b' c' /\ fst s' = fold_left (fun s x => store x s) xs s0)
    (count <- w_on_reader (w_ilint M) ;; pre count ;;; w_modify (fun _ => s0) ;;;
     w_fuelled (fun f => w_repeat f m store count) ;;; w_ensure_empty CorruptedData).
Proof.
  intros Hp Hm. eapply sp_weaken.
  - exact (sp_bind _ _ _ _ _ _ (sp_on_reader L _ _ (sp_ilint L)) (fun count =>
      sp_bind _ _ _ _ _ _ (Hp count) (fun _ => sp_counted L P m store s0 count Hm))).
  - intros s a s' b c (n & s1 & b1 & c1 & b2 & c2 & (_ & B & ->) & (? & s2 & b3 & c3 & b4 & c4 & (-> & ->) & (xs & <- & Hs & Hf) & -> & ->) & -> & ->).
    exists xs, b1, b4, c4. repeat split; auto; lia.
Qed.
Lemma sp_without {S A} L Q (m : wmethod S A) k (f : A -> wmethod S unit) :
  spends snd L Q (x <- m ;; (fun _ => ret tt) x ;;; f x) -> (forall x, k x = f x) -> spends snd L Q (x <- m ;; k x).
Proof.
  intros H K s a s' HL R. apply (H s a s' HL). unfold bind in *. destruct (m s) as [[x|e| |] s1]; try exact R. rewrite <- K. exact R.
Qed.

Lemma value_costs deser v n L (r : wr) v' r' : spends id (L + 1) (fun _ t _ b c => costs (L + 1) t b c) deser ->
  layers r = L -> w_value M deser v n r = (Ok tt, v', r') ->
  layers r' = L /\ exists b c, moved b r r' /\ work r' = work r + c /\ vcosts L v' b c.
Proof.
  intros Hd HL R.
  assert (K : forall S (m : wmethod S unit) (s : S) (mk : S -> value), spends snd L (fun _ _ s' b c => vcosts L (mk (fst s')) b c) m ->
    w_run m s mk r = (Ok tt, v', r') -> layers r' = L /\ exists b c, moved b r r' /\ work r' = work r + c /\ vcosts L v' b c).
  { intros S m s mk H E. unfold w_run in E. destruct (m (s, r)) as [x [s1 r1]] eqn:Em. injection E as -> <- <-. exact (H (s, r) _ _ HL Em). }
  assert (K1 : forall S n k (m : wmethod S unit) (s : S) (mk : S -> value), (forall s, leaf (mk s) n k) -> spends snd L (fixed n ((L + 1) * k)) m ->
    w_run m s mk r = (Ok tt, v', r') -> layers r' = L /\ exists b c, moved b r r' /\ work r' = work r + c /\ vcosts L v' b c).
  { intros S n0 k m s mk Hk H. apply K. eapply sp_weaken; [exact H|]. intros x a x' b c [-> ->]. now apply vcosts_leaf. }
  assert (K2 : forall (m : wmethod (list N) unit) s (mk : list N -> value), (forall s, leaf (mk s) (lenN s) 1) -> spends snd L (fun _ _ s' b c => b = lenN (fst s') /\ c = L + 1) m ->
    w_run m s mk r = (Ok tt, v', r') -> layers r' = L /\ exists b c, moved b r r' /\ work r' = work r + c /\ vcosts L v' b c).
  { intros m s mk Hk H. apply K. eapply sp_weaken; [exact H|]. intros x a x' b c [-> ->]. rewrite <- (N.mul_1_r (L + 1)). now apply vcosts_leaf. }
  assert (One : forall A n0 (m : wr -> res tag_error A * wr), spends id L (fixed n0 (L + 1)) m -> spends snd L (fixed n0 ((L + 1) * 1)) (w_set_from m)).
  { intros A n0 m H. rewrite N.mul_1_r. eapply sp_weaken; [exact (sp_set L (fun _ b c => b = n0 /\ c = L + 1) m H)|]. now intros. }
  assert (Chk : forall S a b n0 k (m : wmethod S unit), spends snd L (fixed n0 k) m -> spends snd L (fixed n0 k) (w_check_size a b ;;; m)).
  { intros S a b n0 k m H. exact (sp_pre _ _ _ _ _ (sp_check_size L a b) H). }
  assert (Ints : spends snd L (fun _ _ s' b c => exists b0 b', int_bytes (lenN (fst s')) b0 /\
      sums (fun x b _ => int_bytes x b) (fst s') b' (total int_calls (fst s')) /\ b = b0 + b' /\
      c = (L + 2) * (int_calls (lenN (fst s')) + total int_calls (fst s'))) (w_ilintarray M n)).
  { unfold w_ilintarray. eapply sp_weaken.
    - refine (sp_limited L (fun _ _ s' b c => exists b0 b', int_bytes (lenN s') b0 /\
        sums (fun x b _ => int_bytes x b) s' b' (total int_calls s') /\ b = b0 + b' /\ c = (L + 2) * (int_calls (lenN s') + total int_calls s')) n _ _).
      eapply sp_weaken; [exact (sp_with_count (L + 1) _ _ push [] (fun count => if n <? count then fail CorruptedData else ret tt) (fun c => sp_check _ _) (sp_ilint (L + 1)))|].
      intros s a s' b c (xs & b0 & b' & c' & -> & B & -> & Hs & Hf). rewrite fold_push in Hf. cbn [app] in Hf. rewrite Hf.
      apply sums_ints in Hs. destruct Hs as [Hs ->]. exists b0, b'. repeat split; auto; lia.
    - intros s a s' b c H. exact H. }
  destruct v; cbn [w_value] in R.
  - revert R. apply (K1 _ 0 0); [intros []; constructor|]. rewrite N.mul_0_r. apply sp_check_size.
  - revert R. apply (K1 _ 1 1); [constructor|]. apply Chk. rewrite N.mul_1_r. replace (L + 1) with (L + 1 + 0) by lia. change 1 with (1 + 0) at 1.
    apply sp_fixed; [apply sp_on_reader_fixed, (sp_uint L W8)|]. intros x. apply sp_stay. intros [s q].
    destruct (x =? 0); [reflexivity|]. now destruct (x =? 1).
  - revert R. apply (K1 _ (N.of_nat (wbytes w)) 1); [constructor|]. apply Chk, One, sp_uint.
  - revert R. apply (K1 _ (N.of_nat (wbytes w)) 1); [constructor|]. apply Chk, One, sp_sint.
  - revert R. apply (K1 _ 4 1); [constructor|]. apply Chk, One, (sp_uint L W32).
  - revert R. apply (K1 _ 8 1); [constructor|]. apply Chk, One, (sp_uint L W64).
  - revert R. apply K2; [constructor|]. apply sp_pre; [apply sp_check_size|].
    eapply sp_weaken; [exact (sp_slice L (fun x => x))|]. cbn beta. intros s a s' b c (H1 & _ & H2). auto.
  - revert R. apply K. eapply sp_weaken; [exact (sp_set L _ _ (sp_ilint L))|]. cbn beta. intros s a s' b c [B ->]. now apply vcosts_leaf; constructor.
  - revert R. apply K. eapply sp_weaken; [exact (sp_set L _ _ (sp_silint L))|]. cbn beta. intros s a s' b c [B ->]. now apply vcosts_leaf; constructor.
  - revert R. apply K2; [constructor|]. apply sp_raw.
  - revert R. apply K2; [constructor|]. apply sp_raw.
  - revert R. apply K2; [constructor|].
    eapply sp_weaken; [exact (sp_bind _ _ _ _ _ _ (sp_on_reader L _ _ (sp_bytes L n)) (sp_text L))|].
    intros s a s' b c (x & s1 & b1 & c1 & b2 & c2 & (_ & Hl & -> & ->) & (-> & -> & ->) & -> & ->). rewrite Hl. split; lia.
  - revert R. apply K2; [constructor|]. apply sp_raw.
  - revert R. apply K. eapply sp_weaken; [exact (sp_bind _ _ _ _ _ _ (sp_check L _) (fun _ =>
      sp_bind _ _ _ _ _ _ (sp_on_reader_fixed L _ _ _ (sp_sint L W32)) (fun scale =>
      sp_bind _ _ _ _ _ _ (sp_modify0 L _) (fun _ => sp_on_snd L (fun x b c => b = lenN x /\ c = L + 1) _ (sp_raw L (n - 4))))))|].
    unfold fixed. intros s a s' b c (? & s1 & b1 & c1 & b2 & c2 & [-> ->] & (x & s2 & b3 & c3 & b4 & c4 & [-> ->] & (? & s3 & b5 & c5 & b6 & c6 & [-> ->] & (_ & -> & ->) & -> & ->) & -> & ->) & -> & ->).
    replace (0 + (N.of_nat (wbytes W32) + (0 + lenN (snd (fst s'))))) with (4 + lenN (snd (fst s'))) by (change (N.of_nat (wbytes W32)) with 4; lia).
    replace (0 + (L + 1 + (0 + (L + 1)))) with ((L + 1) * 2) by lia. apply vcosts_leaf. constructor.
  - revert R. apply K. eapply sp_weaken; [exact Ints|]. cbn beta. intros s a s' b c (b0 & b' & B & Hs & -> & ->). apply vcosts_boxed. now constructor.
  - revert R. apply K. refine (sp_limited L (fun _ _ s' b c => vcosts L (VSeq s') b c) n _ _).
    eapply sp_weaken; [exact (sp_bind _ _ _ _ _ _ (sp_modify _ _) (fun _ => sp_fuelled _ _ _ (fun f => sp_while (L + 1) _ deser push Hd f)))|].
    intros s a s' b c (? & s1 & b1 & c1 & b2 & c2 & (F & -> & ->) & (xs & Hs & Hf) & -> & ->). rewrite F, fold_push in Hf. cbn [app] in Hf. rewrite Hf, !N.add_0_l.
    now apply vcosts_seq.
  - revert R. apply K. refine (sp_limited L (fun _ _ s' b c => vcosts L (VArr s') b c) n _ _).
    eapply sp_weaken; [exact (sp_with_count (L + 1) _ _ push [] (fun count => if n <? count then fail CorruptedData else ret tt) (fun c => sp_check _ _) Hd)|].
    intros s a s' b c (xs & b0 & b' & c' & -> & B & -> & Hs & Hf). rewrite fold_push in Hf. cbn [app] in Hf. rewrite Hf.
    replace (L + 1 + 1) with (L + 2) by lia. now apply vcosts_arr.
  - revert R. apply K. refine (sp_limited L (fun _ _ s' b c => vcosts L (VRange (fst s') (snd s')) b c) n _ _).
    eapply sp_weaken; [exact (sp_bind _ _ _ _ _ _ (sp_on_reader _ _ _ (sp_ilint (L + 1))) (fun start =>
      sp_bind _ _ _ _ _ _ (sp_modify _ _) (fun _ => sp_bind _ _ _ _ _ _ (sp_on_reader _ (fun _ b c => b = 2 /\ c = L + 1 + 1) _ (sp_uint (L + 1) W16)) (fun count =>
      sp_bind _ _ _ _ _ _ (sp_modify _ _) (fun _ => sp_ensure (L + 1) CorruptedData)))))|].
    intros s a s' b c (x & s1 & b1 & c1 & b2 & c2 & (F1 & B & ->) & (? & s2 & b3 & c3 & b4 & c4 & (F2 & -> & ->) & (y & s3 & b5 & c5 & b6 & c6 & (F3 & -> & ->) &
      (? & s4 & b7 & c7 & b8 & c8 & (F4 & -> & ->) & (-> & -> & ->) & -> & ->) & -> & ->) & -> & ->) & -> & ->).
    rewrite F4, F3, F2. cbn [fst snd]. replace (b1 + (0 + (2 + (0 + 0)))) with (b1 + 2) by lia.
    replace ((L + 1 + 1) * int_calls x + (0 + (L + 1 + 1 + (0 + 0)))) with ((L + 2) * (int_calls x + 1)) by lia. apply vcosts_boxed. now constructor.
  - revert R. apply (K1 _ 16 4); [intros [[[? ?] ?] ?]; constructor|]. apply Chk.
    replace ((L + 1) * 4) with (L + 1 + (0 + (L + 1 + (0 + (L + 1 + (0 + (L + 1 + 0))))))) by lia.
    change 16 with (4 + (0 + (4 + (0 + (4 + (0 + (4 + 0))))))).
    repeat (apply sp_fixed; [apply sp_on_reader_fixed, (sp_sint L W32)|intros ?]; (apply sp_modify0 || (apply sp_fixed; [apply sp_modify0|intros _]))).
  - revert R. apply K. eapply sp_weaken; [exact Ints|]. cbn beta. intros s a s' b c (b0 & b' & B & Hs & -> & ->). apply vcosts_boxed. now constructor.
  - revert R. apply K. refine (sp_limited L (fun _ _ s' b c => vcosts L (VDict s') b c) n _ _).
    unfold w_dict. eapply sp_without; [|reflexivity].
    eapply sp_weaken; [refine (sp_with_count (L + 1) (entry_costs (L + 1)) _ _ [] (fun _ => ret tt) (fun c => sp_unit _) _)|].
    + eapply sp_weaken; [exact (sp_bind _ _ _ _ _ _ (sp_string_tag (L + 1)) (fun k => sp_bind _ _ _ _ _ _ Hd (fun t => sp_stays _ _ (ret (k, t)) (fun s => eq_refl))))|].
      intros s e s' b c (k & s1 & b1 & c1 & b2 & c2 & [B ->] & (t & s2 & b3 & c3 & b4 & c4 & Ht & (_ & -> & -> & E) & -> & ->) & -> & ->). injection E as <-.
      rewrite !N.add_0_r. now constructor.
    + intros s a s' b c (xs & b0 & b' & c' & -> & B & -> & Hs & Hf). rewrite Hf. replace (L + 1 + 1) with (L + 2) by lia. exact (vcosts_dict L xs b0 b' c' B Hs).
  - revert R. apply K. refine (sp_limited L (fun _ _ s' b c => vcosts L (VStrDict s') b c) n _ _).
    unfold w_strdict. eapply sp_without; [|reflexivity].
    eapply sp_weaken; [refine (sp_with_count (L + 1) (fun e b c => (exists bk bv, str_bytes (fst e) bk /\ str_bytes (snd e) bv /\ b = bk + bv) /\
                       c = (L + 2) * (str_calls (fst e) + str_calls (snd e))) _ _ [] (fun _ => ret tt) (fun c => sp_unit _) _)|].
    + eapply sp_weaken; [exact (sp_bind _ _ _ _ _ _ (sp_string_tag (L + 1)) (fun k => sp_bind _ _ _ _ _ _ (sp_string_tag (L + 1)) (fun t => sp_stays _ _ (ret (k, t)) (fun s => eq_refl))))|].
      intros s e s' b c (k & s1 & b1 & c1 & b2 & c2 & [B1 ->] & (t & s2 & b3 & c3 & b4 & c4 & [B2 ->] & (_ & -> & -> & E) & -> & ->) & -> & ->). injection E as <-. cbn [fst snd].
      split; [exists b1, b3; repeat split; auto; lia|lia].
    + intros s a s' b c (xs & b0 & b' & c' & -> & B & -> & Hs & Hf). rewrite Hf. replace (L + 1 + 1) with (L + 2) by lia. exact (vcosts_strdict L xs b0 b' c' B Hs).
Qed.

(** *** Tags *)
Lemma value_into_costs deser n t L (r : wr) t' r' : spends id (L + 2) (fun _ t _ b c => costs (L + 2) t b c) deser ->
  layers r = L -> w_value_into M deser n t r = (Ok tt, t', r') ->
  layers r' = L /\ tag_id t' = tag_id t /\ exists b c, moved b r r' /\ work r' = work r + c /\ vcosts (L + 1) (tag_val t') b c /\ (16 <= tag_id t -> b = n).
Proof.
  intros Hd HL R. unfold w_value_into in R. destruct (w_value M deser (tag_val t) n (WLimited r n)) as [[y v] lr] eqn:E.
  injection R as Hx <- <-. destruct y as [[]|y| |]; try discriminate Hx.
  replace (L + 2) with (L + 1 + 1) in Hd by lia. assert (HL' : layers (WLimited r n) = L + 1) by (cbn [layers]; lia).
  destruct (value_costs _ _ _ (L + 1) _ _ _ Hd HL' E) as (L1 & b & c & V & W & Hv). cbn [work] in W.
  destruct lr as [u g w|src m]; cbn [layers w_unlimit work moved] in *; [tauto|]. destruct V as [Vm V]. split; [lia|]. split; [reflexivity|].
  exists b, c. repeat split; auto. intros Hi. cbn [w_empty] in Hx.
  change IL_ILINT_TAG_ID with 10 in Hx. change IL_SIGNED_ILINT_TAG_ID with 14 in Hx. cbn [tag_id] in Hx.
  destruct (N.eqb_spec (tag_id t) 10); [lia|]. destruct (N.eqb_spec (tag_id t) 14); [lia|]. destruct (N.eqb_spec m 0); [lia|discriminate Hx].
Qed.
Lemma tag_size_costs L i : spends id L (fun _ n _ b c => if i <? 16 then b = 0 /\ c = 0 else int_price L n b c) (w_tag_size M i).
Proof.
  intros r n r' HL R. unfold w_tag_size, bind in R. unfold is_implicit_tag, IMPLICIT_ID_MAX in R.
  replace (i <? 16) with (i <=? 15) by lia. destruct (i <=? 15).
  - unfold ret in R. injection R as _ <-. split; [exact HL|]. exists 0, 0. split; [apply moved_refl|]. split; [unfold id; lia|auto].
  - destruct (w_ilint M r) as [[k|y| |] r1] eqn:E; try discriminate R. destruct (sp_ilint L _ _ _ HL E) as (L1 & b & c & V & W & q).
    injection R as Hn <-. assert (k = n) as -> by (unfold tag_size_to_usize in Hn; destruct (_ <? k) in Hn; congruence). eauto 8.
Qed.
(** Header and value of a tag. *)
Lemma tag_costs L i v n b1 c1 b2 c2 b c : int_price L i b1 c1 -> (if i <? 16 then b2 = 0 /\ c2 = 0 else int_price L n b2 c2) ->
  vcosts (L + 1) v b c -> (16 <= i -> b = n) -> costs L (Tag i v) (b1 + b2 + b) (c1 + c2 + c).
Proof.
  intros [B1 ->] H2 Hv Hn. destruct (N.ltb_spec i 16) as [Hi|Hi].
  - destruct H2 as [-> ->]. rewrite !N.add_0_r. now constructor.
  - destruct H2 as [B2 ->]. specialize (Hn Hi). subst n. rewrite <- N.mul_add_distr_l. now apply costs_explicit.
Qed.
Definition truthful (e : engine) : Prop := forall i t, create_tag e i = Ok (Some t) -> tag_id t = i.
Lemma step_costs deser e L : truthful e -> (forall n, spends id (L + 2) (fun _ t _ b c => costs (L + 2) t b c) (deser n)) ->
  spends id L (fun _ t _ b c => costs L t b c) (w_deserialize_step M deser e).
Proof.
  intros He Hd r t r' HL R. unfold w_deserialize_step in R. unfold bind at 1 in R.
  destruct (w_ilint M r) as [[i|x| |] r1] eqn:E1; try discriminate R. destruct (sp_ilint L _ _ _ HL E1) as (L1 & b1 & c1 & V1 & W1 & Q1). unfold bind at 1 in R.
  destruct (w_tag_size M i r1) as [[n|x| |] r2] eqn:E2; try discriminate R. destruct (tag_size_costs L i _ _ _ L1 E2) as (L2 & b2 & c2 & V2 & W2 & Q2).
  unfold bind in R. destruct (create_tag e i) as [[t0|]|x| |] eqn:Ec; try discriminate R. apply He in Ec.
  destruct (w_value_into M (deser n) n t0 r2) as [[y t1] r3] eqn:E3. destruct y as [[]|y| |]; try discriminate R. injection R as -> ->.
  destruct (value_into_costs _ _ _ L _ _ _ (Hd n) L2 E3) as (L3 & Hi & b & c & V3 & W3 & Hv & Hn). split; [exact L3|]. unfold id in *.
  exists (b1 + b2 + b), (c1 + c2 + c). split; [exact (moved_trans _ _ _ _ _ (moved_trans _ _ _ _ _ V1 V2) V3)|]. split; [lia|].
  destruct t as [i' v]. cbn [tag_id tag_val] in *. rewrite Ec in *. subst i'. exact (tag_costs _ _ _ _ _ _ _ _ _ _ Q1 Q2 Hv Hn).
Qed.
Lemma fuel_costs e f : truthful e -> forall L, spends id L (fun _ t _ b c => costs L t b c) (w_deserialize_fuel M f e).
Proof.
  intros He. induction f as [|f IH]; intros L; cbn [w_deserialize_fuel]; [intros r t r' _ [=]|].
  apply step_costs; [exact He|]. intros _. apply IH.
Qed.
Lemma deserialize_costs e L : truthful e -> spends id L (fun _ t _ b c => costs L t b c) (w_deserialize M e).
Proof. intros He. apply step_costs; [exact He|]. intros n. now apply fuel_costs. Qed.
Lemma into_costs e t L (r : wr) t' r' : truthful e -> layers r = L -> w_deserialize_into M e r t = (Ok tt, t', r') ->
  exists b c, moved b r r' /\ work r' = work r + c /\ costs L t' b c.
Proof.
  intros He HL R. unfold w_deserialize_into in R. destruct (w_ilint M r) as [[i|x| |] r1] eqn:E1; try discriminate R.
  destruct (sp_ilint L _ _ _ HL E1) as (L1 & b1 & c1 & V1 & W1 & Q1). destruct (N.eqb_spec i (tag_id t)) as [->|]; cbn [negb] in R; [|discriminate R].
  destruct (w_tag_size M (tag_id t) r1) as [[n|x| |] r2] eqn:E2; try discriminate R. destruct (tag_size_costs L _ _ _ _ L1 E2) as (L2 & b2 & c2 & V2 & W2 & Q2).
  destruct (value_into_costs _ _ _ L _ _ _ (fuel_costs e (S (N.to_nat n)) He (L + 2)) L2 R) as (L3 & Hi & b & c & V3 & W3 & Hv & Hn). unfold id in *.
  exists (b1 + b2 + b), (c1 + c2 + c). split; [exact (moved_trans _ _ _ _ _ (moved_trans _ _ _ _ _ V1 V2) V3)|]. split; [lia|].
  destruct t' as [i' v]. cbn [tag_id tag_val] in *. subst i'. exact (tag_costs _ _ _ _ _ _ _ _ _ _ Q1 Q2 Hv Hn).
Qed.
End Spends.

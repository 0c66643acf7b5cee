(** A panic of user code is final, also when the code of the user shares state: C88. *)
From Verif Require Import Base BaseFacts Types IO ILInt Data Tags Factory Open Prog ProgFacts IntoProg OtherProg FullProg Any AnyScan AnyProg AnyFull
  AnyWriter SerProg Scanner Ctors Machine Panic PanicFacts World EngineFacts PAny WorldRead WorldReadFacts AsAny OpenFacts POpen PProg PWorldRead.

(** [wmends p1 p2]: the program [p2] does what [p1] does, up to where [p1] panics. *)
Inductive wmends {I W} : forall A, wprog I W A -> wprog I W A -> Prop :=
| WMends_abort A (p : wprog I W A) : wmends A WAbort p
| WMends_done A (a : A) : wmends A (WDone a) (WDone a)
| WMends_act A B (f : W -> B * W) k1 k2 : (forall b, wmends A (k1 b) (k2 b)) -> wmends A (WAct f k1) (WAct f k2)
| WMends_read A k1 k2 : (forall x, wmends A (k1 x) (k2 x)) -> wmends A (WRead k1) (WRead k2)
| WMends_read_all A old k1 k2 : (forall x got, wmends A (k1 x got) (k2 x got)) -> wmends A (WReadAll old k1) (WReadAll old k2)
| WMends_skip A n k1 k2 : (forall x, wmends A (k1 x) (k2 x)) -> wmends A (WSkip n k1) (WSkip n k2)
| WMends_skip64 A n k1 k2 : (forall x, wmends A (k1 x) (k2 x)) -> wmends A (WSkip64 n k1) (WSkip64 n k2)
| WMends_tag A k1 k2 : (forall x, wmends A (k1 x) (k2 x)) -> wmends A (WTag k1) (WTag k2)
| WMends_into A t k1 k2 : (forall x t', wmends A (k1 x t') (k2 x t')) -> wmends A (WInto t k1) (WInto t k2)
| WMends_limited A B n (b1 b2 : wprog I W B) k1 k2 :
    wmends B b1 b2 -> (forall b m, wmends A (k1 b m) (k2 b m)) -> wmends A (WLimited n b1 k1) (WLimited n b2 k2)
| WMends_other A M1 M2 k1 k2 : reader_mends M1 M2 -> (forall x, wmends A (k1 x) (k2 x)) -> wmends A (WOther M1 k1) (WOther M2 k2)
| WMends_other_into A M1 M2 t k1 k2 : reader_mends M1 M2 -> (forall x t', wmends A (k1 x t') (k2 x t')) -> wmends A (WOtherInto M1 t k1) (WOtherInto M2 t k2).
(** Code of the user that does what [Z1] does, up to where [Z1] panics. *)
Definition reading_mends {T W} (Z1 Z2 : reading_impl T W) : Prop :=
  (forall x u, fst (z_id Z1 x u) <> None -> z_id Z2 x u = z_id Z1 x u) /\
  (forall n x, wmends _ (z_value Z1 n x) (z_value Z2 n x)) /\
  (forall id, match z_create Z1 id, z_create Z2 id with
              | Some f1, Some f2 => forall u, fst (f1 u) <> None -> f2 u = f1 u
              | None, None => True
              | _, _ => False
              end).

Section Reading.
Context {T W : Type} (c : cfg) (Z1 Z2 : reading_impl T W) (e : engine).
Hypothesis HZ : reading_mends Z1 Z2.
Lemma on_state_mends {A} (f1 f2 : W -> option A * W) : (forall u, fst (f1 u) <> None -> f2 u = f1 u) -> gle (on_state (or_panic f1)) (on_state (or_panic f2)).
Proof.
  intros H r. unfold on_state, or_panic. specialize (H (a_state r)). destruct (f1 (a_state r)) as [[a|] u]; cbn [fst returns] in *; [|intros []].
  intros _. now rewrite H.
Qed.
Lemma w_id_mends t : gle (w_id Z1 t) (w_id Z2 t).
Proof. destruct t; cbn [w_id]; try apply gle_refl. apply on_state_mends. apply HZ. Qed.
Lemma w_check_mends t : gle (w_check Z1 t) (w_check Z2 t).
Proof.
  unfold w_check. apply gle_bind; [apply w_id_mends|]. intros i. destruct (i =? _); [apply gle_refl|].
  apply gle_bind; [apply w_id_mends|]. intros j. destruct (j =? _); apply gle_refl.
Qed.
Lemma w_create_mends id : gle (w_create Z1 e id) (w_create Z2 e id).
Proof.
  unfold w_create. destruct HZ as (_ & _ & H). specialize (H id). destruct (z_create Z1 id) as [f1|], (z_create Z2 id) as [f2|]; try contradiction.
  - apply gle_bind; [now apply on_state_mends|]. intros t. apply gle_refl.
  - apply gle_refl.
Qed.
Lemma w_exec_mends {A} M1 M2 d1 d2 i1 i2 (od1 od2 : reader_impl W -> W -> res tag_error (otag T) * W) oi1 oi2 (p1 p2 : wprog (otag T) W A) : wmends A p1 p2 ->
  reader_mends M1 M2 -> gle d1 d2 -> tle i1 i2 -> (forall N1 N2, reader_mends N1 N2 -> gle (od1 N1) (od2 N2)) ->
  (forall N1 N2 t, reader_mends N1 N2 -> forall u, returns (fst (fst (oi1 N1 t u))) -> oi2 N2 t u = oi1 N1 t u) ->
  gle (w_exec c M1 d1 i1 od1 oi1 p1) (w_exec c M2 d2 i2 od2 oi2 p2).
Proof.
  intros Hm HM H Hi Ho Hoi. induction Hm as [A p|A a|A B f k1 k2 _ IH|A k1 k2 _ IH|A old k1 k2 _ IH|A n k1 k2 _ IH|A n k1 k2 _ IH|A k1 k2 _ IH|A t k1 k2 _ IH
    |A B n b1 b2 k1 k2 _ IHb _ IH|A N1 N2 k1 k2 HN _ IH|A N1 N2 t k1 k2 HN _ IH].
  - intros r [].
  - apply gle_refl.
  - intros r. cbn [w_exec]. destruct (f (a_state r)) as [b u]. apply IH.
  - exact (a_called_mends _ _ _ _ (a_read_mends M1 M2 HM) IH).
  - intros r. cbn [w_exec]. pose proof (a_read_all_mends M1 M2 HM (u8s old) r) as K. destruct (a_read_all M1 (u8s old) r) as [[x b'] r']. cbn [fst] in K. intros Q.
    rewrite K by (destruct x; cbn [a_after fst returns] in *; exact Q || exact Logic.I). apply a_after_mends; [|exact Q]. intros y. apply IH.
  - exact (a_called_mends _ _ _ _ (a_skip_mends M1 M2 HM n) IH).
  - exact (a_called_mends _ _ _ _ (a_skip_u64_mends M1 M2 HM c n) IH).
  - exact (a_called_mends _ _ _ _ H IH).
  - intros r. cbn [w_exec]. pose proof (Hi r t) as K. destruct (i1 r t) as [[x t'] r']. cbn [fst] in K. intros Q.
    rewrite K by (destruct x; cbn [a_after fst returns] in *; exact Q || exact Logic.I). apply a_after_mends; [|exact Q]. intros y. apply IH.
  - exact (a_lim_mends n _ _ _ _ IHb IH).
  - intros r. cbn [w_exec]. pose proof (Ho _ _ HN (a_state r)) as K. destruct (od1 N1 (a_state r)) as [x u]. cbn [fst] in K. intros Q.
    rewrite K by (destruct x; cbn [a_after fst returns] in *; exact Q || exact Logic.I). apply a_after_mends; [|exact Q]. intros y. apply IH.
  - intros r. cbn [w_exec]. pose proof (Hoi _ _ t HN (a_state r)) as K. destruct (oi1 N1 t (a_state r)) as [[x t'] u]. cbn [fst] in K. intros Q.
    rewrite K by (destruct x; cbn [a_after fst returns] in *; exact Q || exact Logic.I). apply a_after_mends; [|exact Q]. intros y. apply IH.
Qed.
Lemma w_value_into_mends v1 v2 n t r : (returns (fst (fst (v1 t n (ALimited r n)))) -> v2 t n (ALimited r n) = v1 t n (ALimited r n)) ->
  returns (fst (fst (w_value_into Z1 v1 n t r))) -> w_value_into Z2 v2 n t r = w_value_into Z1 v1 n t r.
Proof.
  intros K. unfold w_value_into. destruct (v1 t n (ALimited r n)) as [[x t'] lr]. cbn [fst] in *. intros Q.
  rewrite K by (destruct x; exact Q || exact Logic.I). destruct x as [[]| | |]; try reflexivity.
  pose proof (w_check_mends t' lr) as C. destruct (w_check Z1 t' lr) as [y lr']. cbn [fst] in *. now rewrite (C Q).
Qed.
Lemma w_fuel_mends f : forall M1 M2, reader_mends M1 M2 ->
  gle (w_deserialize c Z1 e f M1) (w_deserialize c Z2 e f M2) /\ tle (w_deserialize_into c Z1 e f M1) (w_deserialize_into c Z2 e f M2).
Proof.
  unfold w_deserialize, w_deserialize_into. induction f as [|f IH]; intros M1 M2 HM; [split; [intros r []|intros r t []]|].
  destruct (IH M1 M2 HM) as [IH1 IH2]. cbn [w_fuel fst snd].
  set (od1 := fun M' u => let '(x, r) := fst (w_fuel c Z1 e f M') (ABase u) in (x, a_state r)).
  set (od2 := fun M' u => let '(x, r) := fst (w_fuel c Z2 e f M') (ABase u) in (x, a_state r)).
  set (oi1 := fun M' t u => let '(x, t', r) := snd (w_fuel c Z1 e f M') (ABase u) t in (x, t', a_state r)).
  set (oi2 := fun M' t u => let '(x, t', r) := snd (w_fuel c Z2 e f M') (ABase u) t in (x, t', a_state r)).
  assert (Ho : forall N1 N2, reader_mends N1 N2 -> gle (od1 N1) (od2 N2)).
  { intros N1 N2 HN u. unfold od1, od2. pose proof (proj1 (IH N1 N2 HN) (ABase u)) as K. destruct (fst (w_fuel c Z1 e f N1) (ABase u)) as [x r]. cbn [fst] in *. intros Q. now rewrite (K Q). }
  assert (Hoi : forall N1 N2 t, reader_mends N1 N2 -> forall u, returns (fst (fst (oi1 N1 t u))) -> oi2 N2 t u = oi1 N1 t u).
  { intros N1 N2 t HN u. unfold oi1, oi2. pose proof (proj2 (IH N1 N2 HN) (ABase u) t) as K. destruct (snd (w_fuel c Z1 e f N1) (ABase u) t) as [[x t'] r]. cbn [fst] in *. intros Q. now rewrite (K Q). }
  set (v1 := w_value_into Z1 (av_value M1 (w_user c Z1 M1 (fst (w_fuel c Z1 e f M1)) (snd (w_fuel c Z1 e f M1)) od1 oi1) (fst (w_fuel c Z1 e f M1)))).
  set (v2 := w_value_into Z2 (av_value M2 (w_user c Z2 M2 (fst (w_fuel c Z2 e f M2)) (snd (w_fuel c Z2 e f M2)) od2 oi2) (fst (w_fuel c Z2 e f M2)))).
  assert (Hv : forall n t r, returns (fst (fst (v1 n t r))) -> v2 n t r = v1 n t r).
  { intros n t r. apply w_value_into_mends. apply (av_value_mends M1 M2 HM); [|exact IH1].
    intros [x q]. unfold w_user. exact (body_mends _ _ x (w_exec_mends M1 M2 _ _ _ _ _ _ _ _ _ _ (proj1 (proj2 HZ) n x) HM IH1 IH2 Ho Hoi q)). }
  split.
  - unfold w_step. apply gle_bind; [now apply a_ilint_mends|]. intros id. apply gle_bind; [now apply a_tag_size_mends|]. intros n.
    apply gle_bind; [apply w_create_mends|]. intros [t|]; [|apply gle_refl]. intros r. pose proof (Hv n t r) as K. destruct (v1 n t r) as [[x t'] r']. cbn [fst] in *. intros Q.
    rewrite K by (destruct x; exact Q || exact Logic.I). reflexivity.
  - intros r t. unfold w_into.
    assert (K : gle (id <- a_ilint M1 ;; mine <- w_id Z1 t ;; if negb (id =? mine) then fail UnexpectedTagType else a_tag_size M1 id)
                    (id <- a_ilint M2 ;; mine <- w_id Z2 t ;; if negb (id =? mine) then fail UnexpectedTagType else a_tag_size M2 id)).
    { apply gle_bind; [now apply a_ilint_mends|]. intros id. apply gle_bind; [apply w_id_mends|]. intros mine. destruct (negb _); [apply gle_refl|now apply a_tag_size_mends]. }
    specialize (K r). destruct ((id <- a_ilint M1 ;; mine <- w_id Z1 t ;; if negb (id =? mine) then fail UnexpectedTagType else a_tag_size M1 id) r) as [x r']. cbn [fst] in K.
    destruct x as [n|er| |]; cbn [fst returns] in *; intros Q; try contradiction; rewrite K by exact Logic.I; [|reflexivity]. now apply Hv.
Qed.
End Reading.

(** C88 for readers, creators, ids and programs that share state (C92). *)
Theorem C88_shared_reading : forall T W c (Z1 Z2 : reading_impl T W) e f M1 M2, reading_mends Z1 Z2 -> reader_mends M1 M2 ->
  (forall r x r', w_deserialize c Z1 e f M1 r = (x, r') -> returns x -> w_deserialize c Z2 e f M2 r = (x, r')) /\
  (forall r t x t' r', w_deserialize_into c Z1 e f M1 r t = (x, t', r') -> returns x -> w_deserialize_into c Z2 e f M2 r t = (x, t', r')).
Proof.
  intros T W c Z1 Z2 e f M1 M2 HZ HM. destruct (w_fuel_mends c Z1 Z2 e HZ f M1 M2 HM) as [K1 K2]. split.
  - intros r x r' E R. specialize (K1 r). rewrite E in K1. now apply K1.
  - intros r t x t' r' E R. specialize (K2 r t). rewrite E in K2. now apply K2.
Qed.
Print Assumptions C88_shared_reading.

(** *** The writing side *)
(** Objects and writers that do what those of [G1] do, up to where these panic. *)
Definition world_mends {T W} (G1 G2 : world_impl T W) : Prop :=
  (forall x u, fst (g_size G1 x u) <> None -> g_size G2 x u = g_size G1 x u) /\
  (forall w x, gle (g_serialize G1 w x) (g_serialize G2 w x)) /\
  (forall x, gle (g_to_bytes G1 x) (g_to_bytes G2 x)) /\
  (forall w, writer_mends (g_writer G1 w) (g_writer G2 w)) /\
  (forall u, g_vec G2 u = g_vec G1 u) /\ (forall w u, g_into G2 w u = g_into G1 w u).

Section Writing.
Context {T W : Type} (G1 G2 : world_impl T W) (c : cfg).
Hypothesis HG : world_mends G1 G2.
Lemma w_sum_mends {A} (f1 f2 : A -> W -> res tag_error N * W) l : (forall a, In a l -> gle (f1 a) (f2 a)) -> forall acc, gle (w_sum c f1 l acc) (w_sum c f2 l acc).
Proof.
  induction l as [|a l IH]; intros H acc; cbn [w_sum]; [apply gle_refl|]. apply gle_bind; [apply H; now left|]. intros s.
  apply gle_bind; [apply gle_refl|]. intros n. apply IH. intros b Hb. apply H. now right.
Qed.
Lemma w_size_with_mends id (vs1 vs2 : W -> res tag_error N * W) : gle vs1 vs2 -> gle (w_size_with c id vs1) (w_size_with c id vs2).
Proof.
  intros H. unfold w_size_with. apply gle_bind; [|intros s; apply gle_bind; [exact H|intros; apply gle_refl]].
  destruct (is_implicit_tag id); [apply gle_refl|]. apply gle_bind; [exact H|intros; apply gle_refl].
Qed.
Lemma w_counted_mends n (vs1 vs2 : W -> res tag_error N * W) : gle vs1 vs2 -> gle (w_counted c n vs1) (w_counted c n vs2).
Proof. intros H. apply gle_bind; [exact H|intros; apply gle_refl]. Qed.
Lemma w_size_mends t : gle (w_size G1 c t) (w_size G2 c t).
Proof.
  induction t as [id v|x|id l IH|id l IH|id l IH] using otag_induction; cbn [w_size].
  - apply gle_refl.
  - intros u. unfold w_ask. destruct HG as [H _]. specialize (H x u). destruct (g_size G1 x u) as [[n|] u']; cbn [fst returns] in *; [intros _; now rewrite H|intros []].
  - apply w_size_with_mends, w_sum_mends. now apply Forall_forall.
  - apply w_size_with_mends, w_counted_mends, w_sum_mends. now apply Forall_forall.
  - apply w_size_with_mends, w_counted_mends, w_sum_mends. intros a Ha. unfold w_entry. apply gle_bind; [apply gle_refl|]. intros k.
    apply gle_bind; [rewrite Forall_forall in IH; exact (IH a Ha)|intros; apply gle_refl].
Qed.
Lemma w_with_mends' w id (vs1 vs2 : W -> res tag_error N * W) sv1 sv2 : gle vs1 vs2 -> gle sv1 sv2 -> gle (w_with G1 w id vs1 sv1) (w_with G2 w id vs2 sv2).
Proof.
  intros Hv Hs. assert (Hw : writer_mends (g_writer G1 w) (g_writer G2 w)) by apply HG.
  apply gle_bind; [now apply w_ilint_mends|]. intros _. apply gle_bind; [|intros _; exact Hs].
  destruct (is_implicit_tag id); [apply gle_refl|]. apply gle_bind; [exact Hv|]. intros n. now apply w_ilint_mends.
Qed.
Lemma w_serialize_mends w t : gle (w_serialize G1 c w t) (w_serialize G2 c w t).
Proof.
  assert (Hw : writer_mends (g_writer G1 w) (g_writer G2 w)) by apply HG.
  assert (It : forall l, gle (w_items G1 c l) (w_items G2 c l)) by (intros l; apply w_sum_mends; intros a _; apply w_size_mends).
  induction t as [id v|x|id l IH|id l IH|id l IH] using otag_induction; cbn [w_serialize].
  - now apply w_both_mends.
  - apply HG.
  - apply w_with_mends'; [apply It|]. apply gle_each. now apply Forall_forall.
  - apply w_with_mends'; [apply w_counted_mends, It|]. apply gle_bind; [now apply w_ilint_mends|]. intros _. apply gle_each. now apply Forall_forall.
  - cbv zeta. apply w_with_mends'.
    + apply w_counted_mends, w_sum_mends. intros a _. unfold w_entry. apply gle_bind; [apply gle_refl|]. intros k. apply gle_bind; [apply w_size_mends|intros; apply gle_refl].
    + apply gle_bind; [now apply w_ilint_mends|]. intros _. apply (w_dict_mends (g_writer G1 w) (g_writer G2 w) Hw).
      intros x Hx. apply in_map_iff in Hx as (en & <- & He). rewrite Forall_forall in IH. exact (IH en He).
Qed.
Lemma w_to_bytes_mends t : gle (w_to_bytes G1 c t) (w_to_bytes G2 c t).
Proof.
  assert (G : forall t, gle
    (n <- w_size G1 c t ;; pure (Vec_with_capacity c (as_usize c n)) ;;; w <- (fun u => let '(w, u') := g_vec G1 u in (Ok w, u')) ;; w_serialize G1 c w t ;;; (fun u => let '(bs, u') := g_into G1 w u in (Ok bs, u')))
    (n <- w_size G2 c t ;; pure (Vec_with_capacity c (as_usize c n)) ;;; w <- (fun u => let '(w, u') := g_vec G2 u in (Ok w, u')) ;; w_serialize G2 c w t ;;; (fun u => let '(bs, u') := g_into G2 w u in (Ok bs, u')))).
  { intros t0. apply gle_bind; [apply w_size_mends|]. intros n. apply gle_bind; [apply gle_refl|]. intros _. destruct HG as (_ & _ & _ & _ & Hv & Hi).
    apply gle_bind; [intros u _; now rewrite Hv|]. intros w. apply gle_bind; [apply w_serialize_mends|]. intros _ u _. now rewrite Hi. }
  destruct t; cbn [w_to_bytes]; try apply G. apply HG.
Qed.
Lemma w_are_equal_mends a b : gle (w_are_equal G1 c a b) (w_are_equal G2 c a b).
Proof.
  intros u. unfold w_are_equal. pose proof (w_to_bytes_mends a u) as K. destruct (w_to_bytes G1 c a u) as [x u1]. cbn [fst] in K.
  destruct x as [x|er| |]; cbn [fst returns]; intros Q; try contradiction; rewrite K by exact Logic.I; [|reflexivity].
  pose proof (w_to_bytes_mends b u1) as K2. destruct (w_to_bytes G1 c b u1) as [y u2]. cbn [fst] in K2.
  destruct y as [y|er| |]; cbn [fst returns] in *; try contradiction; rewrite K2 by exact Logic.I; reflexivity.
Qed.
End Writing.
(** C88 for objects and writers that share state (C90). *)
Theorem C88_shared_writing : forall T W c (G1 G2 : world_impl T W), world_mends G1 G2 ->
  (forall t u x u', w_size G1 c t u = (x, u') -> returns x -> w_size G2 c t u = (x, u')) /\
  (forall w t u x u', w_serialize G1 c w t u = (x, u') -> returns x -> w_serialize G2 c w t u = (x, u')) /\
  (forall t u x u', w_to_bytes G1 c t u = (x, u') -> returns x -> w_to_bytes G2 c t u = (x, u')) /\
  (forall a b u x u', w_are_equal G1 c a b u = (x, u') -> returns x -> w_are_equal G2 c a b u = (x, u')).
Proof.
  intros T W c G1 G2 HG.
  assert (K : forall A (m1 m2 : W -> res tag_error A * W), gle m1 m2 -> forall u x u', m1 u = (x, u') -> returns x -> m2 u = (x, u')).
  { intros A m1 m2 H u x u' E R. rewrite <- E. apply H. now rewrite E. }
  split; [intros t; apply K, w_size_mends, HG|]. split; [intros w t; apply K, w_serialize_mends, HG|].
  split; [intros t; apply K, w_to_bytes_mends, HG|intros a b; apply K, w_are_equal_mends, HG].
Qed.
Print Assumptions C88_shared_writing.

(** *** Downcasts *)
Definition objects_mend {W} (Q1 Q2 : object_impl W) : Prop :=
  (forall d u, fst (q_id Q1 d u) <> None -> q_id Q2 d u = q_id Q1 d u) /\
  (forall d u, fst (q_any Q1 d u) <> None -> q_any Q2 d u = q_any Q1 d u) /\
  (forall d u, fst (q_mut Q1 d u) <> None -> q_mut Q2 d u = q_mut Q1 d u) /\
  (forall n u, q_field Q2 n u = q_field Q1 n u).
(** C88 for objects whose [id], [as_any] and [as_mut_any] are any code (C91). *)
Theorem C88_downcasts : forall W (Q1 Q2 : object_impl W) k id d e, objects_mend Q1 Q2 ->
  (forall u x u', q_downcast_ref Q1 k d u = (x, u') -> returns x -> q_downcast_ref Q2 k d u = (x, u')) /\
  (forall u x u', q_downcast_mut Q1 k d u = (x, u') -> returns x -> q_downcast_mut Q2 k d u = (x, u')) /\
  (forall u x u', q_downcast_ref_with_id Q1 k id d u = (x, u') -> returns x -> q_downcast_ref_with_id Q2 k id d u = (x, u')) /\
  (forall u x u', q_downcast_mut_with_id Q1 k id d u = (x, u') -> returns x -> q_downcast_mut_with_id Q2 k id d u = (x, u')) /\
  (forall u x u', q_id_downcast_ref Q1 k id d u = (x, u') -> returns x -> q_id_downcast_ref Q2 k id d u = (x, u')) /\
  (forall u x u', q_id_downcast_mut Q1 k id d u = (x, u') -> returns x -> q_id_downcast_mut Q2 k id d u = (x, u')) /\
  (forall u x u', q_assert_or_error Q1 k id d e u = (x, u') -> returns x -> q_assert_or_error Q2 k id d e u = (x, u')) /\
  (forall u x u', q_assert Q1 k id d u = (x, u') -> returns x -> q_assert Q2 k id d u = (x, u')).
Proof.
  intros W Q1 Q2 k id d e (H1 & H2 & H3 & H4).
  assert (An : forall A (y1 y2 : option A * W), (fst y1 <> None -> y2 = y1) -> returns (fst (answer y1)) -> answer y2 = answer y1).
  { intros A [[a|] u] y2 H R; [now rewrite H|elim R]. }
  assert (Ki : gle (obj_id Q1 d) (obj_id Q2 d)) by (intros u; unfold obj_id; destruct (d_ty d); cbn [fst]; try (intros _; now rewrite H4); apply An, H1).
  assert (Ka : gle (obj_any Q1 d) (obj_any Q2 d)) by (intros u; unfold obj_any; destruct (d_ty d); try reflexivity; apply An, H2).
  assert (Km : gle (obj_mut Q1 d) (obj_mut Q2 d)) by (intros u; unfold obj_mut; destruct (d_ty d); try reflexivity; apply An, H3).
  assert (Kr : gle (q_downcast_ref Q1 k d) (q_downcast_ref Q2 k d)) by (apply gle_bind; [exact Ka|intros; apply gle_refl]).
  assert (Kt : gle (q_downcast_mut Q1 k d) (q_downcast_mut Q2 k d)) by (apply gle_bind; [exact Km|intros; apply gle_refl]).
  assert (Ke : forall e, gle (q_assert_or_error Q1 k id d e) (q_assert_or_error Q2 k id d e)).
  { intros e0. apply gle_bind; [exact Ki|]. intros i. destruct (i =? id); [|apply gle_refl]. apply gle_bind; [exact Ka|intros; apply gle_refl]. }
  assert (K : forall A (m1 m2 : W -> res tag_error A * W), gle m1 m2 -> forall u x u', m1 u = (x, u') -> returns x -> m2 u = (x, u')).
  { intros A m1 m2 H u x u' E R. rewrite <- E. apply H. now rewrite E. }
  repeat split; apply K; auto.
  - apply gle_bind; [exact Ki|]. intros i. destruct (i =? id); [|apply gle_refl]. apply gle_bind; [exact Ka|intros; apply gle_refl].
  - apply gle_bind; [exact Ki|]. intros i. destruct (i =? id); [|apply gle_refl]. apply gle_bind; [exact Km|intros; apply gle_refl].
  - apply gle_bind; [exact Ki|]. intros i. destruct (negb _); [apply gle_refl|]. apply gle_bind; [exact Kr|intros; apply gle_refl].
  - apply gle_bind; [exact Ki|]. intros i. destruct (negb _); [apply gle_refl|]. apply gle_bind; [exact Kt|intros; apply gle_refl].
  - apply Ke.
Qed.
Print Assumptions C88_downcasts.

(** *** Concrete cases *)
(** The objects of PWorldRead.v with a program that gives up, by a panic, once the
    number in the state has reached 22; [p] is what it does instead in other versions. *)
Definition nervous (p : wprog (otag N) (list N * N) (option tag_error * N)) : reading_impl N (list N * N) := {|
  z_id := z_id serial;
  z_value n x := WAct (fun u => (snd u <? 22, u)) (fun b : bool => if b then add_up (N.to_nat n) x else p);
  z_create := z_create serial |}.
Lemma wmends_refl {I W A} (p : wprog I W A) : wmends A p p.
Proof. induction p; constructor; auto; (split; intros; reflexivity). Qed.
Lemma nervous_mends p : reading_mends (nervous WAbort) (nervous p).
Proof.
  split; [reflexivity|]. split.
  - intros n x. constructor. intros [|]; [apply wmends_refl|constructor].
  - intros id. cbn [nervous z_create serial]. destruct (id =? 100); [reflexivity|exact Logic.I].
Qed.
(** The two tags are read as long as the number is small, and then every other version
    gives them too; when it gets to 22 before the second, the panic reaches the caller,
    through the sequence and the factory. *)
Example C88_shared_reading_instance :
  (forall p, w_deserialize c64 (nervous p) (create_std_engine true) 3 meter (ABase (two, 0)) = (Ok (OSeq 22 [OUser 15; OUser 27]), ABase ([], 29))) /\
  w_deserialize c64 (nervous WAbort) (create_std_engine true) 3 meter (ABase (two, 1)) = (Panic, ABase ([7], 22)) /\
  w_deserialize c64 (nervous (WDone (None, 5))) (create_std_engine true) 3 meter (ABase (two, 1)) = (Err CorruptedData, ABase ([7], 22)).
Proof.
  split; [|split; vm_compute; reflexivity]. intros p.
  apply (C88_shared_reading N _ c64 (nervous WAbort) (nervous p) (create_std_engine true) 3 meter meter (nervous_mends p) (conj (fun _ _ => eq_refl) (fun _ _ _ => eq_refl))); [|exact Logic.I].
  vm_compute. reflexivity.
Qed.
(** Objects that can be asked for their size [k] times, then panic or say [n]. *)
Definition counted (k : N) (n : option N) : world_impl unit (N * list N) := {|
  g_size _ u := (if fst u <? k then Some 1 else n, (fst u + 1, snd u));
  g_serialize _ _ u := (Ok tt, (fst u, snd u ++ [1]));
  g_to_bytes _ u := (Ok [1], u);
  g_writer _ := WriterImpl _ (fun b u => (Ok tt, (fst u, snd u ++ [b]))) (fun bs u => (Ok tt, (fst u, snd u ++ bs)));
  g_vec u := (0, (fst u, []));
  g_into _ u := (snd u, u) |}.
Lemma counted_mends k n : world_mends (counted k None) (counted k n).
Proof.
  split; [|split; [intros w x u _; reflexivity|split; [intros x u _; reflexivity|split; [intros w; split; intros; reflexivity|split; intros; reflexivity]]]].
  intros x u. cbn [counted g_size fst]. destruct (fst u <? k); [reflexivity|intros H; now elim H].
Qed.
(** A sequence asks its item twice for its own size, and once more for its header. *)
Example C88_shared_writing_instance :
  (forall n, w_to_bytes (counted 3 n) c64 (OSeq 22 [OUser tt]) (0, []) = (Ok [22; 1; 1], (3, [22; 1; 1]))) /\
  w_to_bytes (counted 2 None) c64 (OSeq 22 [OUser tt]) (0, []) = (Panic, (3, [22])) /\
  w_to_bytes (counted 2 (Some 5)) c64 (OSeq 22 [OUser tt]) (0, []) = (Ok [22; 5; 1], (3, [22; 5; 1])).
Proof.
  split; [|split; vm_compute; reflexivity]. intros n.
  apply (C88_shared_writing unit _ c64 (counted 3 None) (counted 3 n) (counted_mends 3 n)); [|exact Logic.I]. vm_compute. reflexivity.
Qed.
(** An object whose [as_any] panics the second time. *)
Definition shy (o : option dyn) : object_impl bool := {|
  q_id _ u := (Some 1000, u);
  q_any d (u : bool) := (if u then o else Some d, true);
  q_mut d u := (Some d, u);
  q_field _ _ := 17 |}.
Example C88_downcasts_instance :
  (forall o, q_assert (shy o) (TUser 7) 1000 (Dyn 50 (TUser 7)) false = (Ok tt, true)) /\
  q_id_downcast_ref (shy None) (TUser 7) 1000 (Dyn 50 (TUser 7)) true = (Panic, true).
Proof.
  split; [|reflexivity]. intros o. assert (H : objects_mend (shy None) (shy o)).
  { repeat split. intros d [|]; [intros K; now elim K|reflexivity]. }
  apply (C88_downcasts bool (shy None) (shy o) (TUser 7) 1000 (Dyn 50 (TUser 7)) CorruptedData H); [reflexivity|exact Logic.I].
Qed.

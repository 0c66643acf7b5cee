(** User objects that share state: C90. *)
From Verif Require Import Base BaseFacts Types Spec SpecFacts IO IOSpec IOFacts WriterFacts ILInt ILIntFacts
  WLogic Data DataFacts Tags SortFacts TagsFacts CallFacts AnyWriter AnyWriterFacts Scanner Ctors Machine PMachine Open OpenFacts
  OpenMachine POpenMachine World WorldFacts.

(** The size methods answer 64-bit numbers, as their type says. *)
Definition sizes_u64 {T W} (G : world_impl T W) : Prop := forall x u n u', g_size G x u = (Some n, u') -> n < two64.

(** ** The calls *)
(** [size] answers [n] exactly if the calls of the grammar, made one after the
    other from the state [u], get answers that say [n]. *)
Theorem C90_size : forall T W (G : world_impl T W) c t u n u', sizes_u64 G -> ready t ->
  (w_size G c t u = (Ok n, u') <-> exists l, ran G u l u' /\ sized (negb (overflow_checks c)) t l n).
Proof.
  intros T W G c t u n u' HU R. destruct (does_size G c HU t R) as [D _]. split.
  - intros E. exact (d_run _ _ _ _ _ D _ _ _ E).
  - intros (l & Hr & H). exact (d_back _ _ _ _ _ D _ _ _ _ Hr H).
Qed.
Print Assumptions C90_size.
(** [serialize] returns Ok exactly if those of [serial] all succeed. *)
Theorem C90_serialize : forall T W (G : world_impl T W) c w t u u', sizes_u64 G -> ready t ->
  (w_serialize G c w t u = (Ok tt, u') <-> exists l, ran G u l u' /\ serial (negb (overflow_checks c)) w t l).
Proof.
  intros T W G c w t u u' HU R. destruct (does_serialize G c HU w t R) as [D _]. split.
  - intros E. exact (d_run _ _ _ _ _ D _ _ _ E).
  - intros (l & Hr & H). exact (d_back _ _ _ _ _ D _ _ _ tt Hr H).
Qed.
Print Assumptions C90_serialize.
(** Anything else ends it early: the calls made are those of the grammar up to
    one that fails, and the failure is what [serialize] returns; or a sum of
    answers overflows, with overflow checks. *)
Theorem C90_failure : forall T W (G : world_impl T W) c w t u x u', sizes_u64 G -> ready t ->
  w_serialize G c w t u = (x, u') -> x <> Ok tt ->
  exists l, ran G u l u' /\
    ((exists l0 e g rest, l = l0 ++ [e] /\ Forall went l0 /\ outcome e x /\ same_call e g /\ serial true w t (l0 ++ g :: rest)) \/
     (x = Panic /\ overflow_checks c = true /\ Forall went l /\ exists rest, serial true w t (l ++ rest))).
Proof.
  intros T W G c w t u x u' HU R E N. destruct (does_serialize G c HU w t R) as [D _].
  destruct (d_run _ _ _ _ _ D _ _ _ E) as (l & Hr & K). exists l. split; [exact Hr|].
  assert (C : cut c (on (serial true w t)) l x) by (destruct x as [[]|e| |]; [now contradiction N|exact K..]).
  destruct C as [(l0 & e & g & rest & a & H)|(Ex & Ho & Hw & rest & a & H)]; [left|right].
  - exists l0, e, g, rest. exact H.
  - split; [exact Ex|]. split; [exact Ho|]. split; [exact Hw|]. exists rest. exact H.
Qed.
Print Assumptions C90_failure.
Theorem C90_size_failure : forall T W (G : world_impl T W) c t u x u', sizes_u64 G -> ready t ->
  w_size G c t u = (x, u') -> (forall n, x <> Ok n) ->
  exists l, ran G u l u' /\ x = Panic /\
    ((exists l0 y, l = l0 ++ [ESize y None] /\ Forall went l0) \/ (overflow_checks c = true /\ Forall went l)).
Proof.
  intros T W G c t u x u' HU R E N. destruct (does_size G c HU t R) as [D S].
  destruct (d_run _ _ _ _ _ D _ _ _ E) as (l & Hr & K). exists l. split; [exact Hr|].
  assert (C : cut c (sized true t) l x) by (destruct x as [n|e| |]; [now contradiction (N n)|exact K..]). clear K.
  assert (Only : forall t l n, sized true t l n -> Forall (fun e => exists y a, e = @ESize T y a) l).
  { clear. intros t. 
    assert (Fr : forall id (V : list (event T) -> N -> Prop), (forall l n, V l n -> Forall (fun e => exists y a, e = @ESize T y a) l) ->
      forall l n, framed true id V l n -> Forall (fun e => exists y a, e = @ESize T y a) l).
    { intros id V HV l n. unfold framed. destruct (id <=? 15); [intros (m & H & _); eauto|].
      intros (l1 & m1 & l2 & m2 & H1 & H2 & -> & _). apply Forall_app. eauto. }
    assert (Su : forall A (f : A -> list (event T) -> N -> Prop) l, Forall (fun x => forall l n, f x l n -> Forall (fun e => exists y a, e = @ESize T y a) l) l ->
      forall lg m, summed f l lg m -> Forall (fun e => exists y a, e = @ESize T y a) lg).
    { intros A f l. induction 1 as [|x l Hx _ IH]; intros lg m; cbn [summed]; [now intros [-> _]|].
      intros (l1 & n1 & l2 & n2 & H1 & H2 & -> & _). apply Forall_app. eauto. }
    induction t as [id v|x|id l IH|id l IH|id l IH] using otag_induction; intros lg n; cbn [sized].
    - now intros [-> _].
    - intros [-> _]. constructor; [eauto|constructor].
    - apply Fr. intros l' m (s & H & _). exact (Su _ _ _ IH _ _ H).
    - apply Fr. intros l' m (s & H & _). exact (Su _ _ _ IH _ _ H).
    - apply Fr. intros l' m (s & H & _). refine (Su _ _ _ _ _ _ H). eapply Forall_impl; [|exact IH].
      intros e He l1 n1 (k & Hk & _). eauto. }
  destruct C as [(l0 & e & g & rest & a & El & Hw & Ho & Hs & H)|(Ex & Ho & Hw & rest & a & H)].
  - apply Only in H. apply Forall_app in H as [_ H]. inversion H as [|? ? (y & b & ->)]; subst.
    destruct e as [z [k|]|? ? ?|? ? ?|? ?|?|? ?]; cbn [same_call outcome] in *; try contradiction.
    split; [exact Ho|]. left. eauto.
  - split; [exact Ex|]. right. auto.
Qed.
Print Assumptions C90_size_failure.

(** ** The answers decide *)
(** Two logs of the same method are equal, or the first difference is another
    answer to the same call. *)
Definition parts_at {T} (l1 l2 : list (event T)) : Prop :=
  exists a e1 e2 r1 r2, l1 = a ++ e1 :: r1 /\ l2 = a ++ e2 :: r2 /\ same_call e1 e2 /\ e1 <> e2.
Definition det {T A} (P : list (event T) -> A -> Prop) : Prop :=
  forall l1 a1 l2 a2, P l1 a1 -> P l2 a2 -> (l1 = l2 /\ a1 = a2) \/ parts_at l1 l2.
Lemma parts_app {T} (l1 l2 r1 r2 : list (event T)) : parts_at l1 l2 -> parts_at (l1 ++ r1) (l2 ++ r2).
Proof.
  intros (a & e1 & e2 & s1 & s2 & -> & -> & H). exists a, e1, e2, (s1 ++ r1), (s2 ++ r2).
  rewrite <- !app_assoc. auto.
Qed.
Lemma parts_after {T} (l r1 r2 : list (event T)) : parts_at r1 r2 -> parts_at (l ++ r1) (l ++ r2).
Proof.
  intros (a & e1 & e2 & s1 & s2 & -> & -> & H). exists (l ++ a), e1, e2, s1, s2. rewrite <- !app_assoc. auto.
Qed.
Lemma det_seq {T A B} (P : list (event T) -> A -> Prop) (P2 : A -> list (event T) -> B -> Prop) :
  det P -> (forall a, det (P2 a)) -> det (seq P P2).
Proof.
  intros H H2 l1 b1 l2 b2 (x1 & a1 & y1 & A1 & B1 & ->) (x2 & a2 & y2 & A2 & B2 & ->).
  destruct (H _ _ _ _ A1 A2) as [[-> ->]|K]; [|right; now apply parts_app].
  destruct (H2 _ _ _ _ _ B1 B2) as [[-> ->]|K]; [now left|right; now apply parts_after].
Qed.
Lemma tot_fun w a n k : tot w a n -> tot w a k -> n = k.
Proof. unfold tot. destruct w; [intros -> ->; reflexivity|intros [-> _] [-> _]; reflexivity]. Qed.
Lemma det_summed {T A} (f : A -> list (event T) -> N -> Prop) l : Forall (fun x => det (f x)) l -> det (summed f l).
Proof.
  induction 1 as [|x l Hx _ IH]; intros l1 a1 l2 a2; cbn [summed].
  - intros [-> ->] [-> ->]. now left.
  - intros (x1 & n1 & y1 & m1 & A1 & B1 & -> & ->) (x2 & n2 & y2 & m2 & A2 & B2 & -> & ->).
    destruct (Hx _ _ _ _ A1 A2) as [[-> ->]|K]; [|right; now apply parts_app].
    destruct (IH _ _ _ _ B1 B2) as [[-> ->]|K]; [now left|right; now apply parts_after].
Qed.
Lemma det_framed {T} w id (V : list (event T) -> N -> Prop) : det V -> det (framed w id V).
Proof.
  intros H l1 a1 l2 a2. unfold framed. destruct (id <=? 15).
  - intros (m1 & A1 & B1) (m2 & A2 & B2). destruct (H _ _ _ _ A1 A2) as [[-> ->]|K]; [left|now right].
    split; [reflexivity|]. eapply tot_fun; eauto.
  - intros (x1 & m1 & y1 & n1 & A1 & B1 & -> & C1) (x2 & m2 & y2 & n2 & A2 & B2 & -> & C2).
    destruct (H _ _ _ _ A1 A2) as [[-> ->]|K]; [|right; now apply parts_app].
    destruct (H _ _ _ _ B1 B2) as [[-> ->]|K]; [left|right; now apply parts_after].
    split; [reflexivity|]. eapply tot_fun; eauto.
Qed.
Lemma det_tot {T} w k (V : list (event T) -> N -> Prop) : det V -> det (fun l m => exists s, V l s /\ tot w (k + s) m).
Proof.
  intros H l1 a1 l2 a2 (s1 & A1 & B1) (s2 & A2 & B2). destruct (H _ _ _ _ A1 A2) as [[-> ->]|K]; [left|now right].
  split; [reflexivity|]. eapply tot_fun; eauto.
Qed.
Theorem C90_size_answers : forall T wrap (t : otag T), det (sized wrap t).
Proof.
  intros T wrap t. induction t as [id v|x|id l IH|id l IH|id l IH] using otag_induction.
  - intros l1 a1 l2 a2 [-> ->] [-> ->]. now left.
  - intros l1 a1 l2 a2 [-> _] [-> _]. destruct (N.eq_dec a1 a2) as [->|N]; [now left|right].
    exists [], (ESize x (Some a1)), (ESize x (Some a2)), [], []. split; [reflexivity|]. split; [reflexivity|]. split; [reflexivity|congruence].
  - cbn [sized]. apply det_framed. apply (det_tot wrap 0). now apply det_summed.
  - cbn [sized]. apply det_framed. apply det_tot. now apply det_summed.
  - cbn [sized]. apply det_framed. apply det_tot. apply det_summed. eapply Forall_impl; [|exact IH].
    intros e He l1 a1 l2 a2 (k1 & A1 & ->) (k2 & A2 & ->). destruct (He _ _ _ _ A1 A2) as [[-> ->]|K]; [now left|now right].
Qed.
Print Assumptions C90_size_answers.
Lemma det_entries {T} wrap (l : list (list N * otag T)) : det (entries_sized wrap l).
Proof.
  apply det_tot, det_summed, Forall_forall. intros e _ l1 a1 l2 a2 (k1 & A1 & ->) (k2 & A2 & ->).
  destruct (C90_size_answers _ _ _ _ _ _ _ A1 A2) as [[-> ->]|K]; [now left|now right].
Qed.
Definition det0 {T} (P : list (event T) -> Prop) : Prop := forall l1 l2, P l1 -> P l2 -> l1 = l2 \/ parts_at l1 l2.
Lemma det_headed {T} w id (V : list (event T) -> N -> Prop) B : det V -> det0 B -> det0 (headed w id V B).
Proof.
  intros HV HB l1 l2 (h1 & b1 & -> & B1 & H1) (h2 & b2 & -> & B2 & H2).
  assert (K : h1 = h2 \/ parts_at h1 h2).
  { destruct (id <=? 15); [left; congruence|]. destruct H1 as (s1 & m1 & A1 & ->). destruct H2 as (s2 & m2 & A2 & ->).
    destruct (HV _ _ _ _ A1 A2) as [[-> ->]|K]; [now left|right; now apply parts_app]. }
  destruct K as [->|K]; [|right; apply parts_after; now apply parts_app].
  destruct (HB _ _ B1 B2) as [->|K]; [now left|right; now do 2 apply parts_after].
Qed.
Lemma det_chained {T A} (f : A -> list (event T) -> Prop) l : Forall (fun x => det0 (f x)) l -> det0 (chained f l).
Proof.
  induction 1 as [|x l Hx _ IH]; intros l1 l2; cbn [chained]; [intros -> ->; now left|].
  intros (x1 & y1 & A1 & B1 & ->) (x2 & y2 & A2 & B2 & ->).
  destruct (Hx _ _ A1 A2) as [->|K]; [|right; now apply parts_app].
  destruct (IH _ _ B1 B2) as [->|K]; [now left|right; now apply parts_after].
Qed.
Lemma det_after {T} (l : list (event T)) P : det0 P -> det0 (fun l' => exists l1, P l1 /\ l' = l ++ l1).
Proof.
  intros H l1 l2 (x1 & A1 & ->) (x2 & A2 & ->). destruct (H _ _ A1 A2) as [->|K]; [now left|right; now apply parts_after].
Qed.
(** So a different call is never made without a different answer before it. *)
Theorem C90_answers : forall T wrap w (t : otag T) l1 l2, serial wrap w t l1 -> serial wrap w t l2 -> l1 = l2 \/ parts_at l1 l2.
Proof.
  intros T wrap w t. change (det0 (serial wrap w t)).
  induction t as [id v|x|id l IH|id l IH|id l IH] using otag_induction; cbn [serial].
  - intros l1 l2 -> ->. now left.
  - intros l1 l2 -> ->. now left.
  - apply det_headed; [|now apply det_chained]. apply det_tot, det_summed, Forall_forall. intros t _. apply C90_size_answers.
  - apply det_headed; [|apply det_after; now apply det_chained]. apply det_tot, det_summed, Forall_forall. intros t _. apply C90_size_answers.
  - apply det_headed; [apply det_entries|]. apply det_after. rewrite sort_entries_map. intros l1 l2 H1 H2.
    apply chained_map in H1. apply chained_map in H2. revert l1 l2 H1 H2.
    match goal with |- forall l1 l2, chained ?f ?s l1 -> chained ?f ?s l2 -> _ => change (det0 (chained f s)) end.
    apply det_chained. rewrite Forall_forall in *. intros e He. apply det_after. cbn [snd]. apply IH.
    eapply Permutation_in; [symmetry; apply sort_entries_perm|exact He].
Qed.
Print Assumptions C90_answers.

(** ** How often an object is asked *)
Definition size_calls {T} (l : list (event T)) : N := lenN (filter (fun e => match e with ESize _ _ => true | _ => false end) l).
Definition times (id n : N) : N := if id <=? 15 then n else 2 * n.
Fixpoint asks {T} (t : otag T) : N :=
  match t with
  | OStd _ _ => 0
  | OUser _ => 1
  | OSeq id l | OArr id l => times id (nsum (map asks l))
  | ODict id l => times id (nsum (map (fun e => asks (snd e)) l))
  end.
Fixpoint ser_asks {T} (t : otag T) : N :=
  match t with
  | OStd _ _ | OUser _ => 0
  | OSeq id l | OArr id l => (if id <=? 15 then 0 else nsum (map asks l)) + nsum (map ser_asks l)
  | ODict id l => (if id <=? 15 then 0 else nsum (map (fun e => asks (snd e)) l)) + nsum (map (fun e => ser_asks (snd e)) l)
  end.
Lemma size_calls_app {T} (l1 l2 : list (event T)) : size_calls (l1 ++ l2) = size_calls l1 + size_calls l2.
Proof. unfold size_calls. now rewrite filter_app, lenN_app. Qed.
Lemma size_calls_oks {T} w calls : size_calls (@oks T w calls) = 0.
Proof. unfold size_calls, oks. induction calls as [|q calls IH]; [reflexivity|]. exact IH. Qed.
Lemma summed_asks {T A} (f : A -> list (event T) -> N -> Prop) (k : A -> N) l :
  Forall (fun x => forall lg n, f x lg n -> size_calls lg = k x) l -> forall lg m, summed f l lg m -> size_calls lg = nsum (map k l).
Proof.
  induction 1 as [|x l Hx _ IH]; intros lg m; cbn [summed map nsum fold_right]; [now intros [-> _]|].
  intros (l1 & n1 & l2 & n2 & H1 & H2 & -> & _). rewrite size_calls_app, (Hx _ _ H1), (IH _ _ H2). reflexivity.
Qed.
Lemma framed_asks {T} w id (V : list (event T) -> N -> Prop) k : (forall l n, V l n -> size_calls l = k) ->
  forall l n, framed w id V l n -> size_calls l = times id k.
Proof.
  intros H l n. unfold framed, times. destruct (id <=? 15); [intros (m & A & _); eauto|].
  intros (l1 & m1 & l2 & m2 & A1 & A2 & -> & _). rewrite size_calls_app, (H _ _ A1), (H _ _ A2). lia.
Qed.
Lemma chained_asks {T A} (f : A -> list (event T) -> Prop) (k : A -> N) l :
  Forall (fun x => forall lg, f x lg -> size_calls lg = k x) l -> forall lg, chained f l lg -> size_calls lg = nsum (map k l).
Proof.
  induction 1 as [|x l Hx _ IH]; intros lg; cbn [chained map nsum fold_right]; [now intros ->|].
  intros (l1 & l2 & H1 & H2 & ->). rewrite size_calls_app, (Hx _ H1), (IH _ H2). reflexivity.
Qed.
(** Whatever the answers: [size] asks a user object once for every explicit
    container around it doubled; [serialize] asks again at every level. *)
Theorem C90_size_asks : forall T wrap (t : otag T) l n, sized wrap t l n -> size_calls l = asks t.
Proof.
  intros T wrap t. induction t as [id v|x|id l IH|id l IH|id l IH] using otag_induction; intros lg n; cbn [sized asks].
  - now intros [-> _].
  - now intros [-> _].
  - apply framed_asks. intros l1 m (s & H & _). revert H. now apply summed_asks.
  - apply framed_asks. intros l1 m (s & H & _). revert H. now apply summed_asks.
  - apply framed_asks. intros l1 m (s & H & _). revert H. apply (summed_asks _ (fun e => asks (snd e))).
    eapply Forall_impl; [|exact IH]. intros e He l2 n2 (k & Hk & _). eauto.
Qed.
Print Assumptions C90_size_asks.
Theorem C90_serialize_asks : forall T wrap w (t : otag T) l, serial wrap w t l -> size_calls l = ser_asks t.
Proof.
  intros T wrap w t. 
  assert (Hd : forall id (V : list (event T) -> N -> Prop) (B : list (event T) -> Prop) k m, (forall l n, V l n -> size_calls l = k) ->
    (forall l, B l -> size_calls l = m) -> forall l, headed w id V B l -> size_calls l = (if id <=? 15 then 0 else k) + m).
  { intros id V B k m HV HB l (hl & bl & -> & Hb & Hh). rewrite !size_calls_app, size_calls_oks, (HB _ Hb).
    destruct (id <=? 15); [subst hl; cbn; lia|]. destruct Hh as (sl & n & A & ->).
    rewrite size_calls_app, size_calls_oks, (HV _ _ A). lia. }
  induction t as [id v|x|id l IH|id l IH|id l IH] using otag_induction; intros lg; cbn [serial ser_asks].
  - intros ->. apply size_calls_oks.
  - intros ->. reflexivity.
  - apply Hd.
    + intros l1 n (s & H & _). revert H. apply summed_asks, Forall_forall. intros t _. apply C90_size_asks.
    + now apply chained_asks.
  - apply Hd.
    + intros l1 n (s & H & _). revert H. apply summed_asks, Forall_forall. intros t _. apply C90_size_asks.
    + intros l1 (l2 & H & ->). rewrite size_calls_app, size_calls_oks, N.add_0_l. revert H. now apply chained_asks.
  - apply Hd.
    + intros l1 n (s & H & _). revert H. apply (summed_asks _ (fun e => asks (snd e))), Forall_forall.
      intros e _ l2 n2 (k & Hk & _). eapply C90_size_asks, Hk.
    + intros l1 (l2 & H & ->). rewrite size_calls_app, size_calls_oks, N.add_0_l. rewrite sort_entries_map in H. apply chained_map in H.
      assert (K : size_calls l2 = nsum (map (fun e => ser_asks (snd e)) (sort_entries l))).
      { revert H. apply chained_asks. rewrite Forall_forall in *. intros e He l3 (l4 & H4 & ->). cbn [snd fst] in *.
        rewrite size_calls_app, size_calls_oks, N.add_0_l. apply IH; [|exact H4].
        eapply Permutation_in; [symmetry; apply sort_entries_perm|exact He]. }
      rewrite K. clear - l. 
      assert (P : Permutation (map (fun e => ser_asks (snd e)) (sort_entries l)) (map (fun e => ser_asks (snd e)) l)).
      { apply Permutation_map. symmetry. apply sort_entries_perm. }
      revert P. generalize (map (fun e : list N * otag T => ser_asks (snd e)) (sort_entries l)), (map (fun e : list N * otag T => ser_asks (snd e)) l).
      induction 1; cbn [nsum fold_right]; fold nsum in *; unfold nsum in *; lia.
Qed.
Print Assumptions C90_serialize_asks.
(** A user object inside [d] sequences is asked 2^d times by [size] and 2^d - 1
    times by [serialize]. *)
Fixpoint wrapped_in {T} (d : nat) (t : otag T) : otag T := match d with O => t | S d' => OSeq 21 [wrapped_in d' t] end.
Theorem C90_exponential : forall T (x : T) d,
  asks (wrapped_in d (OUser x)) = 2 ^ N.of_nat d /\ ser_asks (wrapped_in d (OUser x)) + 1 = 2 ^ N.of_nat d.
Proof.
  intros T x d. induction d as [|d [IH1 IH2]]; [now split|].
  rewrite Nnat.Nat2N.inj_succ, N.pow_succ_r'. cbn [wrapped_in asks ser_asks map nsum fold_right]. unfold times.
  change (21 <=? 15) with false. cbn iota. rewrite IH1. lia.
Qed.
Print Assumptions C90_exponential.

(** ** [to_bytes] and equality *)
Theorem C90_to_bytes : forall T W (G : world_impl T W) c t u bs u', sizes_u64 G -> ready t ->
  (w_to_bytes G c t u = (Ok bs, u') <-> exists l, ran G u l u' /\ bytes_log (negb (overflow_checks c)) c t l bs).
Proof.
  intros T W G c t u bs u' HU R.
  assert (K : (n <- w_size G c t ;; pure (Vec_with_capacity c (as_usize c n)) ;;;
      w <- (fun u => let '(w, u') := g_vec G u in (Ok w, u')) ;;
      w_serialize G c w t ;;; (fun u => let '(bs, u') := g_into G w u in (Ok bs, u'))) u = (Ok bs, u') <->
    exists l, ran G u l u' /\ exists l1 n w l2, sized (negb (overflow_checks c)) t l1 n /\
      n mod (usize_max c + 1) <= usize_max c / 2 /\ serial (negb (overflow_checks c)) w t l2 /\ l = l1 ++ EVec w :: l2 ++ [EInto w bs]).
  { unfold bind, pure, Vec_with_capacity, as_usize. split.
    - intros E. destruct (w_size G c t u) as [[n|e| |] u1] eqn:E1; try discriminate.
      destruct (N.ltb_spec (usize_max c / 2) (n mod (usize_max c + 1))) as [L|L]; [discriminate|].
      destruct (g_vec G u1) as [w u2] eqn:E2. destruct (w_serialize G c w t u2) as [[[]|e| |] u3] eqn:E3; try discriminate.
      destruct (g_into G w u3) as [bs' u4] eqn:E4. apply pair_inv in E as [E ->]. apply Ok_inv in E. subst bs'.
      apply C90_size in E1 as (l1 & R1 & S1); [|exact HU|exact R]. apply C90_serialize in E3 as (l2 & R2 & S2); [|exact HU|exact R].
      exists (l1 ++ EVec w :: l2 ++ [EInto w bs]). split.
      + eapply ran_app; [exact R1|]. econstructor; [exact E2|]. eapply ran_app; [exact R2|]. apply ran_one. exact E4.
      + exists l1, n, w, l2. auto.
    - intros (l & Hr & l1 & n & w & l2 & S1 & L & S2 & ->). apply ran_split in Hr as (u1 & R1 & Hr).
      inversion Hr as [|? ? u2 ? ? E2 Hr2]; subst. apply ran_split in Hr2 as (u3 & R2 & R3). apply ran_one_inv in R3.
      assert (E1 : w_size G c t u = (Ok n, u1)) by (apply C90_size; eauto). rewrite E1.
      destruct (N.ltb_spec (usize_max c / 2) (n mod (usize_max c + 1))) as [L'|_]; [lia|].
      cbn [happens] in E2, R3. rewrite E2. assert (E3 : w_serialize G c w t u2 = (Ok tt, u3)) by (apply C90_serialize; eauto).
      now rewrite E3, R3. }
  destruct t as [id v|x|id l|id l|id l]; try exact K. clear K. cbn [w_to_bytes bytes_log]. split.
  - intros E. exists [EBytes x (Ok bs)]. split; [now apply ran_one|reflexivity].
  - intros (l & Hr & ->). apply ran_one_inv in Hr. exact Hr.
Qed.
Print Assumptions C90_to_bytes.
(** Two objects are equal exactly if the second gives the bytes of the first after
    the first has been asked for them. *)
Theorem C90_equal : forall T W (G : world_impl T W) c a b u u', sizes_u64 G -> ready a -> ready b ->
  (w_are_equal G c a b u = (Ok true, u') <->
   exists bs u1 l1 l2, ran G u l1 u1 /\ bytes_log (negb (overflow_checks c)) c a l1 bs /\
                       ran G u1 l2 u' /\ bytes_log (negb (overflow_checks c)) c b l2 bs).
Proof.
  intros T W G c a b u u' HU Ra Rb. unfold w_are_equal. split.
  - intros E. destruct (w_to_bytes G c a u) as [[x|e| |] u1] eqn:E1; try discriminate.
    destruct (w_to_bytes G c b u1) as [[y|e| |] u2] eqn:E2; try discriminate.
    destruct (list_eq_dec N.eq_dec x y) as [->|]; [|discriminate]. apply pair_inv in E as [_ <-].
    apply C90_to_bytes in E1 as (l1 & R1 & B1); [|exact HU|exact Ra]. apply C90_to_bytes in E2 as (l2 & R2 & B2); [|exact HU|exact Rb].
    exists y, u1, l1, l2. auto.
  - intros (bs & u1 & l1 & l2 & R1 & B1 & R2 & B2).
    assert (E1 : w_to_bytes G c a u = (Ok bs, u1)) by (apply C90_to_bytes; eauto).
    assert (E2 : w_to_bytes G c b u1 = (Ok bs, u')) by (apply C90_to_bytes; eauto).
    rewrite E1, E2. destruct (list_eq_dec N.eq_dec bs bs); [reflexivity|contradiction].
Qed.
Print Assumptions C90_equal.
(** They are different exactly if one cannot be serialized or the bytes differ (the
    second is not asked if the first fails); the comparison panics exactly if one of
    these two serializations does. *)
Theorem C90_unequal : forall T W (G : world_impl T W) c a b u u',
  (w_are_equal G c a b u = (Ok false, u') <->
   (exists e, w_to_bytes G c a u = (Err e, u')) \/
   (exists bs u1, w_to_bytes G c a u = (Ok bs, u1) /\
      ((exists e, w_to_bytes G c b u1 = (Err e, u')) \/ (exists bs', bs' <> bs /\ w_to_bytes G c b u1 = (Ok bs', u'))))) /\
  (w_are_equal G c a b u = (Panic, u') <->
   w_to_bytes G c a u = (Panic, u') \/ (exists bs u1, w_to_bytes G c a u = (Ok bs, u1) /\ w_to_bytes G c b u1 = (Panic, u'))).
Proof.
  intros T W G c a b u u'. unfold w_are_equal.
  destruct (w_to_bytes G c a u) as [[x|e| |] u1] eqn:E1; [destruct (w_to_bytes G c b u1) as [[y|e2| |] u2] eqn:E2|..]; split; split;
    try (intros E; apply pair_inv in E as [E Eu]; subst u'); try discriminate; eauto 8.
  - destruct (list_eq_dec N.eq_dec x y) as [|D]; [discriminate|]. right. exists x, u1. split; [reflexivity|]. right. exists y. auto.
  - intros [[e H]|(bs & u3 & H & K)]; [discriminate|]. assert (bs = x /\ u3 = u1) as [-> ->] by (split; congruence).
    destruct K as [[e K]|(bs' & D & K)]; rewrite E2 in K; [discriminate|]. assert (bs' = y /\ u' = u2) as [-> ->] by (split; congruence).
    destruct (list_eq_dec N.eq_dec x y) as [->|]; [contradiction|reflexivity].
  - intros [H|(bs & u3 & H & K)]; [discriminate|]. assert (bs = x /\ u3 = u1) as [-> ->] by (split; congruence). congruence.
  - intros [[e H]|(bs & u3 & H & K)]; [discriminate|]. assert (bs = x /\ u3 = u1) as [-> ->] by (split; congruence).
    destruct K as [[e K]|(bs' & D & K)]; congruence.
  - intros [H|(bs & u3 & H & K)]; [discriminate|]. assert (bs = x /\ u3 = u1) as [-> ->] by (split; congruence). congruence.
  - intros [[e H]|(bs & u3 & H & K)]; [discriminate|]. assert (bs = x /\ u3 = u1) as [-> ->] by (split; congruence).
    destruct K as [[e K]|(bs' & D & K)]; congruence.
  - intros [H|(bs & u3 & H & K)]; [discriminate|]. assert (bs = x /\ u3 = u1) as [-> ->] by (split; congruence). congruence.
  - intros [[e H]|(bs & u3 & H & K)]; [discriminate|]. assert (bs = x /\ u3 = u1) as [-> ->] by (split; congruence).
    destruct K as [[e K]|(bs' & D & K)]; congruence.
  - intros [H|(bs & u3 & H & K)]; [discriminate|]. assert (bs = x /\ u3 = u1) as [-> ->] by (split; congruence). congruence.
  - intros [[e' H]|(bs & u3 & H & K)]; congruence.
  - intros [H|(bs & u3 & H & K)]; congruence.
  - intros [[e' H]|(bs & u3 & H & K)]; congruence.
  - intros [H|(bs & u3 & H & K)]; congruence.
  - intros [[e' H]|(bs & u3 & H & K)]; congruence.
  - intros [H|(bs & u3 & H & K)]; congruence.
Qed.
Print Assumptions C90_unequal.

(** ** State that does not show *)
(** Caches, counters and locks do no harm: while the state is in [inv], every
    object answers one size and writes one sequence of bytes, and the writer [w]
    holds [view]; then [serialize] writes what objects without state would. *)
Record settled {T W} (G : world_impl T W) (w : N) (inv : W -> Prop) (view : W -> list N) (ok : T -> Prop)
  (sz : T -> N) (code : T -> list N) : Prop := Settled {
  st_size : forall x u, ok x -> inv u -> exists u', g_size G x u = (Some (sz x), u') /\ inv u' /\ view u' = view u;
  st_write : forall b u, inv u -> exists u', u_write (g_writer G w) b u = (Ok tt, u') /\ inv u' /\ view u' = view u ++ [b];
  st_write_all : forall bs u, inv u -> exists u', u_write_all (g_writer G w) bs u = (Ok tt, u') /\ inv u' /\ view u' = view u ++ bs;
  st_serialize : forall x u, ok x -> inv u -> exists u', g_serialize G w x u = (Ok tt, u') /\ inv u' /\ view u' = view u ++ code x }.
Definition calm_event {T} (w : N) (ok : T -> Prop) (sz : T -> N) (e : event T) : Prop :=
  match e with
  | ESize x a => ok x /\ a = Some (sz x)
  | EWrite v _ a => v = w /\ a = Ok tt
  | ESer v x a => v = w /\ ok x /\ a = Ok tt
  | _ => False
  end.
Definition event_out {T} (code : T -> list N) (e : event T) : list N :=
  match e with EWrite _ q _ => wcall_bytes q | ESer _ x _ => code x | _ => [] end.
Lemma calm_ran {T W} (G : world_impl T W) w inv view ok sz code : settled G w inv view ok sz code ->
  forall l u, inv u -> Forall (calm_event w ok sz) l ->
  exists u', ran G u l u' /\ inv u' /\ view u' = view u ++ flat_map (event_out code) l.
Proof.
  intros [H1 H2 H3 H4] l. induction l as [|e l IH]; intros u Hu F.
  - exists u. rewrite app_nil_r. split; [constructor|auto].
  - inversion F as [|? ? He Fl]; subst.
    assert (K : exists u1, happens G e u u1 /\ inv u1 /\ view u1 = view u ++ event_out code e).
    { destruct e as [x a|v q a|v x a|x a|v|v bs]; cbn [calm_event happens event_out] in *; try contradiction.
      - destruct He as [Ho ->]. rewrite app_nil_r. now apply H1.
      - destruct He as [-> ->]. destruct q; [now apply H2|now apply H3].
      - destruct He as (-> & Ho & ->). now apply H4. }
    destruct K as (u1 & Hh & Hi & Hv). destruct (IH u1 Hi Fl) as (u2 & Hr & Hi2 & Hv2).
    exists u2. split; [econstructor; eauto|]. split; [exact Hi2|]. cbn [flat_map]. now rewrite Hv2, Hv, app_assoc.
Qed.
Lemma tot_small w a : a < two64 -> tot w a a.
Proof. intros H. unfold tot. destruct w; [now rewrite N.mod_small|auto]. Qed.
Lemma calm_oks {T} w ok (sz : T -> N) calls : Forall (calm_event w ok sz) (oks w calls).
Proof. induction calls; constructor; [now split|assumption]. Qed.
Lemma out_oks {T} (code : T -> list N) w calls : flat_map (event_out code) (oks w calls) = written calls.
Proof. unfold oks, written. induction calls as [|q calls IH]; [reflexivity|]. cbn [map flat_map event_out]. now rewrite IH. Qed.
Section Calm.
Context {T : Type} (w : N) (ok : T -> Prop) (sz : T -> N) (code : T -> list N) (wrap : bool).
Definition quiet_log (l : list (event T)) : Prop := Forall (calm_event w ok sz) l /\ flat_map (event_out code) l = [].
Lemma quiet_app l1 l2 : quiet_log l1 -> quiet_log l2 -> quiet_log (l1 ++ l2).
Proof. intros [A1 B1] [A2 B2]. split; [now apply Forall_app|]. now rewrite flat_map_app, B1, B2. Qed.
Lemma summed_calm {A} (f : A -> list (event T) -> N -> Prop) (k : A -> N) l :
  Forall (fun x => exists lg, f x lg (k x) /\ quiet_log lg) l -> exists lg, summed f l lg (nsum (map k l)) /\ quiet_log lg.
Proof.
  induction 1 as [|x l (l1 & H1 & Q1) _ (l2 & H2 & Q2)].
  - exists []. now repeat split.
  - exists (l1 ++ l2). split; [|now apply quiet_app]. exists l1, (k x), l2, (nsum (map k l)). auto.
Qed.
Lemma framed_calm id (V : list (event T) -> N -> Prop) m : id < two64 -> m < two64 -> lenN (enc_header id m) + m < two64 ->
  (exists lg, V lg m /\ quiet_log lg) -> exists lg, framed wrap id V lg (lenN (enc_header id m) + m) /\ quiet_log lg.
Proof.
  intros Hi Hm L (lg & HV & Q). unfold framed, enc_header in *. rewrite lenN_app in *. destruct (id <=? 15).
  - exists lg. split; [|exact Q]. exists m. split; [exact HV|]. rewrite lenN_nil in *. rewrite N.add_0_r in *. now apply tot_small.
  - exists (lg ++ lg). split; [|now apply quiet_app]. exists lg, m, lg, m. split; [exact HV|]. split; [exact HV|]. split; [reflexivity|].
    now apply tot_small.
Qed.
Lemma sized_calm t : fits sz t -> users ok t -> declared sz t < two64 -> exists lg, sized wrap t lg (declared sz t) /\ quiet_log lg.
Proof.
  induction t as [id v|x|id l IH|id l IH|id l IH] using otag_induction; cbn [fits users declared sized]; cbv zeta.
  - intros _ _ L. exists []. now repeat split.
  - intros _ Ho L. exists [ESize x (Some (sz x))]. split; [auto|]. split; [constructor; [now split|constructor]|reflexivity].
  - intros (Hi & Hn & A) B L. apply all_Forall in A, B. apply framed_calm; [exact Hi|exact Hn|exact L|].
    destruct (summed_calm (sized wrap) (declared sz) l) as (lg & H & Q).
    { rewrite Forall_forall in *. intros t Ht. apply IH; auto. eapply N.le_lt_trans; [|exact Hn]. apply nsum_in. now apply in_map. }
    exists lg. split; [|exact Q]. exists (nsum (map (declared sz) l)). split; [exact H|]. now apply tot_small.
  - intros (Hi & Hc & Hn & A) B L. apply all_Forall in A, B. apply framed_calm; [exact Hi|exact Hn|exact L|].
    destruct (summed_calm (sized wrap) (declared sz) l) as (lg & H & Q).
    { rewrite Forall_forall in *. intros t Ht. apply IH; auto. eapply N.le_lt_trans; [apply (nsum_in (map (declared sz) l)); now apply in_map|].
      eapply N.le_lt_trans; [|exact Hn]. rewrite N.add_comm. apply N.le_add_r. }
    exists lg. split; [|exact Q]. exists (nsum (map (declared sz) l)). split; [exact H|]. now apply tot_small.
  - intros (Hi & Hc & Hd & Hk & Hn & A) B L. apply all_Forall in A, B. apply framed_calm; [exact Hi|exact Hn|exact L|].
    destruct (summed_calm (fun e log n => exists k, sized wrap (snd e) log k /\ n = lenN (enc_string (fst e)) + k)
      (fun e => lenN (enc_string (fst e)) + declared sz (snd e)) l) as (lg & H & Q).
    { rewrite Forall_forall in *. intros e He. destruct (IH e He (A e He) (B e He)) as (lg & H & Q).
      - eapply N.le_lt_trans; [|exact Hn].
        pose proof (nsum_in _ _ (in_map (fun e => lenN (enc_string (fst e)) + declared sz (snd e)) l e He)) as K. cbn beta in K. lia.
      - exists lg. split; [|exact Q]. exists (declared sz (snd e)). auto. }
    eexists. split; [|exact Q]. eexists. split; [exact H|]. now apply tot_small.
Qed.
Lemma items_calm count l : all (fits sz) l -> all (users ok) l -> count + nsum (map (declared sz) l) < two64 ->
  exists lg, items_sized wrap count l lg (count + nsum (map (declared sz) l)) /\ quiet_log lg.
Proof.
  intros A B L. apply all_Forall in A, B. destruct (summed_calm (sized wrap) (declared sz) l) as (lg & H & Q).
  { rewrite Forall_forall in *. intros t Ht. apply sized_calm; auto. eapply N.le_lt_trans; [apply (nsum_in (map (declared sz) l)); now apply in_map|].
    eapply N.le_lt_trans; [|exact L]. rewrite N.add_comm. apply N.le_add_r. }
  exists lg. split; [|exact Q]. exists (nsum (map (declared sz) l)). split; [exact H|]. now apply tot_small.
Qed.
Lemma headed_calm id V (B : list (event T) -> Prop) m bs : id < two64 -> m < two64 ->
  (exists lg, V lg m /\ quiet_log lg) -> (exists lg, B lg /\ Forall (calm_event w ok sz) lg /\ flat_map (event_out code) lg = bs) ->
  exists lg, headed w id V B lg /\ Forall (calm_event w ok sz) lg /\ flat_map (event_out code) lg = enc_header id m ++ bs.
Proof.
  intros Hi Hm (sl & HV & Qa & Qb) (bl & HB & Ca & Cb). unfold headed, enc_header. destruct (id <=? 15).
  - exists (oks w (ilint_calls id) ++ [] ++ bl). split; [exists [], bl; auto|].
    split; [apply Forall_app; split; [apply calm_oks|exact Ca]|].
    cbn [app]. rewrite flat_map_app, out_oks, written_ilint, Cb, app_nil_r. reflexivity.
  - exists (oks w (ilint_calls id) ++ (sl ++ oks w (ilint_calls m)) ++ bl). split.
    + exists (sl ++ oks w (ilint_calls m)), bl. split; [reflexivity|]. split; [exact HB|]. exists sl, m. auto.
    + split.
      * apply Forall_app. split; [apply calm_oks|]. apply Forall_app. split; [|exact Ca]. apply Forall_app. split; [exact Qa|apply calm_oks].
      * rewrite !flat_map_app, !out_oks, !written_ilint, Qb, Cb. cbn [app]. now rewrite <- app_assoc.
Qed.
Lemma chained_calm {A} (f : A -> list (event T) -> Prop) (k : A -> list N) l :
  Forall (fun x => exists lg, f x lg /\ Forall (calm_event w ok sz) lg /\ flat_map (event_out code) lg = k x) l ->
  exists lg, chained f l lg /\ Forall (calm_event w ok sz) lg /\ flat_map (event_out code) lg = concat (map k l).
Proof.
  induction 1 as [|x l (l1 & H1 & A1 & B1) _ (l2 & H2 & A2 & B2)].
  - exists []. now repeat split.
  - exists (l1 ++ l2). split; [exists l1, l2; auto|]. split; [now apply Forall_app|]. cbn [map concat]. now rewrite flat_map_app, B1, B2.
Qed.
Lemma serial_calm t : fits sz t -> users ok t ->
  exists lg, serial wrap w t lg /\ Forall (calm_event w ok sz) lg /\ flat_map (event_out code) lg = laid sz code t.
Proof.
  induction t as [id v|x|id l IH|id l IH|id l IH] using otag_induction; cbn [fits users laid serial].
  - intros [Wf L] _. exists (oks w (calls_of (Tag id v))). split; [reflexivity|]. split; [apply calm_oks|].
    rewrite out_oks. now apply (proj1 written_both).
  - intros _ Ho. exists [ESer w x (Ok tt)]. split; [reflexivity|]. split; [constructor; [now repeat split|constructor]|].
    cbn [flat_map event_out]. apply app_nil_r.
  - intros (Hi & Hn & A) B. apply headed_calm; [exact Hi|exact Hn|now apply (items_calm 0)|]. apply chained_calm.
    apply all_Forall in A, B. rewrite Forall_forall in *. auto.
  - intros (Hi & Hc & Hn & A) B. apply headed_calm; [exact Hi|exact Hn|now apply items_calm|].
    destruct (chained_calm (serial wrap w) (laid sz code) l) as (lg & H1 & H2 & H3).
    { apply all_Forall in A, B. rewrite Forall_forall in *. auto. }
    exists (oks w (ilint_calls (lenN l)) ++ lg). split; [exists lg; auto|]. split; [apply Forall_app; split; [apply calm_oks|exact H2]|].
    now rewrite flat_map_app, out_oks, written_ilint, H3.
  - intros (Hi & Hc & Hd & Hk & Hn & A) B. apply all_Forall in A, B. apply headed_calm; [exact Hi|exact Hn| |].
    + destruct (summed_calm (fun e log n => exists k, sized wrap (snd e) log k /\ n = lenN (enc_string (fst e)) + k)
        (fun e => lenN (enc_string (fst e)) + declared sz (snd e)) l) as (lg & H & Q).
      { rewrite Forall_forall in *. intros e He. destruct (sized_calm (snd e) (A e He) (B e He)) as (lg & H & Q).
        - eapply N.le_lt_trans; [|exact Hn].
          pose proof (nsum_in _ _ (in_map (fun e => lenN (enc_string (fst e)) + declared sz (snd e)) l e He)) as K. cbn beta in K. lia.
        - exists lg. split; [|exact Q]. exists (declared sz (snd e)). auto. }
      eexists. split; [|exact Q]. eexists. split; [exact H|]. now apply tot_small.
    + rewrite !sort_entries_map.
      destruct (chained_calm (fun e lg => exists l2, serial wrap w (snd e) l2 /\ lg = oks w (string_calls (fst e)) ++ l2)
        (fun e => enc_string (fst e) ++ laid sz code (snd e)) (sort_entries l)) as (lg & H1 & H2 & H3).
      { rewrite Forall_forall in *. intros e He0.
        assert (He : In e l) by (eapply Permutation_in; [symmetry; apply sort_entries_perm|exact He0]).
        destruct (IH e He (A e He) (B e He)) as (lg & K1 & K2 & K3). exists (oks w (string_calls (fst e)) ++ lg).
        split; [exists lg; auto|]. split; [apply Forall_app; split; [apply calm_oks|exact K2]|].
        rewrite flat_map_app, out_oks, K3. f_equal. apply written_string. }
      exists (oks w (ilint_calls (lenN l)) ++ lg). split.
      * exists lg. split; [now apply chained_map|reflexivity].
      * split; [apply Forall_app; split; [apply calm_oks|exact H2]|].
        rewrite flat_map_app, out_oks, written_ilint, H3, map_map. reflexivity.
Qed.
End Calm.
Lemma fits_ready {T} sz (t : otag T) : fits sz t -> ready t.
Proof.
  unfold ready. induction t as [id v|x|id l IH|id l IH|id l IH] using otag_induction; cbn [fits plain].
  - auto.
  - intros _. apply two64_pos.
  - intros (Hi & Hn & A). split; [exact Hi|]. apply all_Forall. apply all_Forall in A. rewrite Forall_forall in *. auto.
  - intros (Hi & Hc & Hn & A). split; [exact Hi|]. split; [exact Hc|]. apply all_Forall. apply all_Forall in A. rewrite Forall_forall in *. auto.
  - intros (Hi & Hc & Hd & Hk & Hn & A). split; [exact Hi|]. split; [exact Hc|]. split; [exact Hd|]. split.
    + apply Forall_forall. intros e He.
      pose proof (nsum_in _ _ (in_map (fun e => lenN (enc_string (fst e)) + declared sz (snd e)) l e He)) as K. cbn beta in K. lia.
    + apply all_Forall. apply all_Forall in A. rewrite Forall_forall in *. auto.
Qed.
Theorem C90_settled : forall T W (G : world_impl T W) c w inv view ok sz code t u, sizes_u64 G ->
  settled G w inv view ok sz code -> fits sz t -> users ok t -> inv u ->
  exists u', w_serialize G c w t u = (Ok tt, u') /\ inv u' /\ view u' = view u ++ laid sz code t.
Proof.
  intros T W G c w inv view ok sz code t u HU S F B Hu. pose proof (fits_ready sz t F) as R.
  destruct (serial_calm w ok sz code (negb (overflow_checks c)) t F B) as (l & Hl & Hc & Ho).
  destruct (calm_ran G w inv view ok sz code S l u Hu Hc) as (u' & Hr & Hi & Hv). exists u'.
  split; [apply C90_serialize; eauto|]. split; [exact Hi|]. now rewrite Hv, Ho.
Qed.
Print Assumptions C90_settled.

(** ** Objects without state *)
(** The types of Open.v as such code: the methods depend on the object alone, and
    there is one writer. *)
Definition stateless {T} (U : user_impl T) : world_impl T writer := {|
  g_size := fun x u => (Some (u_size U x), u);
  g_serialize := fun _ x => u_serialize U x;
  g_to_bytes := fun x u => (u_to_bytes U x, u);
  g_writer := fun _ => library_writer;
  g_vec := fun u => (0, u);
  g_into := fun _ u => ([], u) |}.
Lemma sum_stateless {A} c (f : A -> writer -> res tag_error N * writer) (g : A -> res tag_error N) l :
  Forall (fun x => forall u, f x u = (g x, u)) l -> forall acc u, w_sum c f l acc u = (sum_u c g l acc, u).
Proof.
  induction 1 as [|x l Hx _ IH]; intros acc u; [reflexivity|]. cbn [w_sum]. unfold bind, pure. rewrite Hx.
  assert (Stop : forall x : res tag_error N, (forall a, x <> Ok a) ->
    fold_left (fun acc x => and_then acc (fun a => and_then (g x) (fun s => add_u64 c a s))) l x = x).
  { clear. induction l as [|y l IH]; intros x N; [reflexivity|]. cbn [fold_left]. destruct x as [a|e| |]; [now contradiction (N a)|..]; apply IH; discriminate. }
  unfold sum_u in *. cbn [fold_left and_then]. destruct (g x) as [s|e| |]; cbn [and_then]; [|rewrite Stop by discriminate; reflexivity..].
  destruct (add_u64 c acc s) as [a|e| |]; [apply IH|rewrite Stop by discriminate; reflexivity..].
Qed.
Lemma size_with_stateless c id vs g : (forall u : writer, vs u = (g, u)) -> forall u, w_size_with c id vs u = (size_with_u c id g, u).
Proof.
  intros H u. unfold w_size_with, size_with_u, bind, pure, ret. destruct (is_implicit_tag id); cbn [and_then].
  - rewrite H. destruct g; reflexivity.
  - rewrite H. destruct g as [n|e| |]; cbn [and_then]; try reflexivity.
    destruct (add_u64 c (encoded_size id) (encoded_size n)); cbn [and_then]; try reflexivity. now rewrite H.
Qed.
Lemma counted_stateless c count vs g : (forall u : writer, vs u = (g, u)) ->
  forall u, (s <- vs ;; pure (add_u64 c (encoded_size count) s)) u = (counted_size_u c count g, u).
Proof. intros H u. unfold bind, pure, counted_size_u. rewrite H. destruct g; reflexivity. Qed.
Lemma entry_stateless {T} c (size : otag T -> writer -> res tag_error N * writer) (e : list N * otag T) g : (forall u, size (snd e) u = (g, u)) ->
  forall u, w_entry c size e u
    = (and_then (string_tag_size_u c (fst e)) (fun k => and_then g (fun x => add_u64 c k x)), u).
Proof.
  intros H u. unfold w_entry, bind, pure. destruct (string_tag_size_u c (fst e)) as [k|x| |]; cbn [and_then]; try reflexivity.
  rewrite H. destruct g; reflexivity.
Qed.
Theorem C90_stateless_size : forall T (U : user_impl T) c t u, w_size (stateless U) c t u = (o_size_u U c t, u).
Proof.
  intros T U c t. induction t as [id v|x|id l IH|id l IH|id l IH] using otag_induction; intros u; cbn [w_size o_size_u].
  - reflexivity.
  - reflexivity.
  - apply size_with_stateless. now apply sum_stateless.
  - apply size_with_stateless. apply counted_stateless. now apply sum_stateless.
  - apply size_with_stateless. apply counted_stateless. apply sum_stateless.
    eapply Forall_impl; [|exact IH]. intros e He. now apply entry_stateless.
Qed.
Print Assumptions C90_stateless_size.
Lemma with_stateless {T} (U : user_impl T) w id vs g sv sv' : (forall u, vs u = (g, u)) -> (forall u, sv u = sv' u) ->
  forall u, w_with (stateless U) w id vs sv u = serialize_with_u id g sv' u.
Proof.
  intros Hv Hs u. unfold w_with, serialize_with_u, bind, ret. change (a_serialize_ilint (g_writer (stateless U) w)) with serialize_ilint.
  destruct (serialize_ilint id u) as [[[]|e| |] u1]; try reflexivity. destruct (is_implicit_tag id); [apply Hs|].
  rewrite Hv. destruct g as [n|e| |]; try reflexivity. destruct (serialize_ilint n u1) as [[[]|e| |] u2]; try reflexivity. apply Hs.
Qed.
Lemma for_each_same {A} (f g : A -> writer -> res tag_error unit * writer) l : Forall (fun x => forall u, f x u = g x u) l ->
  forall u, for_each l f u = for_each l g u.
Proof.
  unfold for_each. induction 1 as [|x l Hx _ IH]; intros u; [reflexivity|]. cbn [fold_right]. unfold bind. rewrite Hx.
  destruct (g x u) as [[[]|e| |] u1]; auto.
Qed.
(** On them, World.v is OpenMachine.v. *)
Theorem C90_stateless : forall T (U : user_impl T) c w t u, ready t -> w_serialize (stateless U) c w t u = o_serialize_u U c t u.
Proof.
  intros T U c w t. unfold ready. induction t as [id v|x|id l IH|id l IH|id l IH] using otag_induction; intros u; cbn [plain].
  - intros [Wf L]. cbn [w_serialize o_serialize_u]. rewrite serialize_exact by (now rewrite size_spec).
    change (g_writer (stateless U) w) with library_writer. reflexivity.
  - reflexivity.
  - intros (Hi & A). apply all_Forall in A. cbn [w_serialize o_serialize_u]. apply with_stateless.
    + apply sum_stateless, Forall_forall. intros t _. apply C90_stateless_size.
    + apply for_each_same. rewrite Forall_forall in *. auto.
  - intros (Hi & Hc & A). apply all_Forall in A. cbn [w_serialize o_serialize_u]. apply with_stateless.
    + apply counted_stateless, sum_stateless, Forall_forall. intros t _. apply C90_stateless_size.
    + intros u1. unfold bind. change (a_serialize_ilint (g_writer (stateless U) w)) with serialize_ilint.
      destruct (serialize_ilint (lenN l) u1) as [[[]|e| |] u2]; try reflexivity. apply for_each_same. rewrite Forall_forall in *. auto.
  - intros (Hi & Hc & Hd & Hk & A). apply all_Forall in A. cbn [w_serialize o_serialize_u]. cbv zeta. apply with_stateless.
    + apply counted_stateless, sum_stateless, Forall_forall. intros e _. apply entry_stateless, C90_stateless_size.
    + intros u1. unfold bind. change (a_serialize_ilint (g_writer (stateless U) w)) with serialize_ilint.
      destruct (serialize_ilint (lenN l) u1) as [[[]|e| |] u2]; try reflexivity. apply for_each_same, Forall_forall.
      intros key _ u3. rewrite !hm_get_map. destruct (hm_get key l) as [x|] eqn:Ek; cbn [option_map]; [|reflexivity].
      change (a_serialize_string_tag (g_writer (stateless U) w)) with serialize_string_tag_from_value.
      destruct (serialize_string_tag_from_value key u3) as [[[]|e| |] u4]; try reflexivity.
      apply hm_get_some in Ek. rewrite Forall_forall in *. exact (IH _ Ek u4 (A _ Ek)).
Qed.
Print Assumptions C90_stateless.

(** ** Instances *)
(** A shared counter of the calls, and writers that are vectors. *)
Definition board : Type := N * list (list N).
Fixpoint append_at (n : nat) (bs : list N) (l : list (list N)) : list (list N) :=
  match n, l with
  | O, v :: l' => (v ++ bs) :: l'
  | S n', v :: l' => v :: append_at n' bs l'
  | _, [] => []
  end.
Definition board_writer (w : N) : writer_impl board := {|
  u_write := fun b u => (Ok tt, (fst u, append_at (N.to_nat w) [b] (snd u)));
  u_write_all := fun bs u => (Ok tt, (fst u, append_at (N.to_nat w) bs (snd u))) |}.
(** Objects that count how often they are called, all in one counter; each writes
    its bytes. *)
Definition tallied : world_impl (list N) board := {|
  g_size := fun x u => (Some (lenN x mod two64), (fst u + 1, snd u));
  g_serialize := fun w x u => (Ok tt, (fst u + 1, append_at (N.to_nat w) x (snd u)));
  g_to_bytes := fun x u => (Ok x, (fst u + 1, snd u));
  g_writer := board_writer;
  g_vec := fun u => (lenN (snd u), (fst u, snd u ++ [[]]));
  g_into := fun w u => (nth (N.to_nat w) (snd u) [], u) |}.
Example C90_settled_holds : settled tallied 0 (fun u => exists v r, snd u = v :: r) (fun u => nth 0 (snd u) [])
  (fun x => lenN x < two64) (fun x => lenN x) (fun x => x) /\ sizes_u64 tallied.
Proof.
  split.
  - constructor.
    + intros x u Hx Hu. cbn [tallied g_size]. rewrite N.mod_small by exact Hx. eexists. split; [reflexivity|]. now split.
    + intros b [k ?] (v & r & E). cbn [snd] in E. subst. cbn. eexists. split; [reflexivity|]. cbn. split; [eauto|reflexivity].
    + intros bs [k ?] (v & r & E). cbn [snd] in E. subst. cbn. eexists. split; [reflexivity|]. cbn. split; [eauto|reflexivity].
    + intros x [k ?] _ (v & r & E). cbn [snd] in E. subst. cbn. eexists. split; [reflexivity|]. cbn. split; [eauto|reflexivity].
  - intros x u n u' E. cbn [tallied g_size] in E. apply pair_inv in E as [E _]. injection E as <-. apply mod_lt.
Qed.
Example C90_tallied :
  let t := OSeq 21 [OUser [1; 2]; ODict 30 [([98], OUser [3]); ([97], OArr 22 [OUser []; OStd 1 (VBool true)])]] in
  fits (fun x => lenN x) t /\ ready t /\ users (fun x => lenN x < two64) t /\
  w_serialize tallied (Cfg true u64_max) 0 t (0, [[]])
  = (Ok tt, (ser_asks t + 3, [laid (fun x => lenN x) (fun x => x) t])) /\ ser_asks t = 11.
Proof.
  intros t.
  assert (F : fits (fun x : list N => lenN x) t).
  { cbn. repeat split; auto using two64_pos; try (vm_compute; reflexivity); try (repeat constructor; vm_compute; intuition congruence). }
  split; [exact F|]. split; [exact (fits_ready _ _ F)|]. repeat split; vm_compute; reflexivity.
Qed.
(** An object that grows when it is first asked for its size: at every moment it
    says how many bytes it would write then.  There are two writers, and a vector
    is the second one, emptied. *)
Definition plot : Type := bool * (list N * list N).
Definition put (w : N) (bs : list N) (u : plot) : plot :=
  let '(g, (a, b)) := u in if w =? 0 then (g, (a ++ bs, b)) else (g, (a, b ++ bs)).
Definition leaves (u : plot) : list N := if fst u then [7; 7] else [7].
Definition growing : world_impl unit plot := {|
  g_size := fun x u => (Some (lenN (leaves u)), (true, snd u));
  g_serialize := fun w x u => (Ok tt, put w (leaves u) u);
  g_to_bytes := fun x u => (Ok (leaves u), (true, snd u));
  g_writer := fun w => WriterImpl _ (fun b u => (Ok tt, put w [b] u)) (fun bs u => (Ok tt, put w bs u));
  g_vec := fun u => (1, (fst u, (fst (snd u), [])));
  g_into := fun _ u => (snd (snd u), u) |}.
Lemma growing_u64 : sizes_u64 growing.
Proof.
  intros x u n u' E. cbn [growing g_size] in E. apply pair_inv in E as [E _]. injection E as <-.
  unfold leaves. destruct (fst u); reflexivity.
Qed.
(** It is not enough that every answer is right when it is given. *)
Theorem C90_frame_refuted :
  ~ (forall T W (G : world_impl T W) c (view : W -> list N) id l u u', sizes_u64 G ->
       (forall x v, exists bs v1 v2, g_size G x v = (Some (lenN bs), v1) /\ view v1 = view v /\
                                     g_serialize G 0 x v = (Ok tt, v2) /\ view v2 = view v ++ bs) ->
       (forall q v, exists v1, make_call (g_writer G 0) q v = (Ok tt, v1) /\ view v1 = view v ++ wcall_bytes q) ->
       ready (OSeq id l) -> w_serialize G c 0 (OSeq id l) u = (Ok tt, u') ->
       exists body, view u' = view u ++ enc_header id (lenN body) ++ body).
Proof.
  intros H.
  destruct (H unit plot growing (Cfg true u64_max) (fun u => fst (snd u)) 21 [OUser tt] (false, ([], []))
    (true, ([21; 1; 7; 7], []))) as (body & E).
  - exact growing_u64.
  - intros x [g [a b]]. exists (leaves (g, (a, b))), (true, (a, b)), (g, (a ++ leaves (g, (a, b)), b)). now repeat split.
  - intros q [g [a b]]. exists (g, (a ++ wcall_bytes q, b)). destruct q; now split.
  - now repeat split.
  - vm_compute. reflexivity.
  - cbn [fst snd app] in E. unfold enc_header in E. change (21 <=? 15) with false in E. cbn iota in E.
    change (ilint 21) with [21] in E. cbn [app] in E. apply cons_inv in E as [_ E].
    assert (L : lenN body <= 3). { apply (f_equal (@lenN N)) in E. rewrite lenN_app in E. change (lenN [1; 7; 7]) with 3 in E. lia. }
    destruct body as [|b0 [|b1 [|b2 [|b3 body]]]]; cbn in E; try discriminate. rewrite !lenN_cons in L. lia.
Qed.
Print Assumptions C90_frame_refuted.
(** Nor is such an object equal to itself. *)
Theorem C90_reflexive_refuted :
  ~ (forall T W (G : world_impl T W) c t u b u', sizes_u64 G -> ready t -> w_are_equal G c t t u = (Ok b, u') -> b = true).
Proof.
  intros H. pose proof (H unit plot growing (Cfg true u64_max) (OUser tt) (false, ([], [])) false (true, ([], []))) as K.
  discriminate K; [exact growing_u64|exact two64_pos|vm_compute; reflexivity].
Qed.
Print Assumptions C90_reflexive_refuted.
(** A size that panics once the object has been asked three times: the header of
    the inner sequence is not reached. *)
Definition tired : world_impl unit (N * list N) := {|
  g_size := fun x u => (if fst u <? 3 then Some 1 else None, (fst u + 1, snd u));
  g_serialize := fun w x u => (Ok tt, (fst u, snd u ++ [0]));
  g_to_bytes := fun x u => (Ok [0], u);
  g_writer := fun w => WriterImpl _ (fun b u => (Ok tt, (fst u, snd u ++ [b]))) (fun bs u => (Ok tt, (fst u, snd u ++ bs)));
  g_vec := fun u => (0, u);
  g_into := fun _ u => (snd u, u) |}.
Example C90_failure_holds : w_serialize tired (Cfg true u64_max) 0 (OSeq 21 [OSeq 21 [OSeq 21 [OUser tt]]]) (0, []) = (Panic, (4, [21])) /\
  ran tired (0, []) ([EWrite 0 (CWrite 21) (Ok tt)] ++ repeat (ESize tt (Some 1)) 3 ++ [ESize tt None]) (4, [21]).
Proof. split; [vm_compute; reflexivity|]. cbn [repeat app]. repeat (econstructor; [reflexivity|]). constructor. Qed.

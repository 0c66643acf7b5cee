(** Facts about writers. *)
From Verif Require Import Base BaseFacts Types IO IOSpec IOFacts.

Lemma overwrite_nil v o : overwrite v o [] = v.
Proof. unfold overwrite. rewrite lenN_nil, N.add_0_r. apply takeN_dropN. Qed.
Lemma lenN_overwrite v o bs : o <= lenN v -> lenN (overwrite v o bs) = N.max (lenN v) (o + lenN bs).
Proof.
  intros H. unfold overwrite. rewrite !lenN_app, lenN_takeN, lenN_dropN. lia.
Qed.
Lemma overwrite_app v o a b :
  o <= lenN v -> overwrite (overwrite v o a) (o + lenN a) b = overwrite v o (a ++ b).
Proof.
  intros H. unfold overwrite at 1 3. rewrite <- app_assoc, lenN_app.
  unfold overwrite. rewrite !takeN_app, !dropN_app, !lenN_takeN.
  rewrite (takeN_all (o + lenN a) (takeN o v)) by (rewrite lenN_takeN; lia).
  replace (N.min o (lenN v)) with o by lia. replace (o + lenN a - o) with (lenN a) by lia.
  rewrite N.sub_diag, takeN_0, app_nil_r, (takeN_all (lenN a) a) by lia.
  rewrite <- app_assoc. do 3 f_equal.
  rewrite (dropN_all _ (takeN o v)) by (rewrite lenN_takeN; lia).
  rewrite (dropN_all _ a) by lia. cbn [app]. rewrite dropN_dropN. f_equal. lia.
Qed.
Lemma store_nil d p : store d p [] = d.
Proof. reflexivity. Qed.
Lemma store_cons d p bs : bs <> [] ->
  store d p bs = takeN p d ++ repeatN 0 (p - lenN d) ++ bs ++ dropN (p + lenN bs) d.
Proof. destruct bs; [congruence|reflexivity]. Qed.
Lemma store_app d p a b : store (store d p a) (p + lenN a) b = store d p (a ++ b).
Proof.
  destruct a as [|x a]. { rewrite store_nil, lenN_nil, N.add_0_r. reflexivity. }
  set (a' := x :: a). destruct b as [|y b]. { now rewrite store_nil, app_nil_r. }
  set (b' := y :: b).
  assert (Ha : a' <> []) by discriminate. assert (Hb : b' <> []) by discriminate.
  assert (Hab : a' ++ b' <> []) by discriminate.
  clearbody a' b'. rewrite (store_cons _ _ b') by assumption.
  rewrite (store_cons d p (a' ++ b')) by assumption.
  rewrite (store_cons d p a') by assumption.
  assert (Hp : lenN (takeN p d ++ repeatN 0 (p - lenN d)) = p).
  { rewrite lenN_app, lenN_takeN, lenN_repeatN. lia. }
  rewrite !(app_assoc (takeN p d)).
  set (pre := takeN p d ++ repeatN 0 (p - lenN d)) in *. clearbody pre.
  rewrite (app_assoc pre a' (dropN (p + lenN a') d)).
  rewrite takeN_app_exact, dropN_app by (rewrite lenN_app; lia).
  rewrite (dropN_all _ (pre ++ a')) by (rewrite lenN_app; lia). cbn [app].
  replace (p + lenN a' - lenN ((pre ++ a') ++ dropN (p + lenN a') d)) with 0
    by (rewrite !lenN_app; lia).
  change (repeatN 0 0) with (@nil N). cbn [app].
  rewrite dropN_dropN, !lenN_app, Hp, <- !app_assoc. do 4 f_equal. lia.
Qed.

Lemma puts_refl w : wwf w -> puts w [] w.
Proof.
  destruct w; cbn; rewrite ?overwrite_nil, ?lenN_nil, ?N.add_0_r, ?app_nil_r;
    repeat split; auto using suffix_refl.
Qed.
Lemma puts_wwf w bs w' : wwf w -> puts w bs w' -> wwf w'.
Proof.
  destruct w, w'; cbn; try contradiction; auto.
  - intros H (-> & -> & _). rewrite lenN_overwrite by assumption. lia.
  - intros H (-> & _ & -> & _). rewrite lenN_overwrite by assumption. lia.
  - intros H (-> & -> & L). rewrite lenN_overwrite by assumption. lia.
Qed.
Lemma puts_trans w a w1 b w2 : wwf w -> puts w a w1 -> puts w1 b w2 -> puts w (a ++ b) w2.
Proof.
  destruct w, w1; cbn [puts]; try contradiction; destruct w2; cbn [puts]; try contradiction;
    cbn [wwf]; intros H.
  - intros (-> & -> & -> & A) (-> & -> & -> & B). rewrite overwrite_app by assumption.
    rewrite lenN_app. repeat split; auto; [lia|]. intros R. now rewrite A, B.
  - intros (-> & -> & -> & -> & A) (-> & -> & -> & -> & B). rewrite overwrite_app by assumption.
    rewrite lenN_app. repeat split; auto; [lia|]. intros R. now rewrite A, B.
  - intros (-> & -> & A) (-> & -> & B). rewrite overwrite_app by assumption.
    rewrite lenN_overwrite in B by assumption.
    rewrite lenN_app. repeat split; auto; lia.
  - intros (-> & S1) (-> & S2). rewrite app_assoc. eauto using suffix_trans.
  - intros (-> & -> & S1) (-> & -> & S2). rewrite store_app, lenN_app.
    repeat split; eauto using suffix_trans. lia.
  - intros (-> & S1) (-> & S2). rewrite app_assoc. eauto using suffix_trans.
Qed.

Lemma resize_grow v n : lenN v <= n -> resizeN n 0 v = v ++ repeatN 0 (n - lenN v).
Proof.
  intros H. unfold resizeN. destruct (N.leb_spec n (lenN v)); [|reflexivity].
  replace n with (lenN v) by lia. rewrite takeN_all, N.sub_diag by lia.
  change (repeatN 0 0) with (@nil N). now rewrite app_nil_r.
Qed.

Lemma vec_write_all_spec bs v o ro :
  o <= lenN v ->
  vec_write_all bs v o ro =
    if ro then (Err UnableToWriteData, v, o) else (Ok tt, overwrite v o bs, o + lenN bs).
Proof.
  intros H. unfold vec_write_all, vec_can_write. destruct ro; [reflexivity|].
  set (v1 := if _ <? _ then _ else _).
  assert (Hv : v1 = v ++ repeatN 0 (o + lenN bs - lenN v)).
  { unfold v1. destruct (N.ltb_spec (lenN v) (o + lenN bs)).
    - apply resize_grow. lia.
    - replace (o + lenN bs - lenN v) with 0 by lia. change (repeatN 0 0) with (@nil N).
      now rewrite app_nil_r. }
  rewrite Hv. rewrite copy_into_ok; rewrite ?lenN_app, ?lenN_repeatN; try lia.
  f_equal. f_equal. unfold overwrite. rewrite takeN_app, dropN_app.
  replace (o - lenN v) with 0 by lia. rewrite takeN_0, app_nil_r.
  rewrite (dropN_all _ (repeatN _ _)) by (rewrite lenN_repeatN; lia). now rewrite app_nil_r.
Qed.
Lemma vec_write_spec b v o ro :
  o <= lenN v -> vec_write b v o ro = vec_write_all [b] v o ro.
Proof.
  intros H. rewrite vec_write_all_spec by assumption. unfold vec_write, vec_can_write.
  destruct ro; [reflexivity|]. rewrite lenN_cons, lenN_nil. unfold overwrite.
  rewrite lenN_cons, lenN_nil. destruct (N.eqb_spec o (lenN v)) as [->|Hne].
  - rewrite takeN_all, dropN_all by lia. rewrite app_nil_r. do 2 f_equal.
  - rewrite copy_into_ok; rewrite ?lenN_cons, ?lenN_nil; try lia. do 2 f_equal.
Qed.
Lemma arr_write_all_spec bs a o :
  o <= lenN a ->
  arr_write_all bs a o =
    if o + lenN bs <=? lenN a then (Ok tt, overwrite a o bs, o + lenN bs)
    else (Err UnableToWriteData, a, o).
Proof.
  intros H. unfold arr_write_all, arr_can_write, mem_available.
  destruct (N.leb_spec o (lenN a)); [|lia].
  destruct (N.leb_spec (lenN bs) (lenN a - o)), (N.leb_spec (o + lenN bs) (lenN a)); try lia; auto.
  rewrite copy_into_ok by lia. reflexivity.
Qed.

Lemma std_write_all_spec bs sched x put sched' :
  std_write_all bs sched = (x, put, sched') ->
  prefix put bs /\ suffix sched' sched /\ (x = Ok tt -> put = bs) /\ returns x.
Proof.
  revert bs x put sched'; induction sched as [|ev s IH]; intros bs x put sched';
    destruct bs as [|b bs]; cbn [std_write_all].
  - intros [= <- <- <-]. repeat split; auto using suffix_refl, prefix_refl.
  - intros [= <- <- <-]. repeat split; auto using suffix_refl, prefix_refl.
  - intros [= <- <- <-]. repeat split; auto using suffix_refl, prefix_refl.
  - destruct ev as [c| |k|].
    + destruct (N.eqb_spec (lenN (takeN c (b :: bs))) 0).
      * intros [= <- <- <-]. repeat split; auto using suffix_refl, prefix_nil, suffix_cons; discriminate.
      * destruct (std_write_all _ s) as [[y more] s'] eqn:E. intros [= <- <- <-].
        apply IH in E as (P & S & O & R).
        assert (Hsplit : b :: bs = takeN c (b :: bs) ++ dropN (lenN (takeN c (b :: bs))) (b :: bs)).
        { rewrite <- (takeN_dropN c (b :: bs)) at 1. f_equal. rewrite lenN_takeN.
          destruct (N.le_gt_cases c (lenN (b :: bs))); [f_equal; lia|].
          rewrite !dropN_all by lia. reflexivity. }
        repeat split; auto using suffix_cons.
        -- destruct P as [q Hq]. exists q. rewrite <- app_assoc, <- Hq. exact Hsplit.
        -- intros ->. rewrite (O eq_refl). symmetry. exact Hsplit.
    + intros E. apply IH in E as (P & S & O & R). repeat split; auto using suffix_cons.
    + intros [= <- <- <-]. repeat split; auto using suffix_refl, prefix_nil, suffix_cons; discriminate.
    + intros [= <- <- <-]. repeat split; auto using suffix_refl, prefix_refl, suffix_cons.
Qed.
Lemma custom_write_all_spec bs out script x out' script' :
  custom_write_all bs out script = (x, out', script') ->
  exists p, prefix p bs /\ out' = out ++ p /\ suffix script' script
            /\ (x = Ok tt -> p = bs) /\ returns x.
Proof.
  revert out script x out' script'; induction bs as [|b bs IH]; intros out script x out' script';
    cbn [custom_write_all].
  - intros [= <- <- <-]. exists []. rewrite app_nil_r.
    repeat split; auto using suffix_refl, prefix_nil.
  - destruct script as [|[e|] s].
    + intros E. apply IH in E as (p & P & -> & S & O & R). exists (b :: p).
      rewrite <- app_assoc. repeat split; auto.
      * now apply (prefix_app p bs [b]).
      * intros ->. now rewrite O.
    + intros [= <- <- <-]. exists []. rewrite app_nil_r.
      repeat split; auto using suffix_cons, suffix_refl, prefix_nil. discriminate.
    + intros E. apply IH in E as (p & P & -> & S & O & R). exists (b :: p).
      rewrite <- app_assoc. repeat split; auto using suffix_cons.
      * now apply (prefix_app p bs [b]).
      * intros ->. now rewrite O.
Qed.

(** The result of [write_all] on any reachable writer. *)
Lemma write_all_spec bs w x w' :
  wwf w -> write_all bs w = (x, w') ->
  returns x /\ exists p, prefix p bs /\ puts w p w' /\ (x = Ok tt -> p = bs).
Proof.
  intros W. destruct w; cbn [write_all wwf] in *.
  - rewrite vec_write_all_spec by assumption. destruct read_only; intros [= <- <-].
    + split; [exact I|]. exists []. cbn [puts]. rewrite overwrite_nil, lenN_nil, N.add_0_r.
      repeat split; auto using prefix_nil. discriminate.
    + split; [exact I|]. exists bs. cbn. repeat split; auto using prefix_refl. discriminate.
  - rewrite vec_write_all_spec by assumption. destruct read_only; intros [= <- <-].
    + split; [exact I|]. exists []. cbn [puts]. rewrite overwrite_nil, lenN_nil, N.add_0_r.
      repeat split; auto using prefix_nil. discriminate.
    + split; [exact I|]. exists bs. cbn. repeat split; auto using prefix_refl. discriminate.
  - rewrite arr_write_all_spec by assumption.
    destruct (N.leb_spec (offset + lenN bs) (lenN array)); intros [= <- <-].
    + split; [exact I|]. exists bs. cbn. repeat split; auto using prefix_refl.
    + split; [exact I|]. exists []. cbn [puts]. rewrite overwrite_nil, lenN_nil, N.add_0_r.
      repeat split; auto using prefix_nil. discriminate.
  - unfold ww_write_all. destruct sched as [|[c| |k|] s]; cbn [std_write].
    + rewrite N.eqb_refl. intros [= <- <-]. split; [exact I|]. exists bs.
      cbn. rewrite takeN_all by lia. repeat split; auto using prefix_refl, suffix_refl.
    + intros [= <- <-].
      assert (Q : prefix (takeN (N.min c (lenN bs)) bs) bs).
      { exists (dropN (N.min c (lenN bs)) bs). now rewrite takeN_dropN. }
      split; [destruct (_ =? _); exact I|]. exists (takeN (N.min c (lenN bs)) bs).
      cbn. repeat split; auto using suffix_cons, suffix_refl.
      destruct (N.eqb_spec (N.min c (lenN bs)) (lenN bs)); [|discriminate].
      intros _. apply takeN_all. lia.
    + intros [= <- <-]. split; [exact I|]. exists []. cbn. rewrite app_nil_r.
      repeat split; auto using prefix_nil, suffix_cons, suffix_refl. discriminate.
    + intros [= <- <-]. split; [exact I|]. exists []. cbn. rewrite app_nil_r.
      repeat split; auto using prefix_nil, suffix_cons, suffix_refl. discriminate.
    + rewrite N.eqb_refl. intros [= <- <-]. split; [exact I|]. exists bs.
      cbn. rewrite takeN_all by lia. repeat split; auto using prefix_refl, suffix_cons, suffix_refl.
  - destruct (std_write_all bs sched) as [[y p] s'] eqn:E. intros [= <- <-].
    apply std_write_all_spec in E as (P & S & O & R).
    split; [destruct y; exact R|]. exists p. cbn. repeat split; auto.
    destruct y as [[]|k| |]; try discriminate. auto.
  - destruct (custom_write_all bs out script) as [[y o'] s'] eqn:E. intros [= -> <-].
    apply custom_write_all_spec in E as (p & P & -> & S & O & R).
    split; [exact R|]. exists p. cbn. repeat split; auto.
Qed.
Lemma arr_write_spec b a o : o <= lenN a -> arr_write b a o = arr_write_all [b] a o.
Proof. intros H. unfold arr_write, arr_write_all. now rewrite lenN_cons, lenN_nil. Qed.
Lemma write_is_write_all b w : wwf w -> write b w = write_all [b] w.
Proof.
  destruct w; cbn [write write_all wwf]; intros W;
    rewrite ?vec_write_spec, ?arr_write_spec by assumption; try reflexivity.
  destruct script as [|[e|] s]; reflexivity.
Qed.

Lemma accepts_wwf n w : accepts n w -> wwf w.
Proof. destruct w; cbn; try tauto. lia. Qed.
Lemma accepts_le n m w : m <= n -> accepts n w -> accepts m w.
Proof. destruct w; cbn; auto. lia. Qed.

Lemma std_write_all_fair bs sched :
  Forall fair sched -> exists s', std_write_all bs sched = (Ok tt, bs, s').
Proof.
  revert bs; induction sched as [|ev s IH]; intros bs F; destruct bs as [|b bs];
    cbn [std_write_all]; eauto.
  inversion F as [|? ? He F']; subst. destruct ev as [c| |k|]; cbn in He; [|auto|contradiction|eauto].
  destruct (N.eqb_spec (lenN (takeN c (b :: bs))) 0) as [Hz|Hz].
  { rewrite lenN_takeN, lenN_cons in Hz. lia. }
  destruct (IH (dropN (lenN (takeN c (b :: bs))) (b :: bs)) F') as [s' ->].
  exists s'. do 2 f_equal. rewrite lenN_takeN.
  destruct (N.le_gt_cases c (lenN (b :: bs))).
  - replace (N.min c (lenN (b :: bs))) with c by lia. apply takeN_dropN.
  - rewrite (dropN_all (N.min _ _)) by lia. rewrite app_nil_r. apply takeN_all. lia.
Qed.
Lemma custom_write_all_good bs out script :
  Forall (fun x => x = None) script ->
  exists s', custom_write_all bs out script = (Ok tt, out ++ bs, s') /\ Forall (fun x => x = None) s'.
Proof.
  revert out script; induction bs as [|b bs IH]; intros out script F; cbn [custom_write_all].
  - rewrite app_nil_r. eauto.
  - destruct script as [|[e|] s].
    + destruct (IH (out ++ [b]) [] F) as (s' & -> & F'). rewrite <- app_assoc. eauto.
    + inversion F; discriminate.
    + inversion F; subst. destruct (IH (out ++ [b]) s) as (s' & -> & F'); [assumption|].
      rewrite <- app_assoc. eauto.
Qed.

Lemma write_all_accepts n bs w :
  accepts n w -> lenN bs <= n ->
  exists w', write_all bs w = (Ok tt, w') /\ puts w bs w' /\ accepts (n - lenN bs) w'.
Proof.
  intros A L. pose proof (accepts_wwf _ _ A) as W.
  assert (H : exists w', write_all bs w = (Ok tt, w') /\ accepts (n - lenN bs) w').
  { destruct w; cbn [accepts wwf write_all] in *.
    - destruct A as [A ->]. rewrite vec_write_all_spec by assumption.
      eexists; split; [reflexivity|]. cbn. rewrite lenN_overwrite by assumption. split; [lia|auto].
    - destruct A as [A ->]. rewrite vec_write_all_spec by assumption.
      eexists; split; [reflexivity|]. cbn. rewrite lenN_overwrite by assumption. split; [lia|auto].
    - rewrite arr_write_all_spec by assumption.
      destruct (N.leb_spec (offset + lenN bs) (lenN array)); [|lia].
      eexists; split; [reflexivity|]. cbn. rewrite lenN_overwrite by assumption. lia.
    - subst. unfold ww_write_all. cbn [std_write]. rewrite N.eqb_refl.
      eexists; split; [reflexivity|]. reflexivity.
    - destruct (std_write_all_fair bs sched A) as [s' E]. rewrite E.
      eexists; split; [reflexivity|]. cbn.
      apply std_write_all_spec in E as (_ & S & _). eapply suffix_Forall; eauto.
    - destruct (custom_write_all_good bs out script A) as (s' & -> & F).
      eexists; split; [reflexivity|]. exact F. }
  destruct H as (w' & E & A'). exists w'. repeat split; auto.
  apply write_all_spec in E as (_ & p & _ & P & O); [|assumption].
  now rewrite <- (O eq_refl).
Qed.

(** Facts about readers. *)
From Verif Require Import Base BaseFacts Types IO IOSpec.

Lemma suffix_refl {A} (l : list A) : suffix l l.
Proof. exists []. reflexivity. Qed.
Lemma suffix_trans {A} (a b c : list A) : suffix a b -> suffix b c -> suffix a c.
Proof. intros [p ->] [q ->]. exists (q ++ p). now rewrite app_assoc. Qed.
Lemma suffix_cons {A} (a b : list A) x : suffix a b -> suffix a (x :: b).
Proof. intros [p ->]. exists (x :: p). reflexivity. Qed.
Lemma suffix_nil {A} (l : list A) : suffix [] l.
Proof. exists l. now rewrite app_nil_r. Qed.
Lemma suffix_tl {A} (l : list A) : suffix (tl l) l.
Proof. destruct l; [apply suffix_refl|]. apply suffix_cons, suffix_refl. Qed.
Lemma suffix_Forall {A} (P : A -> Prop) a b : suffix a b -> Forall P b -> Forall P a.
Proof. intros [p ->] H. apply Forall_app in H. tauto. Qed.

(** ** VecReader and ByteArrayReader compute the same *)
Lemma vecr_can_read_eq v o n : vecr_can_read v o n = mem_can_read (lenN v) o n.
Proof. reflexivity. Qed.
Lemma vecr_read_eq v o : vecr_read v o = mem_read v o.
Proof. unfold vecr_read, mem_read. now rewrite vecr_can_read_eq. Qed.
Lemma vecr_read_all_eq n v o : vecr_read_all n v o = mem_read_all n v o.
Proof. unfold vecr_read_all, mem_read_all. now rewrite vecr_can_read_eq. Qed.
Lemma vecr_skip_eq n v o : vecr_skip n v o = mem_skip n (lenN v) o.
Proof. unfold vecr_skip, mem_skip. now rewrite vecr_can_read_eq. Qed.

(** ** read_exact *)
Lemma read_exact_spec n data sched x got data' sched' :
  read_exact n data sched = (x, got, data', sched') ->
  data = got ++ data' /\ suffix sched' sched /\ lenN got <= n
  /\ (x = Ok tt -> lenN got = n) /\ returns x.
Proof.
  revert n data x got data' sched'.
  induction sched as [|ev sched IH]; intros n data x got data' sched'; cbn [read_exact].
  - destruct (N.eqb_spec n 0) as [->|Hn].
    + intros [= <- <- <- <-]. repeat split; auto using suffix_refl; rewrite lenN_nil; lia.
    + destruct (N.leb_spec n (lenN data)).
      * intros [= <- <- <- <-]. rewrite takeN_dropN, lenN_takeN.
        repeat split; auto using suffix_refl; lia.
      * intros [= <- <- <- <-]. rewrite app_nil_r.
        repeat split; auto using suffix_refl; try lia. discriminate.
  - destruct (N.eqb_spec n 0) as [->|Hn].
    + intros [= <- <- <- <-]. repeat split; auto using suffix_refl; rewrite lenN_nil; lia.
    + destruct ev as [c| |k|].
      * destruct (N.eqb_spec (lenN (takeN (N.min n c) data)) 0) as [Hz|Hz].
        -- intros [= <- <- <- <-].
           repeat split; auto using suffix_cons, suffix_refl; rewrite ?lenN_nil; try lia.
           discriminate.
        -- destruct (read_exact _ _ sched) as [[[y more] d'] s'] eqn:E.
           intros [= <- <- <- <-]. apply IH in E as (Hd & Hs & Hl & Ho & Hr).
           assert (Hl1 : lenN (takeN (N.min n c) data) <= n) by (rewrite lenN_takeN; lia).
           repeat split; auto using suffix_cons.
           ++ rewrite <- app_assoc, <- Hd. rewrite lenN_takeN.
              rewrite <- (takeN_dropN (N.min n c) data) at 1. f_equal.
              destruct (N.le_gt_cases (N.min n c) (lenN data)).
              ** f_equal. lia.
              ** rewrite !dropN_all by lia. reflexivity.
           ++ rewrite lenN_app. lia.
           ++ intros ->. rewrite lenN_app, Ho by reflexivity. lia.
      * intros E. apply IH in E as (Hd & Hs & Hl & Ho & Hr). auto using suffix_cons.
      * intros [= <- <- <- <-].
        repeat split; auto using suffix_cons, suffix_refl; rewrite ?lenN_nil; try lia.
        discriminate.
      * destruct (N.leb_spec n (lenN data)); intros [= <- <- <- <-].
        -- rewrite takeN_dropN, lenN_takeN.
           repeat split; auto using suffix_cons, suffix_refl; lia.
        -- repeat split; auto using suffix_cons, suffix_refl; rewrite ?lenN_nil; try lia.
           discriminate.
Qed.

Lemma read_exact_good n data sched :
  Forall fair sched -> n <= lenN data ->
  exists sched', read_exact n data sched = (Ok tt, takeN n data, dropN n data, sched').
Proof.
  revert n data; induction sched as [|ev sched IH]; intros n data Hf Hn; cbn [read_exact].
  - destruct (N.eqb_spec n 0) as [->|H0].
    + rewrite takeN_0, dropN_0. eauto.
    + destruct (N.leb_spec n (lenN data)); [eauto|lia].
  - destruct (N.eqb_spec n 0) as [->|H0].
    + rewrite takeN_0, dropN_0. eauto.
    + inversion Hf as [|? ? He Hf']; subst. destruct ev as [c| |k|]; cbn in He.
      * rewrite lenN_takeN. destruct (N.eqb_spec (N.min (N.min n c) (lenN data)) 0); [lia|].
        replace (N.min (N.min n c) (lenN data)) with (N.min n c) by lia.
        destruct (IH (n - N.min n c) (dropN (N.min n c) data) Hf') as [s' E].
        { rewrite lenN_dropN. lia. }
        rewrite E. exists s'. f_equal. f_equal; [f_equal|].
        -- rewrite <- takeN_split. f_equal. lia.
        -- rewrite dropN_dropN. f_equal. lia.
      * apply IH; assumption.
      * contradiction.
      * destruct (N.leb_spec n (lenN data)); [eauto|lia].
Qed.

Lemma read_exact_short n data sched :
  Forall fair sched -> lenN data < n ->
  exists got data' sched', read_exact n data sched = (Err UnexpectedEof, got, data', sched').
Proof.
  revert n data; induction sched as [|ev sched IH]; intros n data Hf Hn; cbn [read_exact].
  - destruct (N.eqb_spec n 0); [lia|]. destruct (N.leb_spec n (lenN data)); [lia|]. eauto.
  - destruct (N.eqb_spec n 0); [lia|].
    inversion Hf as [|? ? He Hf']; subst. destruct ev as [c| |k|]; cbn in He.
    + rewrite lenN_takeN. destruct (N.eqb_spec (N.min (N.min n c) (lenN data)) 0) as [Hz|Hz]; [eauto|].
      destruct (IH (n - N.min (N.min n c) (lenN data))
                   (dropN (N.min (N.min n c) (lenN data)) data) Hf') as (got & data' & s' & E).
      { rewrite lenN_dropN. lia. }
      rewrite E. eauto.
    + apply IH; assumption.
    + contradiction.
    + destruct (N.leb_spec n (lenN data)); [lia|]. eauto.
Qed.

(** ** delivers *)
Lemma delivers_refl r : delivers r [] r.
Proof.
  induction r as [a o|v o|s IH n|d sc|s|sc]; cbn [delivers].
  - rewrite lenN_nil, N.add_0_r. auto using prefix_nil.
  - rewrite lenN_nil, N.add_0_r. auto using prefix_nil.
  - rewrite lenN_nil, N.sub_0_r. split; [lia|auto].
  - auto using suffix_refl.
  - rewrite lenN_nil, N.add_0_r. auto using suffix_refl, prefix_nil.
  - reflexivity.
Qed.

Lemma prefix_join {A} (b1 b2 : list A) o l :
  prefix b1 (dropN o l) -> prefix b2 (dropN (o + lenN b1) l) -> prefix (b1 ++ b2) (dropN o l).
Proof.
  intros [q1 H1] [q2 H2]. rewrite <- dropN_dropN, H1, dropN_app_exact in H2 by reflexivity.
  subst q1. exists q2. now rewrite H1, app_assoc.
Qed.

Lemma delivers_trans r b1 r1 b2 r2 :
  delivers r b1 r1 -> delivers r1 b2 r2 -> delivers r (b1 ++ b2) r2.
Proof.
  revert r1 r2; induction r as [a o|v o|s IH n|d sc|s|sc]; intros r1 r2 H1 H2;
    destruct r1; cbn [delivers] in H1; try contradiction;
    destruct r2; cbn [delivers] in H2 |- *; try contradiction.
  - destruct H1 as (-> & -> & P1), H2 as (-> & -> & P2).
    rewrite lenN_app. repeat split; [lia|]. eapply prefix_join; eauto.
  - destruct H1 as (-> & -> & P1), H2 as (-> & -> & P2).
    rewrite lenN_app. repeat split; [lia|]. eapply prefix_join; eauto.
  - destruct H1 as (L1 & -> & D1), H2 as (L2 & -> & D2).
    rewrite lenN_app. repeat split; [lia|lia|eauto].
  - destruct H1 as (-> & S1), H2 as (-> & S2). rewrite app_assoc. eauto using suffix_trans.
  - destruct H1 as (D1 & P1 & F1 & S1 & K1), H2 as (D2 & P2 & F2 & S2 & K2).
    rewrite lenN_app. repeat split; try congruence; [lia| |eauto using suffix_trans|eauto using suffix_trans].
    rewrite D1, P1 in F2. eapply prefix_join; eauto.
  - subst. now rewrite map_app, app_assoc.
Qed.

Lemma delivers_limited r n bs r2 :
  delivers (RLimited r n) bs r2 ->
  exists r', r2 = RLimited r' (n - lenN bs) /\ lenN bs <= n /\ delivers r bs r'.
Proof.
  destruct r2; cbn [delivers]; try contradiction. intros (L & -> & D). eauto.
Qed.

Lemma mem_can_read_ok len o n : mem_can_read len o n = Ok tt -> n = 0 \/ (o <= len /\ n <= len - o).
Proof.
  unfold mem_can_read, mem_available. destruct (N.eqb_spec n 0); [auto|].
  destruct (N.leb_spec o len); [|discriminate].
  destruct (N.eqb_spec (len - o) 0); [discriminate|].
  destruct (N.ltb_spec (len - o) n); [discriminate|]. intros _. right. lia.
Qed.
Lemma mem_can_read_cases len o n :
  o <= len ->
  mem_can_read len o n =
    if n =? 0 then Ok tt else if o =? len then Err EndOfData
    else if len - o <? n then Err UnableToReadData else Ok tt.
Proof.
  intros H. unfold mem_can_read, mem_available. destruct (N.eqb_spec n 0); [auto|].
  destruct (N.leb_spec o len); [|lia].
  destruct (N.eqb_spec (len - o) 0), (N.eqb_spec o len); try lia; auto.
Qed.

Lemma mem_read_all_ok n d o got o' :
  mem_read_all n d o = (Ok tt, got, o') ->
  lenN got = n /\ o' = o + n /\ prefix got (dropN o d).
Proof.
  unfold mem_read_all. destruct (mem_can_read (lenN d) o n) as [[]|e| |] eqn:E; try discriminate.
  unfold slice. destruct (N.leb_spec o (o + n)); [|lia].
  destruct (N.leb_spec (o + n) (lenN d)) as [Hl|Hl]; cbn [andb]; [|discriminate].
  intros [= <- <-]. replace (o + n - o) with n by lia.
  rewrite lenN_takeN, lenN_dropN. repeat split; [lia|].
  exists (dropN n (dropN o d)). now rewrite takeN_dropN.
Qed.
Lemma mem_read_ok d o b o' :
  mem_read d o = (Ok b, o') -> o' = o + 1 /\ prefix [b] (dropN o d).
Proof.
  unfold mem_read. destruct (mem_can_read (lenN d) o 1) as [[]|e| |]; try discriminate.
  destruct (nthN d o) eqn:E; [|discriminate]. intros [= <- <-]. split; [reflexivity|].
  apply nthN_dropN in E. rewrite E. exists (dropN (o + 1) d). reflexivity.
Qed.

Lemma read_custom_all_spec n sc x got sc' :
  read_custom_all n sc = (x, got, sc') ->
  returns x /\ (x = Ok tt -> length got = n /\ sc = map inr got ++ sc')
  /\ (length sc' <= length sc)%nat /\ suffix sc' sc.
Proof.
  revert sc x got sc'; induction n as [|n IH]; intros sc x got sc'; cbn [read_custom_all].
  - intros [= <- <- <-]. repeat split; auto using suffix_refl.
  - destruct sc as [|[e|b] sc].
    + intros [= <- <- <-]. repeat split; try discriminate; auto using suffix_refl.
    + intros [= <- <- <-]. repeat split; try discriminate; cbn; auto using suffix_cons, suffix_refl.
    + destruct (read_custom_all n sc) as [[y more] s'] eqn:E. intros [= <- <- <-].
      apply IH in E as (Hr & Ho & Hl & Hs). repeat split; auto using suffix_cons.
      * destruct (Ho H) as [<- _]. reflexivity.
      * destruct (Ho H) as [_ ->]. reflexivity.
      * cbn. lia.
Qed.

Lemma seek_read_all_ok n s got s' :
  seek_read_all n s = (Ok tt, got, s') ->
  lenN got = n /\ sk_data s' = sk_data s /\ sk_pos s' = sk_pos s + lenN got
  /\ prefix got (dropN (sk_pos s) (sk_data s)) /\ suffix (sk_sched s') (sk_sched s)
  /\ sk_seeks s' = sk_seeks s.
Proof.
  unfold seek_read_all. destruct s as [d p sc k]; cbn [sk_data sk_pos sk_sched sk_seeks].
  destruct (read_exact n (dropN p d) sc) as [[[y g] d'] sc'] eqn:E.
  pose proof (read_exact_spec _ _ _ _ _ _ _ E) as (Hd & Hs & Hl & Ho & Hr).
  destruct y as [[]|e| |]; try discriminate. intros [= <- <-]. cbn.
  repeat split; auto. exists d'. assumption.
Qed.

Lemma read_all_ok n r got r' :
  read_all n r = (Ok tt, got, r') -> lenN got = n /\ delivers r got r'.
Proof.
  revert n got r'; induction r as [a o|v o|s IH m|d sc|s|sc]; intros n got r'; cbn [read_all]; rewrite ?vecr_read_all_eq.
  - destruct (mem_read_all n a o) as [[y g] o'] eqn:E. intros [= -> <- <-].
    apply mem_read_all_ok in E as (<- & -> & P). cbn. auto.
  - destruct (mem_read_all n v o) as [[y g] o'] eqn:E. intros [= -> <- <-].
    apply mem_read_all_ok in E as (<- & -> & P). cbn. auto.
  - destruct (N.ltb_spec m n); [discriminate|].
    destruct (read_all n s) as [[y g] s'] eqn:E. intros [= -> <- <-].
    apply IH in E as (<- & D). cbn. auto.
  - destruct (read_exact n d sc) as [[[y g] d'] sc'] eqn:E. intros [= Hy <- <-].
    pose proof (read_exact_spec _ _ _ _ _ _ _ E) as (Hd & Hs & Hl & Ho & Hr).
    destruct y as [[]|e| |]; try discriminate. cbn. auto.
  - destruct (seek_read_all n s) as [[y g] s'] eqn:E. intros [= -> <- <-].
    apply seek_read_all_ok in E as (Hn & H1 & H2 & H3 & H4 & H5). cbn. rewrite H5.
    repeat split; auto using suffix_refl.
  - destruct (read_custom_all _ sc) as [[y g] sc'] eqn:E. intros [= -> <- <-].
    apply read_custom_all_spec in E as (Hr & Ho & Hl & _). destruct (Ho eq_refl) as [Hg Hsc].
    cbn. split; [|assumption]. assert (length sc = (length g + length sc')%nat).
    { rewrite Hsc at 1. now rewrite app_length, map_length. }
    unfold lenN in *. lia.
Qed.

Lemma read_ok r b r' : read r = (Ok b, r') -> delivers r [b] r'.
Proof.
  revert r'; induction r as [a o|v o|s IH m|d sc|s|sc]; intros r'; cbn [read]; rewrite ?vecr_read_eq.
  - destruct (mem_read a o) as [y o'] eqn:E. intros [= -> <-].
    apply mem_read_ok in E as (-> & P). cbn. auto.
  - destruct (mem_read v o) as [y o'] eqn:E. intros [= -> <-].
    apply mem_read_ok in E as (-> & P). cbn. auto.
  - destruct (N.ltb_spec m 1); [discriminate|].
    destruct (read s) as [y s'] eqn:E. intros [= -> <-].
    cbn. repeat split; auto; rewrite lenN_cons, lenN_nil; lia.
  - destruct (read_exact 1 d sc) as [[[y g] d'] sc'] eqn:E.
    pose proof (read_exact_spec _ _ _ _ _ _ _ E) as (Hd & Hs & Hl & Ho & Hr).
    destruct y as [[]|e| |]; try discriminate. intros [= <- <-].
    specialize (Ho eq_refl). destruct g as [|x [|y g]]; rewrite ?lenN_cons, ?lenN_nil in Ho; try lia.
    cbn in *. auto.
  - destruct (seek_read_all 1 s) as [[y g] s'] eqn:E.
    destruct y as [[]|e| |]; try discriminate. cbn [map_ok]. intros [= <- <-].
    apply seek_read_all_ok in E as (Hn & H1 & H2 & H3 & H4 & H5).
    destruct g as [|x [|y g]]; rewrite ?lenN_cons, ?lenN_nil in Hn; try lia.
    cbn [delivers hd]. rewrite H5. auto using suffix_refl.
  - destruct sc as [|[e|x] sc]; try discriminate. intros [= <- <-]. reflexivity.
Qed.

(** ** Good readers *)
Lemma pending_delivers r bs r' :
  good r -> delivers r bs r' -> pending r = bs ++ pending r' /\ good r'.
Proof.
  revert r'; induction r as [a o|v o|s IH m|d sc|s|sc]; intros r' G D;
    destruct r'; cbn [delivers] in D; try contradiction; cbn [pending good] in *.
  - destruct D as (-> & -> & q & Hq). rewrite <- dropN_dropN, Hq, dropN_app_exact by reflexivity.
    split; [reflexivity|]. apply (f_equal lenN) in Hq. rewrite lenN_dropN, lenN_app in Hq. lia.
  - destruct D as (-> & -> & q & Hq). rewrite <- dropN_dropN, Hq, dropN_app_exact by reflexivity.
    split; [reflexivity|]. apply (f_equal lenN) in Hq. rewrite lenN_dropN, lenN_app in Hq. lia.
  - destruct D as (L & -> & D). destruct (IH _ G D) as [-> G']. split; [|assumption].
    rewrite takeN_app, (takeN_all m bs) by assumption. reflexivity.
  - destruct D as (-> & S). split; [reflexivity|]. eapply suffix_Forall; eauto.
  - destruct D as (H1 & H2 & (q & Hq) & H4 & H5). rewrite H1, H2, <- dropN_dropN, Hq, dropN_app_exact by reflexivity.
    split; [reflexivity|]. destruct G. split; eapply suffix_Forall; eauto.
  - subst. apply Forall_app in G as [_ G]. split; [|assumption].
    induction bs as [|b bs IHb]; cbn; [reflexivity|now rewrite IHb].
Qed.

Lemma mem_read_all_good n d o :
  o <= lenN d -> n <= lenN (dropN o d) ->
  mem_read_all n d o = (Ok tt, takeN n (dropN o d), o + n).
Proof.
  rewrite lenN_dropN. intros Ho Hn. unfold mem_read_all.
  rewrite mem_can_read_cases by assumption.
  destruct (N.eqb_spec n 0) as [->|H0].
  - rewrite slice_ok by lia. now replace (o + 0 - o) with 0 by lia.
  - destruct (N.eqb_spec o (lenN d)); [lia|]. destruct (N.ltb_spec (lenN d - o) n); [lia|].
    rewrite slice_ok by lia. now replace (o + n - o) with n by lia.
Qed.
Lemma read_custom_all_good n sc :
  Forall (fun x : io_error + N => match x with inr _ => True | inl _ => False end) sc ->
  (n <= length sc)%nat ->
  read_custom_all n sc = (Ok tt, firstn n (script_bytes sc), skipn n sc).
Proof.
  revert sc; induction n as [|n IH]; intros sc F H; cbn [read_custom_all]; [reflexivity|].
  destruct sc as [|[e|b] sc]; cbn in H; [lia|inversion F; contradiction|].
  inversion F; subst. rewrite IH by (assumption || lia). reflexivity.
Qed.
Lemma script_bytes_length sc :
  Forall (fun x : io_error + N => match x with inr _ => True | inl _ => False end) sc ->
  length (script_bytes sc) = length sc.
Proof.
  induction sc as [|[e|b] sc IH]; intros F; cbn; [reflexivity|inversion F; contradiction|].
  inversion F; subst. now rewrite IH.
Qed.

Lemma read_all_good n r :
  good r -> n <= lenN (pending r) ->
  exists r', read_all n r = (Ok tt, takeN n (pending r), r').
Proof.
  revert n; induction r as [a o|v o|s IH m|d sc|s|sc]; intros n G H; cbn [good pending read_all] in *;
    rewrite ?vecr_read_all_eq.
  - rewrite mem_read_all_good by assumption. eauto.
  - rewrite mem_read_all_good by assumption. eauto.
  - rewrite lenN_takeN in H. destruct (N.ltb_spec m n); [lia|].
    destruct (IH n G) as [r' ->]; [lia|]. rewrite takeN_takeN. replace (N.min n m) with n by lia. eauto.
  - destruct (read_exact_good n d sc G H) as [sc' ->]. eauto.
  - destruct s as [d p sc k]. cbn [sk_pos sk_data sk_sched sk_seeks] in *. unfold seek_read_all.
    destruct G as [G _]. destruct (read_exact_good n (dropN p d) sc G H) as [sc' ->]. eauto.
  - pose proof (script_bytes_length sc G) as L.
    rewrite read_custom_all_good; [|assumption|unfold lenN in *; lia].
    rewrite takeN_firstn. unfold lenN in *.
    replace (N.to_nat (N.min n (N.of_nat (length sc) + 1))) with (N.to_nat n) by lia. eauto.
Qed.

Lemma read_custom_all_short n sc :
  Forall (fun x : io_error + N => match x with inr _ => True | inl _ => False end) sc ->
  (length sc < n)%nat ->
  read_custom_all n sc = (Err EndOfData, script_bytes sc, []).
Proof.
  revert sc; induction n as [|n IH]; intros sc F H; cbn [read_custom_all]; [lia|].
  destruct sc as [|[e|b] sc]; cbn in H; [reflexivity|inversion F; contradiction|].
  inversion F; subst. rewrite IH by (assumption || lia). reflexivity.
Qed.

Lemma read_all_short n r :
  good r -> lenN (pending r) < n ->
  exists e got r', read_all n r = (Err e, got, r').
Proof.
  revert n; induction r as [a o|v o|s IH m|d sc|s|sc]; intros n G H; cbn [good pending read_all] in *;
    rewrite ?vecr_read_all_eq.
  - rewrite lenN_dropN in H. unfold mem_read_all. rewrite mem_can_read_cases by assumption.
    destruct (N.eqb_spec n 0); [lia|]. destruct (N.eqb_spec o (lenN a)); [eauto|].
    destruct (N.ltb_spec (lenN a - o) n); [eauto|lia].
  - rewrite lenN_dropN in H. unfold mem_read_all. rewrite mem_can_read_cases by assumption.
    destruct (N.eqb_spec n 0); [lia|]. destruct (N.eqb_spec o (lenN v)); [eauto|].
    destruct (N.ltb_spec (lenN v - o) n); [eauto|lia].
  - rewrite lenN_takeN in H. destruct (N.ltb_spec m n); [eauto|].
    destruct (IH n G) as (e & got & r' & ->); [lia|]. eauto.
  - destruct (read_exact_short n d sc G H) as (got & d' & sc' & ->). cbn. eauto.
  - destruct s as [d p sc k]. cbn [sk_pos sk_data sk_sched sk_seeks] in *. unfold seek_read_all.
    destruct G as [G _]. destruct (read_exact_short n (dropN p d) sc G H) as (got & d' & sc' & ->). eauto.
  - pose proof (script_bytes_length sc G) as L.
    rewrite read_custom_all_short; [|assumption|unfold lenN in *; lia]. eauto.
Qed.

(** [read] is [read_all] of one byte. *)
Lemma read_as_read_all r :
  rwf r ->
  read r = let '(x, got, r') := read_all 1 r in (map_ok (fun _ => hd 0 got) x, r').
Proof.
  induction r as [a o|v o|s IH m|d sc|s|sc]; intros W; cbn [read read_all rwf] in *;
    rewrite ?vecr_read_eq, ?vecr_read_all_eq.
  - destruct W as [_ W]. unfold mem_read, mem_read_all. rewrite mem_can_read_cases by assumption.
    cbn [N.eqb]. destruct (N.eqb_spec o (lenN a)); [reflexivity|].
    destruct (N.ltb_spec (lenN a - o) 1); [reflexivity|].
    rewrite slice_ok by lia. destruct (nthN_lt a o) as [x Hx]; [lia|].
    rewrite Hx. apply nthN_dropN in Hx. rewrite Hx. replace (o + 1 - o) with 1 by lia.
    cbn. reflexivity.
  - destruct W as [_ W]. unfold mem_read, mem_read_all. rewrite mem_can_read_cases by assumption.
    cbn [N.eqb]. destruct (N.eqb_spec o (lenN v)); [reflexivity|].
    destruct (N.ltb_spec (lenN v - o) 1); [reflexivity|].
    rewrite slice_ok by lia. destruct (nthN_lt v o) as [x Hx]; [lia|].
    rewrite Hx. apply nthN_dropN in Hx. rewrite Hx. replace (o + 1 - o) with 1 by lia.
    cbn. reflexivity.
  - destruct (N.ltb_spec m 1); [reflexivity|].
    rewrite IH by assumption. destruct (read_all 1 s) as [[[[]|e| |] g] s']; reflexivity.
  - destruct (read_exact 1 d sc) as [[[[[]|e| |] g] d'] sc']; reflexivity.
  - destruct (seek_read_all 1 s) as [[[[]|e| |] g] s']; reflexivity.
  - replace (N.to_nat (N.min 1 (lenN sc + 1))) with 1%nat by lia.
    destruct sc as [|[e|b] sc]; reflexivity.
Qed.

Lemma read_good r b l :
  rwf r -> good r -> pending r = b :: l -> exists r', read r = (Ok b, r').
Proof.
  intros W G P. rewrite read_as_read_all by assumption.
  destruct (read_all_good 1 r G) as [r' ->]; [rewrite P, lenN_cons; lia|].
  rewrite P. cbn. eauto.
Qed.
Lemma read_good_nil r : rwf r -> good r -> pending r = [] -> exists e r', read r = (Err e, r').
Proof.
  intros W G P. rewrite read_as_read_all by assumption.
  destruct (read_all_short 1 r G) as (e & g & r' & ->); [rewrite P, lenN_nil; lia|].
  cbn. eauto.
Qed.

(** ** Reachable readers never panic; state invariants *)
Lemma mem_read_all_wf n d o x got o' :
  o <= lenN d -> mem_read_all n d o = (x, got, o') ->
  returns x /\ o' <= lenN d /\ o <= o' /\ (is_ok x = false -> o' = o).
Proof.
  intros H. unfold mem_read_all. rewrite mem_can_read_cases by assumption.
  destruct (N.eqb_spec n 0) as [->|H0].
  - rewrite slice_ok by lia. intros [= <- <- <-]. cbn. repeat split; auto; try lia; discriminate.
  - destruct (N.eqb_spec o (lenN d)); [intros [= <- <- <-]; cbn; repeat split; auto; lia|].
    destruct (N.ltb_spec (lenN d - o) n); [intros [= <- <- <-]; cbn; repeat split; auto; lia|].
    rewrite slice_ok by lia. intros [= <- <- <-]. cbn. repeat split; auto; try lia; discriminate.
Qed.

Lemma mem_read_all_bytes n d o x got o' :
  bytes_ok d -> mem_read_all n d o = (x, got, o') -> bytes_ok got.
Proof.
  intros B. unfold mem_read_all, slice.
  destruct (mem_can_read _ _ _); try (intros [= <- <- <-]; apply bytes_ok_nil).
  destruct (_ && _); intros [= <- <- <-]; [|apply bytes_ok_nil].
  now apply Forall_takeN, Forall_dropN.
Qed.

Lemma read_all_wf n r x got r' :
  rwf r -> read_all n r = (x, got, r') -> returns x /\ rwf r' /\ (left r' <= left r)%nat /\ bytes_ok got.
Proof.
  revert n x got r'; induction r as [a o|v o|s IH m|d sc|s|sc]; intros n x got r' W; cbn [read_all rwf] in *;
    rewrite ?vecr_read_all_eq.
  - destruct (mem_read_all n a o) as [[y g] o'] eqn:E. intros [= -> <- <-].
    destruct W as [B W]. pose proof (mem_read_all_wf _ _ _ _ _ _ W E) as (R & L & M & _).
    cbn [rwf left]. repeat split; auto; [lia|].
    eapply mem_read_all_bytes; eauto.
  - destruct (mem_read_all n v o) as [[y g] o'] eqn:E. intros [= -> <- <-].
    destruct W as [B W]. pose proof (mem_read_all_wf _ _ _ _ _ _ W E) as (R & L & M & _).
    cbn [rwf left]. repeat split; auto; [lia|].
    eapply mem_read_all_bytes; eauto.
  - destruct (N.ltb_spec m n).
    + intros [= <- <- <-]. cbn. auto using bytes_ok_nil.
    + destruct (read_all n s) as [[y g] s'] eqn:E. intros [= -> <- <-].
      apply IH in E; auto.
  - destruct (read_exact n d sc) as [[[y g] d'] sc'] eqn:E. intros [= <- <- <-].
    pose proof (read_exact_spec _ _ _ _ _ _ _ E) as (Hd & Hs & Hl & Ho & Hr).
    rewrite Hd in W. apply bytes_ok_app in W as [W1 W2].
    cbn. repeat split; auto; [destruct y; cbn; auto|]. rewrite Hd, app_length. lia.
  - destruct s as [d p sc k]. cbn [sk_data] in W. unfold seek_read_all.
    destruct (read_exact n (dropN p d) sc) as [[[y g] d'] sc'] eqn:E. intros [= <- <- <-].
    pose proof (read_exact_spec _ _ _ _ _ _ _ E) as (Hd & Hs & Hl & Ho & Hr).
    assert (B' : bytes_ok (dropN p d)) by now apply Forall_dropN.
    rewrite Hd in B'. apply bytes_ok_app in B' as [B1 B2].
    cbn. repeat split; auto; [destruct y; cbn in *; auto|]. lia.
  - destruct (read_custom_all _ sc) as [[y g] sc'] eqn:E. intros [= -> <- <-].
    pose proof (read_custom_all_spec _ _ _ _ _ E) as (Hr & Ho & Hl & Hs).
    cbn. repeat split; auto; [eapply suffix_Forall; eauto|].
    clear Hl Hs Ho Hr. revert W E. generalize (N.to_nat (N.min n (lenN sc + 1))). intros k.
    revert sc x g sc'; induction k as [|k IH]; intros sc x g sc' W; cbn [read_custom_all].
    { intros [= <- <- <-]. apply bytes_ok_nil. }
    destruct sc as [|[e|b] sc]; try (intros [= <- <- <-]; apply bytes_ok_nil).
    inversion W; subst. destruct (read_custom_all k sc) as [[y g'] s'] eqn:E.
    intros [= <- <- <-]. apply bytes_ok_cons. split; [assumption|]. eapply IH; eauto.
Qed.

Lemma read_wf r x r' : rwf r -> read r = (x, r') ->
  returns x /\ rwf r' /\ (left r' <= left r)%nat /\ (forall b, x = Ok b -> byte_ok b).
Proof.
  intros W H. rewrite read_as_read_all in H by assumption.
  destruct (read_all 1 r) as [[y got] r1] eqn:E. injection H as <- <-.
  pose proof (read_all_wf _ _ _ _ _ W E) as (R & W1 & L & B). repeat split; auto.
  - destruct y; cbn in *; auto.
  - intros b Hb. destruct y as [[]|e| |]; try discriminate. cbn in Hb. injection Hb as <-.
    apply read_all_ok in E as [Hl _]. destruct got; [rewrite lenN_nil in Hl; lia|].
    cbn. now inversion B.
Qed.

Lemma delivers_left r bs r' : delivers r bs r' -> left r = (left r' + length bs)%nat.
Proof.
  revert r'; induction r as [a o|v o|s IH m|d sc|s|sc]; intros r' D;
    destruct r'; cbn [delivers] in D; try contradiction; cbn [left].
  - destruct D as (-> & -> & q & Hq). apply (f_equal (@length N)) in Hq.
    rewrite dropN_skipn, skipn_length, app_length in Hq. unfold lenN. lia.
  - destruct D as (-> & -> & q & Hq). apply (f_equal (@length N)) in Hq.
    rewrite dropN_skipn, skipn_length, app_length in Hq. unfold lenN. lia.
  - destruct D as (L & -> & D). now apply IH.
  - destruct D as (-> & S). rewrite app_length. lia.
  - destruct D as (H1 & H2 & (q & Hq) & _). apply (f_equal (@length N)) in Hq.
    rewrite dropN_skipn, skipn_length, app_length in Hq. rewrite H1, H2. unfold lenN. lia.
  - subst. rewrite app_length, map_length. lia.
Qed.
Lemma delivers_rwf r bs r' : rwf r -> delivers r bs r' -> rwf r' /\ bytes_ok bs.
Proof.
  revert r'; induction r as [a o|v o|s IH m|d sc|s|sc]; intros r' W D;
    destruct r'; cbn [delivers] in D; try contradiction; cbn [rwf] in *.
  - destruct D as (-> & -> & q & Hq). destruct W as [B W].
    assert (B' : bytes_ok (dropN o a)) by now apply Forall_dropN.
    rewrite Hq in B'. apply bytes_ok_app in B' as [B1 _]. repeat split; auto.
    apply (f_equal lenN) in Hq. rewrite lenN_dropN, lenN_app in Hq. lia.
  - destruct D as (-> & -> & q & Hq). destruct W as [B W].
    assert (B' : bytes_ok (dropN o v)) by now apply Forall_dropN.
    rewrite Hq in B'. apply bytes_ok_app in B' as [B1 _]. repeat split; auto.
    apply (f_equal lenN) in Hq. rewrite lenN_dropN, lenN_app in Hq. lia.
  - destruct D as (L & -> & D). now apply IH.
  - destruct D as (-> & S). apply bytes_ok_app in W. tauto.
  - destruct D as (H1 & H2 & (q & Hq) & _). rewrite H1. split; [assumption|].
    assert (B' : bytes_ok (dropN (sk_pos s) (sk_data s))) by now apply Forall_dropN.
    rewrite Hq in B'. now apply bytes_ok_app in B'.
  - subst. apply Forall_app in W as [W1 W2]. split; [assumption|].
    rewrite Forall_map in W1. exact W1.
Qed.

Lemma read_all_delivered n r bs rest :
  good r -> pending r = bs ++ rest -> lenN bs = n ->
  exists r', read_all n r = (Ok tt, bs, r') /\ pending r' = rest /\ good r' /\ delivers r bs r'.
Proof.
  intros G P L. destruct (read_all_good n r G) as [r' E].
  { rewrite P, lenN_app. lia. }
  rewrite P, takeN_app_exact in E by auto.
  pose proof (read_all_ok _ _ _ _ E) as [_ D].
  pose proof (pending_delivers _ _ _ G D) as [P' G'].
  exists r'. repeat split; auto. rewrite P in P'. now apply app_inv_head in P'.
Qed.

Lemma bytes_ok_pending r : rwf r -> bytes_ok (pending r).
Proof.
  induction r as [a o|v o|s IH m|d sc|s|sc]; intros W; cbn [rwf pending] in *.
  - apply Forall_dropN. tauto.
  - apply Forall_dropN. tauto.
  - apply Forall_takeN. exact (IH W).
  - assumption.
  - now apply Forall_dropN.
  - induction sc as [|[e|b] sc IH]; cbn; [constructor..|].
    inversion W; subst. constructor; auto. now apply IH.
Qed.

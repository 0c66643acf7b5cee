(** Proofs about skips and histories of calls. *)
From Verif Require Import Base BaseFacts Types IO IOSpec IOFacts WriterFacts Logic Hist.

(** ** Skips *)
Lemma delivers_left_lt r bs r' : delivers r bs r' -> 1 <= lenN bs -> (left r' < left r)%nat.
Proof. intros D L. apply delivers_left in D. unfold lenN in L. lia. Qed.

Lemma skip_loop_safe fuel count r x r' :
  rwf r -> (left r < fuel)%nat -> skip_loop fuel count r = (x, r') ->
  returns x /\ rwf r' /\ (left r' <= left r)%nat.
Proof.
  revert count r x r'; induction fuel as [|f IH]; intros count r x r' W L; [lia|].
  cbn [skip_loop]. destruct (N.eqb_spec count 0).
  - intros [= <- <-]. repeat split; auto.
  - destruct (read_all (N.min count 512) r) as [[y got] r1] eqn:E.
    destruct (read_all_wf _ _ _ _ _ W E) as (R & W1 & L1 & _). cbn [returns] in R.
    destruct y as [[]|e| |]; try (intros [= <- <-]; auto; fail); try contradiction.
    apply read_all_ok in E as [Lg D]. apply delivers_left_lt in D; [|rewrite Lg; lia].
    intros E'. apply IH in E' as (R' & W' & L'); try assumption; [repeat split; auto; lia|lia].
Qed.
Lemma skip_loop_sound fuel count r r' :
  skip_loop fuel count r = (Ok tt, r') -> exists bs, lenN bs = count /\ delivers r bs r'.
Proof.
  revert count r r'; induction fuel as [|f IH]; intros count r r'; cbn [skip_loop];
    destruct (N.eqb_spec count 0) as [->|Hc]; try discriminate.
  - intros [= <-]. exists []. auto using delivers_refl.
  - intros [= <-]. exists []. auto using delivers_refl.
  - destruct (read_all (N.min count 512) r) as [[y got] r1] eqn:E.
    destruct y as [[]|e| |]; try discriminate.
    apply read_all_ok in E as [Lg D]. intros E'. apply IH in E' as (bs & Lb & D').
    exists (got ++ bs). rewrite lenN_app. split; [lia|]. eapply delivers_trans; eauto.
Qed.
Lemma skip_loop_good fuel count r :
  good r -> (left r < fuel)%nat -> count <= lenN (pending r) ->
  exists r', skip_loop fuel count r = (Ok tt, r') /\ delivers r (takeN count (pending r)) r'.
Proof.
  revert count r; induction fuel as [|f IH]; intros count r G L H; [lia|]. cbn [skip_loop].
  destruct (N.eqb_spec count 0) as [->|Hc].
  { exists r. rewrite takeN_0. auto using delivers_refl. }
  destruct (read_all_good (N.min count 512) r G) as [r1 E]; [lia|]. rewrite E.
  apply read_all_ok in E as [Lg D]. pose proof (delivers_left_lt _ _ _ D ltac:(lia)) as L1.
  destruct (pending_delivers _ _ _ G D) as [P G1].
  assert (Pr : pending r1 = dropN (N.min count 512) (pending r)).
  { rewrite P at 1. rewrite dropN_app_exact by lia. reflexivity. }
  destruct (IH (count - N.min count 512) r1 G1) as (r2 & -> & D2); [lia|rewrite Pr, lenN_dropN; lia|].
  exists r2. split; [reflexivity|].
  replace count with (N.min count 512 + (count - N.min count 512)) at 1 by lia.
  rewrite takeN_split, <- Pr. eapply delivers_trans; eauto.
Qed.
Lemma skip_loop_short fuel count r :
  rwf r -> good r -> (left r < fuel)%nat -> lenN (pending r) < count ->
  exists e r', skip_loop fuel count r = (Err e, r').
Proof.
  intros W G L H. destruct (skip_loop fuel count r) as [x r'] eqn:E.
  destruct (skip_loop_safe _ _ _ _ _ W L E) as (R & _ & _).
  destruct x as [[]|e| |]; try contradiction; [|eauto].
  apply skip_loop_sound in E as (bs & Lb & D).
  destruct (pending_delivers _ _ _ G D) as [P _].
  apply (f_equal lenN) in P. rewrite lenN_app in P. lia.
Qed.

Lemma mem_skip_spec n (data : list N) o :
  o <= lenN data ->
  mem_skip n (lenN data) o =
    if n =? 0 then (Ok tt, o)
    else if o =? lenN data then (Err EndOfData, o)
    else if lenN data - o <? n then (Err UnableToReadData, o) else (Ok tt, o + n).
Proof.
  intros H. unfold mem_skip. rewrite mem_can_read_cases by assumption.
  destruct (N.eqb_spec n 0) as [->|]; [now rewrite N.add_0_r|].
  destruct (o =? lenN data); [reflexivity|]. destruct (lenN data - o <? n); reflexivity.
Qed.
Lemma mem_skip_sound n (a : list N) o o' :
  o <= lenN a -> mem_skip n (lenN a) o = (Ok tt, o') ->
  o' = o + n /\ n <= lenN a - o.
Proof.
  intros H. rewrite mem_skip_spec by assumption. destruct (N.eqb_spec n 0) as [->|].
  - intros [= <-]. lia.
  - destruct (o =? lenN a); [discriminate|]. destruct (N.ltb_spec (lenN a - o) n); [discriminate|].
    intros E. apply pair_inv in E as [_ <-]. lia.
Qed.

(** Readers whose [skip] is the default one. *)
Definition default_skip (r : reader) : Prop :=
  match r with RLimited _ _ | RRead _ _ | RCustom _ => True | _ => False end.
Definition no_seek (r : reader) : Prop := match r with RSeek _ => False | _ => True end.

Lemma skip_default_eq c n r : default_skip r -> skip c n r = skip_loop (S (left r)) n r.
Proof. destruct r; cbn; tauto. Qed.

Lemma delivers_mem_array (a : list N) o n :
  o <= lenN a -> n <= lenN a - o -> delivers (RByteArray a o) (takeN n (dropN o a)) (RByteArray a (o + n)).
Proof.
  intros H L. cbn [delivers]. rewrite lenN_takeN, lenN_dropN. repeat split; [lia|].
  exists (dropN n (dropN o a)). now rewrite takeN_dropN.
Qed.
Lemma delivers_mem_vec (a : list N) o n :
  o <= lenN a -> n <= lenN a - o -> delivers (RVec a o) (takeN n (dropN o a)) (RVec a (o + n)).
Proof. exact (delivers_mem_array a o n). Qed.

Lemma skip_safe c n r x r' :
  rwf r -> no_seek r -> skip c n r = (x, r') -> returns x /\ rwf r' /\ (left r' <= left r)%nat.
Proof.
  intros W S. destruct r as [a o|a o|s m|d sc|s|sc]; cbn [skip no_seek] in *; try contradiction.
  - destruct W as [B W]. rewrite mem_skip_spec by assumption.
    destruct (N.eqb_spec n 0); [intros [= <- <-]; cbn; auto|].
    destruct (N.eqb_spec o (lenN a)); [intros [= <- <-]; cbn; auto|].
    destruct (N.ltb_spec (lenN a - o) n); intros [= <- <-]; cbn [rwf left returns]; repeat split; auto; lia.
  - rewrite vecr_skip_eq. destruct W as [B W]. rewrite mem_skip_spec by assumption.
    destruct (N.eqb_spec n 0); [intros [= <- <-]; cbn; auto|].
    destruct (N.eqb_spec o (lenN a)); [intros [= <- <-]; cbn; auto|].
    destruct (N.ltb_spec (lenN a - o) n); intros [= <- <-]; cbn [rwf left returns]; repeat split; auto; lia.
  - apply skip_loop_safe; auto.
  - apply skip_loop_safe; auto.
  - apply skip_loop_safe; auto.
Qed.
Lemma skip_sound c n r r' :
  rwf r -> no_seek r -> skip c n r = (Ok tt, r') -> exists bs, lenN bs = n /\ delivers r bs r'.
Proof.
  intros W S. destruct r as [a o|a o|s m|d sc|s|sc]; cbn [skip no_seek rwf] in *; try contradiction;
    try (apply skip_loop_sound).
  - destruct (mem_skip n (lenN a) o) as [x o'] eqn:E. intros [= -> <-].
    apply mem_skip_sound in E as [-> L]; [|tauto].
    exists (takeN n (dropN o a)). rewrite lenN_takeN, lenN_dropN. split; [lia|].
    apply delivers_mem_array; tauto.
  - rewrite vecr_skip_eq. destruct (mem_skip n (lenN a) o) as [x o'] eqn:E. intros [= -> <-].
    apply mem_skip_sound in E as [-> L]; [|tauto].
    exists (takeN n (dropN o a)). rewrite lenN_takeN, lenN_dropN. split; [lia|].
    apply delivers_mem_vec; tauto.
Qed.
Lemma skip_good c n r :
  rwf r -> no_seek r -> good r -> n <= lenN (pending r) ->
  exists r', skip c n r = (Ok tt, r') /\ delivers r (takeN n (pending r)) r'.
Proof.
  intros W S G H. destruct r as [a o|a o|s m|d sc|s|sc]; cbn [skip no_seek rwf good] in *; try contradiction;
    try (apply skip_loop_good; cbn [good]; auto; fail).
  - cbn [pending] in *. rewrite lenN_dropN in H. rewrite mem_skip_spec by assumption.
    destruct (N.eqb_spec n 0) as [->|].
    { eexists; split; [reflexivity|]. rewrite takeN_0. apply delivers_refl. }
    destruct (N.eqb_spec o (lenN a)); [lia|]. destruct (N.ltb_spec (lenN a - o) n); [lia|].
    eexists; split; [reflexivity|]. now apply delivers_mem_array.
  - rewrite vecr_skip_eq. cbn [pending] in *. rewrite lenN_dropN in H. rewrite mem_skip_spec by assumption.
    destruct (N.eqb_spec n 0) as [->|].
    { eexists; split; [reflexivity|]. rewrite takeN_0. apply delivers_refl. }
    destruct (N.eqb_spec o (lenN a)); [lia|]. destruct (N.ltb_spec (lenN a - o) n); [lia|].
    eexists; split; [reflexivity|]. now apply delivers_mem_vec.
Qed.
Lemma skip_short c n r :
  rwf r -> no_seek r -> good r -> lenN (pending r) < n -> exists e r', skip c n r = (Err e, r').
Proof.
  intros W S G H. destruct (skip c n r) as [x r'] eqn:E.
  destruct (skip_safe _ _ _ _ _ W S E) as (R & _ & _).
  destruct x as [[]|e| |]; try contradiction; [|eauto].
  apply skip_sound in E as (bs & Lb & D); auto.
  destruct (pending_delivers _ _ _ G D) as [P _].
  apply (f_equal lenN) in P. rewrite lenN_app in P. lia.
Qed.

Lemma skip_no_seek c n r x r' : no_seek r -> skip c n r = (x, r') -> no_seek r'.
Proof.
  assert (K : forall k fuel r x r', skip_loop fuel k r = (x, r') -> no_seek r -> no_seek r').
  { intros k fuel. revert k. induction fuel as [|f IH]; intros k q y q'; cbn [skip_loop];
      destruct (k =? 0); try (intros [= <- <-]; auto; fail).
    destruct (read_all _ q) as [[z got] q1] eqn:E. intros H Sq.
    assert (S1 : no_seek q1).
    { destruct q as [a o|v o|s m|d sc|s|sc]; cbn [read_all no_seek] in *; try contradiction.
      - destruct (mem_read_all _ _ _) as [[? ?] ?]. now inversion E.
      - destruct (vecr_read_all _ _ _) as [[? ?] ?]. now inversion E.
      - destruct (_ <? _); [now inversion E|]. destruct (read_all _ s) as [[? ?] ?]. now inversion E.
      - destruct (read_exact _ _ _) as [[[? ?] ?] ?]. now inversion E.
      - destruct (read_custom_all _ _) as [[? ?] ?]. now inversion E. }
    destruct z as [[]|e| |]; try (inversion H; subst; assumption). eapply IH; eauto. }
  destruct r as [a o|a o|s m|d sc|s|sc]; cbn [skip]; intros S H; try contradiction;
    try (eapply K; eauto; fail).
  - destruct (mem_skip _ _ _). now inversion H.
  - destruct (vecr_skip _ _ _). now inversion H.
Qed.

(** ** skip_u64 *)
Lemma skip_u64_loop_safe c fuel count r x r' :
  1 <= usize_max c -> rwf r -> no_seek r -> (left r < fuel)%nat ->
  skip_u64_loop c fuel count r = (x, r') -> returns x /\ rwf r' /\ (left r' <= left r)%nat.
Proof.
  intros Hc. revert count r x r'; induction fuel as [|f IH]; intros count r x r' W S L; [lia|].
  cbn [skip_u64_loop]. destruct (N.eqb_spec count 0).
  - intros [= <- <-]. repeat split; auto.
  - destruct (skip c (N.min count (usize_max c)) r) as [y r1] eqn:E.
    destruct (skip_safe _ _ _ _ _ W S E) as (R & W1 & L1).
    pose proof (skip_no_seek _ _ _ _ _ S E) as S1.
    destruct y as [[]|e| |]; try (intros [= <- <-]; auto; fail); try contradiction.
    apply skip_sound in E as (bs & Lb & D); auto. apply delivers_left_lt in D; [|lia].
    intros E'. apply IH in E' as (R' & W' & L'); try assumption; [repeat split; auto; lia|lia].
Qed.
Lemma skip_u64_loop_sound c fuel count r r' :
  rwf r -> no_seek r ->
  skip_u64_loop c fuel count r = (Ok tt, r') -> exists bs, lenN bs = count /\ delivers r bs r'.
Proof.
  revert count r r'; induction fuel as [|f IH]; intros count r r' W S; cbn [skip_u64_loop];
    destruct (N.eqb_spec count 0) as [->|Hc]; try discriminate.
  - intros [= <-]. exists []. auto using delivers_refl.
  - intros [= <-]. exists []. auto using delivers_refl.
  - destruct (skip c _ r) as [y r1] eqn:E. pose proof (skip_no_seek _ _ _ _ _ S E) as S1.
    destruct (skip_safe _ _ _ _ _ W S E) as (_ & W1 & _).
    destruct y as [[]|e| |]; try discriminate.
    apply skip_sound in E as (b1 & L1 & D1); auto. intros E'. apply IH in E' as (bs & Lb & D'); auto.
    exists (b1 ++ bs). rewrite lenN_app. split; [lia|]. eapply delivers_trans; eauto.
Qed.
Lemma skip_u64_loop_good c fuel count r :
  1 <= usize_max c -> rwf r -> no_seek r -> good r -> (left r < fuel)%nat -> count <= lenN (pending r) ->
  exists r', skip_u64_loop c fuel count r = (Ok tt, r') /\ delivers r (takeN count (pending r)) r'.
Proof.
  intros Hc. revert count r; induction fuel as [|f IH]; intros count r W S G L H; [lia|]. cbn [skip_u64_loop].
  destruct (N.eqb_spec count 0) as [->|H0].
  { exists r. rewrite takeN_0. auto using delivers_refl. }
  set (k := N.min count (usize_max c)) in *.
  destruct (skip_good c k r W S G) as (r1 & E & D); [lia|]. rewrite E.
  pose proof (skip_no_seek _ _ _ _ _ S E) as S1.
  assert (Lk : lenN (takeN k (pending r)) = k) by (rewrite lenN_takeN; lia).
  pose proof (delivers_left_lt _ _ _ D ltac:(lia)) as L1.
  destruct (pending_delivers _ _ _ G D) as [P G1]. destruct (delivers_rwf _ _ _ W D) as [W1 _].
  assert (Pr : pending r1 = dropN k (pending r)).
  { rewrite P at 1. rewrite dropN_app_exact by lia. reflexivity. }
  destruct (IH (count - k) r1 W1 S1 G1) as (r2 & -> & D2); [lia|rewrite Pr, lenN_dropN; lia|].
  exists r2. split; [reflexivity|].
  replace count with (k + (count - k)) at 1 by lia.
  rewrite takeN_split, <- Pr. eapply delivers_trans; eauto.
Qed.
Lemma skip_u64_safe c n r x r' :
  1 <= usize_max c -> rwf r -> no_seek r -> skip_u64 c n r = (x, r') ->
  returns x /\ rwf r' /\ (left r' <= left r)%nat.
Proof.
  intros Hc W S. destruct r; cbn [skip_u64 no_seek] in *; try contradiction;
    apply skip_u64_loop_safe; cbn [no_seek]; auto.
Qed.
Lemma skip_u64_sound c n r r' :
  rwf r -> no_seek r -> skip_u64 c n r = (Ok tt, r') -> exists bs, lenN bs = n /\ delivers r bs r'.
Proof.
  intros W S. destruct r; cbn [skip_u64 no_seek] in *; try contradiction;
    apply skip_u64_loop_sound; cbn [no_seek]; auto.
Qed.
Lemma skip_u64_good c n r :
  1 <= usize_max c -> rwf r -> no_seek r -> good r -> n <= lenN (pending r) ->
  exists r', skip_u64 c n r = (Ok tt, r') /\ delivers r (takeN n (pending r)) r'.
Proof.
  intros Hc W S G H. destruct r; cbn [skip_u64 no_seek] in *; try contradiction;
    apply skip_u64_loop_good; cbn [no_seek]; auto.
Qed.
Lemma skip_u64_short c n r :
  1 <= usize_max c -> rwf r -> no_seek r -> good r -> lenN (pending r) < n ->
  exists e r', skip_u64 c n r = (Err e, r').
Proof.
  intros Hc W S G H. destruct (skip_u64 c n r) as [x r'] eqn:E.
  destruct (skip_u64_safe _ _ _ _ _ Hc W S E) as (R & _ & _).
  destruct x as [[]|e| |]; try contradiction; [|eauto].
  apply skip_u64_sound in E as (bs & Lb & D); auto.
  destruct (pending_delivers _ _ _ G D) as [P _].
  apply (f_equal lenN) in P. rewrite lenN_app in P. lia.
Qed.

(** ** Memory readers refine the positional stream *)
Lemma mem_read_all_stream n a o :
  o <= lenN a ->
  mem_read_all n a o =
    if n =? 0 then (Ok tt, [], o)
    else if o =? lenN a then (Err EndOfData, [], o)
    else if lenN a <? o + n then (Err UnableToReadData, [], o)
    else (Ok tt, takeN n (dropN o a), o + n).
Proof.
  intros H. destruct (N.eqb_spec n 0) as [->|Hn].
  { rewrite mem_read_all_good by (rewrite ?lenN_dropN; lia). now rewrite takeN_0, N.add_0_r. }
  destruct (N.eqb_spec o (lenN a)) as [->|Ho].
  { unfold mem_read_all. rewrite mem_can_read_cases, N.eqb_refl by lia.
    destruct (N.eqb_spec n 0); [lia|reflexivity]. }
  destruct (N.ltb_spec (lenN a) (o + n)).
  - unfold mem_read_all. rewrite mem_can_read_cases by lia.
    destruct (N.eqb_spec n 0); [lia|]. destruct (N.eqb_spec o (lenN a)); [lia|].
    destruct (N.ltb_spec (lenN a - o) n); [reflexivity|lia].
  - apply mem_read_all_good; rewrite ?lenN_dropN; lia.
Qed.
Lemma mem_read_stream a o :
  o <= lenN a ->
  mem_read a o =
    if o =? lenN a then (Err EndOfData, o)
    else (Ok (hd 0 (dropN o a)), o + 1).
Proof.
  intros H. unfold mem_read. rewrite mem_can_read_cases by assumption. cbn [N.eqb].
  destruct (N.eqb_spec o (lenN a)); [reflexivity|].
  destruct (N.ltb_spec (lenN a - o) 1); [lia|].
  destruct (nthN a o) as [b|] eqn:E.
  - rewrite (nthN_dropN _ _ _ E). reflexivity.
  - destruct (nthN_lt a o ltac:(lia)) as [b E']. congruence.
Qed.

Lemma run_rop_array c op a o :
  o <= lenN a -> lenN a < usize_max c ->
  run_rop c op (RByteArray a o) = let '(x, p) := stream_op a op o in (x, RByteArray a p).
Proof.
  intros H Hu. destruct op as [|n|n|n|n]; cbn [run_rop stream_op read read_all skip skip_u64]; unfold stream_take.
  - rewrite mem_read_stream by assumption. cbn [N.eqb].
    destruct (N.eqb_spec o (lenN a)); [reflexivity|].
    destruct (N.ltb_spec (lenN a) (o + 1)); [lia|]. cbn [outcome_of]. f_equal. f_equal.
    destruct (dropN o a) as [|b l] eqn:E; [|change (takeN 1 (b :: l)) with (b :: takeN 0 l); now rewrite takeN_0].
    apply (f_equal lenN) in E. rewrite lenN_dropN, lenN_nil in E. lia.
  - rewrite mem_read_all_stream by assumption.
    destruct (N.eqb_spec n 0); [reflexivity|]. destruct (o =? lenN a); [reflexivity|].
    destruct (lenN a <? o + n); reflexivity.
  - rewrite mem_skip_spec by assumption.
    destruct (N.eqb_spec n 0); [reflexivity|]. destruct (N.eqb_spec o (lenN a)); [reflexivity|].
    destruct (N.ltb_spec (lenN a - o) n), (N.ltb_spec (lenN a) (o + n)); try lia; reflexivity.
  - cbn [skip_u64_loop]. destruct (N.eqb_spec n 0) as [->|Hn]; [reflexivity|].
    cbn [skip]. cbv zeta. rewrite mem_skip_spec by assumption.
    destruct (N.eqb_spec (N.min n (usize_max c)) 0); [lia|].
    destruct (N.eqb_spec o (lenN a)); [reflexivity|].
    destruct (N.ltb_spec (lenN a - o) (N.min n (usize_max c))), (N.ltb_spec (lenN a) (o + n)); try lia; [reflexivity|].
    replace (N.min n (usize_max c)) with n by lia. rewrite N.sub_diag.
    destruct (left (RByteArray a o)); reflexivity.
  - reflexivity.
Qed.
Lemma run_rop_vec c op a o :
  o <= lenN a -> lenN a < usize_max c ->
  run_rop c op (RVec a o) = let '(x, p) := stream_op a op o in (x, RVec a p).
Proof.
  intros H Hu. destruct op as [|n|n|n|n]; cbn [run_rop stream_op read read_all skip skip_u64]; unfold stream_take;
    rewrite ?vecr_read_eq, ?vecr_read_all_eq, ?vecr_skip_eq.
  - rewrite mem_read_stream by assumption. cbn [N.eqb].
    destruct (N.eqb_spec o (lenN a)); [reflexivity|].
    destruct (N.ltb_spec (lenN a) (o + 1)); [lia|]. cbn [outcome_of]. f_equal. f_equal.
    destruct (dropN o a) as [|b l] eqn:E; [|change (takeN 1 (b :: l)) with (b :: takeN 0 l); now rewrite takeN_0].
    apply (f_equal lenN) in E. rewrite lenN_dropN, lenN_nil in E. lia.
  - rewrite mem_read_all_stream by assumption.
    destruct (N.eqb_spec n 0); [reflexivity|]. destruct (o =? lenN a); [reflexivity|].
    destruct (lenN a <? o + n); reflexivity.
  - rewrite mem_skip_spec by assumption.
    destruct (N.eqb_spec n 0); [reflexivity|]. destruct (N.eqb_spec o (lenN a)); [reflexivity|].
    destruct (N.ltb_spec (lenN a - o) n), (N.ltb_spec (lenN a) (o + n)); try lia; reflexivity.
  - cbn [skip_u64_loop]. destruct (N.eqb_spec n 0) as [->|Hn]; [reflexivity|].
    cbn [skip]. cbv zeta. rewrite vecr_skip_eq, mem_skip_spec by assumption.
    destruct (N.eqb_spec (N.min n (usize_max c)) 0); [lia|].
    destruct (N.eqb_spec o (lenN a)); [reflexivity|].
    destruct (N.ltb_spec (lenN a - o) (N.min n (usize_max c))), (N.ltb_spec (lenN a) (o + n)); try lia; [reflexivity|].
    replace (N.min n (usize_max c)) with n by lia. rewrite N.sub_diag.
    destruct (left (RVec a o)); reflexivity.
  - reflexivity.
Qed.
Lemma stream_op_pos a op o : o <= lenN a -> snd (stream_op a op o) <= lenN a.
Proof.
  intros H.
  destruct op as [|n|n|n|n]; cbn [stream_op]; unfold stream_take;
    repeat match goal with |- context [if ?b then _ else _] => destruct b eqn:? end; cbn [snd]; lia.
Qed.
Lemma stream_op_outcome a op o : fst (stream_op a op o) <> Panicked /\ fst (stream_op a op o) <> NoFuel.
Proof.
  destruct op as [|n|n|n|n]; cbn [stream_op]; unfold stream_take;
    repeat match goal with |- context [if ?b then _ else _] => destruct b end; cbn [fst]; split; discriminate.
Qed.
Lemma stream_ops_pos a ops : forall o, o <= lenN a -> snd (stream_ops a ops o) <= lenN a.
Proof.
  induction ops as [|op ops IH]; intros o H; cbn [stream_ops]; [assumption|].
  pose proof (stream_op_pos a op o H) as H1. destruct (stream_op a op o) as [x p]. cbn [snd] in H1.
  specialize (IH p H1). destruct (stream_ops a ops p). exact IH.
Qed.
Lemma stream_ops_outcome a ops : forall o,
  Forall (fun x => x <> Panicked /\ x <> NoFuel) (fst (stream_ops a ops o)).
Proof.
  induction ops as [|op ops IH]; intros o; cbn [stream_ops]; [constructor|].
  pose proof (stream_op_outcome a op o) as H1. destruct (stream_op a op o) as [x p].
  specialize (IH p). destruct (stream_ops a ops p). constructor; assumption.
Qed.
Lemma run_rops_array c ops a : lenN a < usize_max c -> forall o, o <= lenN a ->
  run_rops c ops (RByteArray a o) = let '(x, p) := stream_ops a ops o in (x, RByteArray a p).
Proof.
  intros Hu. induction ops as [|op ops IH]; intros o H; cbn [run_rops stream_ops]; [reflexivity|].
  rewrite run_rop_array by assumption.
  pose proof (stream_op_pos a op o H) as H1. destruct (stream_op a op o) as [x p]. cbn [snd] in H1.
  rewrite IH by assumption. destruct (stream_ops a ops p). reflexivity.
Qed.
Lemma run_rops_vec c ops a : lenN a < usize_max c -> forall o, o <= lenN a ->
  run_rops c ops (RVec a o) = let '(x, p) := stream_ops a ops o in (x, RVec a p).
Proof.
  intros Hu. induction ops as [|op ops IH]; intros o H; cbn [run_rops stream_ops]; [reflexivity|].
  rewrite run_rop_vec by assumption.
  pose proof (stream_op_pos a op o H) as H1. destruct (stream_op a op o) as [x p]. cbn [snd] in H1.
  rewrite IH by assumption. destruct (stream_ops a ops p). reflexivity.
Qed.

(** ** LimitedReader *)
Lemma read_all_limited n src avail :
  good src -> avail <= lenN (pending src) -> n <= avail ->
  exists src', read_all n (RLimited src avail) = (Ok tt, takeN n (pending src), RLimited src' (avail - n))
               /\ delivers src (takeN n (pending src)) src' /\ good src'
               /\ pending src' = dropN n (pending src).
Proof.
  intros G L H. destruct (read_all_good n src G) as [src' E]; [lia|].
  cbn [read_all]. destruct (N.ltb_spec avail n); [lia|]. rewrite E. cbn [is_ok].
  apply read_all_ok in E as [Lg D]. destruct (pending_delivers _ _ _ G D) as [P G'].
  exists src'. repeat split; auto. rewrite P at 1. now rewrite dropN_app_exact.
Qed.
Lemma skip_loop_limited_short fuel : forall count src avail,
  good src -> avail <= lenN (pending src) -> avail < count -> (left src < fuel)%nat ->
  exists src' seg, skip_loop fuel count (RLimited src avail) = (Err UnableToReadData, RLimited src' (avail mod 512))
    /\ delivers src seg src' /\ lenN seg = avail - avail mod 512 /\ good src'.
Proof.
  induction fuel as [|f IH]; intros count src avail G P H L; [lia|].
  cbn [skip_loop]. destruct (N.eqb_spec count 0); [lia|]. cbv zeta.
  destruct (N.lt_ge_cases avail 512) as [Hs|Hs].
  - cbn [read_all]. destruct (N.ltb_spec avail (N.min count 512)); [|lia].
    exists src, []. rewrite (N.mod_small avail 512) by lia. rewrite lenN_nil, N.sub_diag.
    auto using delivers_refl.
  - replace (N.min count 512) with 512 by lia.
    destruct (read_all_limited 512 src avail G P Hs) as (s1 & -> & D & G1 & P1).
    assert (L1 : lenN (takeN 512 (pending src)) = 512) by (rewrite lenN_takeN; lia).
    pose proof (delivers_left_lt _ _ _ D ltac:(lia)).
    destruct (IH (count - 512) s1 (avail - 512) G1) as (s2 & seg & -> & D2 & Ls & G2);
      [rewrite P1, lenN_dropN; lia|lia|lia|].
    assert (M : (avail - 512) mod 512 = avail mod 512).
    { replace avail with (avail - 512 + 1 * 512) at 2 by lia. now rewrite N.mod_add. }
    rewrite M in *. exists s2, (takeN 512 (pending src) ++ seg). split; [reflexivity|].
    split; [eapply delivers_trans; eauto|]. split; [|assumption].
    rewrite lenN_app, L1, Ls. pose proof (N.mod_le (avail - 512) 512 ltac:(lia)). lia.
Qed.
Lemma skip_loop_limited_ok fuel count src avail :
  good src -> avail <= lenN (pending src) -> count <= avail -> (left src < fuel)%nat ->
  exists src', skip_loop fuel count (RLimited src avail) = (Ok tt, RLimited src' (avail - count))
    /\ delivers src (takeN count (pending src)) src' /\ good src' /\ pending src' = dropN count (pending src).
Proof.
  intros G P H L.
  assert (PL : pending (RLimited src avail) = takeN avail (pending src)) by reflexivity.
  destruct (skip_loop_good fuel count (RLimited src avail)) as (r & E & D); cbn [good left]; auto.
  { rewrite PL, lenN_takeN. lia. }
  rewrite E. rewrite PL, takeN_takeN in D. replace (N.min count avail) with count in D by lia.
  apply delivers_limited in D as (src' & -> & _ & D).
  rewrite lenN_takeN. replace (N.min count (lenN (pending src))) with count by lia.
  exists src'. destruct (pending_delivers _ _ _ G D) as [P' G']. repeat split; auto.
  rewrite P' at 1. rewrite dropN_app_exact; [reflexivity|]. rewrite lenN_takeN. lia.
Qed.
Lemma skip_u64_loop_limited c fuel : forall count src avail out r',
  1 <= usize_max c -> good src -> avail <= lenN (pending src) -> (left src < fuel)%nat ->
  skip_u64_loop c fuel count (RLimited src avail) = (out, r') ->
  exists src' seg, r' = RLimited src' (avail - lenN seg) /\ delivers src seg src' /\ lenN seg <= avail /\ good src'
    /\ ((out = Ok tt /\ lenN seg = count) \/ (out = Err UnableToReadData /\ avail < count)).
Proof.
  intros count src avail out r' Hc. revert count src avail out r'.
  induction fuel as [|f IH]; intros count src avail out r' G P L E; [lia|].
  cbn [skip_u64_loop] in E. destruct (N.eqb_spec count 0) as [->|H0].
  { injection E as <- <-. exists src, []. rewrite lenN_nil, N.sub_0_r. split; [reflexivity|].
    split; [apply delivers_refl|]. split; [lia|]. auto. }
  cbv zeta in E. set (st := N.min count (usize_max c)) in *. cbn [skip] in E. unfold skip_default in E.
  cbn [left] in E.
  destruct (N.lt_ge_cases avail st) as [Hs|Hs].
  - destruct (skip_loop_limited_short (S (left src)) st src avail G P Hs) as (s1 & seg & Es & D & Ls & G1); [lia|].
    rewrite Es in E. injection E as <- <-. exists s1, seg.
    pose proof (N.mod_le avail 512 ltac:(lia)). replace (avail - lenN seg) with (avail mod 512) by lia.
    repeat split; auto; try lia. right. split; [reflexivity|lia].
  - destruct (skip_loop_limited_ok (S (left src)) st src avail G P Hs) as (s1 & Es & D & G1 & P1); [lia|].
    rewrite Es in E.
    assert (Lt : lenN (takeN st (pending src)) = st) by (rewrite lenN_takeN; lia).
    pose proof (delivers_left_lt _ _ _ D ltac:(lia)).
    apply IH in E as (s2 & seg & -> & D2 & Ls & G2 & K); auto; [|rewrite P1, lenN_dropN; lia|lia].
    exists s2, (takeN st (pending src) ++ seg). rewrite lenN_app, Lt.
    split; [f_equal; lia|]. split; [eapply delivers_trans; eauto|]. split; [lia|]. split; [assumption|].
    destruct K as [[-> K]|[-> K]]; [left|right]; split; auto; lia.
Qed.

Lemma run_rop_limited c op src avail out r' :
  1 <= usize_max c -> rwf src -> good src -> avail <= lenN (pending src) -> is_take op = true ->
  run_rop c op (RLimited src avail) = (out, r') ->
  exists src' seg, r' = RLimited src' (avail - lenN seg) /\ delivers src seg src' /\ lim_step avail op out seg.
Proof.
  intros Hc W G P T. unfold lim_step. destruct op as [|n|n|n|n]; cbn [is_take] in T; [| | | |discriminate];
    cbn [run_rop asked is_skip].
  - rewrite read_as_read_all by exact W.
    destruct (N.lt_ge_cases avail 1) as [Hs|Hs].
    + cbn [read_all]. destruct (N.ltb_spec avail 1); [|lia]. intros [= <- <-].
      exists src, []. rewrite lenN_nil, N.sub_0_r. repeat split; auto using delivers_refl; lia.
    + destruct (read_all_limited 1 src avail G P Hs) as (s1 & -> & D & G1 & P1).
      intros [= <- <-]. exists s1, (takeN 1 (pending src)).
      assert (L1 : lenN (takeN 1 (pending src)) = 1) by (rewrite lenN_takeN; lia).
      rewrite L1. repeat split; auto.
      destruct (takeN 1 (pending src)) as [|b [|b' l]]; rewrite ?lenN_cons, ?lenN_nil in L1; [lia|reflexivity|lia].
  - destruct (N.lt_ge_cases avail n) as [Hs|Hs].
    + cbn [read_all]. destruct (N.ltb_spec avail n); [|lia]. intros [= <- <-].
      exists src, []. rewrite lenN_nil, N.sub_0_r. repeat split; auto using delivers_refl; lia.
    + destruct (read_all_limited n src avail G P Hs) as (s1 & -> & D & G1 & P1).
      intros [= <- <-]. exists s1, (takeN n (pending src)).
      assert (L1 : lenN (takeN n (pending src)) = n) by (rewrite lenN_takeN; lia).
      rewrite L1. repeat split; auto.
  - cbn [skip]. unfold skip_default. cbn [left].
    destruct (N.lt_ge_cases avail n) as [Hs|Hs].
    + destruct (skip_loop_limited_short (S (left src)) n src avail G P Hs) as (s1 & seg & -> & D & Ls & G1); [lia|].
      intros [= <- <-]. pose proof (N.mod_le avail 512 ltac:(lia)). exists s1, seg.
      replace (avail - lenN seg) with (avail mod 512) by lia. repeat split; auto; try lia.
    + destruct (skip_loop_limited_ok (S (left src)) n src avail G P Hs) as (s1 & -> & D & G1 & P1); [lia|].
      intros [= <- <-]. exists s1, (takeN n (pending src)).
      assert (L1 : lenN (takeN n (pending src)) = n) by (rewrite lenN_takeN; lia).
      rewrite L1. repeat split; auto.
  - cbn [skip_u64 left]. destruct (skip_u64_loop _ _ _ _) as [x r1] eqn:E.
    apply skip_u64_loop_limited in E as (s1 & seg & -> & D & Ls & G1 & K); auto.
    intros [= <- <-]. exists s1, seg.
    destruct K as [[-> K]|[-> K]]; cbn [outcome_of]; repeat split; auto. discriminate.
Qed.
Lemma run_rops_limited c ops : forall src avail outs r',
  1 <= usize_max c -> rwf src -> good src -> avail <= lenN (pending src) ->
  Forall (fun op => is_take op = true) ops ->
  run_rops c ops (RLimited src avail) = (outs, r') ->
  exists src' bs, r' = RLimited src' (avail - lenN bs) /\ delivers src bs src'
                  /\ lenN bs <= avail /\ lim_hist avail ops outs bs.
Proof.
  induction ops as [|op ops IH]; intros src avail outs r' Hc W G P T; cbn [run_rops].
  - intros [= <- <-]. exists src, []. rewrite lenN_nil, N.sub_0_r. repeat split; auto using delivers_refl. lia.
  - inversion T as [|? ? T1 T2]; subst.
    destruct (run_rop c op _) as [o r1] eqn:E.
    destruct (run_rops c ops r1) as [os r2] eqn:E2. intros [= <- <-].
    apply run_rop_limited in E as (s1 & seg & -> & D & K); auto.
    destruct (pending_delivers _ _ _ G D) as [P1 G1]. destruct (delivers_rwf _ _ _ W D) as [W1 _].
    apply (f_equal lenN) in P1. rewrite lenN_app in P1.
    apply IH in E2 as (s2 & bs & -> & D2 & L2 & K2); auto; [|lia].
    exists s2, (seg ++ bs). rewrite lenN_app. destruct K as [K1 K].
    split; [f_equal; lia|]. split; [eapply delivers_trans; eauto|]. split; [lia|].
    exists seg, bs. repeat split; auto.
Qed.

(** ** ReadReader *)
Lemma piecewise_fair sched : Forall piecewise sched -> Forall fair sched.
Proof. apply Forall_impl. now intros e []. Qed.
Lemma read_exact_drained n data sched :
  Forall piecewise sched -> lenN data < n ->
  exists sched', read_exact n data sched = (Err UnexpectedEof, data, [], sched').
Proof.
  revert n data; induction sched as [|ev sched IH]; intros n data Hf Hn; cbn [read_exact].
  - destruct (N.eqb_spec n 0); [lia|]. destruct (N.leb_spec n (lenN data)); [lia|]. eauto.
  - destruct (N.eqb_spec n 0); [lia|].
    inversion Hf as [|? ? [He Nw] Hf']; subst. destruct ev as [c| |k|]; cbn in He.
    + rewrite lenN_takeN. destruct (N.eqb_spec (N.min (N.min n c) (lenN data)) 0) as [Hz|Hz].
      * assert (data = []) by (apply lenN_0; lia). subst. eauto.
      * destruct (IH (n - N.min (N.min n c) (lenN data))
                     (dropN (N.min (N.min n c) (lenN data)) data) Hf') as [s' E].
        { rewrite lenN_dropN. lia. }
        rewrite E. exists s'. f_equal. f_equal. f_equal.
        rewrite <- (takeN_dropN (N.min (N.min n c) (lenN data)) data) at 4. f_equal.
        destruct (N.le_gt_cases (N.min n c) (lenN data)).
        -- f_equal. lia.
        -- rewrite !takeN_all by lia. reflexivity.
    + apply IH; assumption.
    + contradiction.
    + now contradiction Nw.
Qed.
Lemma read_exact_drain n data sched :
  Forall piecewise sched ->
  exists sched', Forall piecewise sched' /\
    read_exact n data sched =
      if n <=? lenN data then (Ok tt, takeN n data, dropN n data, sched')
      else (Err UnexpectedEof, data, [], sched').
Proof.
  intros F. destruct (N.leb_spec n (lenN data)) as [H|H].
  - destruct (read_exact_good n data sched (piecewise_fair _ F) H) as [s' E]. exists s'. split; [|assumption].
    apply read_exact_spec in E as (_ & S & _). eapply suffix_Forall; eauto.
  - destruct (read_exact_drained n data sched F H) as [s' E]. exists s'. split; [|assumption].
    apply read_exact_spec in E as (_ & S & _). eapply suffix_Forall; eauto.
Qed.
Lemma skip_loop_drain fuel : forall n data sched,
  Forall piecewise sched -> (length data < fuel)%nat ->
  exists sched', Forall piecewise sched' /\
    skip_loop fuel n (RRead data sched) =
      if n <=? lenN data then (Ok tt, RRead (dropN n data) sched')
      else (Err (IOErrorStd UnexpectedEof), RRead [] sched').
Proof.
  induction fuel as [|f IH]; intros n data sched F L; [lia|].
  cbn [skip_loop]. destruct (N.eqb_spec n 0) as [->|Hn].
  { exists sched. split; [assumption|]. destruct (N.leb_spec 0 (lenN data)); [|lia]. now rewrite dropN_0. }
  cbv zeta. cbn [read_all].
  destruct (read_exact_drain (N.min n 512) data sched F) as (s1 & F1 & ->).
  destruct (N.leb_spec (N.min n 512) (lenN data)) as [H|H]; cbn [map_err].
  - destruct (IH (n - N.min n 512) (dropN (N.min n 512) data) s1 F1) as (s2 & F2 & ->).
    { rewrite dropN_skipn, skipn_length. unfold lenN in H. lia. }
    exists s2. split; [assumption|]. rewrite lenN_dropN, dropN_dropN.
    destruct (N.leb_spec (n - N.min n 512) (lenN data - N.min n 512)), (N.leb_spec n (lenN data)); try lia; [|reflexivity].
    do 3 f_equal. lia.
  - exists s1. split; [assumption|]. destruct (N.leb_spec n (lenN data)); [lia|reflexivity].
Qed.
Lemma skip_u64_loop_drain c fuel : 1 <= usize_max c -> forall n data sched,
  Forall piecewise sched -> (length data < fuel)%nat ->
  exists sched', Forall piecewise sched' /\
    skip_u64_loop c fuel n (RRead data sched) =
      if n <=? lenN data then (Ok tt, RRead (dropN n data) sched')
      else (Err (IOErrorStd UnexpectedEof), RRead [] sched').
Proof.
  intros Hc. induction fuel as [|f IH]; intros n data sched F L; [lia|].
  cbn [skip_u64_loop]. destruct (N.eqb_spec n 0) as [->|Hn].
  { exists sched. split; [assumption|]. destruct (N.leb_spec 0 (lenN data)); [|lia]. now rewrite dropN_0. }
  cbv zeta. cbn [skip]. unfold skip_default. cbn [left]. set (k := N.min n (usize_max c)).
  destruct (skip_loop_drain (S (length data)) k data sched F ltac:(lia)) as (s1 & F1 & ->).
  destruct (N.leb_spec k (lenN data)) as [H|H].
  - destruct (IH (n - k) (dropN k data) s1 F1) as (s2 & F2 & ->).
    { rewrite dropN_skipn, skipn_length. unfold lenN in H. lia. }
    exists s2. split; [assumption|]. rewrite lenN_dropN, dropN_dropN.
    destruct (N.leb_spec (n - k) (lenN data - k)), (N.leb_spec n (lenN data)); try lia; [|reflexivity].
    do 3 f_equal. lia.
  - exists s1. split; [assumption|]. destruct (N.leb_spec n (lenN data)); [lia|reflexivity].
Qed.
Lemma run_rop_drain c op data sched :
  1 <= usize_max c -> Forall piecewise sched ->
  exists sched', Forall piecewise sched' /\
    run_rop c op (RRead data sched) = let '(o, d) := drain_op op data in (o, RRead d sched').
Proof.
  intros Hc F. unfold drain_op. destruct op as [|n|n|n|n]; cbn [run_rop asked].
  - cbn [read]. destruct (read_exact_drain 1 data sched F) as (s1 & F1 & ->). exists s1. split; [assumption|].
    destruct (N.leb_spec 1 (lenN data)); [|reflexivity]. cbn [outcome_of].
    destruct data as [|b l]; [rewrite lenN_nil in *; lia|].
    change (takeN 1 (b :: l)) with (b :: takeN 0 l). now rewrite takeN_0.
  - cbn [read_all]. destruct (read_exact_drain n data sched F) as (s1 & F1 & ->). exists s1. split; [assumption|].
    destruct (n <=? lenN data); reflexivity.
  - cbn [skip]. unfold skip_default. cbn [left].
    destruct (skip_loop_drain (S (length data)) n data sched F ltac:(lia)) as (s1 & F1 & ->).
    exists s1. split; [assumption|]. destruct (n <=? lenN data); reflexivity.
  - cbn [skip_u64 left].
    destruct (skip_u64_loop_drain c (S (length data)) Hc n data sched F ltac:(lia)) as (s1 & F1 & ->).
    exists s1. split; [assumption|]. destruct (n <=? lenN data); reflexivity.
  - exists sched. split; [assumption|]. destruct (N.leb_spec 0 (lenN data)); [|lia]. now rewrite dropN_0.
Qed.
Lemma run_rops_drain c ops : 1 <= usize_max c -> forall data sched,
  Forall piecewise sched ->
  exists sched', Forall piecewise sched' /\
    run_rops c ops (RRead data sched) = let '(os, d) := drain_ops ops data in (os, RRead d sched').
Proof.
  intros Hc. induction ops as [|op ops IH]; intros data sched F; cbn [run_rops drain_ops].
  - exists sched. auto.
  - destruct (run_rop_drain c op data sched Hc F) as (s1 & F1 & ->).
    destruct (drain_op op data) as [o d1]. destruct (IH d1 s1 F1) as (s2 & F2 & ->).
    exists s2. split; [assumption|]. now destruct (drain_ops ops d1).
Qed.

(** ** Writers *)
Lemma vec_put_eq bs v o ro :
  o <= lenN v ->
  vec_write_all bs v o ro =
    let '(x, (v', o', _)) := vecm_put bs (v, o, ro) in
    (match x with Done => Ok tt | _ => Err UnableToWriteData end, v', o').
Proof. intros H. rewrite vec_write_all_spec by assumption. destruct ro; reflexivity. Qed.
Lemma vecm_put_bound bs v o ro x v' o' ro' :
  o <= lenN v -> vecm_put bs (v, o, ro) = (x, (v', o', ro')) ->
  o' <= lenN v' /\ lenN v <= lenN v' /\ (x = Done \/ x = Failed UnableToWriteData).
Proof.
  intros H. unfold vecm_put. destruct ro; intros [= <- <- <- <-]; [auto with arith; split; [assumption|]; split; [lia|auto]|].
  rewrite !lenN_app, lenN_takeN, lenN_dropN. repeat split; auto; lia.
Qed.
Lemma vecm_op_bound op v o ro x v' o' ro' :
  o <= lenN v -> vecm_op op (v, o, ro) = (x, (v', o', ro')) ->
  o' <= lenN v' /\ lenN v <= lenN v' /\ (x = Done \/ x = Failed UnableToWriteData).
Proof.
  intros H. destruct op; cbn [vecm_op]; try (apply vecm_put_bound; assumption);
    intros [= <- <- <- <-]; repeat split; auto; lia.
Qed.
Lemma run_wop_vec op v o ro :
  o <= lenN v ->
  run_wop op (WVec v o ro) = let '(x, (v', o', ro')) := vecm_op op (v, o, ro) in (x, WVec v' o' ro').
Proof.
  intros H. destruct op as [b|bs|n|r]; cbn [run_wop vecm_op set_offset set_read_only]; try reflexivity.
  - rewrite write_is_write_all by exact H. cbn [write_all]. rewrite vec_put_eq by assumption.
    destruct ro; reflexivity.
  - cbn [write_all]. rewrite vec_put_eq by assumption. destruct ro; reflexivity.
Qed.
Lemma run_wop_borrowed op v i o ro :
  o <= lenN v ->
  run_wop op (WBorrowed v i o ro) =
    let '(x, (v', o', ro')) := vecm_op op (v, o, ro) in (x, WBorrowed v' i o' ro').
Proof.
  intros H. destruct op as [b|bs|n|r]; cbn [run_wop vecm_op set_offset set_read_only]; try reflexivity.
  - rewrite write_is_write_all by exact H. cbn [write_all]. rewrite vec_put_eq by assumption.
    destruct ro; reflexivity.
  - cbn [write_all]. rewrite vec_put_eq by assumption. destruct ro; reflexivity.
Qed.
Lemma vecm_ops_bound ops : forall v o ro xs v' o' ro',
  o <= lenN v -> vecm_ops ops (v, o, ro) = (xs, (v', o', ro')) ->
  o' <= lenN v' /\ lenN v <= lenN v' /\ Forall (fun x => x = Done \/ x = Failed UnableToWriteData) xs.
Proof.
  induction ops as [|op ops IH]; intros v o ro xs v' o' ro' H; cbn [vecm_ops].
  - intros [= <- <- <- <-]. repeat split; auto. lia.
  - destruct (vecm_op op (v, o, ro)) as [x [[v1 o1] ro1]] eqn:E.
    destruct (vecm_ops ops (v1, o1, ro1)) as [ys [[v2 o2] ro2]] eqn:E2. intros [= <- <- <- <-].
    apply vecm_op_bound in E as (B & L & X); [|assumption].
    apply IH in E2 as (B2 & L2 & X2); [|assumption]. repeat split; auto. lia.
Qed.
Lemma run_wops_vec ops : forall v o ro,
  o <= lenN v ->
  run_wops ops (WVec v o ro) =
    let '(xs, (v', o', ro')) := vecm_ops ops (v, o, ro) in (xs, WVec v' o' ro').
Proof.
  induction ops as [|op ops IH]; intros v o ro H; cbn [run_wops vecm_ops]; [reflexivity|].
  rewrite run_wop_vec by assumption.
  destruct (vecm_op op (v, o, ro)) as [x [[v1 o1] ro1]] eqn:E.
  apply vecm_op_bound in E as (B & _); [|assumption]. rewrite IH by assumption.
  now destruct (vecm_ops ops (v1, o1, ro1)) as [ys [[v2 o2] ro2]].
Qed.
Lemma run_wops_borrowed ops : forall v i o ro,
  o <= lenN v ->
  run_wops ops (WBorrowed v i o ro) =
    let '(xs, (v', o', ro')) := vecm_ops ops (v, o, ro) in (xs, WBorrowed v' i o' ro').
Proof.
  induction ops as [|op ops IH]; intros v i o ro H; cbn [run_wops vecm_ops]; [reflexivity|].
  rewrite run_wop_borrowed by assumption.
  destruct (vecm_op op (v, o, ro)) as [x [[v1 o1] ro1]] eqn:E.
  apply vecm_op_bound in E as (B & _); [|assumption]. rewrite IH by assumption.
  now destruct (vecm_ops ops (v1, o1, ro1)) as [ys [[v2 o2] ro2]].
Qed.
(** Without moves the effect of a history is one overwrite. *)
Lemma vecm_ops_written ops : forall v o ro xs v' o' ro',
  o <= lenN v -> Forall (fun op => moves op = false) ops ->
  vecm_ops ops (v, o, ro) = (xs, (v', o', ro')) ->
  v' = overwrite v o (written ops xs) /\ o' = o + lenN (written ops xs).
Proof.
  induction ops as [|op ops IH]; intros v o ro xs v' o' ro' H M; cbn [vecm_ops].
  - intros [= <- <- <- <-]. cbn [written]. now rewrite overwrite_nil, lenN_nil, N.add_0_r.
  - inversion M as [|? ? M1 M2]; subst.
    destruct (vecm_op op (v, o, ro)) as [x [[v1 o1] ro1]] eqn:E.
    destruct (vecm_ops ops (v1, o1, ro1)) as [ys [[v2 o2] ro2]] eqn:E2. intros [= <- <- <- <-].
    pose proof (vecm_op_bound _ _ _ _ _ _ _ _ H E) as (B & _ & _).
    apply IH in E2 as [-> ->]; auto.
    destruct op as [b|bs|n|r]; cbn [vecm_op moves] in *; try discriminate; cbn [written].
    + unfold vecm_put in E. destruct ro; apply pair_inv in E as [<- E]; apply pair_inv in E as [E <-];
      apply pair_inv in E as [<- <-]; [auto|].
      change (takeN o v ++ [b] ++ dropN (o + lenN [b]) v) with (overwrite v o [b]).
      rewrite overwrite_app by assumption. split; [reflexivity|]. rewrite !lenN_cons, lenN_nil. lia.
    + unfold vecm_put in E. destruct ro; apply pair_inv in E as [<- E]; apply pair_inv in E as [E <-];
      apply pair_inv in E as [<- <-]; [auto|].
      change (takeN o v ++ bs ++ dropN (o + lenN bs) v) with (overwrite v o bs).
      rewrite overwrite_app by assumption. split; [reflexivity|]. rewrite !lenN_app. lia.
    + injection E as <- <- <- <-. auto.
Qed.

Lemma run_wop_array op a o :
  o <= lenN a ->
  run_wop op (WArray a o) = let '(x, (a', o')) := arrm_op op (a, o) in (x, WArray a' o').
Proof.
  intros H.
  assert (K : forall bs, (let '(x, w') := write_all bs (WArray a o) in (outcome_of (fun _ => Done) x, w')) =
                         let '(x, (a', o')) := arrm_put bs (a, o) in (x, WArray a' o')).
  { intros bs. cbn [write_all]. rewrite arr_write_all_spec by assumption. unfold arrm_put.
    destruct (N.leb_spec (o + lenN bs) (lenN a)), (N.ltb_spec (lenN a) (o + lenN bs)); try lia; reflexivity. }
  destruct op as [b|bs|n|r]; cbn [run_wop arrm_op set_offset set_read_only]; try reflexivity.
  - rewrite write_is_write_all by exact H. apply K.
  - apply K.
Qed.
Lemma arrm_op_bound op a o x a' o' :
  o <= lenN a -> arrm_op op (a, o) = (x, (a', o')) ->
  o' <= lenN a' /\ lenN a' = lenN a /\ (x = Done \/ x = Failed UnableToWriteData).
Proof.
  intros H. assert (K : forall bs, arrm_put bs (a, o) = (x, (a', o')) ->
    o' <= lenN a' /\ lenN a' = lenN a /\ (x = Done \/ x = Failed UnableToWriteData)).
  { intros bs. unfold arrm_put. destruct (N.ltb_spec (lenN a) (o + lenN bs)); intros [= <- <- <-]; auto.
    rewrite !lenN_app, lenN_takeN, lenN_dropN. repeat split; auto; lia. }
  destruct op; cbn [arrm_op]; try apply K; intros [= <- <- <-]; repeat split; auto; lia.
Qed.
Lemma run_wops_array ops : forall a o,
  o <= lenN a ->
  run_wops ops (WArray a o) = let '(xs, (a', o')) := arrm_ops ops (a, o) in (xs, WArray a' o').
Proof.
  induction ops as [|op ops IH]; intros a o H; cbn [run_wops arrm_ops]; [reflexivity|].
  rewrite run_wop_array by assumption.
  destruct (arrm_op op (a, o)) as [x [a1 o1]] eqn:E.
  apply arrm_op_bound in E as (B & _); [|assumption]. rewrite IH by assumption.
  now destruct (arrm_ops ops (a1, o1)) as [ys [a2 o2]].
Qed.
Lemma arrm_ops_bound ops : forall a o xs a' o',
  o <= lenN a -> arrm_ops ops (a, o) = (xs, (a', o')) ->
  o' <= lenN a' /\ lenN a' = lenN a /\ Forall (fun x => x = Done \/ x = Failed UnableToWriteData) xs.
Proof.
  induction ops as [|op ops IH]; intros a o xs a' o' H; cbn [arrm_ops].
  - intros [= <- <- <-]. auto.
  - destruct (arrm_op op (a, o)) as [x [a1 o1]] eqn:E.
    destruct (arrm_ops ops (a1, o1)) as [ys [a2 o2]] eqn:E2. intros [= <- <- <-].
    apply arrm_op_bound in E as (B & L & X); [|assumption].
    apply IH in E2 as (B2 & L2 & X2); [|assumption]. repeat split; auto. lia.
Qed.

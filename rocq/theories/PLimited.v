(** C13 and C58, continued.  What a [LimitedReader] guarantees when the source holds
    less than the limit or fails on its own: src/io/mod.rs:207-296. *)
From Verif Require Import Base BaseFacts Types IO IOSpec IOFacts Logic Hist HistFacts KinFacts ProgFacts.

Local Definition cfg32 := Cfg true 4294967295.

(** ** Memory sources
    [mem_hist data ops outs bs]: with [data] visible through the limit, the
    calls [ops] had the outcomes [outs] and took exactly [bs], a prefix of
    [data].  A failed call had been asked for more than was visible; unless it
    was a skip it took nothing. *)
Definition mem_step (data : list N) (op : rop) (out : outcome) (seg : list N) : Prop :=
  match out with
  | Bytes l => is_skip op = false /\ seg = l /\ lenN seg = asked op
  | Done => is_skip op = true /\ lenN seg = asked op
  | Failed e => lenN data < asked op /\ (is_skip op = false -> seg = [])
  | Panicked | NoFuel => False
  end.
Fixpoint mem_hist (data : list N) (ops : list rop) (outs : list outcome) (bs : list N) : Prop :=
  match ops, outs with
  | [], [] => bs = []
  | op :: ops', out :: outs' =>
      exists seg rest more, bs = seg ++ rest /\ data = seg ++ more /\ mem_step data op out seg
                            /\ mem_hist more ops' outs' rest
  | _, _ => False
  end.

Lemma memory_good r : in_memory r -> rwf r -> good r.
Proof. induction r; cbn [in_memory rwf good]; try contradiction; tauto. Qed.
Lemma memory_no_seek r : in_memory r -> no_seek r.
Proof. destruct r; cbn [in_memory no_seek]; tauto. Qed.

Lemma run_rop_memory c op r out r' : 1 <= usize_max c -> rwf r -> in_memory r -> is_take op = true ->
  run_rop c op r = (out, r') -> exists seg, delivers r seg r' /\ mem_step (pending r) op out seg.
Proof.
  intros Hc W Q T E. pose proof (memory_good r Q W) as G. pose proof (memory_no_seek r Q) as S.
  destruct op as [|n|n|n|n]; cbn [is_take] in T; try discriminate; cbn [run_rop] in E.
  - rewrite read_as_read_all in E by exact W. destruct (read_all 1 r) as [[x g] r1] eqn:E1.
    apply pair_inv in E as [<- <-]. pose proof (read_all_wf _ _ _ _ _ W E1) as (R & _).
    destruct x as [[]|e| |]; try contradiction; cbn [map_ok outcome_of mem_step].
    + apply read_all_ok in E1 as [L D]. exists g. split; [exact D|]. split; [reflexivity|]. split; [|exact L].
      destruct g as [|b [|? ?]]; [rewrite lenN_nil in L; lia|reflexivity|rewrite !lenN_cons in L; lia].
    + exists []. destruct (memory_read_all _ _ _ _ _ Q E1) as [| ->]; [discriminate|]. split; [apply delivers_refl|].
      split; [|reflexivity]. cbn [asked]. destruct (N.lt_ge_cases (lenN (pending r)) 1) as [|H]; [assumption|].
      destruct (read_all_good 1 r G H) as [? K]. congruence.
  - destruct (read_all n r) as [[x g] r1] eqn:E1.
    apply pair_inv in E as [<- <-]. pose proof (read_all_wf _ _ _ _ _ W E1) as (R & _).
    destruct x as [[]|e| |]; try contradiction; cbn [outcome_of mem_step].
    + apply read_all_ok in E1 as [L D]. exists g. auto.
    + exists []. destruct (memory_read_all _ _ _ _ _ Q E1) as [| ->]; [discriminate|]. split; [apply delivers_refl|].
      split; [|reflexivity]. cbn [asked]. destruct (N.lt_ge_cases (lenN (pending r)) n) as [|H]; [assumption|].
      destruct (read_all_good n r G H) as [? K]. congruence.
  - destruct (skip c n r) as [x r1] eqn:E1. apply pair_inv in E as [<- <-].
    destruct (skip_safe _ _ _ _ _ W S E1) as [R _].
    destruct x as [[]|e| |]; try contradiction; cbn [outcome_of mem_step].
    + apply skip_sound in E1 as (g & L & D); eauto.
    + destruct (keep_skip _ _ _ _ _ W Q E1) as [g D]. exists g. split; [exact D|]. cbn [is_skip asked]. split; [|discriminate].
      destruct (N.lt_ge_cases (lenN (pending r)) n) as [|H]; [assumption|].
      destruct (skip_good c n r W S G H) as (? & K & _). congruence.
  - destruct (skip_u64 c n r) as [x r1] eqn:E1. apply pair_inv in E as [<- <-].
    destruct (skip_u64_safe _ _ _ _ _ Hc W S E1) as [R _].
    destruct x as [[]|e| |]; try contradiction; cbn [outcome_of mem_step].
    + apply skip_u64_sound in E1 as (g & L & D); eauto.
    + destruct (keep_skip_u64 _ _ _ _ _ W Q E1) as [g D]. exists g. split; [exact D|]. cbn [is_skip asked]. split; [|discriminate].
      destruct (N.lt_ge_cases (lenN (pending r)) n) as [|H]; [assumption|].
      destruct (skip_u64_good c n r Hc W S G H) as (? & K & _). congruence.
Qed.
Lemma run_rops_memory c ops : forall r outs r', 1 <= usize_max c -> rwf r -> in_memory r ->
  Forall (fun op => is_take op = true) ops -> run_rops c ops r = (outs, r') ->
  exists bs, delivers r bs r' /\ mem_hist (pending r) ops outs bs.
Proof.
  induction ops as [|op ops IH]; intros r outs r' Hc W Q T; cbn [run_rops].
  - intros [= <- <-]. exists []. split; [apply delivers_refl|reflexivity].
  - destruct (run_rop c op r) as [o r1] eqn:E1. destruct (run_rops c ops r1) as [os r2] eqn:E2. intros [= <- <-].
    inversion T as [|? ? T1 T2]; subst.
    destruct (run_rop_memory _ _ _ _ _ Hc W Q T1 E1) as (seg & D1 & K1).
    destruct (IH _ _ _ Hc (proj1 (delivers_rwf _ _ _ W D1)) (kin_memory _ _ (delivers_kin _ _ _ D1) Q) T2 E2) as (rest & D2 & K2).
    destruct (pending_delivers _ _ _ (memory_good r Q W) D1) as [P _].
    exists (seg ++ rest). split; [eapply delivers_trans; eauto|]. cbn [mem_hist].
    exists seg, rest, (pending r1). auto.
Qed.

(** Over a source in memory, of any length, also shorter than the limit: every
    history takes from the source exactly [n - available()] bytes. *)
Theorem C13_memory_sources :
  forall c src n ops outs r',
  1 <= usize_max c -> rwf src -> in_memory src ->
  Forall (fun op => is_take op = true) ops ->
  run_rops c ops (LimitedReader_new src n) = (outs, r') ->
  exists src' avail bs,
    r' = RLimited src' avail /\ delivers src bs src' /\ lenN bs = n - avail /\ avail <= n /\
    mem_hist (takeN n (pending src)) ops outs bs.
Proof.
  intros c src n ops outs r' Hc W Q T E.
  apply run_rops_memory in E as (bs & D & K); [|exact Hc|exact W|exact Q|exact T].
  apply delivers_limited in D as (src' & -> & L & D). exists src', (n - lenN bs), bs.
  repeat split; auto; lia.
Qed.
Print Assumptions C13_memory_sources.
Example C13_memory_instance :
  run_rops cfg32 [OpReadAll 2; OpReadAll 4; OpSkip 4; OpRead; OpRead] (LimitedReader_new (RVec [9;1;2;3] 1) 5)
  = ([Bytes [1;2]; Failed UnableToReadData; Failed UnableToReadData; Bytes [3]; Failed EndOfData],
     RLimited (RVec [9;1;2;3] 4) 2).
Proof. reflexivity. Qed.

(** ** Sources that fail only for lack of data *)
Lemma script_bytes_app p s : Forall (fun x : io_error + N => match x with inr _ => True | inl _ => False end) p ->
  script_bytes (p ++ s) = script_bytes p ++ script_bytes s.
Proof. induction 1 as [|[e|b] p Hx _ IH]; cbn [script_bytes app]; [reflexivity|contradiction|now rewrite IH]. Qed.
Lemma read_all_consumes n r x got r' : good r -> rwf r -> read_all n r = (x, got, r') ->
  good r' /\ suffix (pending r') (pending r).
Proof.
  revert n x got r'; induction r as [a o|v o|s IH m|d sc|s|sc]; intros n x got r' G W E.
  1,2,4,5,6: destruct x as [[]|e| |];
    [apply read_all_ok in E as [_ D]; apply (pending_delivers _ _ _ G) in D as [P G']; split; [exact G'|exists got; exact P]|..];
    cbn [read_all good pending rwf] in *.
  all: try (rewrite ?vecr_read_all_eq in E; destruct (mem_read_all n _ o) as [[y g] o'] eqn:E1; injection E as -> <- <-;
    destruct (mem_failed _ _ _ _ _ _ E1) as [| ->]; [discriminate|]; split; [exact G|exists []; reflexivity]).
  all: try (destruct (read_exact n d sc) as [[[y g] d'] sc'] eqn:E1; apply pair_inv in E as [_ <-];
    apply read_exact_spec in E1 as (-> & Sf & _); cbn [good pending]; split; [|exists g; reflexivity];
    destruct Sf as [p ->]; now apply Forall_app in G as [_ G]).
  all: try (destruct s as [dd p sc k]; unfold seek_read_all in E; cbn [sk_data sk_pos sk_sched sk_seeks] in *;
    destruct (read_exact n (dropN p dd) sc) as [[[y g] d'] sc'] eqn:E1; apply pair_inv in E as [_ <-];
    apply read_exact_spec in E1 as (Ed & [q ->] & _); cbn [good pending sk_data sk_pos sk_sched sk_seeks];
    destruct G as [G Gk]; apply Forall_app in G as [_ G]; split; [auto|];
    exists g; rewrite <- dropN_dropN, Ed, dropN_app_exact by reflexivity; reflexivity).
  all: try (destruct (read_custom_all _ sc) as [[y g] sc'] eqn:E1; apply pair_inv in E as [_ <-];
    apply read_custom_all_spec in E1 as (_ & _ & _ & p & ->); apply Forall_app in G as [Gp G]; cbn [good pending];
    split; [exact G|exists (script_bytes p); now apply script_bytes_app]).
  - cbn [read_all good rwf pending] in *. destruct (N.ltb_spec m n) as [|Hm].
    { apply pair_inv in E as [_ <-]. cbn [good pending]. split; [exact G|exists []; reflexivity]. }
    destruct (read_all n s) as [[y g] s'] eqn:E1. apply pair_inv in E as [E <-].
    destruct y as [[]|e| |].
    + cbn [is_ok good pending]. apply read_all_ok in E1 as [L D]. apply (pending_delivers _ _ _ G) in D as [P G'].
      split; [exact G'|]. exists g. rewrite P, takeN_app. rewrite takeN_all by lia. now rewrite L.
    + destruct (IH _ _ _ _ G W E1) as [G' [p Hp]]. cbn [is_ok good pending]. split; [exact G'|].
      assert (Hs : lenN (pending s) < n).
      { destruct (N.lt_ge_cases (lenN (pending s)) n) as [|H]; [assumption|]. destruct (read_all_good n s G H) as [? K]. congruence. }
      exists p. rewrite Hp. pose proof (f_equal lenN Hp) as Lp. rewrite lenN_app in Lp. rewrite !takeN_all; [reflexivity|lia|rewrite <- Hp; lia].
    + exfalso. now destruct (read_all_wf _ _ _ _ _ W E1).
    + exfalso. now destruct (read_all_wf _ _ _ _ _ W E1).
Qed.

(** The reader below a limit after a history of calls through it. *)
Lemma skip_loop_consumes f : forall n src m x r', good src -> rwf src -> skip_loop f n (RLimited src m) = (x, r') ->
  exists src' m', r' = RLimited src' m' /\ good src' /\ rwf src' /\ suffix (pending src') (pending src).
Proof.
  induction f as [|f IH]; intros n src m x r' G W; cbn [skip_loop]; destruct (n =? 0);
    try (intros [= _ <-]; exists src, m; repeat split; auto; exists []; reflexivity).
  destruct (read_all _ (RLimited src m)) as [[y g] r1] eqn:E.
  pose proof (read_all_wf _ _ _ _ _ (W : rwf (RLimited src m)) E) as (_ & W1 & _).
  cbn [read_all] in E. destruct (m <? N.min n 512).
  { apply pair_inv in E as [E <-]. apply pair_inv in E as [<- <-]. intros [= _ <-]. exists src, m. repeat split; auto. exists []; reflexivity. }
  destruct (read_all (N.min n 512) src) as [[z g1] s1] eqn:E1. apply pair_inv in E as [E <-]. apply pair_inv in E as [-> ->].
  destruct (read_all_consumes _ _ _ _ _ G W E1) as [G1 P1]. cbn [rwf] in W1.
  destruct y; try (intros [= _ <-]; exists s1; eexists; repeat split; eauto; fail).
  intros H. destruct (IH _ _ _ _ _ G1 W1 H) as (src' & m' & -> & G2 & W2 & P2).
  exists src', m'. repeat split; auto. destruct P1 as [p1 ->], P2 as [p2 ->]. exists (p1 ++ p2). now rewrite app_assoc.
Qed.
Lemma skip_u64_loop_consumes c f : forall n src m x r', good src -> rwf src -> skip_u64_loop c f n (RLimited src m) = (x, r') ->
  exists src' m', r' = RLimited src' m' /\ good src' /\ rwf src' /\ suffix (pending src') (pending src).
Proof.
  induction f as [|f IH]; intros n src m x r' G W; cbn [skip_u64_loop]; destruct (n =? 0);
    try (intros [= _ <-]; exists src, m; repeat split; auto; exists []; reflexivity).
  destruct (skip c _ (RLimited src m)) as [y r1] eqn:E. cbn [skip] in E.
  apply skip_loop_consumes in E as (s1 & m1 & -> & G1 & W1 & P1); auto.
  destruct y; try (intros [= _ <-]; exists s1; eexists; repeat split; eauto; fail).
  intros H. destruct (IH _ _ _ _ _ G1 W1 H) as (src' & m' & -> & G2 & W2 & P2).
  exists src', m'. repeat split; auto. destruct P1 as [p1 ->], P2 as [p2 ->]. exists (p1 ++ p2). now rewrite app_assoc.
Qed.
Lemma run_rop_consumes c op src m out r' : good src -> rwf src -> is_take op = true -> run_rop c op (RLimited src m) = (out, r') ->
  exists src' m', r' = RLimited src' m' /\ good src' /\ rwf src' /\ suffix (pending src') (pending src).
Proof.
  intros G W T. assert (W' : rwf (RLimited src m)) by exact W.
  assert (K : forall k x g r', read_all k (RLimited src m) = (x, g, r') ->
    exists src' m', r' = RLimited src' m' /\ good src' /\ rwf src' /\ suffix (pending src') (pending src)).
  { intros k x g q E. pose proof (read_all_wf _ _ _ _ _ W' E) as (_ & W1 & _). cbn [read_all] in E. destruct (m <? k).
    { apply pair_inv in E as [_ <-]. exists src, m. repeat split; auto. exists []; reflexivity. }
    destruct (read_all k src) as [[z g1] s1] eqn:E1. apply pair_inv in E as [_ <-].
    destruct (read_all_consumes _ _ _ _ _ G W E1) as [G1 P1]. exists s1. eexists. repeat split; eauto. }
  destruct op as [|n|n|n|n]; cbn [is_take] in T; try discriminate; cbn [run_rop].
  - rewrite read_as_read_all by exact W'. destruct (read_all 1 _) as [[x g] r1] eqn:E. intros [= _ <-]. eapply K; eauto.
  - destruct (read_all n _) as [[x g] r1] eqn:E. intros [= _ <-]. eapply K; eauto.
  - destruct (skip c n _) as [x r1] eqn:E. intros [= _ <-]. cbn [skip] in E. eapply skip_loop_consumes; eauto.
  - destruct (skip_u64 c n _) as [x r1] eqn:E. intros [= _ <-]. cbn [skip_u64] in E. eapply skip_u64_loop_consumes; eauto.
Qed.
Lemma run_rops_consumes c ops : forall src m outs r', good src -> rwf src -> Forall (fun op => is_take op = true) ops ->
  run_rops c ops (RLimited src m) = (outs, r') ->
  exists src' m', r' = RLimited src' m' /\ good src' /\ rwf src' /\ suffix (pending src') (pending src).
Proof.
  induction ops as [|op ops IH]; intros src m outs r' G W T; cbn [run_rops].
  - intros [= _ <-]. exists src, m. repeat split; auto. exists []; reflexivity.
  - destruct (run_rop c op _) as [o r1] eqn:E1. destruct (run_rops c ops r1) as [os r2] eqn:E2. intros [= _ <-].
    inversion T as [|? ? T1 T2]; subst.
    apply run_rop_consumes in E1 as (s1 & m1 & -> & G1 & W1 & P1); auto.
    destruct (IH _ _ _ _ G1 W1 T2 E2) as (src' & m' & -> & G2 & W2 & P2).
    exists src', m'. repeat split; auto. destruct P1 as [p1 ->], P2 as [p2 ->]. exists (p1 ++ p2). now rewrite app_assoc.
Qed.

(** Over a source that fails only when it has no more data, of any length: no
    history ever takes more than [n] bytes from it, and the rest stays in it. *)
Theorem C13_never_past_the_limit :
  forall c src n ops outs r',
  1 <= usize_max c -> rwf src -> good src ->
  Forall (fun op => is_take op = true) ops ->
  run_rops c ops (LimitedReader_new src n) = (outs, r') ->
  exists src' avail bs,
    r' = RLimited src' avail /\ pending src = bs ++ pending src' /\ lenN bs <= n.
Proof.
  intros c src n ops outs r' Hc W G T E. destruct (N.le_gt_cases n (lenN (pending src))) as [H|H].
  - apply run_rops_limited in E as (src' & bs & -> & D & L & _); auto.
    destruct (pending_delivers _ _ _ G D) as [P _]. exists src', (n - lenN bs), bs. auto.
  - apply run_rops_consumes in E as (src' & m & -> & _ & _ & bs & P); auto.
    exists src', m, bs. repeat split; auto. rewrite P, lenN_app in H. lia.
Qed.
Print Assumptions C13_never_past_the_limit.
(** ... although [n - available()] no longer says how much was taken: a stream
    that ends too early loses what it still had to the call that fails. *)
Example C13_short_source_instance :
  good (RRead [1;2;3] []) /\
  run_rops cfg32 [OpReadAll 4; OpRead] (LimitedReader_new (RRead [1;2;3] []) 5)
  = ([Failed (IOErrorStd UnexpectedEof); Failed (IOErrorStd UnexpectedEof)], RLimited (RRead [] []) 5).
Proof. repeat constructor. Qed.

(** ** Any source *)
(** Bytes a call accounts for to its caller. *)
Definition counted (op : rop) (out : outcome) : N :=
  match out with Bytes _ | Done => asked op | Failed _ | Panicked | NoFuel => 0 end.
Fixpoint total (ops : list rop) (outs : list outcome) : N :=
  match ops, outs with
  | op :: ops', out :: outs' => counted op out + total ops' outs'
  | _, _ => 0
  end.
Definition right_size (op : rop) (out : outcome) : Prop :=
  match out with Bytes l => lenN l = asked op | _ => True end.

Lemma skip_loop_counts f : forall n src m x r', rwf src -> skip_loop f n (RLimited src m) = (x, r') ->
  exists src' m', r' = RLimited src' m' /\ rwf src' /\ (if is_ok x then m' + n = m else m' <= m).
Proof.
  induction f as [|f IH]; intros n src m x r' W; cbn [skip_loop]; destruct (N.eqb_spec n 0) as [->|Hn].
  1,3: intros [= <- <-]; exists src, m; repeat split; auto; cbn [is_ok]; lia.
  { intros [= <- <-]. exists src, m. repeat split; auto. cbn [is_ok]. lia. }
  destruct (read_all _ (RLimited src m)) as [[y g] r1] eqn:E.
  pose proof (read_all_wf _ _ _ _ _ (W : rwf (RLimited src m)) E) as (_ & W1 & _).
  cbn [read_all] in E. destruct (N.ltb_spec m (N.min n 512)) as [|Hm].
  { apply pair_inv in E as [E <-]. apply pair_inv in E as [<- <-]. intros [= <- <-]. exists src, m. repeat split; auto. cbn [is_ok]. lia. }
  destruct (read_all (N.min n 512) src) as [[z g1] s1] eqn:E1. apply pair_inv in E as [E <-]. apply pair_inv in E as [-> ->].
  cbn [rwf] in W1.
  destruct y; try (intros [= <- <-]; eexists; eexists; repeat split; eauto; cbn [is_ok]; lia).
  cbn [is_ok]. intros H. destruct (IH _ _ _ _ _ W1 H) as (src' & m' & -> & W2 & K).
  exists src', m'. repeat split; auto. destruct (is_ok x); lia.
Qed.
Lemma skip_u64_loop_counts c f : forall n src m x r', rwf src -> skip_u64_loop c f n (RLimited src m) = (x, r') ->
  exists src' m', r' = RLimited src' m' /\ rwf src' /\ (if is_ok x then m' + n = m else m' <= m).
Proof.
  induction f as [|f IH]; intros n src m x r' W; cbn [skip_u64_loop]; destruct (N.eqb_spec n 0) as [->|Hn].
  1,3: intros [= <- <-]; exists src, m; repeat split; auto; cbn [is_ok]; lia.
  { intros [= <- <-]. exists src, m. repeat split; auto. cbn [is_ok]. lia. }
  destruct (skip c _ (RLimited src m)) as [y r1] eqn:E. cbn [skip] in E.
  apply skip_loop_counts in E as (s1 & m1 & -> & W1 & K1); auto.
  destruct y; cbn [is_ok] in K1; try (intros [= <- <-]; exists s1, m1; repeat split; auto; fail).
  intros H. destruct (IH _ _ _ _ _ W1 H) as (src' & m' & -> & W2 & K).
  exists src', m'. repeat split; auto. destruct (is_ok x); lia.
Qed.
Lemma run_rop_counts c op src m out r' : 1 <= usize_max c -> rwf src -> is_take op = true -> run_rop c op (RLimited src m) = (out, r') ->
  exists src' m', r' = RLimited src' m' /\ rwf src' /\ m' + counted op out <= m /\ right_size op out /\
    out <> Panicked /\ out <> NoFuel /\
    (m' + counted op out < m -> is_skip op = true /\ exists e, out = Failed e).
Proof.
  intros Hc W T. assert (W' : rwf (RLimited src m)) by exact W.
  assert (K : forall k x g r', read_all k (RLimited src m) = (x, g, r') ->
    returns x /\ (x = Ok tt -> lenN g = k) /\ exists src' m', r' = RLimited src' m' /\ rwf src' /\ m' + (if is_ok x then k else 0) = m).
  { intros k x g q E. pose proof (read_all_wf _ _ _ _ _ W' E) as (R & W1 & _). split; [exact R|].
    split; [intros ->; now apply read_all_ok in E|].
    cbn [read_all] in E. destruct (N.ltb_spec m k) as [|Hm].
    { apply pair_inv in E as [E <-]. apply pair_inv in E as [<- <-]. exists src, m. repeat split; auto. cbn [is_ok]. lia. }
    destruct (read_all k src) as [[z g1] s1] eqn:E1. apply pair_inv in E as [E <-]. apply pair_inv in E as [-> _].
    cbn [rwf] in W1. exists s1. eexists. repeat split; eauto. destruct (is_ok x); lia. }
  destruct op as [|n|n|n|n]; cbn [is_take] in T; try discriminate; cbn [run_rop is_skip].
  - rewrite read_as_read_all by exact W'. destruct (read_all 1 _) as [[x g] r1] eqn:E. intros [= <- <-].
    destruct (K _ _ _ _ E) as (R & L & s1 & m1 & -> & W1 & Q). exists s1, m1. split; [reflexivity|]. split; [exact W1|].
    destruct x as [[]|e| |]; try contradiction; cbn [map_ok outcome_of counted right_size asked is_ok] in *;
      (split; [lia|split; [auto|split; [discriminate|split; [discriminate|lia]]]]).
  - destruct (read_all n _) as [[x g] r1] eqn:E. intros [= <- <-].
    destruct (K _ _ _ _ E) as (R & L & s1 & m1 & -> & W1 & Q). exists s1, m1. split; [reflexivity|]. split; [exact W1|].
    destruct x as [[]|e| |]; try contradiction; cbn [map_ok outcome_of counted right_size asked is_ok] in *;
      (split; [lia|split; [auto|split; [discriminate|split; [discriminate|lia]]]]).
  - destruct (skip c n _) as [x r1] eqn:E. intros [= <- <-]. pose proof (skip_safe _ _ _ _ _ W' Logic.I E) as [R _].
    cbn [skip] in E. apply skip_loop_counts in E as (s1 & m1 & -> & W1 & Q); auto. exists s1, m1. split; [reflexivity|]. split; [exact W1|].
    destruct x as [[]|e| |]; try contradiction; cbn [outcome_of counted right_size asked is_ok] in *;
      (split; [lia|split; [auto|split; [discriminate|split; [discriminate|]]]]); [lia|eauto].
  - destruct (skip_u64 c n _) as [x r1] eqn:E. intros [= <- <-]. pose proof (skip_u64_safe _ _ _ _ _ Hc W' Logic.I E) as [R _].
    cbn [skip_u64] in E. apply skip_u64_loop_counts in E as (s1 & m1 & -> & W1 & Q); auto. exists s1, m1. split; [reflexivity|]. split; [exact W1|].
    destruct x as [[]|e| |]; try contradiction; cbn [outcome_of counted right_size asked is_ok] in *;
      (split; [lia|split; [auto|split; [discriminate|split; [discriminate|]]]]); [lia|eauto].
Qed.

(** Over any source at all, whatever errors it reports: what the successful
    calls were given adds up to at most [n - available()]; it is exactly that
    unless a skip failed half-way; no call panics and every buffer is filled
    completely.  (That what failed calls took from such a source is not counted
    is C58_limit_holds_whatever_the_source_does_refuted.) *)
Theorem C58_any_source :
  forall c src n ops outs r',
  1 <= usize_max c -> rwf src ->
  Forall (fun op => is_take op = true) ops ->
  run_rops c ops (LimitedReader_new src n) = (outs, r') ->
  length outs = length ops /\ Forall2 right_size ops outs /\
  Forall (fun out => out <> Panicked /\ out <> NoFuel) outs /\
  exists src' avail,
    r' = RLimited src' avail /\ avail + total ops outs <= n /\
    (Forall2 (fun op out => is_skip op = true -> out = Done) ops outs -> avail + total ops outs = n).
Proof.
  intros c src n ops outs r' Hc W T. unfold LimitedReader_new. revert src n outs r' W.
  induction ops as [|op ops IH]; intros src n outs r' W; cbn [run_rops].
  - intros [= <- <-]. split; [reflexivity|]. split; [constructor|]. split; [constructor|]. exists src, n. cbn [total]. repeat split; lia.
  - destruct (run_rop c op _) as [o r1] eqn:E1. destruct (run_rops c ops r1) as [os r2] eqn:E2. intros [= <- <-].
    inversion T as [|? ? T1 T2]; subst.
    apply run_rop_counts in E1 as (s1 & m1 & -> & W1 & C & Rs & N1 & N2 & K); auto.
    destruct (IH T2 _ _ _ _ W1 E2) as (L & F2 & F & src' & avail & -> & C2 & K2).
    split; [cbn [length]; lia|]. split; [now constructor|]. split; [constructor; auto|]. exists src', avail. split; [reflexivity|]. cbn [total].
    split; [lia|]. intros H. inversion H as [|? ? ? ? H1 H2]; subst. specialize (K2 H2).
    destruct (N.lt_ge_cases (m1 + counted op o) n) as [Hl|]; [|lia].
    destruct (K Hl) as [Sk [e ->]]. specialize (H1 Sk). discriminate.
Qed.
Print Assumptions C58_any_source.
Example C58_any_source_instance :
  let src := RRead [1;2;3;4;5;6] [Chunk 1; Fail (OtherKind 0); Chunk 2] in
  ~ good src /\
  run_rops cfg32 [OpReadAll 2; OpReadAll 2; OpSkip 1; OpRead] (LimitedReader_new src 3)
  = ([Failed (IOErrorStd (OtherKind 0)); Bytes [2;3]; Done; Failed UnableToReadData], RLimited (RRead [5;6] []) 0).
Proof. cbn zeta. split; [|reflexivity]. intros G. inversion G as [|? ? _ G1]; subst. inversion G1. contradiction. Qed.

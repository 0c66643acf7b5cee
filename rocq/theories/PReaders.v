(** Properties C10-C18 and C58: readers.
    Vocabulary: histories of calls [run_rops] and the abstract machines
    [stream_ops], [drain_ops] and [lim_hist] are in Hist.v; [rwf], [good],
    [pending], [delivers], [fair] in IOSpec.v. *)
From Verif Require Import Base BaseFacts Types IO IOSpec IOFacts Hist HistFacts.

Definition cfg64 (checks : bool) : cfg := Cfg checks u64_max.
Definition cfg32 : cfg := Cfg true 4294967295.

(** ** C10.  Every history of calls on a [ByteArrayReader] has the outcomes of
    the positional stream and leaves the reader at the stream's position, which
    is inside the slice, where [available()] is the number of bytes left; no
    call panics.  (Rust slices are at most [isize::MAX] long, so the length
    hypothesis always holds.) *)
Theorem C10_byte_array_reader_stream :
  forall c data ops, lenN data < usize_max c ->
  exists outs pos,
    run_rops c ops (ByteArrayReader_new data) = (outs, RByteArray data pos) /\
    stream_ops data ops 0 = (outs, pos) /\
    pos <= lenN data /\
    mem_available (lenN data) pos = Ok (lenN data - pos) /\
    ~ In Panicked outs /\ ~ In NoFuel outs.
Proof.
  intros c data ops H. unfold ByteArrayReader_new.
  rewrite run_rops_array by (auto; lia).
  pose proof (stream_ops_pos data ops 0 ltac:(lia)) as P.
  pose proof (stream_ops_outcome data ops 0) as F.
  destruct (stream_ops data ops 0) as [outs pos]. cbn [fst snd] in *.
  rewrite Forall_forall in F. exists outs, pos. repeat split; auto.
  - unfold mem_available. destruct (N.leb_spec pos (lenN data)); [reflexivity|lia].
  - intros I. apply F in I. tauto.
  - intros I. apply F in I. tauto.
Qed.
Print Assumptions C10_byte_array_reader_stream.
(** The machine it is compared with is not trivial: each request takes the next
    bytes, and the position is what the successful requests add up to. *)
Example C10_instance :
  run_rops (cfg64 true) [OpReadAll 2; OpSkipU64 u64_max; OpSkip 1; OpRead; OpRead; OpSetOffset 9; OpReadAll 0; OpRead]
           (ByteArrayReader_new [10;11;12;13])
  = ([Bytes [10;11]; Failed UnableToReadData; Done; Bytes [13]; Failed EndOfData; Done; Bytes []; Failed EndOfData],
     RByteArray [10;11;12;13] 4).
Proof. vm_compute. reflexivity. Qed.

(** ** C11.  [VecReader] and [ByteArrayReader] over the same bytes. *)
Theorem C11_vec_reader_equals_array_reader :
  forall c data ops, lenN data < usize_max c ->
  exists outs pos,
    run_rops c ops (ByteArrayReader_new data) = (outs, RByteArray data pos) /\
    run_rops c ops (VecReader_new data) = (outs, RVec data pos) /\
    vecr_available data pos = mem_available (lenN data) pos /\ pos <= lenN data.
Proof.
  intros c data ops H. unfold ByteArrayReader_new, VecReader_new.
  rewrite run_rops_array, run_rops_vec by (auto; lia).
  pose proof (stream_ops_pos data ops 0 ltac:(lia)) as P.
  destruct (stream_ops data ops 0) as [outs pos]. eauto 6.
Qed.
Print Assumptions C11_vec_reader_equals_array_reader.
Example C11_instance :
  run_rops cfg32 [OpReadAll 2; OpSkip 7; OpSetOffset 1; OpSkipU64 2; OpRead] (VecReader_new [10;11;12;13])
  = ([Bytes [10;11]; Failed UnableToReadData; Done; Done; Bytes [13]], RVec [10;11;12;13] 4).
Proof. vm_compute. reflexivity. Qed.

(** ** C12.  Failure atomicity and error classification of the two memory
    readers, in every state a history can reach. *)
Definition memory_reader (data : list N) (pos : N) (r : reader) : Prop :=
  r = RByteArray data pos \/ r = RVec data pos.
Theorem C12_memory_readers_all_or_nothing :
  forall c data pos r op out r',
  lenN data < usize_max c -> pos <= lenN data -> memory_reader data pos r -> is_take op = true ->
  run_rop c op r = (out, r') ->
  (** it fails exactly when too little is left *)
  ((exists e, out = Failed e) <-> lenN data - pos < asked op) /\
  (** and then nothing has changed, and the error tells how much is left *)
  (forall e, out = Failed e -> r' = r /\
     (e = EndOfData <-> pos = lenN data) /\ (e = UnableToReadData <-> pos < lenN data)) /\
  (** otherwise it returns normally *)
  (asked op <= lenN data - pos -> out = Done \/ exists bs, out = Bytes bs /\ lenN bs = asked op).
Proof.
  intros c data pos r op out r' Hu Hp M T E.
  assert (K : exists p', stream_op data op pos = (out, p') /\ (r = r' <-> p' = pos)).
  { destruct M as [-> | ->]; [rewrite run_rop_array in E by assumption|rewrite run_rop_vec in E by assumption];
      destruct (stream_op data op pos) as [x p]; injection E as <- <-; exists p;
      (split; [reflexivity|]); split; [intros [= ->]|intros ->| intros [= ->]|intros ->]; reflexivity. }
  destruct K as (p' & K & R).
  assert (G : exists show, stream_take data pos (asked op) show = (out, p')
              /\ forall l, show l = Done \/ show l = Bytes l).
  { destruct op; cbn [is_take stream_op asked] in *; try discriminate; eexists; (split; [exact K|]); auto. }
  destruct G as (show & G & Hs). unfold stream_take in G.
  destruct (N.eqb_spec (asked op) 0) as [H0|H0].
  { injection G as <- <-. repeat split.
    - intros [e He]. destruct (Hs []) as [S|S]; rewrite S in He; discriminate.
    - lia.
    - rename H into He. destruct (Hs []) as [S|S]; rewrite S in He; discriminate.
    - rename H into He. destruct (Hs []) as [S|S]; rewrite S in He; discriminate.
    - rename H into He. destruct (Hs []) as [S|S]; rewrite S in He; discriminate.
    - rename H into He. destruct (Hs []) as [S|S]; rewrite S in He; discriminate.
    - rename H into He. destruct (Hs []) as [S|S]; rewrite S in He; discriminate.
    - intros _. destruct (Hs []) as [S|S]; rewrite S; [auto|]. right. exists []. rewrite lenN_nil. auto. }
  destruct (N.eqb_spec pos (lenN data)) as [H1|H1].
  { injection G as <- <-. split; [split; [lia|eauto]|]. split; [|lia].
    intros e [= <-]. split; [symmetry; tauto|]. repeat split; auto; try discriminate; lia. }
  destruct (N.ltb_spec (lenN data) (pos + asked op)) as [H2|H2].
  { injection G as <- <-. split; [split; [lia|eauto]|]. split; [|lia].
    intros e [= <-]. split; [symmetry; tauto|]. repeat split; auto; try discriminate; lia. }
  apply pair_inv in G as [<- <-]. set (bs := takeN (asked op) (dropN pos data)) in *.
  assert (F : forall e, show bs <> Failed e).
  { intros e He. destruct (Hs bs) as [S|S]; rewrite S in He; discriminate. }
  split; [split; [intros [e He]; now apply F in He|lia]|]. split; [intros e He; now apply F in He|].
  intros _. destruct (Hs bs) as [S|S]; rewrite S; [auto|]. right. exists bs. split; [reflexivity|].
  unfold bs. rewrite lenN_takeN, lenN_dropN. lia.
Qed.
Print Assumptions C12_memory_readers_all_or_nothing.
Example C12_instance :
  memory_reader [5;6;7] 1 (RVec [5;6;7] 1) /\
  run_rop cfg32 (OpReadAll 3) (RVec [5;6;7] 1) = (Failed UnableToReadData, RVec [5;6;7] 1) /\
  run_rop cfg32 (OpSkipU64 1) (RByteArray [5;6;7] 3) = (Failed EndOfData, RByteArray [5;6;7] 3) /\
  run_rop cfg32 (OpReadAll 0) (RByteArray [5;6;7] 3) = (Bytes [], RByteArray [5;6;7] 3).
Proof. unfold memory_reader. vm_compute. auto. Qed.

(** ** C13.  Through a [LimitedReader] of limit [n] over any reader that holds
    [n] bytes and fails for no other reason than lack of data, every history of
    read, read_all, skip and skip_u64 takes from the source exactly
    [n - available()] bytes; these are the source's own next bytes, split among
    the calls in order: a successful call takes exactly what it was asked for
    and (unless it is a skip) returns it, a failed one was asked for more than
    the rest of the limit. *)
Theorem C13_limited_reader_never_over_reads :
  forall c src n ops outs r',
  1 <= usize_max c -> rwf src -> good src -> n <= lenN (pending src) ->
  Forall (fun op => is_take op = true) ops ->
  run_rops c ops (LimitedReader_new src n) = (outs, r') ->
  exists src' avail bs,
    r' = RLimited src' avail /\ delivers src bs src' /\
    lenN bs = n - avail /\ avail <= n /\
    bs = takeN (n - avail) (pending src) /\
    lim_hist n ops outs bs.
Proof.
  intros c src n ops outs r' Hc W G P T E.
  apply run_rops_limited in E as (src' & bs & -> & D & L & K); auto.
  exists src', (n - lenN bs), bs. repeat split; auto; try lia.
  destruct (pending_delivers _ _ _ G D) as [P' _]. rewrite P'.
  rewrite takeN_app_exact; [reflexivity|lia].
Qed.
Print Assumptions C13_limited_reader_never_over_reads.
Example C13_instance :
  let src := RRead [1;2;3;4;5;6] [Chunk 1; Interrupt; Chunk 2] in
  rwf src /\ good src /\ 4 <= lenN (pending src) /\
  run_rops cfg32 [OpReadAll 2; OpReadAll 3; OpSkip 1; OpRead; OpRead] (LimitedReader_new src 4)
  = ([Bytes [1;2]; Failed UnableToReadData; Done; Bytes [4]; Failed UnableToReadData],
     RLimited (RRead [5;6] []) 0).
Proof.
  cbn zeta. repeat split; try (vm_compute; congruence);
    repeat constructor; unfold byte_ok; lia.
Qed.

(** goto_end takes what is left of the limit: after any history followed by
    goto_end exactly [n] bytes have left the source, the limit is used up, and no
    further call gets anything. *)
Theorem C13_goto_end :
  forall c src n ops outs r',
  1 <= usize_max c -> rwf src -> good src -> no_seek src -> n <= lenN (pending src) ->
  Forall (fun op => is_take op = true) ops ->
  run_rops c ops (LimitedReader_new src n) = (outs, r') ->
  exists mid avail src',
    r' = RLimited mid avail /\ goto_end c mid avail = (Ok tt, src', 0) /\
    delivers src (takeN n (pending src)) src' /\ pending src' = dropN n (pending src) /\
    read (RLimited src' 0) = (Err UnableToReadData, RLimited src' 0) /\
    goto_end c src' 0 = (Ok tt, src', 0).
Proof.
  intros c src n ops outs r' Hc W G S P T E.
  destruct (C13_limited_reader_never_over_reads c src n ops outs r' Hc W G P T E)
    as (mid & avail & bs & -> & D & L & A & B & _).
  destruct (pending_delivers _ _ _ G D) as [Pm Gm]. destruct (delivers_rwf _ _ _ W D) as [Wm _].
  assert (Lm : avail <= lenN (pending mid)).
  { rewrite Pm, lenN_app in P. lia. }
  assert (K : exists src', goto_end c mid avail = (Ok tt, src', 0) /\ delivers mid (takeN avail (pending mid)) src').
  { unfold goto_end. destruct (N.ltb_spec 0 avail) as [Hp|Hp].
    - assert (Sm : no_seek mid) by (destruct src, mid; cbn in *; tauto).
      destruct (skip_good c avail mid Wm Sm Gm Lm) as (s & Es & Ds).
      rewrite Es. cbn [is_ok]. eauto.
    - replace avail with 0 by lia. exists mid. split; [reflexivity|]. rewrite takeN_0. apply delivers_refl. }
  destruct K as (src' & Eg & Dg). exists mid, avail, src'. split; [reflexivity|]. split; [exact Eg|].
  pose proof (delivers_trans _ _ _ _ _ D Dg) as DD.
  assert (Eb : bs ++ takeN avail (pending mid) = takeN n (pending src)).
  { rewrite Pm. rewrite B at 1. rewrite takeN_app.
    rewrite <- B. rewrite (takeN_all n bs) by lia. f_equal. f_equal. lia. }
  rewrite Eb in DD. split; [exact DD|]. split; [|split; reflexivity].
  destruct (pending_delivers _ _ _ G DD) as [PP _].
  rewrite PP. rewrite dropN_app_exact; [reflexivity|]. rewrite lenN_takeN. lia.
Qed.
Print Assumptions C13_goto_end.
(** On any source: it never panics; a success took exactly the rest of the limit
    and a failure leaves the limit as it was, so that it can be tried again. *)
Theorem C13_goto_end_any_source :
  forall c src avail x src' avail', 1 <= usize_max c -> rwf src -> no_seek src ->
  goto_end c src avail = (x, src', avail') ->
  returns x /\
  (x = Ok tt -> avail' = 0 /\ exists bs, lenN bs = avail /\ delivers src bs src') /\
  (forall e, x = Err e -> avail' = avail /\ avail <> 0).
Proof.
  intros c src avail x src' avail' Hc W S E. unfold goto_end in E.
  destruct (N.ltb_spec 0 avail) as [Hp|Hp].
  - destruct (skip c avail src) as [y s] eqn:Es. destruct (skip_safe c avail src y s W S Es) as [R _].
    apply pair_inv in E as [E <-]. apply pair_inv in E as [<- <-]. split; [exact R|]. split.
    + intros ->. split; [reflexivity|]. eapply skip_sound; eauto.
    + intros e ->. split; [reflexivity|lia].
  - apply pair_inv in E as [E <-]. apply pair_inv in E as [<- <-]. split; [exact I|]. split.
    + intros _. split; [lia|]. exists []. rewrite lenN_nil. split; [lia|]. apply delivers_refl.
    + intros e [=].
Qed.
Print Assumptions C13_goto_end_any_source.
Example C13_goto_end_instance :
  goto_end cfg32 (RRead [1;2;3;4;5;6] [Chunk 1; Interrupt; Chunk 2]) 4 = (Ok tt, RRead [5;6] [], 0) /\
  goto_end cfg32 (RVec [1;2;3] 1) 5 = (Err UnableToReadData, RVec [1;2;3] 1, 5).
Proof. vm_compute. auto. Qed.

(** ** C14.  A read or read_all beyond the limit fails without touching anything,
    whatever the source is. *)
Theorem C14_limited_reader_failed_reads_consume_nothing :
  forall src avail,
  (forall n, avail < n -> read_all n (RLimited src avail) = (Err UnableToReadData, [], RLimited src avail)) /\
  (avail = 0 -> read (RLimited src avail) = (Err UnableToReadData, RLimited src avail)).
Proof.
  intros src avail. split.
  - intros n H. cbn [read_all]. destruct (N.ltb_spec avail n); [reflexivity|lia].
  - intros ->. reflexivity.
Qed.
Print Assumptions C14_limited_reader_failed_reads_consume_nothing.
(** A read or read_all that fails for any reason, also because the source
    fails, leaves available() as it was; and if failed reads of the source
    change nothing in it, the same holds through any number of limits. *)
Definition read_or_nothing (r : reader) : Prop :=
  (forall n e got r', read_all n r = (Err e, got, r') -> r' = r /\ got = []) /\
  (forall e r', read r = (Err e, r') -> r' = r).
Theorem C14_failed_reads_keep_available :
  (forall src avail n e got r', read_all n (RLimited src avail) = (Err e, got, r') ->
     exists src', r' = RLimited src' avail) /\
  (forall src avail e r', read (RLimited src avail) = (Err e, r') ->
     exists src', r' = RLimited src' avail) /\
  (forall src avail, read_or_nothing src -> read_or_nothing (RLimited src avail)) /\
  (forall d o, read_or_nothing (RByteArray d o)) /\
  (forall d o, read_or_nothing (RVec d o)).
Proof.
  split; [|split; [|split; [|split]]].
  - intros src avail n e got r' H. cbn [read_all] in H.
    destruct (avail <? n); [exists src; congruence|].
    destruct (read_all n src) as [[x g] s']. destruct x; cbn [is_ok] in H; try congruence.
    exists s'. congruence.
  - intros src avail e r' H. cbn [read] in H.
    destruct (avail <? 1); [exists src; congruence|].
    destruct (read src) as [x s']. destruct x; cbn [is_ok] in H; try congruence.
    exists s'. congruence.
  - intros src avail [A B]. split.
    + intros n e got r' H. cbn [read_all] in H.
      destruct (avail <? n); [split; congruence|].
      destruct (read_all n src) as [[x g] s'] eqn:E. destruct x; cbn [is_ok] in H; try congruence.
      destruct (A _ _ _ _ E) as [-> ->]. split; congruence.
    + intros e r' H. cbn [read] in H.
      destruct (avail <? 1); [congruence|].
      destruct (read src) as [x s'] eqn:E. destruct x; cbn [is_ok] in H; try congruence.
      rewrite (B _ _ eq_refl) in H. congruence.
  - intros d o. split.
    + intros n e got r' H. cbn [read_all] in H. unfold mem_read_all in H.
      destruct (mem_can_read (lenN d) o n); [destruct (slice d o (o + n))|..]; cbv beta iota zeta in H; split; congruence.
    + intros e r' H. cbn [read] in H. unfold mem_read in H.
      destruct (mem_can_read (lenN d) o 1); [destruct (nthN d o)|..]; congruence.
  - intros d o. split.
    + intros n e got r' H. cbn [read_all] in H. unfold vecr_read_all in H.
      destruct (vecr_can_read d o n); [destruct (slice d o (o + n))|..]; cbv beta iota zeta in H; split; congruence.
    + intros e r' H. cbn [read] in H. unfold vecr_read in H.
      destruct (vecr_can_read d o 1); [destruct (nthN d o)|..]; congruence.
Qed.
Print Assumptions C14_failed_reads_keep_available.
Example C14_source_fails :
  let r := RLimited (RLimited (RVec [1;2;3] 1) 9) 4 in
  read_or_nothing r /\ read_all 3 r = (Err UnableToReadData, [], r).
Proof.
  destruct C14_failed_reads_keep_available as (_ & _ & L & _ & V).
  split; [repeat apply L; apply V|reflexivity].
Qed.
(** What a failed skip takes: all whole 512-byte blocks below the limit. *)
Theorem C14_limited_skip_past_the_limit :
  forall c src avail count,
  rwf src -> good src -> avail <= lenN (pending src) -> avail < count ->
  exists src' seg,
    skip c count (RLimited src avail) = (Err UnableToReadData, RLimited src' (avail mod 512)) /\
    delivers src seg src' /\ lenN seg = 512 * (avail / 512).
Proof.
  intros c src avail count W G P H. cbn [skip]. unfold skip_default. cbn [left].
  destruct (skip_loop_limited_short (S (left src)) count src avail G P H) as (s' & seg & E & D & L & _); [lia|].
  exists s', seg. repeat split; auto. rewrite L. pose proof (N.div_mod avail 512 ltac:(lia)). lia.
Qed.
Print Assumptions C14_limited_skip_past_the_limit.
Example C14_skip_past_the_limit_instance :
  skip cfg32 2000 (RLimited (RRead (repeatN 7 1300) [Chunk 100; Interrupt]) 1100)
  = (Err UnableToReadData, RLimited (RRead (repeatN 7 276) []) 76).
Proof. vm_compute. reflexivity. Qed.
(** The documented claim is therefore false for skip. *)
Theorem C14_failed_attempts_never_change_the_offset_refuted :
  ~ (forall c src avail count e r',
       cfg_ok c -> rwf src -> good src ->
       skip c count (RLimited src avail) = (Err e, r') -> r' = RLimited src avail).
Proof.
  intros H. set (src := RByteArray (repeatN 7 600) 0).
  assert (B : bytes_ok (repeatN 7 600)).
  { unfold bytes_ok, repeatN. apply Forall_forall. intros x I. apply repeat_spec in I as ->. unfold byte_ok. lia. }
  specialize (H cfg32 src 600 700 UnableToReadData (RLimited (RByteArray (repeatN 7 600) 512) 88)).
  assert (E : RLimited (RByteArray (repeatN 7 600) 512) 88 = RLimited src 600).
  { apply H; [unfold cfg_ok, cfg32, u64_max; cbn [usize_max]; lia| | |].
    - split; [exact B|lia].
    - cbn. lia.
    - vm_compute. reflexivity. }
  discriminate E.
Qed.
Print Assumptions C14_failed_attempts_never_change_the_offset_refuted.

(** ** C15.  Default [skip] and [skip_u64]. *)
Theorem C15_default_skip :
  forall c r count, 1 <= usize_max c -> rwf r ->
  let one (m : cfg -> N -> reader -> res io_error unit * reader) :=
    (** never panics or loops forever, and a success discarded exactly [count]
        of the reader's next bytes, on any source *)
    returns (fst (m c count r)) /\
    (forall r', m c count r = (Ok tt, r') -> exists bs, lenN bs = count /\ delivers r bs r') /\
    (** on a well-behaved source it succeeds exactly when [count] bytes can be
        read, leaving what reading them would leave *)
    (good r -> count <= lenN (pending r) ->
       exists r', m c count r = (Ok tt, r') /\ delivers r (takeN count (pending r)) r'
                  /\ pending r' = dropN count (pending r) /\
         exists r'', read_all count r = (Ok tt, takeN count (pending r), r'')
                  /\ delivers r (takeN count (pending r)) r'' /\ pending r'' = pending r') /\
    (good r -> lenN (pending r) < count -> exists e r', m c count r = (Err e, r')) in
  (default_skip r -> one skip) /\ (no_seek r -> one skip_u64).
Proof.
  intros c r count Hc W one.
  assert (K : forall m : cfg -> N -> reader -> res io_error unit * reader,
    (forall x r', m c count r = (x, r') -> returns x) ->
    (forall r', m c count r = (Ok tt, r') -> exists bs, lenN bs = count /\ delivers r bs r') ->
    (good r -> count <= lenN (pending r) -> exists r', m c count r = (Ok tt, r') /\ delivers r (takeN count (pending r)) r') ->
    (good r -> lenN (pending r) < count -> exists e r', m c count r = (Err e, r')) -> one m).
  { intros m Hs Hd Hg Hf. unfold one. split; [destruct (m c count r) eqn:E; eapply Hs; eauto|].
    split; [assumption|]. split; [|assumption].
    intros G L. destruct (Hg G L) as (r' & E & D). exists r'. split; [assumption|]. split; [assumption|].
    destruct (pending_delivers _ _ _ G D) as [P _].
    assert (P' : pending r' = dropN count (pending r)).
    { rewrite P at 1. rewrite dropN_app_exact; [reflexivity|]. rewrite lenN_takeN. lia. }
    split; [assumption|]. destruct (read_all_good count r G L) as [r'' E'']. exists r''.
    split; [assumption|]. apply read_all_ok in E'' as [_ D'']. split; [assumption|].
    destruct (pending_delivers _ _ _ G D'') as [P'' _].
    rewrite P' . rewrite P'' at 1. rewrite dropN_app_exact; [reflexivity|]. rewrite lenN_takeN. lia. }
  split; intros S.
  - assert (N : no_seek r) by (destruct r; cbn in *; auto). apply K.
    + intros x r' E. now apply skip_safe in E.
    + intros r' E. eapply skip_sound; eauto.
    + intros G L. eapply skip_good; eauto.
    + intros G L. eapply skip_short; eauto.
  - apply K.
    + intros x r' E. now apply skip_u64_safe in E.
    + intros r' E. eapply skip_u64_sound; eauto.
    + intros G L. eapply skip_u64_good; eauto.
    + intros G L. eapply skip_u64_short; eauto.
Qed.
Print Assumptions C15_default_skip.
Example C15_instance :
  let r := RRead (repeatN 1 1000 ++ [2;3;4]) [Chunk 700; Interrupt] in
  default_skip r /\ Forall fair [Chunk 700; Interrupt] /\
  (exists s, skip cfg32 1001 r = (Ok tt, RRead [3;4] s)) /\
  (exists s, skip_u64 (Cfg true 3) 1001 r = (Ok tt, RRead [3;4] s)) /\
  skip_u64 cfg32 1004 r = (Err (IOErrorStd UnexpectedEof), RRead [] []).
Proof.
  cbn zeta. split; [exact I|]. split; [repeat constructor; cbn; lia|].
  split; [eexists; vm_compute; reflexivity|]. split; [eexists; vm_compute; reflexivity|].
  vm_compute. reflexivity.
Qed.

(** ** C16.  A [ReadReader] over any stream that splits and interrupts as it
    likes behaves, for every history of calls, as the drained source: requests
    are served in full exactly when enough bytes remain, with the next bytes,
    and so independently of the schedule. *)
Theorem C16_read_reader_fragmentation :
  forall c data sched ops,
  1 <= usize_max c -> Forall piecewise sched ->
  exists outs data' sched',
    run_rops c ops (RRead data sched) = (outs, RRead data' sched') /\
    drain_ops ops data = (outs, data') /\
    (** in particular it behaves as over a stream that never splits *)
    (exists sched'', run_rops c ops (RRead data []) = (outs, RRead data' sched'')).
Proof.
  intros c data sched ops Hc F.
  destruct (run_rops_drain c ops Hc data sched F) as (s1 & _ & E1).
  destruct (run_rops_drain c ops Hc data [] (Forall_nil _)) as (s2 & _ & E2).
  destruct (drain_ops ops data) as [outs d]. eauto 8.
Qed.
Print Assumptions C16_read_reader_fragmentation.
(** The machine: success exactly when enough is left. *)
Theorem C16_drain_machine :
  forall op data,
  (asked op <= lenN data ->
     snd (drain_op op data) = dropN (asked op) data /\
     (fst (drain_op op data) = Done \/ fst (drain_op op data) = Bytes (takeN (asked op) data))) /\
  (lenN data < asked op -> drain_op op data = (Failed (IOErrorStd UnexpectedEof), [])).
Proof.
  intros op data. unfold drain_op. destruct (N.leb_spec (asked op) (lenN data)) as [H|H]; split; intros H'; try lia.
  - cbn [fst snd]. split; [reflexivity|]. destruct op; auto.
  - reflexivity.
Qed.
Print Assumptions C16_drain_machine.
Example C16_instance :
  run_rops cfg32 [OpReadAll 3; OpRead; OpSkip 1; OpReadAll 2; OpRead]
           (RRead [1;2;3;4;5;6] [Interrupt; Chunk 1; Chunk 1; Interrupt; Chunk 5])
  = ([Bytes [1;2;3]; Bytes [4]; Done; Failed (IOErrorStd UnexpectedEof); Failed (IOErrorStd UnexpectedEof)],
     RRead [] []).
Proof. vm_compute. reflexivity. Qed.

(** Over a source whose [read_exact] takes all or nothing, a failed request
    uses up nothing: every history of reads is that of a memory reader, but for
    the kind of the errors. *)
Definition is_read (op : rop) : Prop := op = OpRead \/ exists n, op = OpReadAll n.
Definition as_std (o : outcome) : outcome :=
  match o with Failed _ => Failed (IOErrorStd UnexpectedEof) | _ => o end.
Theorem C16_all_or_nothing_source :
  forall c data ops k, lenN data < usize_max c -> Forall is_read ops -> (length ops <= k)%nat ->
  exists outs pos k',
    run_rops c ops (RVec data 0) = (outs, RVec data pos) /\
    run_rops c ops (RRead data (repeat Whole k)) = (map as_std outs, RRead (dropN pos data) (repeat Whole k')).
Proof.
  intros c data ops k Hu F L. rewrite run_rops_vec by (assumption || lia).
  assert (K : forall o, o <= lenN data -> exists k',
    run_rops c ops (RRead (dropN o data) (repeat Whole k))
    = let '(outs, pos) := stream_ops data ops o in (map as_std outs, RRead (dropN pos data) (repeat Whole k'))).
  { revert k L. induction F as [|op ops Hop F IH]; intros k L o Ho; cbn [run_rops stream_ops]; [exists k; reflexivity|].
    cbn [length] in L.
    assert (St : exists k', (k <= S k')%nat /\ run_rop c op (RRead (dropN o data) (repeat Whole k))
      = let '(x, pos) := stream_op data op o in (as_std x, RRead (dropN pos data) (repeat Whole k'))).
    { destruct k as [|k]; [lia|]. cbn [repeat].
      assert (T : forall n, exists k', (S k <= S k')%nat /\ read_exact n (dropN o data) (Whole :: repeat Whole k)
        = match stream_take data o n Bytes with
          | (Bytes bs, pos) => (Ok tt, bs, dropN pos data, repeat Whole k')
          | (_, pos) => (Err UnexpectedEof, [], dropN pos data, repeat Whole k')
          end).
      { intros n. cbn [read_exact]. unfold stream_take. rewrite lenN_dropN.
        destruct (N.eqb_spec n 0); [exists (S k); auto|]. exists k. split; [lia|].
        destruct (N.leb_spec n (lenN data - o)), (N.eqb_spec o (lenN data)), (N.ltb_spec (lenN data) (o + n));
          try lia; try reflexivity. now rewrite dropN_dropN. }
      destruct Hop as [->|(n & ->)]; cbn [run_rop stream_op read read_all].
      - destruct (T 1) as (k' & Lk & E). exists k'. split; [exact Lk|]. rewrite E. unfold stream_take.
        destruct (N.eqb_spec 1 0); [lia|].
        destruct (N.eqb_spec o (lenN data)); [reflexivity|]. destruct (N.ltb_spec (lenN data) (o + 1)); [reflexivity|].
        cbn [outcome_of as_std]. f_equal. f_equal.
        destruct (dropN o data) as [|b l] eqn:Ed; [apply (f_equal lenN) in Ed; rewrite lenN_dropN, lenN_nil in Ed; lia|].
        change (takeN 1 (b :: l)) with (b :: takeN 0 l). now rewrite takeN_0.
      - destruct (T n) as (k' & Lk & E). exists k'. split; [exact Lk|]. rewrite E. unfold stream_take.
        destruct (n =? 0); [reflexivity|]. destruct (o =? lenN data); [reflexivity|].
        destruct (lenN data <? o + n); reflexivity. }
    destruct St as (k1 & L1 & ->). pose proof (stream_op_pos data op o Ho) as P1.
    destruct (stream_op data op o) as [x p]. cbn [snd] in P1. destruct (IH k1 ltac:(lia) p P1) as (k' & ->).
    exists k'. destruct (stream_ops data ops p). reflexivity. }
  destruct (K 0 ltac:(lia)) as (k' & E). rewrite dropN_0 in E. rewrite E.
  destruct (stream_ops data ops 0) as [outs pos]. eauto.
Qed.
Print Assumptions C16_all_or_nothing_source.
(** src/io/std_io/tests.rs:309-340 *)
Example C16_all_or_nothing_case :
  let src := [0;1;2;3;4;5;6;7;8;9] in
  run_rops cfg32 [OpReadAll 0; OpReadAll 5; OpReadAll 4; OpReadAll 2; OpReadAll 1; OpReadAll 0; OpReadAll 1]
           (RRead src (repeat Whole 7))
  = ([Bytes []; Bytes [0;1;2;3;4]; Bytes [5;6;7;8]; Failed (IOErrorStd UnexpectedEof); Bytes [9]; Bytes [];
      Failed (IOErrorStd UnexpectedEof)], RRead [] [Whole; Whole]).
Proof. vm_compute. reflexivity. Qed.

(** ** C17.  Seekable sources.  [calm]: [seek] itself does not fail. *)
Definition calm (s : seekable) : Prop := Forall (fun x => x = None) (sk_seeks s).
Definition at_pos (s : seekable) (p : N) (s' : seekable) : Prop :=
  sk_data s' = sk_data s /\ sk_pos s' = p /\ sk_sched s' = sk_sched s.

Lemma seek_calm p s : calm s ->
  exists s', seek_q p s = (Ok (sk_pos s'), s') /\ calm s' /\
    at_pos s (match p with SeekStart n => n | SeekEnd0 => lenN (sk_data s) | SeekCurrent0 => sk_pos s end) s'.
Proof.
  destruct s as [d q sc sk]. unfold calm. cbn [sk_seeks]. intros F.
  unfold seek_q, lift_err, seek.
  assert (H : hd None sk = None) by (destruct F; auto).
  rewrite H. cbn [sk_data sk_pos].
  exists (Seekable d (match p with SeekStart n => n | SeekEnd0 => lenN d | SeekCurrent0 => q end) sc (tl sk)).
  split; [reflexivity|]. split; [destruct F; cbn; auto|].
  unfold at_pos. cbn. auto.
Qed.
Lemma seek_skip_calm c count s : calm s -> 0 < count ->
  exists s', calm s' /\
  if sk_pos s =? lenN (sk_data s) then seek_skip_u64 c count s = (Err EndOfData, s') /\ at_pos s (sk_pos s) s'
  else match add_u64 (E := io_error) c (sk_pos s) count with
       | Ok p => if p <=? lenN (sk_data s) then seek_skip_u64 c count s = (Ok tt, s') /\ at_pos s p s'
                 else seek_skip_u64 c count s = (Err UnableToReadData, s') /\ at_pos s (lenN (sk_data s)) s'
       | _ => seek_skip_u64 c count s = (Panic, s') /\ at_pos s (lenN (sk_data s)) s'
       end.
Proof.
  intros C H. unfold seek_skip_u64. destruct (N.eqb_spec count 0); [lia|].
  destruct (seek_calm SeekCurrent0 s C) as (s1 & E1 & C1 & D1 & P1 & S1).
  destruct (seek_calm SeekEnd0 s1 C1) as (s2 & E2 & C2 & D2 & P2 & S2).
  unfold bind. rewrite E1. cbv beta iota. rewrite E2. cbv beta iota. rewrite P1, P2, D1.
  destruct (N.eqb_spec (sk_pos s) (lenN (sk_data s))) as [E|E].
  { exists s2. split; [assumption|]. unfold at_pos. rewrite D2, D1, P2, D1, S2, S1. unfold fail. repeat split. congruence. }
  unfold add_u64. destruct (N.ltb_spec (sk_pos s + count) two64); cbv beta iota.
  - destruct (N.leb_spec (sk_pos s + count) (lenN (sk_data s))).
    + destruct (seek_calm (SeekStart (sk_pos s + count)) s2 C2) as (s3 & E3 & C3 & D3 & P3 & S3).
      exists s3. split; [assumption|]. cbv beta iota. rewrite E3. unfold ret, at_pos.
      rewrite D3, D2, D1, P3, S3, S2, S1. auto.
    + exists s2. split; [assumption|]. unfold fail, at_pos. rewrite D2, D1, P2, D1, S2, S1. auto.
  - destruct (overflow_checks c).
    + exists s2. split; [assumption|]. unfold at_pos. rewrite D2, D1, P2, D1, S2, S1. auto.
    + destruct (N.leb_spec (sk_pos s + count - two64) (lenN (sk_data s))).
      * destruct (seek_calm (SeekStart (sk_pos s + count - two64)) s2 C2) as (s3 & E3 & C3 & D3 & P3 & S3).
        exists s3. split; [assumption|]. cbv beta iota. rewrite E3. unfold ret, at_pos.
        rewrite D3, D2, D1, P3, S3, S2, S1. auto.
      * exists s2. split; [assumption|]. unfold fail, at_pos. rewrite D2, D1, P2, D1, S2, S1. auto.
Qed.
(** Both entry points run the same code. *)
Lemma skip_seek_eq c count s : skip c count (RSeek s) = skip_u64 c count (RSeek s).
Proof. reflexivity. Qed.

Theorem C17_seekable_skip :
  forall c s count, calm s -> lenN (sk_data s) < two64 ->
  let both P := P (skip c count (RSeek s)) /\ P (skip_u64 c count (RSeek s)) in
  (** with [count] bytes left the position moves by exactly [count] *)
  (sk_pos s + count <= lenN (sk_data s) ->
     both (fun z => exists s', z = (Ok tt, RSeek s') /\ at_pos s (sk_pos s + count) s'
                    /\ pending (RSeek s') = dropN count (pending (RSeek s)))) /\
  (** with fewer (and no overflow) it fails, leaving the position at the end *)
  (sk_pos s <= lenN (sk_data s) -> lenN (sk_data s) < sk_pos s + count -> sk_pos s + count < two64 ->
     both (fun z => exists e s', z = (Err e, RSeek s') /\ at_pos s (lenN (sk_data s)) s'
                    /\ (e = EndOfData <-> sk_pos s = lenN (sk_data s))
                    /\ (e = UnableToReadData <-> sk_pos s < lenN (sk_data s)))).
Proof.
  intros c s count C L both.
  assert (Hb : forall P : res io_error unit * reader -> Prop, P (skip_u64 c count (RSeek s)) -> both P).
  { intros P H. split; [rewrite skip_seek_eq|]; exact H. }
  split.
  - intros H. apply Hb. cbn [skip_u64]. destruct (N.eq_dec count 0) as [->|Hc].
    { unfold seek_skip_u64. cbn [N.eqb]. unfold ret. exists s. split; [reflexivity|]. unfold at_pos.
      now rewrite N.add_0_r, dropN_0. }
    destruct (seek_skip_calm c count s C ltac:(lia)) as (s' & _ & K).
    destruct (N.eqb_spec (sk_pos s) (lenN (sk_data s))); [lia|].
    unfold add_u64 in K. destruct (N.ltb_spec (sk_pos s + count) two64); [|lia].
    destruct (N.leb_spec (sk_pos s + count) (lenN (sk_data s))); [|lia]. destruct K as [-> A].
    exists s'. split; [reflexivity|]. split; [assumption|]. destruct A as (A1 & A2 & _).
    cbn [pending]. now rewrite A1, A2, dropN_dropN.
  - intros H1 H2 H3. apply Hb. cbn [skip_u64].
    destruct (seek_skip_calm c count s C ltac:(lia)) as (s' & _ & K).
    destruct (N.eqb_spec (sk_pos s) (lenN (sk_data s))) as [E|E].
    + destruct K as [-> A]. exists EndOfData, s'. split; [reflexivity|]. rewrite <- E at 1.
      split; [assumption|]. split; split; auto; try discriminate; lia.
    + unfold add_u64 in K. destruct (N.ltb_spec (sk_pos s + count) two64); [|lia].
      destruct (N.leb_spec (sk_pos s + count) (lenN (sk_data s))); [lia|]. destruct K as [-> A].
      exists UnableToReadData, s'. split; [reflexivity|].
      split; [assumption|]. split; split; auto; try discriminate; lia.
Qed.
Print Assumptions C17_seekable_skip.
(** Overflow of the position: a panic with overflow checks, otherwise the
    addition wraps and a "success" moves backwards by [2^64 - count]. *)
Theorem C17_seekable_skip_overflow :
  forall c s count, calm s -> sk_pos s < lenN (sk_data s) -> lenN (sk_data s) < two64 ->
  count < two64 -> two64 <= sk_pos s + count ->
  exists s', skip_u64 c count (RSeek s) =
    (if overflow_checks c then Panic else Ok tt, RSeek s') /\
    at_pos s (if overflow_checks c then lenN (sk_data s) else sk_pos s - (two64 - count)) s'.
Proof.
  intros c s count C L1 L2 H1 H2. cbn [skip_u64].
  destruct (seek_skip_calm c count s C ltac:(lia)) as (s' & _ & K).
  destruct (N.eqb_spec (sk_pos s) (lenN (sk_data s))); [lia|].
  unfold add_u64 in K. destruct (N.ltb_spec (sk_pos s + count) two64); [lia|].
  destruct (overflow_checks c).
  - destruct K as [-> A]. exists s'. auto.
  - destruct (N.leb_spec (sk_pos s + count - two64) (lenN (sk_data s))); [|lia].
    destruct K as [-> A]. exists s'. split; [reflexivity|].
    replace (sk_pos s - (two64 - count)) with (sk_pos s + count - two64) by lia. assumption.
Qed.
Print Assumptions C17_seekable_skip_overflow.
Example C17_skip_overflow_instance :
  skip_u64 (Cfg false u64_max) (two64 - 2) (RSeek (Seekable [1;2;3;4] 3 [] [])) = (Ok tt, RSeek (Seekable [1;2;3;4] 1 [] [])) /\
  skip_u64 (Cfg true u64_max) (two64 - 2) (RSeek (Seekable [1;2;3;4] 3 [] [])) = (Panic, RSeek (Seekable [1;2;3;4] 4 [] [])).
Proof. vm_compute. auto. Qed.
Theorem C17_failed_skip_keeps_position_refuted :
  ~ (forall c s count e s', cfg_ok c -> calm s -> count < two64 ->
       skip_u64 c count (RSeek s) = (Err e, RSeek s') -> sk_pos s' = sk_pos s).
Proof.
  intros H. specialize (H cfg32 (Seekable [1;2;3] 1 [] []) 5 UnableToReadData (Seekable [1;2;3] 3 [] [])).
  cbn [sk_pos] in H. assert (3 = 1); [|discriminate]. apply H.
  - unfold cfg_ok, cfg32, u64_max. cbn [usize_max]. lia.
  - constructor.
  - unfold two64. lia.
  - vm_compute. reflexivity.
Qed.
Print Assumptions C17_failed_skip_keeps_position_refuted.
Theorem C17_skip_never_goes_back_refuted :
  ~ (forall c s count s', cfg_ok c -> calm s -> count < two64 ->
       skip_u64 c count (RSeek s) = (Ok tt, RSeek s') -> sk_pos s <= sk_pos s') /\
  ~ (forall c s count, cfg_ok c -> calm s -> count < two64 -> returns (fst (skip_u64 c count (RSeek s)))).
Proof.
  assert (Ok64 : forall b, cfg_ok (cfg64 b)) by (intros b; unfold cfg_ok, cfg64, u64_max; cbn [usize_max]; lia).
  split; intros H.
  - specialize (H (cfg64 false) (Seekable [1;2;3] 2 [] []) (two64 - 1) (Seekable [1;2;3] 1 [] [])).
    cbn [sk_pos] in H. assert (2 <= 1); [|lia]. apply H.
    + apply Ok64.
    + constructor.
    + unfold two64. lia.
    + vm_compute. reflexivity.
  - specialize (H (cfg64 true) (Seekable [1;2;3] 2 [] []) (two64 - 1)). apply H.
    + apply Ok64.
    + constructor.
    + unfold two64. lia.
Qed.
Print Assumptions C17_skip_never_goes_back_refuted.
(** A failing seek is reported with the kind it had, except that an unexpected
    end becomes [EndOfData]. *)
Definition seek_failure (k : stdio_kind) (e : io_error) : Prop :=
  (k = UnexpectedEof -> e = EndOfData) /\ (k <> UnexpectedEof -> e = BoxedStd k).
Lemma from_std_failure k : seek_failure k (from_std k).
Proof. destruct k; split; intros H; try reflexivity; congruence. Qed.
(** skip makes two or three seeks; [ok] of them succeed.  If the third fails the
    position is left at the end. *)
Theorem C17_failing_seeks : forall c data pos sched ok k rest count, (ok <= 2)%nat -> 0 < count ->
  pos + count <= lenN data -> lenN data < two64 ->
  let s := Seekable data pos sched (repeat None ok ++ Some k :: rest) in
  exists e s', seek_failure k e /\ skip c count (RSeek s) = (Err e, RSeek s') /\ skip_u64 c count (RSeek s) = (Err e, RSeek s') /\
    at_pos s (if (ok =? 2)%nat then lenN data else pos) s' /\ sk_seeks s' = rest.
Proof.
  intros c data pos sched ok k rest count Hok Hc Hp Hl s. exists (from_std k). unfold at_pos.
  assert (E0 : (count =? 0) = false) by lia. assert (E1 : (pos =? lenN data) = false) by lia.
  assert (E2 : (pos + count <? two64) = true) by lia. assert (E3 : (pos + count <=? lenN data) = true) by lia.
  destruct ok as [|[|[|]]]; [| | |lia]; eexists; (split; [apply from_std_failure|]); unfold s; cbn [repeat app skip skip_u64];
    unfold seek_skip_u64; rewrite E0; unfold bind, seek_q, lift_err, seek; cbn [hd tl map_err]; rewrite ?E1; unfold add_u64, ret; rewrite ?E2, ?E3;
    cbn [hd tl map_err sk_data sk_pos sk_sched sk_seeks Nat.eqb]; auto 8.
Qed.
Print Assumptions C17_failing_seeks.
Example C17_failing_seeks_instance :
  skip cfg32 2 (RSeek (Seekable [1;2;3;4] 1 [] [None; None; Some (OtherKind 4)]))
  = (Err (BoxedStd (OtherKind 4)), RSeek (Seekable [1;2;3;4] 4 [] [])).
Proof. vm_compute. reflexivity. Qed.
Example C17_instance :
  skip cfg32 2 (RSeek (Seekable [1;2;3;4] 1 [] [])) = (Ok tt, RSeek (Seekable [1;2;3;4] 3 [] [])).
Proof. vm_compute. reflexivity. Qed.

(** ** C18.  [SizedSeek]. *)
Lemma sized_len_calm s : calm s ->
  exists s', sized_len s = (Ok (lenN (sk_data s)), s') /\ calm s' /\ at_pos s (sk_pos s) s'.
Proof.
  intros C. unfold sized_len.
  destruct (seek_calm SeekCurrent0 s C) as (s1 & E1 & C1 & D1 & P1 & S1).
  destruct (seek_calm SeekEnd0 s1 C1) as (s2 & E2 & C2 & D2 & P2 & S2).
  destruct (seek_calm (SeekStart (sk_pos s)) s2 C2) as (s3 & E3 & C3 & D3 & P3 & S3).
  unfold bind. rewrite E1. cbv beta iota. rewrite E2. cbv beta iota. rewrite P1, E3, P2, D1.
  exists s3. unfold ret, at_pos. rewrite D3, D2, D1, P3, S3, S2, S1. auto.
Qed.
Theorem C18_sized_seek :
  forall c s, calm s ->
  (exists s', sized_len s = (Ok (lenN (sk_data s)), s') /\ at_pos s (sk_pos s) s') /\
  (exists s', sized_is_empty s = (Ok (lenN (sk_data s) =? 0), s') /\ at_pos s (sk_pos s) s') /\
  (exists s', sized_offset s = (Ok (sk_pos s), s') /\ at_pos s (sk_pos s) s') /\
  (exists s', at_pos s (sk_pos s) s' /\ sized_available c s =
     ((if sk_pos s <=? lenN (sk_data s) then Ok (lenN (sk_data s) - sk_pos s)
       else if overflow_checks c then Panic else Ok (lenN (sk_data s) + two64 - sk_pos s)), s')).
Proof.
  intros c s C. destruct (sized_len_calm s C) as (s1 & E1 & C1 & A1).
  split; [eauto|]. split; [|split].
  - exists s1. unfold sized_is_empty, bind. rewrite E1. auto.
  - destruct (seek_calm SeekCurrent0 s C) as (s2 & E2 & _ & D2 & P2 & S2).
    exists s2. unfold sized_offset, bind. rewrite E2, P2. unfold ret, at_pos. auto.
  - destruct (seek_calm SeekCurrent0 s1 C1) as (s2 & E2 & _ & D2 & P2 & S2).
    destruct A1 as (D1 & P1 & S1).
    exists s2. split; [unfold at_pos; rewrite D2, D1, P2, P1, S2, S1; auto|].
    unfold sized_available, sized_offset, bind. rewrite E1, E2, P2, P1. reflexivity.
Qed.
Print Assumptions C18_sized_seek.
(** A failing [seek] is reported, and nothing but a failing [seek] makes
    [len()] fail; but a failure of the last of its three seeks leaves the
    position at the end. *)
Theorem C18_len_keeps_position_refuted :
  ~ (forall s x s', sized_len s = (x, s') -> sk_pos s' = sk_pos s).
Proof.
  intros H. specialize (H (Seekable [1;2;3] 1 [] [None; None; Some (OtherKind 0)])).
  cbn in H. specialize (H _ _ eq_refl). discriminate H.
Qed.
Print Assumptions C18_len_keeps_position_refuted.
(** len() makes three seeks, available() four. *)
Theorem C18_failing_seeks : forall c data pos sched ok k rest,
  let s := Seekable data pos sched (repeat None ok ++ Some k :: rest) in
  exists e, seek_failure k e /\
  ((ok <= 2)%nat -> exists s', sized_len s = (Err e, s') /\ sized_is_empty s = (Err e, s') /\ sized_available c s = (Err e, s') /\
     at_pos s (if (ok =? 2)%nat then lenN data else pos) s' /\ sk_seeks s' = rest) /\
  (ok = 0%nat -> exists s', sized_offset s = (Err e, s') /\ at_pos s pos s' /\ sk_seeks s' = rest) /\
  (ok = 3%nat -> exists s', sized_available c s = (Err e, s') /\ at_pos s pos s' /\ sk_seeks s' = rest).
Proof.
  intros c data pos sched ok k rest s. exists (from_std k). split; [apply from_std_failure|].
  unfold sized_available, sized_is_empty, sized_offset, sized_len, at_pos, bind, seek_q, lift_err, ret.
  split; [|split].
  - intros H. destruct ok as [|[|[|]]]; [| | |lia]; eexists; unfold s; cbn [repeat app seek hd tl map_err sk_data sk_pos sk_sched sk_seeks Nat.eqb]; auto 10.
  - intros ->. eexists. unfold s. cbn [repeat app seek hd tl map_err sk_data sk_pos sk_sched sk_seeks]. auto 10.
  - intros ->. eexists. unfold s. cbn [repeat app seek hd tl map_err sk_data sk_pos sk_sched sk_seeks]. auto 10.
Qed.
Print Assumptions C18_failing_seeks.
Example C18_failing_third :
  sized_len (Seekable [1;2;3] 1 [] [None; None; Some UnexpectedEof]) = (Err EndOfData, Seekable [1;2;3] 3 [] []) /\
  sized_len (Seekable [1;2;3] 1 [] [None; Some (OtherKind 4)]) = (Err (BoxedStd (OtherKind 4)), Seekable [1;2;3] 1 [] []).
Proof. vm_compute. auto. Qed.
Example C18_instance :
  fst (sized_available (cfg64 true) (Seekable [1;2;3] 1 [] [])) = Ok 2 /\
  fst (sized_available (cfg64 true) (Seekable [1;2;3] 5 [] [])) = Panic /\
  fst (sized_available (cfg64 false) (Seekable [1;2;3] 5 [] [])) = Ok (two64 - 2).
Proof. vm_compute. auto. Qed.

(** ** C58.  Over a source that can fail midway, a [LimitedReader] can be driven
    past its limit: bytes lost in a failed read are not counted. *)
Theorem C58_limit_holds_whatever_the_source_does_refuted :
  ~ (forall c src n ops outs r', cfg_ok c -> rwf src ->
       run_rops c ops (LimitedReader_new src n) = (outs, r') ->
       exists src' avail, r' = RLimited src' avail /\ N.of_nat (left src - left src') <= n).
Proof.
  intros H.
  specialize (H cfg32 (RRead [1;2;3;4;5;6] [Chunk 2; Fail (OtherKind 0)]) 4 [OpReadAll 4; OpReadAll 4]
    [Failed (IOErrorStd (OtherKind 0)); Bytes [3;4;5;6]] (RLimited (RRead [] []) 0)).
  destruct H as (src' & avail & E & L).
  - unfold cfg_ok, cfg32, u64_max. cbn [usize_max]. lia.
  - repeat constructor; unfold byte_ok; lia.
  - vm_compute. reflexivity.
  - injection E as <- <-. revert L. vm_compute. congruence.
Qed.
Print Assumptions C58_limit_holds_whatever_the_source_does_refuted.
(** Whatever the source does, each successful call stays within the limit as
    [available()] reports it, and [available()] never grows. *)
Theorem C58_each_success_within_available :
  forall src avail n x got r', read_all n (RLimited src avail) = (x, got, r') ->
  exists src' avail', r' = RLimited src' avail' /\ avail' <= avail /\
    (x = Ok tt -> lenN got = n /\ avail' = avail - n /\ n <= avail /\ delivers src got src').
Proof.
  intros src avail n x got r' E. cbn [read_all] in E.
  destruct (N.ltb_spec avail n) as [H|H].
  - injection E as <- <- <-. exists src, avail. repeat split; auto; try lia; discriminate.
  - destruct (read_all n src) as [[y g] s'] eqn:Er. injection E as <- <- <-.
    exists s', (if is_ok y then avail - n else avail). split; [reflexivity|]. split; [destruct (is_ok y); lia|].
    intros ->. apply read_all_ok in Er as [L D]. auto.
Qed.
Print Assumptions C58_each_success_within_available.
(** A success, a refusal, and a failure of the source after two bytes. *)
Example C58_instance :
  read_all 3 (RLimited (RRead [1;2;3;4;5;6] [Chunk 2]) 4) = (Ok tt, [1;2;3], RLimited (RRead [4;5;6] []) 1) /\
  read_all 5 (RLimited (RRead [1;2;3;4;5;6] [Chunk 2]) 4) = (Err UnableToReadData, [], RLimited (RRead [1;2;3;4;5;6] [Chunk 2]) 4) /\
  read_all 4 (RLimited (RRead [1;2;3;4;5;6] [Chunk 2; Fail (OtherKind 0)]) 4)
  = (Err (IOErrorStd (OtherKind 0)), [1;2], RLimited (RRead [3;4;5;6] []) 4).
Proof. vm_compute. auto. Qed.

(** Properties C19-C22: writers.
    Vocabulary: histories of calls [run_wops] and the abstract machines
    [vecm_ops] and [arrm_ops] are in Hist.v; [fair] and [store] describe
    [std::io] sinks. *)
From Verif Require Import Base BaseFacts Types IO IOSpec IOFacts WriterFacts Hist HistFacts.

(** ** C19.  Every history of calls on a [VecWriter] does to its vector, cursor
    and read-only flag what the abstract machine does; the cursor stays inside
    the vector, nothing panics. *)
Theorem C19_vec_writer_overwrites_then_extends :
  (forall ops, exists outs v o ro,
     run_wops ops VecWriter_new = (outs, WVec v o ro) /\
     vecm_ops ops ([], 0, false) = (outs, (v, o, ro)) /\
     o <= lenN v /\ Forall (fun x => x = Done \/ x = Failed UnableToWriteData) outs) /\
  (** one step, in any reachable state: the written bytes replace those at the
      cursor or extend the vector, nothing else changes, nothing is lost *)
  (forall bs v o, o <= lenN v ->
     write_all bs (WVec v o false)
     = (Ok tt, WVec (takeN o v ++ bs ++ dropN (o + lenN bs) v) (o + lenN bs) false)) /\
  (forall b v o ro, o <= lenN v -> write b (WVec v o ro) = write_all [b] (WVec v o ro)) /\
  (forall bs v o, o <= lenN v -> write_all bs (WVec v o true) = (Err UnableToWriteData, WVec v o true)).
Proof.
  split; [|split; [|split]].
  - intros ops. unfold VecWriter_new. rewrite run_wops_vec by apply N.le_refl.
    destruct (vecm_ops ops ([], 0, false)) as [xs [[v o] ro]] eqn:E.
    apply vecm_ops_bound in E as (B & _ & F); [|apply N.le_refl]. eauto 10.
  - intros bs v o H. cbn [write_all]. now rewrite vec_write_all_spec.
  - intros b v o ro H. now apply write_is_write_all.
  - intros bs v o H. cbn [write_all]. now rewrite vec_write_all_spec.
Qed.
Print Assumptions C19_vec_writer_overwrites_then_extends.
Example C19_instance :
  run_wops [OpWriteAll [1;2;3;4]; OpWSetOffset 1; OpWriteAll [9;9]; OpReadOnly true; OpWrite 5; OpReadOnly false;
            OpWSetOffset 77; OpWrite 6; OpWSetOffset 4; OpWriteAll [7;8]] VecWriter_new
  = ([Done; Done; Done; Done; Failed UnableToWriteData; Done; Done; Done; Done; Done],
     WVec [1;9;9;4;7;8] 6 false).
Proof. vm_compute. reflexivity. Qed.

(** ** C20.  [BorrowedVecWriter]. *)
Theorem C20_borrowed_vec_writer :
  forall c v offset ops outs w',
  run_wops ops (BorrowedVecWriter_with_offset v offset) = (outs, w') ->
  let i := N.min offset (lenN v) in
  exists v' o' ro', w' = WBorrowed v' i o' ro' /\
    (** for any history: never shrinks, cursor inside, no panic *)
    lenN v <= lenN v' /\ o' <= lenN v' /\
    Forall (fun x => x = Done \/ x = Failed UnableToWriteData) outs /\
    (** without moving the cursor: the prefix is kept, the writes are stored one
        after the other behind it, and bytes_written() counts them *)
    (Forall (fun op => moves op = false) ops ->
       takeN i v' = takeN i v /\
       v' = takeN i v ++ written ops outs ++ dropN (i + lenN (written ops outs)) v /\
       bytes_written c i o' = Ok (lenN (written ops outs))).
Proof.
  intros c v offset ops outs w' E i. unfold BorrowedVecWriter_with_offset in E. fold i in E.
  assert (Hi : i <= lenN v) by lia. clearbody i.
  rewrite run_wops_borrowed in E by assumption.
  destruct (vecm_ops ops (v, i, false)) as [xs [[v' o'] ro']] eqn:Em.
  injection E as <- <-. exists v', o', ro'. split; [reflexivity|].
  destruct (vecm_ops_bound _ _ _ _ _ _ _ _ Hi Em) as (B & L & F).
  repeat split; auto.
  - rename H into M. apply vecm_ops_written in Em as [-> ->]; auto.
    unfold overwrite. rewrite takeN_app_exact; [reflexivity|]. rewrite lenN_takeN. lia.
  - rename H into M. apply vecm_ops_written in Em as [-> ->]; auto.
  - rename H into M. apply vecm_ops_written in Em as [-> ->]; auto.
    unfold bytes_written, sub_usize. destruct (N.leb_spec i (i + lenN (written ops xs))); [|lia].
    f_equal. lia.
Qed.
Print Assumptions C20_borrowed_vec_writer.
(** Without an offset: the vector is overwritten from its beginning. *)
Theorem C20_new :
  forall c v ops outs w', Forall (fun op => moves op = false) ops ->
  run_wops ops (BorrowedVecWriter_new v) = (outs, w') ->
  exists o' ro', w' = WBorrowed (written ops outs ++ dropN (lenN (written ops outs)) v) 0 o' ro' /\
    bytes_written c 0 o' = Ok (lenN (written ops outs)).
Proof.
  intros c v ops outs w' M E. destruct (C20_borrowed_vec_writer c v 0 ops outs w' E) as (v' & o' & ro' & -> & _ & _ & _ & K).
  destruct (K M) as (_ & -> & B). exists o', ro'. replace (N.min 0 (lenN v)) with 0 in * by lia.
  rewrite takeN_0. split; [reflexivity|exact B].
Qed.
Print Assumptions C20_new.
(** Moving the cursor below the initial offset breaks [bytes_written]. *)
Theorem C20_bytes_written_after_set_offset_refuted :
  ~ (forall c v offset ops outs v' i o' ro', cfg_ok c ->
       run_wops ops (BorrowedVecWriter_with_offset v offset) = (outs, WBorrowed v' i o' ro') ->
       exists n, bytes_written c i o' = Ok n /\ n <= lenN v').
Proof.
  intros H.
  destruct (H (Cfg true u64_max) [1;2;3] 2 [OpWSetOffset 1] [Done] [1;2;3] 2 1 false) as (n & E & _).
  - unfold cfg_ok, u64_max. cbn [usize_max]. lia.
  - vm_compute. reflexivity.
  - discriminate E.
Qed.
Print Assumptions C20_bytes_written_after_set_offset_refuted.
(** Exactly then, and what it gives without overflow checks. *)
Theorem C20_bytes_written_exact :
  forall c i o,
  bytes_written c i o =
    if i <=? o then Ok (o - i)
    else if overflow_checks c then Panic else Ok (usize_max c + 1 - (i - o)).
Proof.
  intros c i o. unfold bytes_written, sub_usize. destruct (N.leb_spec i o); [reflexivity|].
  destruct (overflow_checks c); [reflexivity|]. f_equal. destruct (N.le_gt_cases (i - o) (usize_max c + 1)); lia.
Qed.
Print Assumptions C20_bytes_written_exact.
Example C20_instance :
  run_wops [OpWrite 7; OpReadOnly true; OpWriteAll [1;1]; OpReadOnly false; OpWriteAll [8;9]]
           (BorrowedVecWriter_with_offset [1;2;3] 2)
  = ([Done; Done; Failed UnableToWriteData; Done; Done], WBorrowed [1;2;7;8;9] 2 5 false)
  /\ bytes_written (Cfg false u64_max) 2 1 = Ok u64_max.
Proof. vm_compute. auto. Qed.

(** ** C21.  [ByteArrayWriter]. *)
Theorem C21_byte_array_writer :
  (forall a ops, exists outs a' o',
     run_wops ops (ByteArrayWriter_new a) = (outs, WArray a' o') /\
     arrm_ops ops (a, 0) = (outs, (a', o')) /\
     lenN a' = lenN a /\ o' <= lenN a /\
     Forall (fun x => x = Done \/ x = Failed UnableToWriteData) outs) /\
  (** one step *)
  (forall bs a o, o <= lenN a -> o + lenN bs <= lenN a ->
     write_all bs (WArray a o) = (Ok tt, WArray (takeN o a ++ bs ++ dropN (o + lenN bs) a) (o + lenN bs))) /\
  (forall bs a o, o <= lenN a -> lenN a < o + lenN bs ->
     write_all bs (WArray a o) = (Err UnableToWriteData, WArray a o)) /\
  (forall b a o, o <= lenN a -> write b (WArray a o) = write_all [b] (WArray a o)).
Proof.
  split; [|split; [|split]].
  - intros a ops. unfold ByteArrayWriter_new. rewrite run_wops_array by lia.
    destruct (arrm_ops ops (a, 0)) as [xs [a' o']] eqn:E.
    apply arrm_ops_bound in E as (B & L & F); [|lia]. exists xs, a', o'. repeat split; auto. lia.
  - intros bs a o H1 H2. cbn [write_all]. rewrite arr_write_all_spec by assumption.
    destruct (N.leb_spec (o + lenN bs) (lenN a)); [reflexivity|lia].
  - intros bs a o H1 H2. cbn [write_all]. rewrite arr_write_all_spec by assumption.
    destruct (N.leb_spec (o + lenN bs) (lenN a)); [lia|reflexivity].
  - intros b a o H. now apply write_is_write_all.
Qed.
Print Assumptions C21_byte_array_writer.
Example C21_instance :
  run_wops [OpWriteAll [9;8]; OpWriteAll [1;2;3]; OpWrite 7; OpWrite 6; OpWrite 5; OpWSetOffset 100; OpWriteAll [];
            OpWSetOffset 0; OpWrite 1] (ByteArrayWriter_new [0;0;0;0])
  = ([Done; Failed UnableToWriteData; Done; Done; Failed UnableToWriteData; Done; Done; Done; Done],
     WArray [1;8;7;6] 1).
Proof. vm_compute. reflexivity. Qed.

(** ** C22.  [WriteWriter] and the [Write + Seek] writer, over a sink that does
    whatever its schedule says. *)
Theorem C22_write_writer :
  forall bs out sched x w',
  write_all bs (WWrite out sched) = (x, w') \/ (exists b, bs = [b] /\ write b (WWrite out sched) = (x, w')) ->
  returns x /\
  exists p sched', w' = WWrite (out ++ p) sched' /\ prefix p bs /\ (x = Ok tt -> p = bs).
Proof.
  intros bs out sched x w' H.
  assert (E : write_all bs (WWrite out sched) = (x, w')).
  { destruct H as [H|(b & -> & H)]; [assumption|]. now rewrite write_is_write_all in H. }
  apply write_all_spec in E as (R & p & Pp & Pw & Hok); [|exact I].
  split; [assumption|]. destruct w' as [| | |out' s'| |]; cbn [puts] in Pw; try contradiction.
  destruct Pw as [-> _]. eauto 6.
Qed.
Print Assumptions C22_write_writer.
Theorem C22_progress_means_success_refuted :
  ~ (forall bs out sched, Forall fair sched -> is_ok (fst (write_all bs (WWrite out sched))) = true) /\
  ~ (forall bs out sched, Forall (fun e => e = Interrupt) sched ->
       is_ok (fst (write_all bs (WWrite out sched))) = true).
Proof.
  split; intros H.
  - specialize (H [1;2;3] [] [Chunk 2]). assert (F : Forall fair [Chunk 2]) by (repeat constructor; cbn; lia).
    specialize (H F). discriminate H.
  - specialize (H [1;2;3] [] [Interrupt] ltac:(repeat constructor)). discriminate H.
Qed.
Print Assumptions C22_progress_means_success_refuted.
(** It succeeds exactly when the next call of the sink takes everything. *)
Theorem C22_write_writer_exact :
  forall bs out sched,
  is_ok (fst (write_all bs (WWrite out sched))) = true <->
  match sched with
  | [] | Whole :: _ => True
  | Chunk c :: _ => lenN bs <= c
  | _ => False
  end.
Proof.
  intros bs out sched. cbn [write_all]. unfold ww_write_all, std_write.
  destruct sched as [|[c| |k|] s]; cbn [fst is_ok].
  - rewrite N.eqb_refl. cbn. tauto.
  - destruct (N.eqb_spec (N.min c (lenN bs)) (lenN bs)); cbn; split; intros; try lia; try discriminate; auto.
  - split; [discriminate|contradiction].
  - split; [discriminate|contradiction].
  - rewrite N.eqb_refl. cbn. tauto.
Qed.
Print Assumptions C22_write_writer_exact.
(** What it returns, and what the sink got, in every case: the error of the
    sink, [Interrupted] included, is passed on; a short write is
    [UnableToWriteData]. *)
Theorem C22_write_writer_outcome :
  forall bs out,
  write_all bs (WWrite out []) = (Ok tt, WWrite (out ++ bs) []) /\
  (forall s, write_all bs (WWrite out (Whole :: s)) = (Ok tt, WWrite (out ++ bs) s)) /\
  (forall c s, lenN bs <= c -> write_all bs (WWrite out (Chunk c :: s)) = (Ok tt, WWrite (out ++ bs) s)) /\
  (forall c s, c < lenN bs ->
     write_all bs (WWrite out (Chunk c :: s)) = (Err UnableToWriteData, WWrite (out ++ takeN c bs) s)) /\
  (forall s, write_all bs (WWrite out (Interrupt :: s)) = (Err (IOErrorStd Interrupted), WWrite out s)) /\
  (forall k s, write_all bs (WWrite out (Fail k :: s)) = (Err (IOErrorStd k), WWrite out s)).
Proof.
  intros bs out. cbn [write_all]. unfold ww_write_all, std_write. split; [|split; [|split; [|split; [|split]]]].
  - now rewrite N.eqb_refl, takeN_all by lia.
  - intros s. now rewrite N.eqb_refl, takeN_all by lia.
  - intros c s H. now rewrite N.min_r, N.eqb_refl, takeN_all by lia.
  - intros c s H. rewrite N.min_l by lia. now destruct (N.eqb_spec c (lenN bs)); [lia|].
  - reflexivity.
  - reflexivity.
Qed.
Print Assumptions C22_write_writer_outcome.
(** The [Write + Seek] writer retries, so progress does mean success. *)
Theorem C22_seek_writer_retries :
  forall bs data pos sched, Forall fair sched ->
  exists sched', write_all bs (WSeek data pos sched) = (Ok tt, WSeek (store data pos bs) (pos + lenN bs) sched').
Proof.
  intros bs data pos sched F. destruct (std_write_all_fair bs sched F) as [s' E].
  exists s'. cbn [write_all]. now rewrite E.
Qed.
Print Assumptions C22_seek_writer_retries.
(** When it fails, the sink refused to make progress; the bytes it had taken
    are stored; the error is always [UnableToWriteData], the error of the sink
    is lost. *)
Theorem C22_seek_writer_fails :
  forall bs data pos sched x w', write_all bs (WSeek data pos sched) = (x, w') -> x <> Ok tt ->
  x = Err UnableToWriteData /\
  exists p q before bad after,
    bs = p ++ q /\ q <> [] /\ sched = before ++ bad :: after /\ Forall fair before /\ ~ fair bad /\
    w' = WSeek (store data pos p) (pos + lenN p) after.
Proof.
  intros bs data pos sched x w'. cbn [write_all].
  destruct (std_write_all bs sched) as [[y put] sched'] eqn:E.
  assert (K : y = Ok tt \/ (exists k, y = Err k) /\
    exists q before bad after, bs = put ++ q /\ q <> [] /\ sched = before ++ bad :: after /\
      Forall fair before /\ ~ fair bad /\ sched' = after).
  { revert bs y put sched' E. induction sched as [|ev s IH]; intros bs y put sched';
      (destruct bs as [|b bs]; cbn [std_write_all]; [intros [= <- <- <-]; now left|]).
    { intros [= <- <- <-]. now left. }
    destruct ev as [c| |k|].
    - cbv zeta. destruct (N.eqb_spec (lenN (takeN c (b :: bs))) 0) as [Hz|Hz].
      + intros [= <- <- <-]. right. split; [eauto|]. exists (b :: bs), [], (Chunk c), s.
        rewrite lenN_takeN, lenN_cons in Hz. repeat split; auto; [discriminate|cbn; lia].
      + destruct (std_write_all (dropN (lenN (takeN c (b :: bs))) (b :: bs)) s) as [[z more] s'] eqn:E1.
        intros H. apply pair_inv in H as [H <-]. apply pair_inv in H as [<- <-].
        destruct (IH _ _ _ _ E1) as [->|(Hz' & q & before & bad & after & Eq & Nq & -> & F & Nf & ->)]; [now left|].
        right. split; [exact Hz'|]. exists q, (Chunk c :: before), bad, after.
        split; [|split; [exact Nq|split; [reflexivity|split; [|split; [exact Nf|reflexivity]]]]].
        * rewrite <- app_assoc, <- Eq. rewrite lenN_takeN.
          destruct (N.le_gt_cases c (lenN (b :: bs))).
          -- rewrite N.min_l by assumption. now rewrite takeN_dropN.
          -- rewrite N.min_r, dropN_all, takeN_all, app_nil_r by lia. reflexivity.
        * constructor; [|exact F]. rewrite lenN_takeN, lenN_cons in Hz. cbn. lia.
    - intros E. destruct (IH _ _ _ _ E) as [->|(Hz' & q & before & bad & after & Eq & Nq & -> & F & Nf & ->)]; [now left|].
      right. split; [exact Hz'|]. exists q, (Interrupt :: before), bad, after.
      split; [exact Eq|split; [exact Nq|split; [reflexivity|split; [|split; [exact Nf|reflexivity]]]]].
      constructor; [exact I|exact F].
    - intros [= <- <- <-]. right. split; [eauto|]. exists (b :: bs), [], (Fail k), s.
      repeat split; auto; discriminate.
    - intros [= <- <- <-]. now left. }
  intros H Nx. destruct K as [->|((k & ->) & q & before & bad & after & Eq & Nq & Es & F & Nf & ->)].
  - exfalso. apply Nx. congruence.
  - apply pair_inv in H as [<- <-]. split; [reflexivity|]. exists put, q, before, bad, after. auto 10.
Qed.
Print Assumptions C22_seek_writer_fails.
Example C22_seek_writer_fails_case :
  write_all [1;2;3] (WSeek [9;9;9;9] 1 [Chunk 2; Interrupt; Fail (OtherKind 7); Chunk 5])
  = (Err UnableToWriteData, WSeek [9;1;2;9] 3 [Chunk 5]).
Proof. vm_compute. reflexivity. Qed.
(** The default [write_all] over the [write] of a user: byte by byte, up to the
    first error, which is returned. *)
Theorem C22_user_writer :
  forall bs out script,
  (forall after, script = repeat None (length bs) ++ after \/ after = [] /\ Forall (fun s => s = None) script /\ lenN script <= lenN bs ->
     write_all bs (WCustom out script) = (Ok tt, WCustom (out ++ bs) after)) /\
  (forall p b q e after, bs = p ++ b :: q -> script = repeat None (length p) ++ Some e :: after ->
     write_all bs (WCustom out script) = (Err e, WCustom (out ++ p) after)).
Proof.
  intros bs out script. cbn [write_all]. split.
  - intros after H.
    assert (K : custom_write_all bs out script = (Ok tt, out ++ bs, after)); [|now rewrite K].
    revert out script H. induction bs as [|b bs IH]; intros out script H; cbn [custom_write_all].
    + rewrite app_nil_r. destruct H as [->|(-> & _ & H)]; [reflexivity|]. destruct script; [reflexivity|].
      rewrite lenN_cons, lenN_nil in H. lia.
    + assert (Eo : out ++ b :: bs = (out ++ [b]) ++ bs) by now rewrite <- app_assoc.
      destruct H as [->|(-> & F & H)]; cbn [length repeat app].
      * rewrite Eo. apply IH. now left.
      * destruct script as [|s script].
        -- rewrite Eo. apply IH. right. split; [reflexivity|]. split; [constructor|]. rewrite lenN_nil. lia.
        -- inversion F as [|? ? -> F']; subst. rewrite Eo. apply IH. right. split; [reflexivity|].
           split; [exact F'|]. rewrite !lenN_cons in H. lia.
  - intros p b q e after -> ->.
    assert (K : custom_write_all (p ++ b :: q) out (repeat None (length p) ++ Some e :: after) = (Err e, out ++ p, after)); [|now rewrite K].
    revert out. induction p as [|a p IH]; intros out; cbn [app length repeat custom_write_all].
    + now rewrite app_nil_r.
    + rewrite IH, <- app_assoc. reflexivity.
Qed.
Print Assumptions C22_user_writer.
Example C22_user_writer_case :
  write_all [1;2;3] (WCustom [9] [None; None; Some EndOfData; None]) = (Err EndOfData, WCustom [9;1;2] [None]) /\
  write_all [1;2;3] (WCustom [9] [None]) = (Ok tt, WCustom [9;1;2;3] []).
Proof. vm_compute. auto. Qed.
Example C22_instance :
  write_all [1;2;3] (WWrite [9] []) = (Ok tt, WWrite [9;1;2;3] []) /\
  write_all [1;2;3] (WWrite [9] [Chunk 2]) = (Err UnableToWriteData, WWrite [9;1;2] []) /\
  write_all [1;2;3] (WSeek [9;9;9;9] 1 [Chunk 2; Interrupt; Chunk 1]) = (Ok tt, WSeek [9;1;2;3] 4 []).
Proof. vm_compute. auto. Qed.

(** Skipping and scanning over any implementation of [Reader]: C74, C75. *)
From Verif Require Import Base BaseFacts Types Spec SpecFacts IO IOSpec IOFacts Logic ILInt ILIntFacts HistFacts PReaders
  Data DataFacts Tags TagsFacts Factory FactoryFacts DecodeFacts DeserFacts IntoFacts EngineFacts StableFacts FromFacts MonoFacts PErrors
  ParseSpec ParseFacts PParse Scanner ScannerFacts PScanParse Any AnyFacts PAny AnyScan.

(** ** C74.  The default [skip] and [skip_u64]. *)
(** [count] in pieces of [k] and a rest. *)
Definition pieces (k count : N) : list N :=
  repeatN k (count / k) ++ (if count mod k =? 0 then [] else [count mod k]).
Definition fill_size (cl : call) : option N := match cl with CFill n _ => Some n | CRead _ => None end.

Lemma pieces_0 k : k <> 0 -> pieces k 0 = [].
Proof. intros H. unfold pieces. rewrite N.div_0_l, N.mod_0_l by assumption. reflexivity. Qed.
Lemma pieces_small k n : 0 < n -> n < k -> pieces k n = [n].
Proof.
  intros H L. unfold pieces. rewrite N.div_small, N.mod_small by assumption.
  destruct (N.eqb_spec n 0); [lia|reflexivity].
Qed.
Lemma pieces_step k n : k <> 0 -> k <= n -> pieces k n = k :: pieces k (n - k).
Proof.
  intros H L. unfold pieces.
  replace (n / k) with (N.succ ((n - k) / k)).
  2:{ replace n with ((n - k) + 1 * k) at 2 by lia. rewrite N.div_add by assumption. lia. }
  replace (n mod k) with ((n - k) mod k).
  2:{ replace n with ((n - k) + 1 * k) at 2 by lia. now rewrite N.mod_add. }
  unfold repeatN. rewrite N2Nat.inj_succ. reflexivity.
Qed.
Lemma pieces_next k n : k <> 0 -> n <> 0 -> pieces k n = N.min n k :: pieces k (n - N.min n k).
Proof.
  intros H H0. destruct (N.le_gt_cases k n).
  - rewrite N.min_r by assumption. now apply pieces_step.
  - rewrite N.min_l, N.sub_diag, pieces_0 by lia. apply pieces_small; lia.
Qed.
Lemma div_next k n f : k <> 0 -> n <> 0 -> n / k < N.of_nat (S f) -> n - N.min n k = 0 \/ (n - N.min n k) / k < N.of_nat f.
Proof.
  intros H H0 L. destruct (N.le_gt_cases k n).
  - right. rewrite N.min_r by assumption. replace n with ((n - k) + 1 * k) in L by lia. rewrite N.div_add in L by assumption. lia.
  - left. lia.
Qed.

Section Skip.
Context {U : Type} (M : reader_impl U) (HM : impl_ok M).
Lemma skip_chunks_run fuel : forall buff r u x u', lenN buff = 512 -> bytes_ok buff -> r = 0 \/ r / 512 < N.of_nat fuel ->
  skip_chunks (fun b v => u_read_all M b v) fuel buff r u = (x, u') ->
  exists tr, urun M u tr u' /\ bytes_ok (bytes_of tr) /\
    ((x = Ok tt /\ Forall call_ok tr /\ map fill_size tr = map Some (pieces 512 r) /\ lenN (bytes_of tr) = r) \/
     (exists i tr0 cl more, x = Err i /\ tr = tr0 ++ [cl] /\ Forall call_ok tr0 /\ failure cl = Some i /\
        map fill_size tr ++ more = map Some (pieces 512 r) /\ lenN (bytes_of tr) < r)).
Proof.
  induction fuel as [|f IH]; intros buff r u x u' L B Hf E; cbn [skip_chunks] in E.
  - destruct (N.eqb_spec r 0); [|exfalso; destruct Hf as [Hf|Hf]; [contradiction|exact (N.nlt_0_r _ Hf)]]. subst r. injection E as <- <-.
    exists []. split; [constructor|]. split; [constructor|]. left. rewrite pieces_0 by lia. repeat split; constructor.
  - destruct (N.eqb_spec r 0) as [->|H0].
    { injection E as <- <-. exists []. split; [constructor|]. split; [constructor|]. left. rewrite pieces_0 by lia. repeat split; constructor. }
    cbv zeta in E. rewrite L in E. set (k := N.min r 512) in *.
    destruct Hf as [Hf|Hf]; [contradiction|]. apply div_next in Hf; [|lia|assumption]. fold k in Hf.
    destruct (u_read_all M (takeN k buff) u) as [[y filled] u1] eqn:Er.
    destruct (io_read_all _ HM _ _ _ _ _ Er) as (R & Lf & Bf). rewrite lenN_takeN in Lf. specialize (Bf (Forall_takeN _ _ _ B)).
    assert (Lk : lenN (takeN k buff) = k) by (rewrite lenN_takeN; lia).
    rewrite (pieces_next 512 r) by lia. fold k.
    destruct y as [[]|i| |]; try contradiction.
    + apply IH in E; [|rewrite lenN_app, lenN_dropN; lia|apply Forall_app; split; [exact Bf|now apply Forall_dropN]|exact Hf].
      destruct E as (tr & Hu & Hb & Hx). exists (CFill k (inr filled) :: tr).
      split; [rewrite <- Lk; econstructor; eauto|].
      change (bytes_of (CFill k (inr filled) :: tr)) with (filled ++ bytes_of tr). rewrite lenN_app.
      split; [apply Forall_app; auto|]. cbn [map fill_size].
      destruct Hx as [(-> & Hc & Hm & Hl)|(i & tr0 & cl & more & -> & -> & Hc & Hi & Hm & Hl)].
      * left. split; [reflexivity|]. split; [constructor; [exact I|exact Hc]|]. split; [now rewrite Hm|]. lia.
      * right. exists i, (CFill k (inr filled) :: tr0), cl, more. split; [reflexivity|]. split; [reflexivity|].
        split; [constructor; [exact I|exact Hc]|]. split; [exact Hi|]. split; [cbn [app]; now rewrite <- Hm|]. lia.
    + injection E as <- <-. exists [CFill k (inl i)]. split; [rewrite <- Lk; eapply urun_fill_err; [exact Er|constructor]|].
      split; [constructor|]. right. exists i, [], (CFill k (inl i)), (map Some (pieces 512 (r - k))).
      split; [reflexivity|]. split; [reflexivity|]. split; [constructor|]. split; [reflexivity|]. split; [reflexivity|]. cbn. lia.
Qed.
End Skip.

(** [skip] ends on any implementation: it makes exactly the calls of [read_all]
    for 512 bytes at a time and then for the rest, up to the first that fails. *)
Theorem C74_skip : forall U (M : reader_impl U) count u x u', impl_ok M ->
  default_skip (u_read_all M) count u = (x, u') ->
  exists tr, urun M u tr u' /\ bytes_ok (bytes_of tr) /\
    ((x = Ok tt /\ Forall call_ok tr /\ map fill_size tr = map Some (pieces 512 count) /\ lenN (bytes_of tr) = count) \/
     (exists i tr0 cl more, x = Err i /\ tr = tr0 ++ [cl] /\ Forall call_ok tr0 /\ failure cl = Some i /\
        map fill_size tr ++ more = map Some (pieces 512 count) /\ lenN (bytes_of tr) < count)).
Proof.
  intros U M count u x u' HM E. apply (skip_chunks_run M HM) in E; [exact E|reflexivity|apply repeatN_ok|]. right. lia.
Qed.
Print Assumptions C74_skip.

(** Calls of [skip] in turn, up to the first that fails. *)
Inductive skips {U} (sk : N -> U -> res io_error unit * U) : U -> list N -> res io_error unit -> U -> Prop :=
| skips_nil u : skips sk u [] (Ok tt) u
| skips_ok u n u1 ns x u2 : sk n u = (Ok tt, u1) -> skips sk u1 ns x u2 -> skips sk u (n :: ns) x u2
| skips_err u n x u1 : sk n u = (x, u1) -> x <> Ok tt -> skips sk u [n] x u1.
Lemma skip_pieces_run {U} c (sk : N -> U -> res io_error unit * U) fuel : forall r u x u', 1 <= usize_max c ->
  r = 0 \/ r / usize_max c < N.of_nat fuel -> skip_pieces c sk fuel r u = (x, u') ->
  exists ns more, skips sk u ns x u' /\ ns ++ more = pieces (usize_max c) r /\ (x = Ok tt -> more = []).
Proof.
  induction fuel as [|f IH]; intros r u x u' Hc Hf E; cbn [skip_pieces] in E.
  - destruct (N.eqb_spec r 0); [|exfalso; destruct Hf as [Hf|Hf]; [contradiction|exact (N.nlt_0_r _ Hf)]]. subst r. injection E as <- <-.
    exists [], []. rewrite pieces_0 by lia. split; [constructor|auto].
  - destruct (N.eqb_spec r 0) as [->|H0].
    { injection E as <- <-. exists [], []. rewrite pieces_0 by lia. split; [constructor|auto]. }
    cbv zeta in E. destruct Hf as [Hf|Hf]; [contradiction|]. apply div_next in Hf; [|lia|assumption].
    rewrite (pieces_next (usize_max c) r) by lia. set (k := N.min r (usize_max c)) in *.
    destruct (sk k u) as [y u1] eqn:Es.
    assert (D : (y = Ok tt /\ skip_pieces c sk f (r - k) u1 = (x, u')) \/ (y <> Ok tt /\ x = y /\ u' = u1)).
    { destruct y as [[]|i| |]; [left; auto|right..]; injection E as <- <-; (split; [discriminate|auto]). }
    destruct D as [[-> D]|(Hy & -> & ->)].
    + apply IH in D; [|exact Hc|exact Hf]. destruct D as (ns & more & Hs & Hn & Hm).
      exists (k :: ns), more. split; [econstructor; eauto|]. split; [cbn [app]; now rewrite Hn|exact Hm].
    + exists [k], (pieces (usize_max c) (r - k)). split; [eapply skips_err; eauto|]. split; [reflexivity|contradiction].
Qed.
(** [skip_u64] ends if every call of [skip] does: it calls [skip] with the largest
    [usize] as often as needed and with the rest, up to the first that fails. *)
Theorem C74_skip_u64 : forall U c (sk : N -> U -> res io_error unit * U) count u x u', cfg_ok c ->
  default_skip_u64 c sk count u = (x, u') ->
  exists ns more, skips sk u ns x u' /\ ns ++ more = pieces (usize_max c) count /\ (x = Ok tt -> more = []).
Proof.
  intros U c sk count u x u' [C _] E. apply skip_pieces_run in E; [exact E|lia|]. right.
  rewrite Nat2N.inj_succ, N2Nat.id. apply N.lt_succ_diag_r.
Qed.
Print Assumptions C74_skip_u64.
(** Where a [usize] has 64 bits this is one call, or none. *)
Theorem C74_skip_u64_wide : forall U c (sk : N -> U -> res io_error unit * U) count u, cfg_ok c -> count <= usize_max c ->
  default_skip_u64 c sk count u = if count =? 0 then (Ok tt, u) else sk count u.
Proof.
  intros U c sk count u [C _] H. unfold default_skip_u64.
  assert (Q : exists f, S (N.to_nat (count / usize_max c)) = S f) by eauto. destruct Q as [f ->]. cbn [skip_pieces].
  destruct (N.eqb_spec count 0); [reflexivity|]. cbv zeta. rewrite N.min_l by assumption.
  destruct (sk count u) as [[[]|i| |] u1]; try reflexivity. rewrite N.sub_diag. now destruct f.
Qed.
Print Assumptions C74_skip_u64_wide.
(** The pieces add up. *)
Theorem C74_pieces : forall k count, k <> 0 ->
  fold_right N.add 0 (pieces k count) = count /\ Forall (fun n => 0 < n <= k) (pieces k count).
Proof.
  intros k count H. induction count as [count IH] using (well_founded_induction N.lt_wf_0).
  destruct (N.eq_dec count 0) as [->|H0]; [rewrite pieces_0 by assumption; split; [reflexivity|constructor]|].
  rewrite pieces_next by assumption. destruct (IH (count - N.min count k)) as [A B]; [lia|].
  cbn [fold_right]. rewrite A. split; [lia|]. constructor; [lia|exact B].
Qed.
Print Assumptions C74_pieces.
(** Moving a LimitedReader over any source with the default [skip] to its end: it
    is at the end exactly after a success, and else where it was. *)
Theorem C74_goto_end : forall U c (M : reader_impl U) src avail x src' avail', impl_ok M ->
  f_goto_end (with_defaults c M) src avail = (x, src', avail') ->
  exists tr, urun M src tr src' /\ bytes_ok (bytes_of tr) /\
    ((x = Ok tt /\ avail' = 0 /\ Forall call_ok tr /\ map fill_size tr = map Some (pieces 512 avail) /\ lenN (bytes_of tr) = avail) \/
     (exists i tr0 cl more, x = Err i /\ avail' = avail /\ tr = tr0 ++ [cl] /\ Forall call_ok tr0 /\ failure cl = Some i /\
        map fill_size tr ++ more = map Some (pieces 512 avail) /\ lenN (bytes_of tr) < avail)).
Proof.
  intros U c M src avail x src' avail' HM E. unfold f_goto_end in E. destruct (N.ltb_spec 0 avail).
  - destruct (f_skip (with_defaults c M) avail src) as [y s] eqn:Es. injection E as <- <- <-.
    destruct (C74_skip U M avail src y s HM Es) as (tr & Hu & Hb & [(-> & K)|(i & tr0 & cl & more & -> & K)]);
      exists tr; (split; [exact Hu|]); (split; [exact Hb|]); [left|right; exists i, tr0, cl, more]; cbn [is_ok]; tauto.
  - injection E as <- <- <-. assert (avail = 0) as -> by lia. exists []. split; [constructor|]. split; [constructor|]. left.
    repeat split; constructor.
Qed.
Print Assumptions C74_goto_end.
(** On the readers of the library this is [skip] of IO.v. *)
Lemma skip_chunks_library fuel : forall fuel2 buff r (w : wreader), lenN buff = 512 -> r = 0 \/ r / 512 < N.of_nat fuel ->
  (left (proj1_sig w) < fuel2)%nat ->
  exists w', skip_chunks (fun b v => u_read_all reader_as_impl b v) fuel buff r w = (fst (skip_loop fuel2 r (proj1_sig w)), w') /\
    proj1_sig w' = snd (skip_loop fuel2 r (proj1_sig w)).
Proof.
  induction fuel as [|f IH]; intros f2 buff r [q W] L Hf Hl; cbn [skip_chunks proj1_sig] in *.
  - destruct (N.eqb_spec r 0); [|exfalso; destruct Hf as [Hf|Hf]; [contradiction|exact (N.nlt_0_r _ Hf)]]. subst r.
    exists (exist _ q W). destruct f2; auto.
  - destruct (N.eqb_spec r 0) as [->|H0]; [exists (exist _ q W); destruct f2; auto|].
    destruct f2 as [|f2]; [lia|]. cbn [skip_loop]. destruct (N.eqb_spec r 0); [contradiction|]. cbv zeta. rewrite L.
    destruct Hf as [Hf|Hf]; [contradiction|]. apply div_next in Hf; [|lia|assumption]. set (k := N.min r 512) in *.
    assert (Lk : lenN (takeN k buff) = k) by (rewrite lenN_takeN; lia).
    cbn [reader_as_impl u_read_all]. rewrite Lk. generalize (read_all_rwf k q W). destruct (read_all k q) as [[x got] q1] eqn:Er. cbn [fst snd].
    intros W1. destruct (read_all_wf _ _ _ _ _ W Er) as (R & _). pose proof (read_all_len _ _ _ _ _ Er) as Lg.
    destruct x as [[]|i| |]; try contradiction; [|eexists; split; reflexivity].
    apply read_all_ok in Er. destruct Er as [Lo D].
    destruct (IH f2 ((got ++ dropN (lenN got) (takeN k buff)) ++ dropN k buff) (r - k) (exist _ q1 W1)) as (w' & E & Ew).
    + rewrite !lenN_app, !lenN_dropN, Lk. lia.
    + exact Hf.
    + cbn [proj1_sig]. pose proof (delivers_left _ _ _ D). unfold lenN in *. lia.
    + exists w'. split; [exact E|exact Ew].
Qed.
Theorem C74_library_readers : forall count (r : reader) (W : rwf r),
  exists w', default_skip (u_read_all reader_as_impl) count (exist _ r W) = (fst (skip_default count r), w') /\
    proj1_sig w' = snd (skip_default count r).
Proof.
  intros count r W. apply (skip_chunks_library _ (S (left r)) (repeatN 0 512) count (exist _ r W)); [reflexivity| |cbn [proj1_sig]; lia].
  right. lia.
Qed.
Print Assumptions C74_library_readers.
(** A source that fails at the third request, and a 32-bit machine. *)
Definition third : reader_impl N :=
  ReaderImpl _ (fun k => (Ok 7, k)) (fun buff k => if k =? 2 then (Err EndOfData, buff, k) else (Ok tt, buff, k + 1)).
Example C74_cases :
  impl_ok third /\
  default_skip (u_read_all third) 1024 0 = (Ok tt, 2) /\ default_skip (u_read_all third) 1025 0 = (Err EndOfData, 2) /\
  pieces 512 1300 = [512; 512; 276] /\ pieces 512 1024 = [512; 512] /\
  default_skip_u64 (Cfg true 4294967295) (fun n u => (Ok tt, u ++ [n])) 8589934595 [] = (Ok tt, [4294967295; 4294967295; 5]) /\
  f_goto_end (with_defaults (Cfg true 4294967295) third) 0 1000 = (Ok tt, 2, 0) /\
  f_goto_end (with_defaults (Cfg true 4294967295) third) 1 1000 = (Err EndOfData, 2, 1000).
Proof.
  split; [|vm_compute; repeat split].
  constructor; cbn; [intros u x u' [= <- <-]; split; [exact I|intros b [= <-]; reflexivity]|].
  intros buff u x b u'. destruct (u =? 2); intros [= <- <- <-]; (split; [exact I|auto]).
Qed.

(** ** C75.  The scanner. *)
Section Scan.
Context {U : Type} (F : full_reader U) (HF : impl_ok (f_reader F)) (c : cfg).
Notation M := (f_reader F).
Definition f_head : U -> res tag_error (N * N * N * N) * U :=
  id <- on_base (a_ilint M) ;;
  z <- f_tag_size F c id ;;
  ret (id, lenN (ilint id) + fst (fst z), snd (fst z), snd z).
(** Goodness of AnyFacts.v for methods of the object itself. *)
Definition ugood {A} := @agood U M U reader tag_error A _ ABase (fun r => r) (fun _ rr => rr).
Lemma base_good {A} Q (m : areader U -> res tag_error A * areader U) g u :
  rgood M Q m g (ABase u) -> ugood Q (on_base m) g u.
Proof.
  intros G y u' E. unfold on_base in E. destruct (m (ABase u)) as [x r'] eqn:Em. injection E as <- <-.
  destruct (G _ _ Em) as (R & tr & Hm & Hb & Ho & Hq & Hz). split; [exact R|]. exists tr.
  destruct r' as [u1|]; [|contradiction]. cbn [base]. auto 10.
Qed.
Lemma upure {A} (y : res tag_error A) u : returns y -> ugood K0 (fun s => (y, s)) (fun s => (y, s)) u.
Proof. intros R. now apply good_pure. Qed.
(** At most nine bytes for the id and nine for the size. *)
Definition KB (n : N) (b : bool) (cs d : N) : Prop := d <= n /\ if b then cs <= d else cs <= d + 1.
Lemma tag_size_good id u : ugood (KB 9) (f_tag_size F c id) (extract_tag_size c id) u.
Proof.
  unfold f_tag_size, extract_tag_size. destruct (is_implicit_tag id).
  - destruct (_ || _).
    + unfold f_implicit_ilint_tag_size, extract_implicit_ilint_tag_size. eapply good_bind with (Q1 := fun (b : bool) cs d => if b then cs = 1 /\ d = 1 else cs <= 1 /\ d = 0) (Q2 := K0).
      * apply (@good_lift _ _ _ _ io_error tag_error _ From_io From_tag); [reflexivity|].
        pose proof (read_good M HF (ABase u)) as G. intros y u' E. specialize (G y (ABase u')). cbn [a_read] in G. rewrite E in G.
        exact (G eq_refl).
      * intros h u1 tr _ _ _. cbv zeta. eapply good_bind with (Q1 := K0) (Q2 := K0).
        -- apply (upure (sub_usize c (decoded_size h) 1)). rewrite sub_usize_1. exact I.
        -- intros. now apply (upure (Ok _)).
        -- auto.
        -- unfold K0. intros; lia.
      * unfold KB. intros; lia.
      * unfold KB, K0. intros c1 d1 [] c2 d2 [] []; lia.
    + destruct (id =? 15); (eapply good_weaken with (Q1 := K0); [apply upure; exact I|]); unfold K0, KB; intros [] ? ? [-> ->]; lia.
  - eapply good_bind with (Q1 := KI) (Q2 := K0).
    + apply base_good, ilint_good, HF.
    + intros. now apply (upure (Ok _)).
    + unfold KI, KB. intros; lia.
    + unfold KI, K0, KB. intros c1 d1 [] c2 d2 [] []; lia.
Qed.
Lemma head_good u : ugood (fun b cs d => KB 18 b cs d /\ (b = true -> 1 <= d)) f_head (head c) u.
Proof.
  unfold f_head, head. eapply good_bind with (Q1 := KI) (Q2 := KB 9).
  - apply base_good, ilint_good, HF.
  - intros id u1 tr _ _ _. eapply good_bind with (Q1 := KB 9) (Q2 := K0).
    + apply tag_size_good.
    + intros. now apply (upure (Ok _)).
    + auto.
    + unfold KB, K0. intros c1 d1 [] c2 d2 [] [-> ->]; rewrite !N.add_0_r; lia.
  - unfold KI, KB. intros cs d H. split; [lia|discriminate].
  - unfold KI, KB. intros c1 d1 [] c2 d2 [] []; (split; [lia|]); [intros _; lia|discriminate].
Qed.
Lemma ilint_clean u id u1 : on_base (a_ilint M) u = (Ok id, u1) -> id < two64.
Proof.
  intros E. destruct (base_good _ _ _ u (ilint_good M HF (ABase u)) _ _ E) as (_ & tr & Hm & Hb & Ho & _ & Hz).
  pose proof (replay M u tr u1 HF Hm (clean_solid _ Ho) []) as Hr. rewrite app_nil_r in Hr. specialize (Hz _ _ Hr).
  pose proof (script_bytes tr Hb) as W. destruct (deserialize_ilint (RCustom (script_of tr))) as [z w] eqn:Ez.
  destruct (safe_deserialize_ilint _ _ _ W Ez) as (R & _). destruct Hz as [->|(-> & _)]; [contradiction|].
  destruct (sound_deserialize_ilint _ _ _ W Ez) as (idb & Rp & _). eapply ilint_repr_bound; eauto.
Qed.
Lemma tag_size_clean id u h n k u1 : f_tag_size F c id u = (Ok (h, n, k), u1) -> exists zb, sized id zb (h, n, k).
Proof.
  intros E. destruct (tag_size_good id u _ _ E) as (_ & tr & Hm & Hb & Ho & _ & Hz).
  pose proof (replay M u tr u1 HF Hm (clean_solid _ Ho) []) as Hr. rewrite app_nil_r in Hr. specialize (Hz _ _ Hr).
  pose proof (script_bytes tr Hb) as W. destruct (extract_tag_size c id (RCustom (script_of tr))) as [z w] eqn:Ez.
  destruct (safe_extract _ _ _ _ _ W Ez) as (R & _). destruct Hz as [->|(-> & _)]; [contradiction|].
  destruct (sound_extract _ _ _ _ _ W Ez) as (zb & Z & _). eauto.
Qed.
Lemma sized_bounds id zb h n k : sized id zb (h, n, k) -> h <= 9 /\ n < two64.
Proof.
  intros Z. inversion Z; subst.
  - match goal with HR : ilint_repr ?m zb |- _ => pose proof (ilint_repr_bound _ _ HR) as Hn;
      pose proof (ilint_repr_len m _ (ilint_repr_ilint m Hn)) end. lia.
  - split; [lia|]. unfold implicit_size, two64. repeat match goal with |- context [match ?p with _ => _ end] => destruct p; try lia end.
  - split; [lia|]. unfold decoded_size, ILINT_BASE, byte_ok, two64 in *. destruct (b <? 248); lia.
Qed.
Lemma f_next_tag_head off u : off < two64 ->
  f_next_tag F c (off, u) =
    match f_head u with
    | (Ok (id, h, n, k), u2) =>
        if overflow_checks c && (two64 <=? off + h + n) then (Panic, (off, u2))
        else let '(x, u3) := f_skip_u64 F k u2 in
             (map_ok (fun _ => Some (RawTagOffset_new id off h n)) (map_err TagIO x), ((off + h + n) mod two64, u3))
    | (Err e, u2) => (Err e, (off, u2))
    | (Panic, u2) => (Panic, (off, u2))
    | (OutOfFuel, u2) => (OutOfFuel, (off, u2))
    end.
Proof.
  intros Ho. unfold f_head, bind. destruct (on_base (a_ilint M) u) as [[id|e| |] u1] eqn:E1;
    try (unfold f_next_tag, bind, f_on_source; now rewrite E1).
  pose proof (ilint_clean _ _ _ E1) as Hi.
  destruct (f_tag_size F c id u1) as [[[[h n] k]|e| |] u2] eqn:E2;
    try (unfold f_next_tag, bind, f_on_source; rewrite E1; cbv beta iota; now rewrite E2).
  destruct (tag_size_clean _ _ _ _ _ _ E2) as (zb & Z). apply sized_bounds in Z. destruct Z as [Hh Hn].
  pose proof (ilint_repr_len id (ilint id) (ilint_repr_ilint _ Hi)) as Hl.
  unfold f_next_tag, f_on_source, bind. rewrite E1. cbv beta iota. rewrite E2. cbv beta iota. cbn [ret fst snd].
  rewrite encoded_size_spec by exact Hi.
  assert (H2 : add_u64 (E := tag_error) c (lenN (ilint id)) h = Ok (lenN (ilint id) + h)).
  { rewrite add_mod by (unfold two64; lia). destruct (N.leb_spec two64 (lenN (ilint id) + h)); [unfold two64 in *; lia|].
    now rewrite andb_false_r, N.mod_small. }
  rewrite H2. set (hh := lenN (ilint id) + h) in *.
  assert (Hhh : hh < two64) by (unfold hh, two64; lia).
  pose proof (advance_mod c off hh n Ho Hhh Hn) as A. unfold advance, and_then in A.
  destruct (add_u64 c hh n) as [t|e| |] eqn:Et.
  - destruct (add_u64 c off t) as [v|e| |] eqn:Ev.
    + destruct (_ && _); [discriminate|]. apply Ok_inv in A. subst v. unfold lift_err. destruct (f_skip_u64 F k u2) as [[[]|i| |] u3]; reflexivity.
    + exfalso. unfold add_u64 in Ev. destruct (_ <? _); [discriminate|]. destruct (overflow_checks c); discriminate.
    + destruct (_ && _); [reflexivity|discriminate].
    + exfalso. unfold add_u64 in Ev. destruct (_ <? _); [discriminate|]. destruct (overflow_checks c); discriminate.
  - exfalso. unfold add_u64 in Et. destruct (_ <? _); [discriminate|]. destruct (overflow_checks c); discriminate.
  - destruct (_ && _); [reflexivity|discriminate].
  - exfalso. unfold add_u64 in Et. destruct (_ <? _); [discriminate|]. destruct (overflow_checks c); discriminate.
Qed.
End Scan.
Lemma ilint_short l l' : bytes_ok l -> ilintP l = (inr Short, l') -> lenN l < 9.
Proof.
  intros B H. unfold ilintP, pbind, takeP in H. destruct (N.ltb_spec (lenN l) 1) as [L|L]; [lia|].
  destruct l as [|b l]; [rewrite lenN_nil in L; lia|]. inversion B as [|? ? Hb B']; subst. unfold byte_ok in Hb.
  replace (takeN 1 (b :: l)) with [b] in H by (now destruct l). replace (dropN 1 (b :: l)) with l in H by (now destruct l).
  change (be_value [b]) with (0 * 256 + b) in H. rewrite N.mul_0_l, N.add_0_l in H.
  destruct (b <? 248); [discriminate|]. rewrite lenN_cons. destruct (N.ltb_spec (lenN l) (b - 247)); [lia|].
  unfold require in H. destruct (_ <? two64); discriminate.
Qed.
Lemma ilint_rest l v l' : bytes_ok l -> ilintP l = (inl v, l') -> bytes_ok l' /\ lenN l <= lenN l' + 9.
Proof.
  intros B H. unfold ilintP, pbind, takeP in H. destruct (N.ltb_spec (lenN l) 1) as [L|L]; [discriminate|].
  destruct l as [|b l]; [rewrite lenN_nil in L; lia|]. inversion B as [|? ? Hb B']; subst. unfold byte_ok in Hb.
  replace (takeN 1 (b :: l)) with [b] in H by (now destruct l). replace (dropN 1 (b :: l)) with l in H by (now destruct l).
  change (be_value [b]) with (0 * 256 + b) in H. rewrite N.mul_0_l, N.add_0_l in H. rewrite lenN_cons.
  destruct (b <? 248); [injection H as _ <-; split; [exact B'|lia]|]. destruct (N.ltb_spec (lenN l) (b - 247)); [discriminate|].
  unfold require in H. destruct (_ <? two64); [|discriminate]. injection H as _ <-. split; [now apply Forall_dropN|].
  rewrite lenN_dropN. lia.
Qed.
Lemma head_short l l' : bytes_ok l -> headP l = (inr Short, l') -> lenN l < 18.
Proof.
  intros B H. unfold headP, pbind in H. destruct (ilintP l) as [[id|f] l1] eqn:E1.
  - destruct (ilint_rest _ _ _ B E1) as [B1 L1]. destruct (15 <? id).
    + destruct (ilintP l1) as [[n|f] l2] eqn:E2; [discriminate|]. injection H as -> ->. apply ilint_short in E2; [lia|exact B1].
    + destruct (_ || _).
      * unfold takeP in H. destruct (N.ltb_spec (lenN l1) 1); [lia|discriminate].
      * unfold require in H. destruct (negb _); discriminate.
  - injection H as -> ->. apply ilint_short in E1; [lia|exact B].
Qed.

(** [next_tag] on any implementation.  It first makes some calls of [read] and
    [read_all], for at most 18 bytes.  If one fails, it is the last and its error
    is returned; the offset stays.  If the bytes are no header (C73), nothing else
    is called.  Else it makes exactly one call of [skip_u64], whose error it
    returns, and the offset has moved also after that error; but a sum beyond 64
    bits stops a checked build before that call. *)
Theorem C75_next_tag : forall U (F : full_reader U) c off u x off' u',
  impl_ok (f_reader F) -> off < two64 -> f_next_tag F c (off, u) = (x, (off', u')) ->
  exists tr u1, urun (f_reader F) u tr u1 /\ bytes_ok (bytes_of tr) /\ lenN (bytes_of tr) <= 18 /\ lenN tr <= lenN (bytes_of tr) + 1 /\
    ((exists tr0 cl i, tr = tr0 ++ [cl] /\ Forall call_ok tr0 /\ failure cl = Some i /\ x = Err (TagIO i) /\ off' = off /\ u' = u1) \/
     (Forall call_ok tr /\
      match headP (bytes_of tr) with
      | (inl (id, h, n, k), rest) =>
          rest = [] /\
          if overflow_checks c && (two64 <=? off + h + n) then x = Panic /\ off' = off /\ u' = u1
          else off' = (off + h + n) mod two64 /\
            match f_skip_u64 F k u1 with
            | (Ok _, u2) => x = Ok (Some (RawTagOffset_new id off h n)) /\ u' = u2
            | (Err i, u2) => x = Err (TagIO i) /\ u' = u2
            | (Panic, u2) => x = Panic /\ u' = u2
            | (OutOfFuel, u2) => x = OutOfFuel /\ u' = u2
            end
      | (inr f, rest) => rest = [] /\ off' = off /\ u' = u1 /\ exists err, reported f = Some err /\ x = Err err
      end)).
Proof.
  intros U F c off u x off' u' HF Ho E. rewrite (f_next_tag_head F HF) in E by exact Ho.
  destruct (f_head F c u) as [y u1] eqn:Eh.
  destruct (head_good F HF c u y u1 Eh) as (R & tr & Hm & Hb & He & ((Hd & Hq) & _) & Hz).
  exists tr, u1. split; [exact Hm|]. split; [exact Hb|]. split; [exact Hd|]. split; [destruct (is_ok y); lia|].
  assert (D : (exists tr0 cl i, tr = tr0 ++ [cl] /\ clean tr0 /\ failure cl = Some i /\ y = Err (TagIO i)) \/ clean tr).
  { destruct y as [p|e| |]; cbn [ends] in He; auto. destruct He as [He|(tr0 & cl & i & A & B & C & D)]; [now right|].
    left. exists tr0, cl, i. change (from_io i) with (TagIO i) in D. subst e. auto. }
  destruct D as [(tr0 & cl & i & A & B & C & ->)|Cl].
  { left. injection E as <- <- <-. exists tr0, cl, i. auto 10. }
  right. split; [exact Cl|].
  assert (Q : forall s, bytes_ok s -> head c (RCustom (map inr (bytes_of tr ++ s))) = (y, RCustom (map inr s))).
  { intros s Bs. pose proof (replay (f_reader F) u tr u1 HF Hm (clean_solid _ Cl) (map inr s)) as Hr.
    rewrite (script_clean _ Cl), <- map_app in Hr. specialize (Hz _ _ Hr). destruct (head c _) as [z w] eqn:Ez.
    destruct Hz as [->|(-> & -> & _)]; [|reflexivity]. exfalso.
    assert (W : rwf (RCustom (map inr (bytes_of tr ++ s)))).
    { cbn [rwf]. apply Forall_map. now apply Forall_app. }
    unfold head, bind in Ez. destruct (deserialize_ilint _) as [y1 r1] eqn:E1.
    destruct (safe_deserialize_ilint _ _ _ W E1) as (R1 & W1 & _). destruct y1 as [id|e| |]; try contradiction; [|discriminate].
    destruct (extract_tag_size c id r1) as [y2 r3] eqn:E2. destruct (safe_extract c id _ _ _ W1 E2) as (R2 & _).
    destruct y2; try contradiction; discriminate. }
  assert (P : forall s, bytes_ok s -> lenN s = 0 \/ lenN s = 18 ->
    match headP (bytes_of tr ++ s) with
    | (inl p, rest) => y = Ok p /\ rest = s
    | (inr f, rest) => (f = Short /\ lenN s = 0 /\ exists i, y = Err (TagIO i) /\ no_data i) \/ (rest = s /\ exists err, reported f = Some err /\ y = Err err)
    end).
  { intros s Bs Ls. specialize (Q s Bs). set (r := RCustom (map inr (bytes_of tr ++ s))) in *.
    assert (Bts : bytes_ok (bytes_of tr ++ s)) by (apply Forall_app; auto).
    assert (W : rwf r) by (cbn [rwf]; apply Forall_map; exact Bts).
    assert (Fi : fits (faults r) r) by (intros i Hi; exact Hi).
    assert (Pe : pending r = bytes_of tr ++ s).
    { unfold r. cbn [pending]. clear. induction (bytes_of tr ++ s) as [|b l IH]; [reflexivity|]. cbn [map IOSpec.script_bytes]. now rewrite IH. }
    assert (Gd : good r).
    { unfold r. cbn [good]. clear. induction (bytes_of tr ++ s) as [|b l IH]; cbn [map]; constructor; auto. }
    pose proof (refines_head (faults r) c r y _ W Fi Q) as A. rewrite <- Pe.
    destruct A as [[->|(i & -> & Fa & Sh)]|A]; [contradiction| |].
    - specialize (Sh Gd). destruct (headP (pending r)) as [[p|f] rest] eqn:Ep; cbn [fst] in Sh; [discriminate|]. injection Sh as ->.
      pose proof (good_faults r i Gd Fa) as Nd. left. split; [reflexivity|]. split; [|eauto]. rewrite Pe in Ep. apply head_short in Ep; [|exact Bts].
      rewrite lenN_app in Ep. lia.
    - destruct (headP (pending r)) as [[p|f] rest] eqn:Ep.
      + destruct A as [-> T]. split; [reflexivity|]. destruct (took_pending _ _ _ _ W Fi T) as (_ & _ & Pr).
        rewrite <- Pr. cbn [pending]. clear. induction s as [|b l IH]; [reflexivity|]. cbn [map IOSpec.script_bytes]. now rewrite IH.
      + destruct A as [->|(e & -> & Hs & T)].
        { exfalso. revert Ep. clear. unfold headP. intros Ep.
          assert (K : settles (Datatypes.S (length (pending r))) headP).
          { unfold headP. apply settles_bind; [apply settles_ilint|]. intros id. destruct (15 <? id); [settle|].
            destruct (_ || _); [settle|]. settle. }
          specialize (K (pending r)). unfold headP in K. rewrite Ep in K. specialize (K eq_refl). lia. }
        right. destruct (took_pending _ _ _ _ W Fi T) as (_ & _ & Pr). split.
        { rewrite <- Pr. cbn [pending]. clear. induction s as [|b l IH]; [reflexivity|]. cbn [map IOSpec.script_bytes]. now rewrite IH. }
        exists e. split; [|reflexivity]. cbn [says tag_flaw] in Hs. destruct f; cbn [tag_says reported] in *; congruence || contradiction. }
  pose proof (P [] ltac:(constructor) ltac:(now left)) as P0. rewrite app_nil_r in P0.
  destruct (headP (bytes_of tr)) as [[[[[id h] n] k]|f] rest] eqn:Ep.
  - destruct P0 as [-> ->]. split; [reflexivity|].
    destruct (_ && _); [injection E as <- <- <-; auto|].
    destruct (f_skip_u64 F k u1) as [[[]|i| |] u2]; cbn [map_ok map_err] in E; injection E as <- <- <-; auto.
  - destruct P0 as [(-> & _ & i & -> & Nd)|(-> & err & Hr & ->)].
    + exfalso. pose proof (P (repeatN 0 18) (repeatN_ok 18) ltac:(right; reflexivity)) as P1.
      destruct (headP (bytes_of tr ++ repeatN 0 18)) as [[p|f] rest2] eqn:Ep2; [destruct P1; discriminate|].
      destruct P1 as [(_ & L & _)|(_ & err & Hr & Hy)]; [discriminate|].
      assert (err = TagIO i) by congruence. subst err. destruct f; cbn [reported] in Hr; try discriminate.
      injection Hr as <-. unfold no_data in Nd. intuition discriminate.
    + split; [reflexivity|]. injection E as <- <- <-. eauto.
Qed.
Print Assumptions C75_next_tag.

(** A tag is never reported as missing, and one of another id is an error that
    leaves the scanner behind it. *)
Theorem C75_next_tag_if_id : forall U (F : full_reader U) c off u id x s',
  impl_ok (f_reader F) -> off < two64 -> f_next_tag_if_id F c id (off, u) = (x, s') ->
  (exists t, f_next_tag F c (off, u) = (Ok (Some t), s') /\
     ((ro_id t = id /\ x = Ok (Some t)) \/ (ro_id t <> id /\ x = Err UnexpectedTagType))) \/
  (f_next_tag F c (off, u) = (x, s') /\ is_ok x = false).
Proof.
  intros U F c off u id x s' HF Ho E. unfold f_next_tag_if_id, bind in E.
  destruct (f_next_tag F c (off, u)) as [y [off1 u1]] eqn:En.
  destruct y as [[t|]|e| |]; try (injection E as <- <-; right; split; reflexivity).
  - left. exists t. destruct (N.eqb_spec (ro_id t) id); injection E as <- <-; auto.
  - exfalso. rewrite (f_next_tag_head F HF) in En by exact Ho. destruct (f_head F c u) as [[[[[i h] n] k]|e| |] u2]; try discriminate.
    destruct (_ && _); [discriminate|]. destruct (f_skip_u64 F k u2) as [[[]|e| |] u3]; discriminate.
Qed.
Print Assumptions C75_next_tag_if_id.
(** Tags found one after the other are adjacent, whatever the reader does. *)
Fixpoint adjacent (off : N) (l : list raw_tag_offset) (off' : N) : Prop :=
  match l with
  | [] => off' = off
  | o :: l' => ro_offset o = off /\ adjacent ((off + ro_header_size o + ro_value_size o) mod two64) l' off'
  end.
Theorem C75_adjacent : forall U (F : full_reader U) c n off u l off' u',
  impl_ok (f_reader F) -> off < two64 -> f_next_tags F c n (off, u) = (Ok l, (off', u')) ->
  length l = n /\ adjacent off l off' /\ off' < two64 /\
  (overflow_checks c = true -> off + fold_right (fun o s => ro_header_size o + ro_value_size o + s) 0 l = off').
Proof.
  intros U F c n off u l off' u' HF. revert off u l. induction n as [|n IH]; intros off u l Ho E; cbn [f_next_tags] in E.
  - injection E as <- <- <-. cbn. split; [reflexivity|]. split; [reflexivity|]. split; [exact Ho|]. intros _. apply N.add_0_r.
  - unfold bind at 1 in E. rewrite (f_next_tag_head F HF) in E by exact Ho.
    destruct (f_head F c u) as [[[[[id h] k] m]|e| |] u2]; try discriminate.
    destruct (overflow_checks c && (two64 <=? off + h + k)) eqn:Ov; [discriminate|].
    destruct (f_skip_u64 F m u2) as [[[]|e| |] u3]; try discriminate. cbn [map_ok map_err] in E. cbv beta iota in E.
    unfold bind in E. destruct (f_next_tags F c n ((off + h + k) mod two64, u3)) as [[l'|e| |] [o2 u4]] eqn:En; try discriminate.
    injection E as <- <- <-. assert (Hm : (off + h + k) mod two64 < two64) by (apply N.mod_lt; discriminate).
    destruct (IH _ _ _ Hm En) as (L & A & B & C). cbn [length adjacent ro_offset ro_header_size ro_value_size fold_right].
    split; [now rewrite L|]. split; [split; [reflexivity|exact A]|]. split; [exact B|]. intros Oc. specialize (C Oc).
    rewrite Oc in Ov. cbn [andb] in Ov. apply N.leb_gt in Ov. rewrite N.mod_small in C by exact Ov. lia.
Qed.
Print Assumptions C75_adjacent.

(** An object that answers as a reader of the library, also to [skip_u64], is
    scanned as this one is. *)
Theorem C75_same_answers : forall U (F : full_reader U) (R : U -> reader -> Prop) c off u rr x off' u',
  impl_ok (f_reader F) -> same_answers (f_reader F) R ->
  (forall u rr n x u', R u rr -> f_skip_u64 F n u = (x, u') -> exists rr', skip_u64 c n rr = (x, rr') /\ R u' rr') ->
  off < two64 -> R u rr -> rwf rr -> f_next_tag F c (off, u) = (x, (off', u')) ->
  exists rr', next_tag c (off, rr) = (x, (off', rr')) /\ R u' rr'.
Proof.
  intros U F R c off u rr x off' u' HF HS HK Ho HR W E. rewrite (f_next_tag_head F HF) in E by exact Ho.
  rewrite next_tag_head by assumption. destruct (f_head F c u) as [y u1] eqn:Eh.
  destruct (head_good F HF c u y u1 Eh) as (Ry & tr & Hm & Hb & He & _ & Hz).
  destruct (same_run (f_reader F) R u tr u1 HS Hm rr HR) as (rr1 & Hr & HR1). specialize (Hz _ _ Hr).
  destruct (head c rr) as [z w] eqn:Ez. assert (Q : z = y /\ w = rr1).
  { destruct Hz as [->|(-> & -> & _)]; [|auto]. exfalso. revert Ez. unfold head, bind.
    destruct (deserialize_ilint rr) as [y1 r1] eqn:E1.
    destruct (safe_deserialize_ilint _ _ _ W E1) as (R1 & W1 & _). destruct y1 as [id|e| |]; try contradiction; [|discriminate].
    destruct (extract_tag_size c id r1) as [y2 r3] eqn:E2. destruct (safe_extract c id _ _ _ W1 E2) as (R2 & _).
    destruct y2; try contradiction; discriminate. }
  destruct Q as [-> ->]. destruct y as [[[[id h] n] k]|e| |]; try contradiction.
  - destruct (_ && _); [injection E as <- <- <-; exists rr1; auto|].
    destruct (f_skip_u64 F k u1) as [v u2] eqn:Ek. destruct (HK _ _ _ _ _ HR1 Ek) as (rr2 & -> & HR2).
    injection E as <- <- <-. exists rr2. auto.
  - injection E as <- <- <-. exists rr1. auto.
Qed.
Print Assumptions C75_same_answers.
(** In particular the readers of the library: the scanners of AnyScan.v and
    Scanner.v agree on them. *)
Lemma seek_q_data p s : sk_data (snd (seek_q p s)) = sk_data s.
Proof. destruct s as [data pos sched seeks]. unfold seek_q, lift_err, seek. cbv zeta. destruct (hd None seeks); reflexivity. Qed.
Lemma seek_skip_data c n s : sk_data (snd (seek_skip_u64 c n s)) = sk_data s.
Proof.
  unfold seek_skip_u64, bind, ret, fail. destruct (n =? 0); [reflexivity|].
  pose proof (seek_q_data SeekCurrent0 s) as H1. destruct (seek_q SeekCurrent0 s) as [[p|e| |] s1]; try exact H1.
  pose proof (seek_q_data SeekEnd0 s1) as H2. destruct (seek_q SeekEnd0 s1) as [[q|e| |] s2]; cbn [snd] in *; try congruence.
  destruct (p =? q); cbn [snd]; [congruence|]. destruct (add_u64 c p n) as [t|e| |]; cbn [snd]; try congruence.
  destruct (t <=? q); cbn [snd]; [|congruence].
  pose proof (seek_q_data (SeekStart t) s2) as H3. destruct (seek_q (SeekStart t) s2) as [[v|e| |] s3]; cbn [snd] in *; congruence.
Qed.
Lemma skip_rwf c n r : cfg_ok c -> rwf r -> rwf (snd (skip c n r)) /\ rwf (snd (skip_u64 c n r)).
Proof.
  intros [C _] W. destruct (skip c n r) as [x r'] eqn:E1. destruct (skip_u64 c n r) as [y r''] eqn:E2. cbn [snd].
  assert (D : no_seek r \/ exists s, r = RSeek s) by (destruct r; cbn [no_seek]; eauto).
  destruct D as [D|[s ->]].
  - split; [now apply (skip_safe _ _ _ _ _ W D E1)|]. assert (U1 : 1 <= usize_max c) by lia. now apply (skip_u64_safe _ _ _ _ _ U1 W D E2).
  - cbn [skip skip_u64 rwf] in *. pose proof (seek_skip_data c n s) as H. destruct (seek_skip_u64 c n s) as [z s']. cbn [snd] in H.
    injection E1 as _ <-. injection E2 as _ <-. cbn [rwf]. rewrite H. auto.
Qed.
Definition reader_full (c : cfg) (C : cfg_ok c) : full_reader wreader :=
  FullReader _ reader_as_impl
    (fun n w => let '(exist _ r W) := w in (fst (skip c n r), exist _ (snd (skip c n r)) (proj1 (skip_rwf c n r C W))))
    (fun n w => let '(exist _ r W) := w in (fst (skip_u64 c n r), exist _ (snd (skip_u64 c n r)) (proj2 (skip_rwf c n r C W)))).
Theorem C75_library_readers : forall c (C : cfg_ok c) off r (W : rwf r), off < two64 ->
  exists W', f_next_tag (reader_full c C) c (off, exist _ r W) =
    (fst (next_tag c (off, r)), (fst (snd (next_tag c (off, r))), exist _ (snd (snd (next_tag c (off, r)))) W')).
Proof.
  intros c C off r W Ho. destruct (f_next_tag (reader_full c C) c (off, exist _ r W)) as [x [off' [q Wq]]] eqn:E.
  destruct (C75_same_answers _ (reader_full c C) same_reader c off (exist _ r W) r x off' (exist _ q Wq)) as (rr & -> & Hs); auto.
  - exact reader_as_impl_ok.
  - exact reader_as_impl_same.
  - intros [a Wa] rr n y u' H Ek. unfold same_reader in *. cbn [proj1_sig] in H. subst rr. cbn [reader_full f_skip_u64] in Ek.
    injection Ek as <- <-. exists (snd (skip_u64 c n a)). split; [now destruct (skip_u64 c n a)|reflexivity].
  - reflexivity.
  - unfold same_reader in Hs. cbn [proj1_sig] in Hs. subst rr. cbn [fst snd]. now exists Wq.
Qed.
Print Assumptions C75_library_readers.
(** LimitedReaders over objects of the user are implementations too. *)
Theorem C75_limited : forall U (M : reader_impl U), impl_ok M -> impl_ok (limited_impl M).
Proof.
  intros U M HM. constructor; cbn [limited_impl u_read u_read_all].
  - intros r. induction r as [u|s IH a]; intros x r' E; cbn [a_read] in E.
    + destruct (u_read M u) as [y u'] eqn:Eu. injection E as <- _. now apply (io_read _ HM _ _ _ Eu).
    + destruct (a <? 1); [injection E as <- _; split; [exact I|discriminate]|].
      destruct (a_read M s) as [y s'] eqn:Es. injection E as <- _. now apply (IH y s').
  - intros buff r. revert buff. induction r as [u|s IH a]; intros buff x buff' r' E; cbn [a_read_all] in E.
    + destruct (u_read_all M buff u) as [[y b] u'] eqn:Eu. injection E as <- <- _. now apply (io_read_all _ HM _ _ _ _ _ Eu).
    + destruct (a <? lenN buff); [injection E as <- <- _; split; [exact I|auto]|].
      destruct (a_read_all M buff s) as [[y b] s'] eqn:Es. injection E as <- <- _. now apply (IH buff y b s').
Qed.
Print Assumptions C75_limited.
(** A reader whose [skip_u64] fails or panics, and one whose [skip_u64] does
    nothing; both go on for ever. *)
Definition odd_skip (y : res io_error unit) : full_reader unit := FullReader _ liar (fun _ u => (y, u)) (fun _ u => (y, u)).
Example C75_cases :
  impl_ok (f_reader (odd_skip (Ok tt))) /\
  f_next_tags (odd_skip (Ok tt)) (Cfg true u64_max) 2 (0, tt) =
    (Ok [RawTagOffset_new 17 0 2 17; RawTagOffset_new 17 19 2 17], (38, tt)) /\
  f_next_tag (odd_skip (Err EndOfData)) (Cfg true u64_max) (0, tt) = (Err (TagIO EndOfData), (19, tt)) /\
  f_next_tag (odd_skip (Ok tt)) (Cfg true u64_max) (u64_max, tt) = (Panic, (u64_max, tt)) /\
  f_next_tag (odd_skip (Ok tt)) (Cfg false u64_max) (u64_max, tt) = (Ok (Some (RawTagOffset_new 17 u64_max 2 17)), (18, tt)) /\
  f_next_tag_if_id (odd_skip (Ok tt)) (Cfg true u64_max) 16 (0, tt) = (Err UnexpectedTagType, (19, tt)) /\
  f_next_tag (with_defaults (Cfg true u64_max) (limited_impl liar)) (Cfg true u64_max) (0, ALimited (ABase tt) 19) =
    (Ok (Some (RawTagOffset_new 17 0 2 17)), (19, ALimited (ABase tt) 0)) /\
  f_next_tag (with_defaults (Cfg true u64_max) (limited_impl liar)) (Cfg true u64_max) (0, ALimited (ABase tt) 18) =
    (Err (TagIO UnableToReadData), (19, ALimited (ABase tt) 16)).
Proof. split; [exact liar_ok|]. vm_compute. repeat split. Qed.

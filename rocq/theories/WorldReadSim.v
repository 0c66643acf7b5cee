(** Proofs about WorldRead.v: two states whose code gives the same answers cannot be
    told apart. *)
From Verif Require Import Base BaseFacts Types IO ILInt Data Tags Factory Open Prog Any AnyScan AnyProg WorldRead.

(** The same values, and states that stay related. *)
Definition msim {X1 X2 V} (q : X1 -> X2 -> Prop) (m1 : X1 -> V * X1) (m2 : X2 -> V * X2) : Prop :=
  forall x1 x2, q x1 x2 -> exists v y1 y2, m1 x1 = (v, y1) /\ m2 x2 = (v, y2) /\ q y1 y2.
Section Basic.
Context {X1 X2 : Type} (q : X1 -> X2 -> Prop).
Lemma s_pure {V} (v : V) : msim q (fun x => (v, x)) (fun x => (v, x)).
Proof. intros x1 x2 H. eauto 7. Qed.
Lemma s_ret {E A} (a : A) : msim q (ret (E := E) a) (ret a).
Proof. apply s_pure. Qed.
Lemma s_fail {E A} (e : E) : msim q (fail (A := A) e) (fail e).
Proof. apply s_pure. Qed.
Lemma s_bind {E A B} (m1 : X1 -> res E A * X1) m2 (f1 : A -> X1 -> res E B * X1) f2 :
  msim q m1 m2 -> (forall a, msim q (f1 a) (f2 a)) -> msim q (bind m1 f1) (bind m2 f2).
Proof.
  intros G F x1 x2 H. unfold bind. destruct (G _ _ H) as (v & y1 & y2 & -> & -> & K). destruct v as [a|e| |]; [now apply F|eauto 7..].
Qed.
Lemma s_lift {E E' A} (f : E -> E') (m1 : X1 -> res E A * X1) m2 : msim q m1 m2 -> msim q (lift_err f m1) (lift_err f m2).
Proof. intros G x1 x2 H. unfold lift_err. destruct (G _ _ H) as (v & y1 & y2 & -> & -> & K). eauto 7. Qed.
Lemma s_if {V} (b : bool) (m1 m1' : X1 -> V * X1) m2 m2' : msim q m1 m2 -> msim q m1' m2' -> msim q (if b then m1 else m1') (if b then m2 else m2').
Proof. now destruct b. Qed.
Lemma s_map {V V'} (f : V -> V') (m1 : X1 -> V * X1) m2 : msim q m1 m2 -> msim q (fun x => let '(v, y) := m1 x in (f v, y)) (fun x => let '(v, y) := m2 x in (f v, y)).
Proof. intros G x1 x2 H. destruct (G _ _ H) as (v & y1 & y2 & -> & -> & K). eauto 7. Qed.
End Basic.

Section Sim.
Context {W1 W2 : Type} (R : W1 -> W2 -> Prop).
(** The same LimitedReaders over related states. *)
Fixpoint asim (r1 : areader W1) (r2 : areader W2) : Prop :=
  match r1, r2 with
  | ABase u1, ABase u2 => R u1 u2
  | ALimited s1 n1, ALimited s2 n2 => asim s1 s2 /\ n1 = n2
  | _, _ => False
  end.
(** Readers that give the same answers. *)
Definition same_reader (M1 : reader_impl W1) (M2 : reader_impl W2) : Prop :=
  msim R (u_read M1) (u_read M2) /\ forall buff, msim R (u_read_all M1 buff) (u_read_all M2 buff).
(** Programs that make the same calls as long as the answers are the same. *)
Inductive same_prog {I} : forall A, wprog I W1 A -> wprog I W2 A -> Prop :=
| sp_done A (a : A) : same_prog A (WDone a) (WDone a)
| sp_abort A : same_prog A WAbort WAbort
| sp_act A B1 B2 (f1 : W1 -> B1 * W1) (f2 : W2 -> B2 * W2) k1 k2 :
    (forall u1 u2, R u1 u2 -> R (snd (f1 u1)) (snd (f2 u2))) ->
    (forall u1 u2, R u1 u2 -> same_prog A (k1 (fst (f1 u1))) (k2 (fst (f2 u2)))) -> same_prog A (WAct f1 k1) (WAct f2 k2)
| sp_read A k1 k2 : (forall x, same_prog A (k1 x) (k2 x)) -> same_prog A (WRead k1) (WRead k2)
| sp_read_all A old k1 k2 : (forall x b, same_prog A (k1 x b) (k2 x b)) -> same_prog A (WReadAll old k1) (WReadAll old k2)
| sp_skip A n k1 k2 : (forall x, same_prog A (k1 x) (k2 x)) -> same_prog A (WSkip n k1) (WSkip n k2)
| sp_skip64 A n k1 k2 : (forall x, same_prog A (k1 x) (k2 x)) -> same_prog A (WSkip64 n k1) (WSkip64 n k2)
| sp_tag A k1 k2 : (forall x, same_prog A (k1 x) (k2 x)) -> same_prog A (WTag k1) (WTag k2)
| sp_into A t k1 k2 : (forall x t', same_prog A (k1 x t') (k2 x t')) -> same_prog A (WInto t k1) (WInto t k2)
| sp_limited A B n (b1 : wprog I W1 B) b2 k1 k2 : same_prog B b1 b2 -> (forall x m, same_prog A (k1 x m) (k2 x m)) ->
    same_prog A (WLimited n b1 k1) (WLimited n b2 k2)
| sp_other A M1 M2 k1 k2 : same_reader M1 M2 -> (forall x, same_prog A (k1 x) (k2 x)) -> same_prog A (WOther M1 k1) (WOther M2 k2)
| sp_other_into A M1 M2 t k1 k2 : same_reader M1 M2 -> (forall x t', same_prog A (k1 x t') (k2 x t')) ->
    same_prog A (WOtherInto M1 t k1) (WOtherInto M2 t k2).
(** Code that gives the same answers. *)
Record same_code {T} (Z1 : reading_impl T W1) (Z2 : reading_impl T W2) : Prop := SameCode {
  sc_id : forall x, msim R (z_id Z1 x) (z_id Z2 x);
  sc_value : forall n x, same_prog _ (z_value Z1 n x) (z_value Z2 n x);
  sc_create : forall id, match z_create Z1 id, z_create Z2 id with
                         | Some f1, Some f2 => msim R f1 f2
                         | None, None => True
                         | _, _ => False
                         end }.

Lemma asim_state r1 : forall r2, asim r1 r2 -> R (a_state r1) (a_state r2).
Proof. induction r1 as [u1|s1 IH n1]; intros [u2|s2 n2]; cbn; try tauto. intros [H _]. auto. Qed.
Lemma asim_put u1 u2 r1 : R u1 u2 -> forall r2, asim r1 r2 -> asim (a_put u1 r1) (a_put u2 r2).
Proof. intros H. induction r1 as [v1|s1 IH n1]; intros [v2|s2 n2]; cbn; try tauto. intros [K ->]. auto. Qed.
Lemma asim_empty r1 r2 : asim r1 r2 -> a_empty r1 = a_empty r2.
Proof. destruct r1, r2; cbn; try tauto. intros [_ ->]. reflexivity. Qed.
Lemma asim_room r1 r2 : asim r1 r2 -> room r1 = room r2.
Proof. destruct r1, r2; cbn; try tauto. intros [_ ->]. reflexivity. Qed.
Lemma asim_unlimit r1 r2 : asim r1 r2 -> asim (a_unlimit r1) (a_unlimit r2).
Proof. destruct r1, r2; cbn; try tauto. Qed.
(** A method on an object and a reader. *)
Definition qs {S} (x1 : S * areader W1) (x2 : S * areader W2) : Prop := fst x1 = fst x2 /\ asim (snd x1) (snd x2).
Lemma qs_intro {S} (s : S) r1 r2 : asim r1 r2 -> qs (s, r1) (s, r2).
Proof. split; auto. Qed.
Lemma qs_elim {S} (x1 : S * areader W1) x2 : qs x1 x2 -> exists s r1 r2, x1 = (s, r1) /\ x2 = (s, r2) /\ asim r1 r2.
Proof. destruct x1, x2. intros [H K]. cbn in *. subst. eauto 6. Qed.

Section Readers.
Context (M1 : reader_impl W1) (M2 : reader_impl W2) (HM : same_reader M1 M2).
Lemma s_read : msim asim (a_read M1) (a_read M2).
Proof.
  intros r1. induction r1 as [u1|s1 IH n1]; intros [u2|s2 n2] H; cbn [asim a_read] in *; try tauto.
  - destruct (proj1 HM _ _ H) as (v & y1 & y2 & -> & -> & K). eauto 7.
  - destruct H as [H ->]. destruct (n2 <? 1); [eexists _, _, _; split; [reflexivity|]; split; [reflexivity|]; split; [exact H|reflexivity]|].
    destruct (IH _ H) as (v & y1 & y2 & -> & -> & K). eexists _, _, _. split; [reflexivity|]. split; [reflexivity|]. split; [exact K|reflexivity].
Qed.
Lemma s_read_all buff : msim asim (a_read_all M1 buff) (a_read_all M2 buff).
Proof.
  intros r1. induction r1 as [u1|s1 IH n1]; intros [u2|s2 n2] H; cbn [asim a_read_all] in *; try tauto.
  - destruct (proj2 HM buff _ _ H) as ([v b] & y1 & y2 & -> & -> & K). eauto 7.
  - destruct H as [H ->]. destruct (n2 <? lenN buff); [eexists _, _, _; split; [reflexivity|]; split; [reflexivity|]; split; [exact H|reflexivity]|].
    destruct (IH _ H) as ([v b] & y1 & y2 & -> & -> & K). eexists _, _, _. split; [reflexivity|]. split; [reflexivity|]. split; [exact K|reflexivity].
Qed.
Lemma s_fetch n : msim asim (a_fetch M1 n) (a_fetch M2 n).
Proof. intros r1 r2 H. unfold a_fetch. destruct (s_read_all (repeatN 0 n) _ _ H) as ([v b] & y1 & y2 & -> & -> & K). eauto 7. Qed.
Lemma s_decode : msim asim (a_decode M1) (a_decode M2).
Proof.
  apply s_bind; [apply s_lift, s_read|]. intros h. cbv zeta. apply s_if; [apply s_ret|].
  apply s_bind; [apply s_lift, s_fetch|]. intros b. apply s_pure.
Qed.
Lemma s_ilint : msim asim (a_ilint M1) (a_ilint M2).
Proof. apply s_lift, s_lift, s_decode. Qed.
Lemma s_silint : msim asim (a_silint M1) (a_silint M2).
Proof. apply s_lift, s_lift, s_bind; [apply s_decode|]. intros. apply s_ret. Qed.
Lemma s_uint w : msim asim (a_uint M1 w) (a_uint M2 w).
Proof. apply s_lift. destruct w; [apply s_read|..]; (apply s_bind; [apply s_fetch|intros; apply s_ret]). Qed.
Lemma s_sint w : msim asim (a_sint M1 w) (a_sint M2 w).
Proof. apply s_lift. destruct w; (apply s_bind; [first [apply s_read|apply s_fetch]|intros; apply s_ret]). Qed.
Lemma s_bytes n : msim asim (a_bytes M1 n) (a_bytes M2 n).
Proof. apply s_lift, s_fetch. Qed.
Lemma s_tag_size id : msim asim (a_tag_size M1 id) (a_tag_size M2 id).
Proof. apply s_bind; [apply s_if; [apply s_ret|apply s_ilint]|]. intros. apply s_pure. Qed.
Lemma s_skip n : msim asim (a_skip M1 n) (a_skip M2 n).
Proof.
  unfold a_skip, default_skip. generalize (Datatypes.S (N.to_nat (n / 512))) (repeatN 0 512). intros f. revert n. induction f as [|f IH]; intros m b r1 r2 H; cbn [skip_chunks].
  - destruct (m =? 0); eauto 7.
  - destruct (m =? 0); [eauto 7|]. cbv zeta. destruct (s_read_all (takeN (N.min m (lenN b)) b) _ _ H) as ([v b'] & y1 & y2 & -> & -> & K).
    destruct v; [|eauto 7..]. now apply IH.
Qed.
Lemma s_skip64 c n : msim asim (a_skip_u64 M1 c n) (a_skip_u64 M2 c n).
Proof.
  unfold a_skip_u64, default_skip_u64. generalize (Datatypes.S (N.to_nat (n / usize_max c))). intros f. revert n. induction f as [|f IH]; intros m r1 r2 H; cbn [skip_pieces].
  - destruct (m =? 0); eauto 7.
  - destruct (m =? 0); [eauto 7|]. cbv zeta. destruct (s_skip (N.min m (usize_max c)) _ _ H) as (v & y1 & y2 & -> & -> & K).
    destruct v; [|eauto 7..]. now apply IH.
Qed.

(** ** Methods *)
Lemma s_on {S A} (m1 : areader W1 -> res tag_error A * areader W1) m2 : msim asim m1 m2 -> msim (qs (S := S)) (a_on_reader m1) (a_on_reader m2).
Proof.
  intros G x1 x2 H. destruct (qs_elim _ _ H) as (s & r1 & r2 & -> & -> & K). cbn [a_on_reader].
  destruct (G _ _ K) as (v & y1 & y2 & -> & -> & Ky). eexists _, _, _. split; [reflexivity|]. split; [reflexivity|]. now apply qs_intro.
Qed.
Lemma s_modify {S} (f : S -> S) : msim qs (a_modify f) (a_modify f).
Proof. intros x1 x2 H. destruct (qs_elim _ _ H) as (s & r1 & r2 & -> & -> & K). cbn [a_modify]. eexists _, _, _. split; [reflexivity|]. split; [reflexivity|]. now apply qs_intro. Qed.
Lemma s_limited {S A} n (m1 : @amethod W1 S A) m2 : msim qs m1 m2 -> msim qs (a_limited n m1) (a_limited n m2).
Proof.
  intros G x1 x2 H. destruct (qs_elim _ _ H) as (s & r1 & r2 & -> & -> & K). cbn [a_limited].
  destruct (G (s, ALimited r1 n) (s, ALimited r2 n)) as (v & y1 & y2 & -> & -> & Ky); [now split|].
  destruct (qs_elim _ _ Ky) as (s' & r1' & r2' & -> & -> & K'). eexists _, _, _. split; [reflexivity|]. split; [reflexivity|]. apply qs_intro. now apply asim_unlimit.
Qed.
Lemma s_ensure_empty {S} e : msim (qs (S := S)) (a_ensure_empty e) (a_ensure_empty e).
Proof. intros x1 x2 H. unfold a_ensure_empty. rewrite (asim_empty _ _ (proj2 H)). eauto 7. Qed.
Lemma s_repeat {S A} (m1 : areader W1 -> res tag_error A * areader W1) m2 (store : A -> S -> S) : msim asim m1 m2 ->
  forall f n, msim qs (a_repeat f m1 store n) (a_repeat f m2 store n).
Proof.
  intros G. induction f as [|f IH]; intros n; cbn [a_repeat]; (apply s_if; [apply s_ret|]); [apply s_pure|].
  apply s_bind; [now apply s_on|]. intros a. apply s_bind; [apply s_modify|]. intros _. apply IH.
Qed.
Lemma s_while {S A} (m1 : areader W1 -> res tag_error A * areader W1) m2 (store : A -> S -> S) : msim asim m1 m2 ->
  forall f, msim qs (a_while f m1 store) (a_while f m2 store).
Proof.
  intros G. induction f as [|f IH]; intros x1 x2 H; cbn [a_while]; rewrite (asim_empty _ _ (proj2 H)); destruct (a_empty (snd x2)); eauto 7.
  revert x1 x2 H. apply s_bind; [now apply s_on|]. intros a. apply s_bind; [apply s_modify|]. intros _. apply IH.
Qed.
Lemma s_fuelled {S A} (m1 : nat -> @amethod W1 S A) m2 : (forall f, msim qs (m1 f) (m2 f)) -> msim qs (a_fuelled m1) (a_fuelled m2).
Proof. intros G x1 x2 H. unfold a_fuelled. rewrite (asim_room _ _ (proj2 H)). now apply G. Qed.
Lemma s_in_place {S A} (m1 : S -> areader W1 -> res tag_error A * S * areader W1) m2 : (forall s, msim asim (m1 s) (m2 s)) ->
  msim qs (fun '(s, r) => let '(x, s', r') := m1 s r in (x, (s', r'))) (fun '(s, r) => let '(x, s', r') := m2 s r in (x, (s', r'))).
Proof.
  intros G x1 x2 H. destruct (qs_elim _ _ H) as (s & r1 & r2 & -> & -> & K). destruct (G s _ _ K) as ([v s'] & y1 & y2 & -> & -> & Ky).
  eexists _, _, _. split; [reflexivity|]. split; [reflexivity|]. now apply qs_intro.
Qed.
Lemma s_slice s : msim asim (a_into_slice M1 s) (a_into_slice M2 s).
Proof. intros r1 r2 H. unfold a_into_slice. destruct (s_read_all s _ _ H) as ([v b] & y1 & y2 & -> & -> & K). eauto 7. Qed.
Lemma s_raw n : msim qs (a_raw M1 n) (a_raw M2 n).
Proof. apply (s_in_place (a_into_vec M1 n) (a_into_vec M2 n)). intros s. apply s_slice. Qed.
Lemma s_on_snd {S T A} (m1 : @amethod W1 T A) m2 : msim qs m1 m2 -> msim qs (a_on_snd (S := S) m1) (a_on_snd m2).
Proof.
  intros G x1 x2 H. destruct (qs_elim _ _ H) as ([s t] & r1 & r2 & -> & -> & K). cbn [a_on_snd].
  destruct (G (t, r1) (t, r2) (qs_intro _ _ _ K)) as (v & y1 & y2 & -> & -> & Ky). destruct (qs_elim _ _ Ky) as (t' & r1' & r2' & -> & -> & K').
  eexists _, _, _. split; [reflexivity|]. split; [reflexivity|]. now apply qs_intro.
Qed.
Lemma s_string_tag : msim asim (a_string_tag M1) (a_string_tag M2).
Proof.
  intros r1 r2 H. unfold a_string_tag.
  assert (G : msim qs (a_string_tag_into M1) (a_string_tag_into M2)).
  { apply s_bind; [apply s_on, s_ilint|]. intros id. apply s_bind; [apply s_if; [apply s_fail|apply s_ret]|]. intros _.
    apply s_bind; [apply s_on, s_ilint|]. intros len. apply s_bind; [apply s_pure|]. intros ul. apply s_bind; [apply s_on, s_bytes|]. intros tmp.
    apply s_if; [apply s_modify|apply s_fail]. }
  destruct (G ([], r1) ([], r2) (qs_intro _ _ _ H)) as (v & y1 & y2 & -> & -> & Ky). destruct (qs_elim _ _ Ky) as (t' & r1' & r2' & -> & -> & K'). eauto 7.
Qed.
Lemma s_set {A} (m1 : areader W1 -> res tag_error A * areader W1) m2 : msim asim m1 m2 -> msim qs (a_set_from m1) (a_set_from m2).
Proof. intros G. apply s_bind; [now apply s_on|]. intros. apply s_modify. Qed.
Lemma s_check_size {S} a n : msim (qs (S := S)) (a_check_size a n) (a_check_size a n).
Proof. apply s_if; [apply s_ret|apply s_fail]. Qed.
Section Values.
Context {I : Type} (d1 : areader W1 -> res tag_error I * areader W1) (d2 : areader W2 -> res tag_error I * areader W2).
Hypothesis G : msim asim d1 d2.
Lemma s_seq n : msim qs (a_seq d1 n) (a_seq d2 n).
Proof. apply s_limited, s_bind; [apply s_modify|]. intros _. apply s_fuelled. intros f. now apply s_while. Qed.
Lemma s_arr n : msim qs (a_arr M1 d1 n) (a_arr M2 d2 n).
Proof.
  apply s_limited, s_bind; [apply s_on, s_ilint|]. intros count. apply s_bind; [apply s_if; [apply s_fail|apply s_ret]|]. intros _.
  apply s_bind; [apply s_modify|]. intros _. apply s_bind; [apply s_fuelled; intros f; now apply s_repeat|]. intros _. apply s_ensure_empty.
Qed.
Lemma s_dict n : msim qs (a_dict M1 d1 n) (a_dict M2 d2 n).
Proof.
  apply s_limited, s_bind; [apply s_on, s_ilint|]. intros count. apply s_bind; [apply s_modify|]. intros _.
  apply s_bind; [apply s_fuelled; intros f; apply s_repeat|intros _; apply s_ensure_empty].
  apply s_bind; [apply s_string_tag|]. intros k. apply s_bind; [exact G|]. intros. apply s_ret.
Qed.
End Values.
Lemma s_strdict n : msim qs (a_strdict M1 n) (a_strdict M2 n).
Proof.
  apply s_limited, s_bind; [apply s_on, s_ilint|]. intros count. apply s_bind; [apply s_modify|]. intros _.
  apply s_bind; [apply s_fuelled; intros f; apply s_repeat|intros _; apply s_ensure_empty].
  apply s_bind; [apply s_string_tag|]. intros k. apply s_bind; [apply s_string_tag|]. intros. apply s_ret.
Qed.
Lemma s_ilintarray n : msim qs (a_ilintarray M1 n) (a_ilintarray M2 n).
Proof.
  apply s_limited, s_bind; [apply s_on, s_ilint|]. intros count. apply s_bind; [apply s_if; [apply s_fail|apply s_ret]|]. intros _.
  apply s_bind; [apply s_modify|]. intros _. apply s_bind; [apply s_fuelled; intros f; apply s_repeat, s_ilint|]. intros _. apply s_ensure_empty.
Qed.
Lemma s_run {S V} (m1 : @amethod W1 S unit) m2 s (mk : S -> V) : msim qs m1 m2 ->
  msim asim (fun r => let '(x, (s', r')) := m1 (s, r) in (x, mk s', r')) (fun r => let '(x, (s', r')) := m2 (s, r) in (x, mk s', r')).
Proof.
  intros G r1 r2 H. destruct (G (s, r1) (s, r2) (qs_intro _ _ _ H)) as (v & y1 & y2 & -> & -> & Ky).
  destruct (qs_elim _ _ Ky) as (t' & r1' & r2' & -> & -> & K'). eauto 7.
Qed.
Lemma s_value d1 d2 v n : msim asim d1 d2 -> msim asim (a_value M1 d1 v n) (a_value M2 d2 v n).
Proof.
  intros G. destruct v; unfold a_value, a_run; apply s_run.
  - apply s_check_size.
  - apply s_bind; [apply s_check_size|]. intros _. apply s_bind; [apply s_on, s_uint|]. intros v. apply s_if; [apply s_modify|]. apply s_if; [apply s_modify|apply s_fail].
  - apply s_bind; [apply s_check_size|]. intros _. apply s_set, s_uint.
  - apply s_bind; [apply s_check_size|]. intros _. apply s_set, s_sint.
  - apply s_bind; [apply s_check_size|]. intros _. apply s_set, s_uint.
  - apply s_bind; [apply s_check_size|]. intros _. apply s_set, s_uint.
  - apply s_bind; [apply s_check_size|]. intros _. apply s_in_place. apply s_slice.
  - apply s_set, s_ilint.
  - apply s_set, s_silint.
  - apply s_raw.
  - apply s_raw.
  - apply s_bind; [apply s_on, s_bytes|]. intros tmp. apply s_if; [apply s_modify|apply s_fail].
  - apply s_raw.
  - apply s_bind; [apply s_if; [apply s_fail|apply s_ret]|]. intros _. apply s_bind; [apply s_on, s_sint|]. intros sc.
    apply s_bind; [apply s_modify|]. intros _. apply s_on_snd, s_raw.
  - apply s_ilintarray.
  - now apply s_seq.
  - now apply s_arr.
  - apply s_limited, s_bind; [apply s_on, s_ilint|]. intros st. apply s_bind; [apply s_modify|]. intros _. apply s_bind; [apply s_on, s_uint|]. intros ct.
    apply s_bind; [apply s_modify|]. intros _. apply s_ensure_empty.
  - apply s_bind; [apply s_check_size|]. intros _. do 4 (apply s_bind; [apply s_on, s_sint|]; intros; try (apply s_bind; [apply s_modify|]; intros _)). apply s_modify.
  - apply s_ilintarray.
  - now apply s_dict.
  - apply s_strdict.
Qed.
End Readers.

(** ** Programs and the factory *)
Context {T : Type} (c : cfg) (Z1 : reading_impl T W1) (Z2 : reading_impl T W2) (HZ : same_code Z1 Z2) (e : engine).
Lemma s_state {A} (f1 : W1 -> res tag_error A * W1) f2 : msim R f1 f2 -> msim asim (on_state f1) (on_state f2).
Proof.
  intros G r1 r2 H. unfold on_state. destruct (G _ _ (asim_state _ _ H)) as (v & u1 & u2 & -> & -> & K). eexists _, _, _. split; [reflexivity|].
  split; [reflexivity|]. now apply asim_put.
Qed.
Lemma s_or_panic {A} (f1 : W1 -> option A * W1) f2 : msim R f1 f2 -> msim R (or_panic f1) (or_panic f2).
Proof. intros G u1 u2 H. unfold or_panic. destruct (G _ _ H) as ([v|] & y1 & y2 & -> & -> & K); eauto 7. Qed.
Lemma s_after {E A B} (x : res E B) (f1 : res E B -> areader W1 -> res tag_error A * areader W1) f2 : (forall x, msim asim (f1 x) (f2 x)) -> msim asim (a_after x f1) (a_after x f2).
Proof. intros G. destruct x; cbn [a_after]; try apply G; apply s_pure. Qed.
Section Step.
Context (M1 : reader_impl W1) (M2 : reader_impl W2) (HM : same_reader M1 M2).
Context (d1 : areader W1 -> res tag_error (otag T) * areader W1) (d2 : areader W2 -> res tag_error (otag T) * areader W2).
Context (i1 : areader W1 -> otag T -> res tag_error unit * otag T * areader W1) (i2 : areader W2 -> otag T -> res tag_error unit * otag T * areader W2).
Context (od1 : reader_impl W1 -> W1 -> res tag_error (otag T) * W1) (od2 : reader_impl W2 -> W2 -> res tag_error (otag T) * W2).
Context (oi1 : reader_impl W1 -> otag T -> W1 -> res tag_error unit * otag T * W1) (oi2 : reader_impl W2 -> otag T -> W2 -> res tag_error unit * otag T * W2).
Hypothesis Gd : msim asim d1 d2.
Hypothesis Gi : forall t, msim asim (fun r => i1 r t) (fun r => i2 r t).
Hypothesis God : forall N1 N2, same_reader N1 N2 -> msim R (od1 N1) (od2 N2).
Hypothesis Goi : forall N1 N2 t, same_reader N1 N2 -> msim R (oi1 N1 t) (oi2 N2 t).
Lemma s_exec A (p1 : wprog (otag T) W1 A) p2 : same_prog A p1 p2 -> msim asim (w_exec c M1 d1 i1 od1 oi1 p1) (w_exec c M2 d2 i2 od2 oi2 p2).
Proof.
  induction 1 as [A a|A|A B1 B2 f1 f2 k1 k2 Hf _ IH|A k1 k2 _ IH|A old k1 k2 _ IH|A n k1 k2 _ IH|A n k1 k2 _ IH|A k1 k2 _ IH|A t k1 k2 _ IH
    |A B n b1 b2 k1 k2 _ IHb _ IH|A N1 N2 k1 k2 HN _ IH|A N1 N2 t k1 k2 HN _ IH]; intros r1 r2 H; cbn [w_exec].
  - eauto 7.
  - eauto 7.
  - pose proof (asim_state _ _ H) as Hs. specialize (Hf _ _ Hs). specialize (IH _ _ Hs). destruct (f1 (a_state r1)) as [x1 u1]. destruct (f2 (a_state r2)) as [x2 u2].
    cbn [fst snd] in *. apply IH. now apply asim_put.
  - destruct (s_read M1 M2 HM _ _ H) as (v & y1 & y2 & -> & -> & K). apply s_after; auto.
  - destruct (s_read_all M1 M2 HM (u8s old) _ _ H) as ([v b] & y1 & y2 & -> & -> & K). apply s_after; auto.
  - destruct (s_skip M1 M2 HM n _ _ H) as (v & y1 & y2 & -> & -> & K). apply s_after; auto.
  - destruct (s_skip64 M1 M2 HM c n _ _ H) as (v & y1 & y2 & -> & -> & K). apply s_after; auto.
  - destruct (Gd _ _ H) as (v & y1 & y2 & -> & -> & K). apply s_after; auto.
  - destruct (Gi t _ _ H) as ([v t'] & y1 & y2 & Ey1 & Ey2 & K). cbv beta in Ey1, Ey2. rewrite Ey1, Ey2. apply s_after; auto.
  - destruct (IHb (ALimited r1 n) (ALimited r2 n) (conj H eq_refl)) as (v & y1 & y2 & -> & -> & K).
    destruct v as [b|err| |]; [|eexists _, _, _; (split; [reflexivity|]; split; [reflexivity|]; now apply asim_unlimit)..].
    destruct y1 as [u1|s1 n1], y2 as [u2|s2 n2]; cbn [asim] in K; try contradiction; [eauto 7|]. destruct K as [K ->]. now apply IH.
  - destruct (God _ _ HN _ _ (asim_state _ _ H)) as (v & u1 & u2 & -> & -> & K). apply s_after; auto. now apply asim_put.
  - destruct (Goi _ _ t HN _ _ (asim_state _ _ H)) as ([v t'] & u1 & u2 & -> & -> & K). apply s_after; auto. now apply asim_put.
Qed.
Lemma s_user n : msim qs (w_user c Z1 M1 d1 i1 od1 oi1 n) (w_user c Z2 M2 d2 i2 od2 oi2 n).
Proof.
  intros x1 x2 H. destruct (qs_elim _ _ H) as (x & r1 & r2 & -> & -> & K). cbn [w_user].
  destruct (s_exec _ _ _ (sc_value _ _ HZ n x) _ _ K) as (v & y1 & y2 & -> & -> & Ky).
  destruct v as [[[err|] x']|err| |]; eexists _, _, _; (split; [reflexivity|]; split; [reflexivity|]; now apply qs_intro).
Qed.
Lemma s_avalue t n : msim asim (av_value M1 (w_user c Z1 M1 d1 i1 od1 oi1) d1 t n) (av_value M2 (w_user c Z2 M2 d2 i2 od2 oi2) d2 t n).
Proof.
  destruct t as [id v|x|id l|id l|id l]; unfold av_value, ao_run.
  - intros r1 r2 H. destruct (s_value M1 M2 HM (fun r => (Panic, r)) (fun r => (Panic, r)) v n (s_pure _ _) _ _ H) as ([x v'] & y1 & y2 & -> & -> & K). eauto 7.
  - apply s_run, s_user.
  - now apply s_run, s_seq.
  - now apply s_run, s_arr.
  - now apply s_run, s_dict.
Qed.
Lemma s_id t : msim asim (w_id Z1 t) (w_id Z2 t).
Proof. destruct t; cbn [w_id]; try apply s_ret. apply s_state, s_or_panic, (sc_id _ _ HZ). Qed.
Lemma s_check t : msim asim (w_check Z1 t) (w_check Z2 t).
Proof.
  apply s_bind; [apply s_id|]. intros i. apply s_if; [apply s_ret|]. apply s_bind; [apply s_id|]. intros j. apply s_if; [apply s_ret|].
  intros r1 r2 H. rewrite (asim_empty _ _ H). eauto 7.
Qed.
Notation v1 := (w_value_into Z1 (av_value M1 (w_user c Z1 M1 d1 i1 od1 oi1) d1)).
Notation v2 := (w_value_into Z2 (av_value M2 (w_user c Z2 M2 d2 i2 od2 oi2) d2)).
Lemma s_value_into n t : msim asim (v1 n t) (v2 n t).
Proof.
  intros r1 r2 H. unfold w_value_into. destruct (s_avalue t n (ALimited r1 n) (ALimited r2 n) (conj H eq_refl)) as ([x t'] & y1 & y2 & -> & -> & K).
  destruct x as [[]|err| |]; [|eexists _, _, _; (split; [reflexivity|]; split; [reflexivity|]; now apply asim_unlimit)..].
  destruct (s_check t' _ _ K) as (v & z1 & z2 & -> & -> & Kz). eexists _, _, _. split; [reflexivity|]. split; [reflexivity|]. now apply asim_unlimit.
Qed.
Lemma s_create id : msim asim (w_create Z1 e id) (w_create Z2 e id).
Proof.
  unfold w_create. pose proof (sc_create _ _ HZ id) as Hc. destruct (z_create Z1 id) as [f1|], (z_create Z2 id) as [f2|]; try contradiction; [|apply s_pure].
  apply s_bind; [apply s_state, s_or_panic, Hc|]. intros. apply s_ret.
Qed.
Lemma s_step : msim asim (w_step Z1 e M1 v1) (w_step Z2 e M2 v2).
Proof.
  apply s_bind; [now apply s_ilint|]. intros id. apply s_bind; [now apply s_tag_size|]. intros n. apply s_bind; [apply s_create|]. intros [t|]; [|apply s_fail].
  intros r1 r2 H. destruct (s_value_into n t _ _ H) as ([x t'] & y1 & y2 & -> & -> & K). eauto 7.
Qed.
Lemma s_into t : msim asim (fun r => w_into Z1 M1 v1 r t) (fun r => w_into Z2 M2 v2 r t).
Proof.
  intros r1 r2 H. unfold w_into.
  assert (G : msim asim (id <- a_ilint M1 ;; mine <- w_id Z1 t ;; if negb (id =? mine) then fail UnexpectedTagType else a_tag_size M1 id)
                        (id <- a_ilint M2 ;; mine <- w_id Z2 t ;; if negb (id =? mine) then fail UnexpectedTagType else a_tag_size M2 id)).
  { apply s_bind; [now apply s_ilint|]. intros id. apply s_bind; [apply s_id|]. intros mine. apply s_if; [apply s_fail|now apply s_tag_size]. }
  destruct (G _ _ H) as (v & y1 & y2 & -> & -> & K). destruct v as [n|err| |]; [|eauto 7..]. now apply s_value_into.
Qed.
End Step.
Lemma s_fuel f : forall M1 M2, same_reader M1 M2 ->
  msim asim (w_deserialize c Z1 e f M1) (w_deserialize c Z2 e f M2) /\
  forall t, msim asim (fun r => w_deserialize_into c Z1 e f M1 r t) (fun r => w_deserialize_into c Z2 e f M2 r t).
Proof.
  unfold w_deserialize, w_deserialize_into. induction f as [|f IH]; intros M1 M2 HM; cbn [w_fuel fst snd].
  - split; [apply s_pure|]. intros t. apply s_pure.
  - assert (Gi : forall t, msim asim (fun r => snd (w_fuel c Z1 e f M1) r t) (fun r => snd (w_fuel c Z2 e f M2) r t)) by apply (IH M1 M2 HM).
    split; [|intros t].
    + apply s_step; auto; [apply (IH M1 M2 HM)| |].
      * intros N1 N2 HN u1 u2 H. destruct (proj1 (IH N1 N2 HN) (ABase u1) (ABase u2) H) as (v & y1 & y2 & -> & -> & K). eexists _, _, _. split; [reflexivity|].
        split; [reflexivity|]. now apply asim_state.
      * intros N1 N2 t HN u1 u2 H. destruct (proj2 (IH N1 N2 HN) t (ABase u1) (ABase u2) H) as ([v t'] & y1 & y2 & E1 & E2 & K). cbv beta in E1, E2. rewrite E1, E2.
        eexists _, _, _. split; [reflexivity|]. split; [reflexivity|]. now apply asim_state.
    + apply s_into; auto; [apply (IH M1 M2 HM)| |].
      * intros N1 N2 HN u1 u2 H. destruct (proj1 (IH N1 N2 HN) (ABase u1) (ABase u2) H) as (v & y1 & y2 & -> & -> & K). eexists _, _, _. split; [reflexivity|].
        split; [reflexivity|]. now apply asim_state.
      * intros N1 N2 t0 HN u1 u2 H. destruct (proj2 (IH N1 N2 HN) t0 (ABase u1) (ABase u2) H) as ([v t'] & y1 & y2 & E1 & E2 & K). cbv beta in E1, E2. rewrite E1, E2.
        eexists _, _, _. split; [reflexivity|]. split; [reflexivity|]. now apply asim_state.
Qed.
End Sim.

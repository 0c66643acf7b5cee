(** The calls the writing code makes on user code with shared state: what they
    are, as a grammar, and that the code of World.v makes exactly those. *)
From Verif Require Import Base BaseFacts Types Spec SpecFacts IO IOSpec IOFacts WriterFacts ILInt ILIntFacts
  WLogic Data DataFacts Tags SortFacts TagsFacts CallFacts AnyWriter AnyWriterFacts Scanner Ctors Machine PMachine Open OpenFacts
  OpenMachine POpenMachine World.

(** ** Specification *)
(** A call of user code and its answer. *)
Inductive event (T : Type) :=
| ESize (x : T) (a : option N)
| EWrite (w : N) (q : wcall) (a : res io_error unit)
| ESer (w : N) (x : T) (a : res tag_error unit)
| EBytes (x : T) (a : res tag_error (list N))
| EVec (w : N)
| EInto (w : N) (bs : list N).
Arguments ESize {T} x a.
Arguments EWrite {T} w q a.
Arguments ESer {T} w x a.
Arguments EBytes {T} x a.
Arguments EVec {T} w.
Arguments EInto {T} w bs.

Section Spec.
Context {T W : Type} (G : world_impl T W).
Notation log := (list (event T)).
(** The call was made in the state [u], was answered so, and left [u']. *)
Definition happens (e : event T) (u u' : W) : Prop :=
  match e with
  | ESize x a => g_size G x u = (a, u')
  | EWrite w (CWrite b) a => u_write (g_writer G w) b u = (a, u')
  | EWrite w (CWriteAll bs) a => u_write_all (g_writer G w) bs u = (a, u')
  | ESer w x a => g_serialize G w x u = (a, u')
  | EBytes x a => g_to_bytes G x u = (a, u')
  | EVec w => g_vec G u = (w, u')
  | EInto w bs => g_into G w u = (bs, u')
  end.
Inductive ran : W -> log -> W -> Prop :=
| ran_nil u : ran u [] u
| ran_cons u e u1 l u2 : happens e u u1 -> ran u1 l u2 -> ran u (e :: l) u2.
(** The call succeeded. *)
Definition went (e : event T) : Prop :=
  match e with
  | ESize _ a => a <> None
  | EWrite _ _ a | ESer _ _ a => a = Ok tt
  | EBytes _ a => exists bs, a = Ok bs
  | EVec _ | EInto _ _ => True
  end.
(** The call failed, and this is what it makes of the method that made it. *)
Definition outcome {A} (e : event T) (x : res tag_error A) : Prop :=
  match e with
  | ESize _ None => x = Panic
  | EWrite _ _ (Err i) => x = Err (TagIO i)
  | EWrite _ _ Panic | ESer _ _ Panic | EBytes _ Panic => x = Panic
  | EWrite _ _ OutOfFuel | ESer _ _ OutOfFuel | EBytes _ OutOfFuel => x = OutOfFuel
  | ESer _ _ (Err k) | EBytes _ (Err k) => x = Err k
  | _ => False
  end.
(** The same call, with perhaps another answer. *)
Definition same_call (e e' : event T) : Prop :=
  match e, e' with
  | ESize x _, ESize y _ => x = y
  | EWrite w q _, EWrite w' q' _ => w = w' /\ q = q'
  | ESer w x _, ESer w' y _ => w = w' /\ x = y
  | EBytes x _, EBytes y _ => x = y
  | EVec _, EVec _ => True
  | EInto w _, EInto w' _ => w = w'
  | _, _ => False
  end.
(** Writing to [w], each call with success. *)
Definition oks (w : N) (l : list wcall) : log := map (fun q => EWrite w q (Ok tt)) l.

(** [n] is the number [a] in 64 bits: modulo 2^64 if [wrap], else [a] must fit. *)
Definition tot (wrap : bool) (a n : N) : Prop := if wrap then n = a mod two64 else n = a /\ a < two64.
(** One log after the other, and the sum of what they give. *)
Definition summed {A} (f : A -> log -> N -> Prop) : list A -> log -> N -> Prop :=
  fix go l log m :=
    match l with
    | [] => log = [] /\ m = 0
    | x :: rest => exists l1 n1 l2 n2, f x l1 n1 /\ go rest l2 n2 /\ log = l1 ++ l2 /\ m = n1 + n2
    end.
(** What is asked for the size of a tag whose value is asked for as [V]: once
    for the field that holds the size, unless implicit, and once for the value. *)
Definition framed (wrap : bool) (id : N) (V : log -> N -> Prop) (log : log) (n : N) : Prop :=
  if id <=? 15 then exists m, V log m /\ tot wrap (lenN (ilint id) + m) n
  else exists l1 m1 l2 m2, V l1 m1 /\ V l2 m2 /\ log = l1 ++ l2 /\ tot wrap (lenN (ilint id) + lenN (ilint m1) + m2) n.
(** What is asked for the size of an object, and the answer to that. *)
Fixpoint sized (wrap : bool) (t : otag T) : log -> N -> Prop :=
  match t with
  | OStd id v => fun log n => log = [] /\ n = lenN (enc (Tag id v))
  | OUser x => fun log n => log = [ESize x (Some n)] /\ n < two64
  | OSeq id l => framed wrap id (fun log m => exists s, summed (sized wrap) l log s /\ tot wrap s m)
  | OArr id l =>
      framed wrap id (fun log m => exists s, summed (sized wrap) l log s /\ tot wrap (lenN (ilint (lenN l)) + s) m)
  | ODict id l =>
      framed wrap id (fun log m => exists s,
        summed (fun e log n => exists k, sized wrap (snd e) log k /\ n = lenN (enc_string (fst e)) + k) l log s /\
        tot wrap (lenN (ilint (lenN l)) + s) m)
  end.
(** For the size of the value of a container. *)
Definition items_sized (wrap : bool) (count : N) (l : list (otag T)) (log : log) (m : N) : Prop :=
  exists s, summed (sized wrap) l log s /\ tot wrap (count + s) m.
Definition entries_sized (wrap : bool) (l : list (list N * otag T)) (log : log) (m : N) : Prop :=
  exists s, summed (fun e log n => exists k, sized wrap (snd e) log k /\ n = lenN (enc_string (fst e)) + k) l log s /\
    tot wrap (lenN (ilint (lenN l)) + s) m.

(** One log after the other. *)
Definition chained {A} (f : A -> log -> Prop) : list A -> log -> Prop :=
  fix go l log :=
    match l with
    | [] => log = []
    | x :: rest => exists l1 l2, f x l1 /\ go rest l2 /\ log = l1 ++ l2
    end.
(** The id is written; then, unless implicit, the size of the value is asked for
    and written; then comes the value. *)
Definition headed (w id : N) (V : log -> N -> Prop) (B : log -> Prop) (log : log) : Prop :=
  exists hl bl, log = oks w (ilint_calls id) ++ hl ++ bl /\ B bl /\
    (if id <=? 15 then hl = [] else exists sl m, V sl m /\ hl = sl ++ oks w (ilint_calls m)).
(** The calls that serialize an object to [w], all with success. *)
Fixpoint serial (wrap : bool) (w : N) (t : otag T) : log -> Prop :=
  match t with
  | OStd id v => fun log => log = oks w (calls_of (Tag id v))
  | OUser x => fun log => log = [ESer w x (Ok tt)]
  | OSeq id l => headed w id (items_sized wrap 0 l) (chained (serial wrap w) l)
  | OArr id l =>
      headed w id (items_sized wrap (lenN (ilint (lenN l))) l) (fun log => exists l1,
        chained (serial wrap w) l l1 /\ log = oks w (ilint_calls (lenN l)) ++ l1)
  | ODict id l =>
      headed w id (entries_sized wrap l) (fun log => exists l1,
        chained (fun e log => exists l2, snd e l2 /\ log = oks w (string_calls (fst e)) ++ l2)
          (sort_entries (map (fun e => (fst e, serial wrap w (snd e))) l)) l1 /\
        log = oks w (ilint_calls (lenN l)) ++ l1)
  end.
(** The calls of to_bytes of an object, and the bytes. *)
Definition bytes_log (wrap : bool) (c : cfg) (t : otag T) (log : log) (bs : list N) : Prop :=
  match t with
  | OUser x => log = [EBytes x (Ok bs)]
  | _ =>
      exists l1 n w l2, sized wrap t l1 n /\ n mod (usize_max c + 1) <= usize_max c / 2 /\ serial wrap w t l2 /\
        log = l1 ++ EVec w :: l2 ++ [EInto w bs]
  end.
End Spec.

(** ** Logs *)
Section Logs.
Context {T W : Type} (G : world_impl T W).
Notation log := (list (event T)).
Lemma ran_app u l1 u1 l2 u2 : ran G u l1 u1 -> ran G u1 l2 u2 -> ran G u (l1 ++ l2) u2.
Proof. induction 1 as [u|u e u' l u1 H _ IH]; intros K; [exact K|]. cbn [app]. econstructor; eauto. Qed.
Lemma ran_split l1 : forall u l2 u2, ran G u (l1 ++ l2) u2 -> exists u1, ran G u l1 u1 /\ ran G u1 l2 u2.
Proof.
  induction l1 as [|e l1 IH]; intros u l2 u2 H; [exists u; split; [constructor|exact H]|].
  inversion H as [|? ? u1 ? ? He Hr]; subst. destruct (IH _ _ _ Hr) as (u3 & A & B). exists u3. split; [econstructor; eauto|exact B].
Qed.
Lemma ran_one e u u' : happens G e u u' -> ran G u [e] u'.
Proof. intros H. econstructor; [exact H|constructor]. Qed.
Lemma ran_nil_inv u u' : ran G u [] u' -> u' = u.
Proof. now inversion 1. Qed.
Lemma ran_one_inv e u u' : ran G u [e] u' -> happens G e u u'.
Proof. intros H. inversion H as [|? ? u1 ? ? He Hr]; subst. apply ran_nil_inv in Hr. now subst. Qed.
End Logs.

(** ** Code that makes the calls of a grammar *)
Section Does.
Context {T W : Type} (G : world_impl T W) (c : cfg).
Notation log := (list (event T)).
(** The log of a run cut short: by a call that failed, where the grammar [Q] has
    a successful one; or by an overflow. *)
Definition cut {A B} (Q : log -> A -> Prop) (l : log) (x : res tag_error B) : Prop :=
  (exists l0 e g rest a, l = l0 ++ [e] /\ Forall went l0 /\ outcome e x /\ same_call e g /\ Q (l0 ++ g :: rest) a) \/
  (x = Panic /\ overflow_checks c = true /\ Forall went l /\ exists rest a, Q (l ++ rest) a).
Record does {A} (m : W -> res tag_error A * W) (P Q : log -> A -> Prop) : Prop := Does {
  d_back : forall u l u' a, ran G u l u' -> P l a -> m u = (Ok a, u');
  d_run : forall u x u', m u = (x, u') -> exists l, ran G u l u' /\ match x with Ok a => P l a | _ => cut Q l x end }.
Record sound {A} (P Q : log -> A -> Prop) (R : A -> Prop) : Prop := Sound {
  s_sub : forall l a, P l a -> Q l a;
  s_went : forall l a, Q l a -> Forall went l;
  s_val : forall l a, Q l a -> R a;
  s_some : exists l a, Q l a }.
Definition seq {A B} (P1 : log -> A -> Prop) (P2 : A -> log -> B -> Prop) (l : log) (b : B) : Prop :=
  exists l1 a l2, P1 l1 a /\ P2 a l2 b /\ l = l1 ++ l2.

Lemma sound_seq {A B} (P1 Q1 : log -> A -> Prop) R1 (P2 Q2 : A -> log -> B -> Prop) R2 :
  sound P1 Q1 R1 -> (forall a, R1 a -> sound (P2 a) (Q2 a) R2) -> sound (seq P1 P2) (seq Q1 Q2) R2.
Proof.
  intros S1 S2. constructor.
  - intros l b (l1 & a & l2 & H1 & H2 & ->). exists l1, a, l2. pose proof (s_sub _ _ _ S1 _ _ H1) as K.
    split; [exact K|]. split; [|reflexivity]. exact (s_sub _ _ _ (S2 a (s_val _ _ _ S1 _ _ K)) _ _ H2).
  - intros l b (l1 & a & l2 & H1 & H2 & ->). apply Forall_app. split; [exact (s_went _ _ _ S1 _ _ H1)|].
    exact (s_went _ _ _ (S2 a (s_val _ _ _ S1 _ _ H1)) _ _ H2).
  - intros l b (l1 & a & l2 & H1 & H2 & ->). exact (s_val _ _ _ (S2 a (s_val _ _ _ S1 _ _ H1)) _ _ H2).
  - destruct (s_some _ _ _ S1) as (l1 & a & H1). destruct (s_some _ _ _ (S2 a (s_val _ _ _ S1 _ _ H1))) as (l2 & b & H2).
    exists (l1 ++ l2), b, l1, a, l2. auto.
Qed.
Lemma does_bind {A B} (m1 : W -> res tag_error A * W) (m2 : A -> W -> res tag_error B * W) P1 Q1 R1 P2 Q2 R2 :
  does m1 P1 Q1 -> sound P1 Q1 R1 -> (forall a, R1 a -> does (m2 a) (P2 a) (Q2 a)) -> (forall a, R1 a -> sound (P2 a) (Q2 a) R2) ->
  does (bind m1 m2) (seq P1 P2) (seq Q1 Q2).
Proof.
  intros D1 S1 D2 S2. constructor.
  - intros u l u' b Hr (l1 & a & l2 & H1 & H2 & ->). apply ran_split in Hr as (u1 & A1 & A2).
    unfold bind. rewrite (d_back _ _ _ D1 _ _ _ _ A1 H1). pose proof (s_val _ _ _ S1 _ _ (s_sub _ _ _ S1 _ _ H1)) as Ra.
    exact (d_back _ _ _ (D2 a Ra) _ _ _ _ A2 H2).
  - intros u x u' E. unfold bind in E. destruct (m1 u) as [y u1] eqn:E1. destruct (d_run _ _ _ D1 _ _ _ E1) as (l1 & A1 & K1).
    assert (F : forall z : res tag_error A, match z with Ok _ => False | _ => True end -> cut Q1 l1 z ->
      forall z' : res tag_error B, (match z, z' with Err e, Err e' => e = e' | Panic, Panic | OutOfFuel, OutOfFuel => True | _, _ => False end) ->
      cut (seq Q1 Q2) l1 z').
    { intros z _ C z' Hz. destruct C as [(l0 & e & g & rest & a & El & Hw & Ho & Hs & HQ)|(Ez & Ho & Hw & rest & a & HQ)].
      - left. destruct (s_some _ _ _ (S2 a (s_val _ _ _ S1 _ _ HQ))) as (l2 & b & H2).
        exists l0, e, g, (rest ++ l2), b. split; [exact El|]. split; [exact Hw|]. split.
        + destruct e as [? [?|]|? ? [?|?| |]|? ? [?|?| |]|? [?|?| |]|?|? ?]; cbn [outcome] in *; try contradiction; subst z;
            destruct z'; try contradiction; now subst.
        + split; [exact Hs|]. exists (l0 ++ g :: rest), a, l2. split; [exact HQ|]. split; [exact H2|].
          now rewrite <- app_assoc.
      - right. subst z. destruct z'; try contradiction. split; [reflexivity|]. split; [exact Ho|]. split; [exact Hw|].
        destruct (s_some _ _ _ (S2 a (s_val _ _ _ S1 _ _ HQ))) as (l2 & b & H2). exists (rest ++ l2), b.
        exists (l1 ++ rest), a, l2. split; [exact HQ|]. split; [exact H2|]. now rewrite app_assoc. }
    destruct y as [a|e| |].
    + pose proof (s_sub _ _ _ S1 _ _ K1) as Q1a. pose proof (s_val _ _ _ S1 _ _ Q1a) as Ra.
      destruct (d_run _ _ _ (D2 a Ra) _ _ _ E) as (l2 & A2 & K2). exists (l1 ++ l2). split; [eapply ran_app; eauto|].
      assert (C : cut (Q2 a) l2 x -> cut (seq Q1 Q2) (l1 ++ l2) x).
      { intros [(l0 & e & g & rest & b & El & Hw & Ho & Hs & HQ)|(Ez & Ho & Hw & rest & b & HQ)].
        - left. exists (l1 ++ l0), e, g, rest, b. split; [subst l2; now rewrite app_assoc|].
          split; [apply Forall_app; split; [exact (s_went _ _ _ S1 _ _ Q1a)|exact Hw]|]. split; [exact Ho|]. split; [exact Hs|].
          exists l1, a, (l0 ++ g :: rest). rewrite app_assoc. auto.
        - right. split; [exact Ez|]. split; [exact Ho|]. split; [apply Forall_app; split; [exact (s_went _ _ _ S1 _ _ Q1a)|exact Hw]|].
          exists rest, b, l1, a, (l2 ++ rest). rewrite app_assoc. auto. }
      destruct x; auto. exists l1, a, l2. auto.
    + apply pair_inv in E as [<- <-]. exists l1. split; [exact A1|]. exact (F (Err e) Logic.I K1 (Err e) eq_refl).
    + apply pair_inv in E as [<- <-]. exists l1. split; [exact A1|]. exact (F Panic Logic.I K1 Panic Logic.I).
    + apply pair_inv in E as [<- <-]. exists l1. split; [exact A1|]. exact (F OutOfFuel Logic.I K1 OutOfFuel Logic.I).
Qed.
Lemma does_iff {A} (m : W -> res tag_error A * W) P Q P' Q' :
  (forall l a, P' l a <-> P l a) -> (forall l a, Q' l a <-> Q l a) -> does m P Q -> does m P' Q'.
Proof.
  intros HP HQ [B R]. constructor.
  - intros u l u' a H1 H2. apply (B _ _ _ _ H1). now apply HP.
  - intros u x u' E. destruct (R _ _ _ E) as (l & H & K). exists l. split; [exact H|].
    assert (C : cut Q l x -> cut Q' l x).
    { intros [(l0 & e & g & rest & b & El & Hw & Ho & Hs & Hq)|(Ez & Ho & Hw & rest & b & Hq)].
      - left. exists l0, e, g, rest, b. repeat (split; [assumption|]). now apply HQ.
      - right. repeat (split; [assumption|]). exists rest, b. now apply HQ. }
    destruct x; auto. now apply HP.
Qed.
Lemma sound_iff {A} (P Q P' Q' : log -> A -> Prop) R :
  (forall l a, P' l a <-> P l a) -> (forall l a, Q' l a <-> Q l a) -> sound P Q R -> sound P' Q' R.
Proof.
  intros HP HQ [S1 S2 S3 (l0 & a0 & S4)]. constructor.
  - intros l a H. apply HQ, S1, HP, H.
  - intros l a H. eapply S2, HQ, H.
  - intros l a H. eapply S3, HQ, H.
  - exists l0, a0. now apply HQ.
Qed.
Lemma does_ret {A} (a : A) : does (ret a) (fun l b => l = [] /\ b = a) (fun l b => l = [] /\ b = a).
Proof.
  constructor.
  - intros u l u' b H [-> ->]. apply ran_nil_inv in H. now subst.
  - intros u x u' E. apply pair_inv in E as [<- <-]. exists []. split; [constructor|auto].
Qed.
Lemma sound_ret {A} (a : A) (R : A -> Prop) : R a -> sound (fun l b => l = [] /\ b = a) (fun l b => l = [] /\ b = a) R.
Proof. intros H. constructor; [auto|now intros l b [-> ->]|now intros l b [-> ->]|now exists [], a]. Qed.
(** Arithmetic. *)
Notation wr := (negb (overflow_checks c)).
Lemma tot_lt w a n : tot w a n -> n < two64.
Proof. unfold tot. destruct w; [intros ->; apply mod_lt|intros [-> H]; exact H]. Qed.
Lemma tot_true w a n : tot w a n -> tot true a n.
Proof. unfold tot. destruct w; [auto|]. intros [-> H]. now rewrite N.mod_small. Qed.
Lemma tot_some a : exists n, tot true a n.
Proof. now exists (a mod two64). Qed.
Lemma tot_tot w a b n k : tot w a n -> (tot w (n + b) k <-> tot w (a + b) k).
Proof.
  unfold tot. destruct w; [|intros [-> H]; reflexivity]. intros ->. rewrite N.add_mod_idemp_l by discriminate. reflexivity.
Qed.
Lemma tot_lower a b n : tot false (a + b) n -> a < two64.
Proof. unfold tot. lia. Qed.
Lemma does_add a b : a < two64 -> b < two64 ->
  does (pure (add_u64 c a b)) (fun l n => l = [] /\ tot wr (a + b) n) (fun l n => l = [] /\ tot true (a + b) n).
Proof.
  intros Ha Hb. unfold add_u64. constructor.
  - intros u l u' n H [-> K]. apply ran_nil_inv in H. subst u'. unfold pure. unfold tot in K.
    destruct (N.ltb_spec (a + b) two64) as [L|L].
    + f_equal. f_equal. destruct wr; [rewrite N.mod_small in K by exact L; congruence|now destruct K].
    + destruct (overflow_checks c); cbn [negb] in K; [lia|]. f_equal. f_equal. subst n.
      rewrite <- (N.mod_small (a + b - two64) two64) by lia.
      replace (a + b) with (a + b - two64 + 1 * two64) at 2 by lia. now rewrite N.mod_add by discriminate.
  - intros u x u' E. unfold pure in E. apply pair_inv in E as [<- <-]. exists []. split; [constructor|].
    destruct (N.ltb_spec (a + b) two64) as [L|L].
    + split; [reflexivity|]. unfold tot. destruct wr; [now rewrite N.mod_small|auto].
    + destruct (overflow_checks c) eqn:O; cbn [negb].
      * right. split; [reflexivity|]. split; [exact O|]. split; [constructor|]. destruct (tot_some (a + b)) as (n & Hn). exists [], n. auto.
      * split; [reflexivity|]. unfold tot. rewrite <- (N.mod_small (a + b - two64) two64) by lia.
        replace (a + b) with (a + b - two64 + 1 * two64) at 2 by lia. now rewrite N.mod_add by discriminate.
Qed.
Lemma sound_tot w a :
  sound (fun l n => l = [] /\ tot w a n) (fun l n => l = [] /\ tot true a n) (fun n => n < two64).
Proof.
  constructor.
  - intros l n [-> H]. split; [reflexivity|]. now apply tot_true in H.
  - now intros l n [-> _].
  - intros l n [-> H]. now apply tot_lt in H.
  - destruct (tot_some a) as (n & H). now exists [], n.
Qed.
(** Calls of a writer. *)
Lemma does_calls w (m : W -> res tag_error unit * W) calls : makes (g_writer G w) TagIO m calls ->
  does m (fun l _ => l = oks w calls) (fun l _ => l = oks w calls).
Proof.
  intros H.
  assert (E : forall u, m u = make_calls (g_writer G w) TagIO calls u) by exact H. clear H.
  constructor.
  - intros u l u' [] Hr ->. rewrite E. clear E. revert u Hr. induction calls as [|q calls IH]; intros u Hr.
    + apply ran_nil_inv in Hr. now subst.
    + inversion Hr as [|? ? u1 ? ? He Hr1]; subst. cbn [make_calls]. destruct q; cbn [happens make_call] in *; rewrite He; now apply IH.
  - intros u x u' Ex. rewrite E in Ex. clear E. revert u Ex. induction calls as [|q calls IH]; intros u Ex.
    + apply pair_inv in Ex as [<- <-]. exists []. split; [constructor|reflexivity].
    + cbn [make_calls] in Ex. destruct (make_call (g_writer G w) q u) as [y u1] eqn:Eq.
      assert (Hq : happens G (EWrite w q y) u u1) by (destruct q; exact Eq).
      assert (Hq' : forall z, z = y -> outcome (EWrite w q z : event T) x -> cut (fun (l : log) (_ : unit) => l = oks w (q :: calls)) [EWrite w q y] x).
      { intros z -> Ho. left. exists [], (EWrite w q y), (EWrite w q (Ok tt)), (oks w calls), tt.
        split; [reflexivity|]. split; [constructor|]. split; [exact Ho|]. split; [now split|reflexivity]. }
      destruct y as [[]|i| |].
      * destruct (IH _ Ex) as (l & Hr & K). exists (EWrite w q (Ok tt) :: l). split; [econstructor; eauto|].
        assert (C : cut (fun (l : log) (_ : unit) => l = oks w calls) l x -> cut (fun (l : log) (_ : unit) => l = oks w (q :: calls)) (EWrite w q (Ok tt) :: l) x).
        { intros [(l0 & e & g & rest & b & El & Hw & Ho & Hs & Hq0)|(Ez & Ho & Hw & rest & b & Hq0)].
          - left. exists (EWrite w q (Ok tt) :: l0), e, g, rest, b. split; [now subst l|].
            split; [constructor; [reflexivity|exact Hw]|]. split; [exact Ho|]. split; [exact Hs|].
            cbn [app]. rewrite Hq0. reflexivity.
          - right. split; [exact Ez|]. split; [exact Ho|]. split; [constructor; [reflexivity|exact Hw]|].
            exists rest, b. cbn [app]. rewrite Hq0. reflexivity. }
        destruct x; auto. now subst l.
      * apply pair_inv in Ex as [<- <-]. exists [EWrite w q (Err i)]. split; [now apply ran_one|]. now apply (Hq' (Err i)).
      * apply pair_inv in Ex as [<- <-]. exists [EWrite w q Panic]. split; [now apply ran_one|]. now apply (Hq' Panic).
      * apply pair_inv in Ex as [<- <-]. exists [EWrite w q OutOfFuel]. split; [now apply ran_one|]. now apply (Hq' OutOfFuel).
Qed.
Lemma went_oks w calls : Forall (@went T) (oks w calls).
Proof. induction calls; constructor; [reflexivity|assumption]. Qed.
Lemma sound_calls w calls :
  sound (fun (l : log) (_ : unit) => l = oks w calls) (fun l _ => l = oks w calls) (fun _ => True).
Proof. constructor; [auto|intros l a ->; apply went_oks|auto|now exists (oks w calls), tt]. Qed.
End Does.

(** ** The code of World.v makes the calls of the grammar *)
Section Sizes.
Context {T W : Type} (G : world_impl T W) (c : cfg).
Notation log := (list (event T)).
Notation wr := (negb (overflow_checks c)).
Definition lt64 (n : N) : Prop := n < two64.
Definition summed_to {A} (w : bool) (acc : N) (f : A -> log -> N -> Prop) (l : list A) (lg : log) (n : N) : Prop :=
  exists m, summed f l lg m /\ tot w (acc + m) n.

Lemma summed_sub {A} (P Q : A -> log -> N -> Prop) l : Forall (fun x => forall lg n, P x lg n -> Q x lg n) l ->
  forall lg m, summed P l lg m -> summed Q l lg m.
Proof.
  induction 1 as [|x l Hx _ IH]; intros lg m; cbn [summed]; [auto|]. intros (l1 & n1 & l2 & n2 & H1 & H2 & E).
  exists l1, n1, l2, n2. auto.
Qed.
Lemma summed_went {A} (P : A -> log -> N -> Prop) l : Forall (fun x => forall lg n, P x lg n -> Forall went lg) l ->
  forall lg m, summed P l lg m -> Forall went lg.
Proof.
  induction 1 as [|x l Hx _ IH]; intros lg m; cbn [summed]; [now intros [-> _]|]. intros (l1 & n1 & l2 & n2 & H1 & H2 & -> & _).
  apply Forall_app. split; [eapply Hx; eauto|eapply IH; eauto].
Qed.
Lemma summed_some {A} (P : A -> log -> N -> Prop) l : Forall (fun x => exists lg n, P x lg n) l -> exists lg m, summed P l lg m.
Proof.
  induction 1 as [|x l (l1 & n1 & H1) _ (l2 & n2 & H2)]; [now exists [], 0|]. exists (l1 ++ l2), (n1 + n2), l1, n1, l2, n2. auto.
Qed.
Lemma sound_sum {A} (P Q : A -> log -> N -> Prop) l acc w : Forall (fun x => sound (P x) (Q x) lt64) l ->
  sound (summed_to w acc P l) (summed_to true acc Q l) lt64.
Proof.
  intros H. constructor.
  - intros lg n (m & H1 & H2). exists m. split; [|now apply tot_true in H2]. revert H1. apply summed_sub.
    eapply Forall_impl; [|exact H]. intros x S lg' n'. apply (s_sub _ _ _ S).
  - intros lg n (m & H1 & _). revert H1. apply summed_went. eapply Forall_impl; [|exact H]. intros x S. apply (s_went _ _ _ S).
  - intros lg n (m & _ & H2). now apply tot_lt in H2.
  - destruct (summed_some Q l) as (lg & m & H1).
    { eapply Forall_impl; [|exact H]. intros x S. apply (s_some _ _ _ S). }
    destruct (tot_some (acc + m)) as (n & Hn). exists lg, n, m. auto.
Qed.
Lemma does_sum {A} (f : A -> W -> res tag_error N * W) (P Q : A -> log -> N -> Prop) l :
  Forall (fun x => does G c (f x) (P x) (Q x) /\ sound (P x) (Q x) lt64) l -> forall acc, acc < two64 ->
  does G c (w_sum c f l acc) (summed_to wr acc P l) (summed_to true acc Q l).
Proof.
  induction 1 as [|x l [Dx Sx] Hl IH]; intros acc Ha.
  - cbn [w_sum]. eapply does_iff; [| |apply does_ret]; intros lg n; unfold summed_to; cbn [summed].
    + split.
      * intros (m & [-> ->] & H). split; [reflexivity|]. rewrite N.add_0_r in H. unfold tot in H.
        destruct wr; [now rewrite N.mod_small in H|apply H].
      * intros [-> ->]. exists 0. rewrite N.add_0_r. split; [auto|]. unfold tot. destruct wr; [now rewrite N.mod_small|auto].
    + split.
      * intros (m & [-> ->] & H). split; [reflexivity|]. rewrite N.add_0_r in H. unfold tot in H. now rewrite N.mod_small in H.
      * intros [-> ->]. exists 0. rewrite N.add_0_r. split; [auto|]. unfold tot. now rewrite N.mod_small.
  - assert (Sl : Forall (fun x => sound (P x) (Q x) lt64) l) by (eapply Forall_impl; [|exact Hl]; intros y [_ K]; exact K).
    cbn [w_sum].
    assert (K : forall w F lg n,
      summed_to w acc F (x :: l) lg n <->
      seq (F x) (fun s => seq (fun lg n => lg = [] /\ tot w (acc + s) n) (fun a => summed_to w a F l)) lg n).
    { intros w F lg n. unfold summed_to, seq. cbn [summed]. split.
      - intros (m & (l1 & n1 & l2 & n2 & H1 & H2 & -> & ->) & H).
        assert (K : exists a, tot w (acc + n1) a).
        { destruct w; [apply tot_some|]. exists (acc + n1). split; [reflexivity|]. rewrite N.add_assoc in H. now apply tot_lower in H. }
        destruct K as (a & Ka). exists l1, n1, l2. split; [exact H1|]. split; [|reflexivity]. exists [], a, l2. split; [auto|].
        split; [|reflexivity]. exists n2. split; [exact H2|]. apply (tot_tot _ _ _ _ _ Ka). now rewrite <- N.add_assoc.
      - intros (l1 & n1 & l2' & H1 & (l1' & a & l2 & [-> Ka] & (m & H2 & H3) & ->) & ->).
        exists (n1 + m). split; [exists l1, n1, l2, m; auto|]. rewrite N.add_assoc. now apply (tot_tot _ _ _ _ _ Ka). }
    eapply does_iff; [apply K|apply K|].
    eapply does_bind with (R1 := lt64) (R2 := lt64); [exact Dx|exact Sx| |].
    + intros s Hs. eapply does_bind with (R1 := lt64) (R2 := lt64); [now apply does_add|apply sound_tot| |].
      * intros a Hb. now apply IH.
      * intros a Hb. now apply sound_sum.
    + intros s Hs. eapply sound_seq with (R1 := lt64); [apply sound_tot|]. intros a Hb. now apply sound_sum.
Qed.

Lemma sound_framed id w (P Q : log -> N -> Prop) : sound P Q lt64 -> sound (framed w id P) (framed true id Q) lt64.
Proof.
  intros S. unfold framed. destruct (id <=? 15).
  - constructor.
    + intros l n (m & H & K). exists m. split; [now apply (s_sub _ _ _ S)|now apply tot_true in K].
    + intros l n (m & H & K). exact (s_went _ _ _ S _ _ H).
    + intros l n (m & H & K). now apply tot_lt in K.
    + destruct (s_some _ _ _ S) as (l & m & H). destruct (tot_some (lenN (ilint id) + m)) as (n & K). exists l, n, m. auto.
  - constructor.
    + intros l n (l1 & m1 & l2 & m2 & H1 & H2 & E & K). exists l1, m1, l2, m2.
      split; [now apply (s_sub _ _ _ S)|]. split; [now apply (s_sub _ _ _ S)|]. split; [exact E|now apply tot_true in K].
    + intros l n (l1 & m1 & l2 & m2 & H1 & H2 & -> & K). apply Forall_app. split; eapply (s_went _ _ _ S); eauto.
    + intros l n (l1 & m1 & l2 & m2 & H1 & H2 & E & K). now apply tot_lt in K.
    + destruct (s_some _ _ _ S) as (l & m & H). destruct (tot_some (lenN (ilint id) + lenN (ilint m) + m)) as (n & K).
      exists (l ++ l), n, l, m, l, m. auto.
Qed.
Lemma ilint_small n : n < two64 -> lenN (ilint n) <= 9.
Proof. intros H. rewrite lenN_ilint_lt by exact H. pose proof (encoded_size_bound n). lia. Qed.
Lemma does_framed id (vs : W -> res tag_error N * W) P Q : id < two64 -> does G c vs P Q -> sound P Q lt64 ->
  does G c (w_size_with c id vs) (framed wr id P) (framed true id Q).
Proof.
  intros Hi D S. unfold w_size_with, framed. rewrite is_implicit_spec. rewrite <- (lenN_ilint_lt id Hi).
  pose proof (ilint_small id Hi) as Li. assert (B : 18 < two64) by reflexivity.
  destruct (id <=? 15).
  - assert (K : forall w (F : log -> N -> Prop) l n,
      (exists m, F l m /\ tot w (lenN (ilint id) + m) n) <->
      seq (fun l a => l = [] /\ a = lenN (ilint id)) (fun a => seq F (fun m l n => l = [] /\ tot w (a + m) n)) l n).
    { intros w F l n. unfold seq. split.
      - intros (m & H & K). exists [], (lenN (ilint id)), l. split; [auto|]. split; [|reflexivity]. exists l, m, [].
        rewrite app_nil_r. auto.
      - intros (l1 & a & l2 & [-> ->] & (l3 & m & l4 & H & [-> K] & ->) & ->). exists m. cbn [app]. rewrite app_nil_r. auto. }
    eapply does_iff; [apply K|apply K|].
    eapply does_bind with (R1 := fun a => a <= 18) (R2 := lt64); [apply does_ret|apply sound_ret; lia| |]; intros a Ha.
    + eapply does_bind with (R1 := lt64) (R2 := lt64); [exact D|exact S| |].
      * intros m Hm. apply does_add; [lia|exact Hm].
      * intros m Hm. apply sound_tot.
    + eapply sound_seq; [exact S|]. intros m Hm. apply sound_tot.
  - assert (K : forall w (F : log -> N -> Prop), (forall l n, F l n -> n < two64) -> forall l n,
      (exists l1 m1 l2 m2, F l1 m1 /\ F l2 m2 /\ l = l1 ++ l2 /\ tot w (lenN (ilint id) + lenN (ilint m1) + m2) n) <->
      seq (seq F (fun m l a => l = [] /\ tot w (lenN (ilint id) + encoded_size m) a))
          (fun a => seq F (fun m l n => l = [] /\ tot w (a + m) n)) l n).
    { intros w F HF l n. unfold seq. split.
      - intros (l1 & m1 & l2 & m2 & H1 & H2 & -> & K). pose proof (HF _ _ H1) as L1. pose proof (ilint_small m1 L1) as L2.
        rewrite (lenN_ilint_lt m1 L1) in K, L2.
        exists l1, (lenN (ilint id) + encoded_size m1), l2. split.
        + exists l1, m1, []. rewrite app_nil_r. split; [exact H1|]. split; [|reflexivity]. split; [reflexivity|].
          unfold tot. destruct w; [rewrite N.mod_small; lia|lia].
        + split; [|reflexivity]. exists l2, m2, []. rewrite app_nil_r. auto.
      - intros (l1' & a & l2' & (l1 & m1 & l3 & H1 & [-> K1] & ->) & (l2 & m2 & l4 & H2 & [-> K2] & ->) & ->).
        pose proof (HF _ _ H1) as L1. pose proof (ilint_small m1 L1) as L2.
        rewrite (lenN_ilint_lt m1 L1) in L2. exists l1, m1, l2, m2. rewrite !app_nil_r. split; [exact H1|]. split; [exact H2|].
        split; [reflexivity|]. rewrite (lenN_ilint_lt m1 L1). now apply (tot_tot _ _ _ _ _ K1). }
    eapply does_iff; [apply K|apply K|].
    + intros l n H. exact (s_val _ _ _ S _ _ (s_sub _ _ _ S _ _ H)).
    + intros l n H. exact (s_val _ _ _ S _ _ H).
    + eapply does_bind with (R1 := lt64) (R2 := lt64).
      * eapply does_bind with (R1 := lt64) (R2 := lt64); [exact D|exact S| |]; intros m Hm.
        { apply does_add; [lia|]. pose proof (encoded_size_bound m). lia. }
        { apply sound_tot. }
      * eapply sound_seq; [exact S|]. intros m Hm. apply sound_tot.
      * intros a Ha. eapply does_bind with (R1 := lt64) (R2 := lt64); [exact D|exact S| |]; intros m Hm.
        { now apply does_add. }
        { apply sound_tot. }
      * intros a Ha. eapply sound_seq; [exact S|]. intros m Hm. apply sound_tot.
Qed.

(** Tags of the library well formed; nothing about user objects or sums. *)
Definition ready (t : otag T) : Prop := plain (fun _ => 0) t.
Lemma does_counted {A} count (vs : W -> res tag_error N * W) (l : list A) (P Q : A -> log -> N -> Prop) : count < two64 ->
  does G c vs (summed_to wr 0 P l) (summed_to true 0 Q l) -> sound (summed_to wr 0 P l) (summed_to true 0 Q l) lt64 ->
  does G c (s <- vs ;; pure (add_u64 c (encoded_size count) s))
    (summed_to wr (lenN (ilint count)) P l) (summed_to true (lenN (ilint count)) Q l).
Proof.
  intros Hc D S. rewrite <- (lenN_ilint_lt count Hc). pose proof (ilint_small count Hc) as Li. assert (B : 18 < two64) by reflexivity.
  assert (K : forall w (F : A -> log -> N -> Prop) lg n,
    summed_to w (lenN (ilint count)) F l lg n <->
    seq (summed_to w 0 F l) (fun s lg n => lg = [] /\ tot w (lenN (ilint count) + s) n) lg n).
  { intros w F lg n. unfold summed_to, seq. split.
    - intros (m & H & K).
      assert (Ka : exists a, tot w (0 + m) a).
      { destruct w; [apply tot_some|]. exists (0 + m). split; [reflexivity|]. rewrite N.add_comm in K. apply tot_lower in K. exact K. }
      destruct Ka as (a & Ka). exists lg, a, []. rewrite app_nil_r. split; [exists m; auto|]. split; [|reflexivity].
      split; [reflexivity|]. rewrite N.add_comm. apply (tot_tot _ _ _ _ _ Ka). now rewrite N.add_0_l, N.add_comm.
    - intros (l1 & a & l2 & (m & H & Ka) & [-> K] & ->). rewrite app_nil_r. exists m. split; [exact H|].
      rewrite N.add_comm in K. apply (tot_tot _ _ _ _ _ Ka) in K. now rewrite N.add_0_l, N.add_comm in K. }
  eapply does_iff; [apply K|apply K|].
  eapply does_bind with (R1 := lt64) (R2 := lt64); [exact D|exact S| |]; intros s Hs; [apply does_add; [lia|exact Hs]|apply sound_tot].
Qed.
Lemma does_ask x : (forall x u n u', g_size G x u = (Some n, u') -> n < two64) ->
  does G c (w_ask G x) (fun l n => l = [ESize x (Some n)] /\ n < two64) (fun l n => l = [ESize x (Some n)] /\ n < two64).
Proof.
  intros HU. constructor.
  - intros u l u' n H [-> L]. apply ran_one_inv in H. cbn [happens] in H. unfold w_ask. now rewrite H.
  - intros u y u' E. unfold w_ask in E. destruct (g_size G x u) as [[n|] u1] eqn:Eg.
    + apply pair_inv in E as [<- <-]. exists [ESize x (Some n)]. split; [now apply ran_one|]. split; [reflexivity|]. exact (HU _ _ _ _ Eg).
    + apply pair_inv in E as [<- <-]. exists [ESize x None]. split; [now apply ran_one|]. left.
      exists [], (ESize x None), (ESize x (Some 0)), [], 0. split; [reflexivity|]. split; [constructor|]. split; [reflexivity|].
      split; [reflexivity|]. split; [reflexivity|]. apply two64_pos.
Qed.
Lemma sound_ask x : sound (fun (l : log) n => l = [ESize x (Some n)] /\ n < two64) (fun l n => l = [ESize x (Some n)] /\ n < two64) lt64.
Proof.
  constructor; [auto| |now intros l n [_ H]|].
  - intros l n [-> _]. constructor; [discriminate|constructor].
  - exists [ESize x (Some 0)], 0. split; [reflexivity|]. apply two64_pos.
Qed.
Lemma sound_const n : n < two64 -> sound (fun (l : log) a => l = [] /\ a = n) (fun l a => l = [] /\ a = n) lt64.
Proof. intros H. now apply sound_ret. Qed.

(** Entries of a dictionary: the size of the key, and of the object. *)
Definition entry_sized (w : bool) (e : list N * otag T) (lg : log) (n : N) : Prop :=
  exists k, sized w (snd e) lg k /\ n = lenN (enc_string (fst e)) + k.
(** The same, in 64 bits. *)
Definition entry_tot (w : bool) (e : list N * otag T) (lg : log) (n : N) : Prop :=
  exists k, sized w (snd e) lg k /\ tot w (lenN (enc_string (fst e)) + k) n.
Lemma entries_tot w acc l lg n :
  summed_to w acc (entry_sized w) l lg n <-> summed_to w acc (entry_tot w) l lg n.
Proof.
  revert acc lg n. induction l as [|e l IH]; intros acc lg n; [reflexivity|].
  unfold summed_to in *. cbn [summed]. split.
  - intros (m & (l1 & n1 & l2 & n2 & (k & Hk & ->) & H2 & -> & ->) & H).
    set (z := lenN (enc_string (fst e)) + k) in *.
    assert (Kz : exists a, tot w z a).
    { destruct w; [apply tot_some|]. exists z. split; [reflexivity|]. unfold tot in H. lia. }
    destruct Kz as (a & Ka).
    destruct (IH (acc + a) l2 n) as [I1 _]. destruct I1 as (m' & H3 & H4).
    { exists n2. split; [exact H2|]. rewrite <- N.add_assoc, N.add_comm, <- N.add_assoc.
      apply (tot_tot _ _ _ _ _ Ka). now replace (z + (n2 + acc)) with (acc + (z + n2)) by lia. }
    exists (a + m'). split; [|now rewrite N.add_assoc]. exists l1, a, l2, m'. split; [exists k; auto|]. auto.
  - intros (m & (l1 & a & l2 & n2 & (k & Hk & Ka) & H2 & -> & ->) & H).
    set (z := lenN (enc_string (fst e)) + k) in *.
    destruct (IH (acc + a) l2 n) as [_ I2]. destruct I2 as (m' & H3 & H4).
    { exists n2. split; [exact H2|]. now rewrite <- N.add_assoc. }
    exists (z + m'). split; [exists l1, z, l2, m'; split; [exists k; auto|]; auto|].
    rewrite N.add_comm, <- N.add_assoc. apply (tot_tot _ _ _ _ _ Ka). now replace (a + (m' + acc)) with (acc + a + m') by lia.
Qed.
Lemma does_entry e (P Q : log -> N -> Prop) (size : otag T -> W -> res tag_error N * W) : lenN (enc_string (fst e)) < two64 ->
  does G c (size (snd e)) P Q -> sound P Q lt64 ->
  does G c (w_entry c size e) (fun lg n => exists k, P lg k /\ tot wr (lenN (enc_string (fst e)) + k) n)
    (fun lg n => exists k, Q lg k /\ tot true (lenN (enc_string (fst e)) + k) n) /\
  sound (fun lg n => exists k, P lg k /\ tot wr (lenN (enc_string (fst e)) + k) n)
    (fun lg n => exists k, Q lg k /\ tot true (lenN (enc_string (fst e)) + k) n) lt64.
Proof.
  intros Hk D S.
  assert (Es : string_tag_size_u c (fst e) = Ok (lenN (enc_string (fst e)))).
  { rewrite <- string_size_spec by (now apply enc_string_len). apply string_exact.
    now rewrite string_size_spec by (now apply enc_string_len). }
  assert (K : forall w (F : log -> N -> Prop) lg n,
    (exists k, F lg k /\ tot w (lenN (enc_string (fst e)) + k) n) <->
    seq (fun l a => l = [] /\ a = lenN (enc_string (fst e))) (fun a => seq F (fun m l n => l = [] /\ tot w (a + m) n)) lg n).
  { intros w F l n. unfold seq. split.
    - intros (m & H & K). exists [], (lenN (enc_string (fst e))), l. split; [auto|]. split; [|reflexivity]. exists l, m, [].
      rewrite app_nil_r. auto.
    - intros (l1 & a & l2 & [-> ->] & (l3 & m & l4 & H & [-> K] & ->) & ->). exists m. cbn [app]. rewrite app_nil_r. auto. }
  split.
  - eapply does_iff; [apply K|apply K|]. unfold w_entry. rewrite Es.
    eapply does_bind with (R1 := lt64) (R2 := lt64); [exact (does_ret G c (lenN (enc_string (fst e))))|now apply sound_ret| |]; intros a Ha.
    + eapply does_bind with (R1 := lt64) (R2 := lt64); [exact D|exact S| |]; intros m Hm; [now apply does_add|apply sound_tot].
    + eapply sound_seq; [exact S|]. intros m Hm. apply sound_tot.
  - eapply sound_iff; [apply K|apply K|].
    eapply sound_seq with (R1 := lt64); [now apply sound_ret|]. intros a Ha.
    eapply sound_seq; [exact S|]. intros m Hm. apply sound_tot.
Qed.
Lemma framed_iff w id (V V' : log -> N -> Prop) : (forall l n, V l n <-> V' l n) -> forall l n, framed w id V l n <-> framed w id V' l n.
Proof.
  intros H l n. unfold framed. destruct (id <=? 15).
  - split; intros (m & A & B); exists m; (split; [now apply H|exact B]).
  - split; intros (l1 & m1 & l2 & m2 & A1 & A2 & B); exists l1, m1, l2, m2; (split; [now apply H|]; split; [now apply H|exact B]).
Qed.
Lemma summed_to_0 {A} w (P : A -> log -> N -> Prop) l lg n : (exists s, summed P l lg s /\ tot w s n) <-> summed_to w 0 P l lg n.
Proof. reflexivity. Qed.
Theorem does_size (HU : forall x u n u', g_size G x u = (Some n, u') -> n < two64) t : ready t ->
  does G c (w_size G c t) (sized wr t) (sized true t) /\ sound (sized wr t) (sized true t) lt64.
Proof.
  unfold ready. induction t as [id v|x|id l IH|id l IH|id l IH] using otag_induction; cbn [plain].
  - intros [Wf L]. cbn [w_size sized]. rewrite size_exact by (now rewrite (size_spec (Tag id v) Wf L)).
    rewrite (size_spec (Tag id v) Wf L). split; [apply does_ret|now apply sound_ret].
  - intros _. split; [now apply does_ask|apply sound_ask].
  - intros (Hi & A). apply all_Forall in A. cbn [w_size sized].
    assert (F : Forall (fun t => does G c (w_size G c t) (sized wr t) (sized true t) /\ sound (sized wr t) (sized true t) lt64) l).
    { rewrite Forall_forall in *. auto. }
    assert (S : sound (summed_to wr 0 (sized wr) l) (summed_to true 0 (sized true) l) lt64).
    { apply sound_sum. eapply Forall_impl; [|exact F]. now intros t [_ K]. }
    split; [|now apply sound_framed]. apply does_framed; [exact Hi| |exact S]. apply does_sum; [exact F|apply two64_pos].
  - intros (Hi & Hc & A). apply all_Forall in A. cbn [w_size sized].
    assert (F : Forall (fun t => does G c (w_size G c t) (sized wr t) (sized true t) /\ sound (sized wr t) (sized true t) lt64) l).
    { rewrite Forall_forall in *. auto. }
    assert (F' : Forall (fun t => sound (sized wr t) (sized true t) lt64) l).
    { eapply Forall_impl; [|exact F]. now intros t [_ K]. }
    assert (S : sound (summed_to wr (lenN (ilint (lenN l))) (sized wr) l) (summed_to true (lenN (ilint (lenN l))) (sized true) l) lt64).
    { now apply sound_sum. }
    split; [|now apply sound_framed]. apply does_framed; [exact Hi| |exact S]. apply does_counted; [exact Hc| |now apply sound_sum].
    apply does_sum; [exact F|apply two64_pos].
  - intros (Hi & Hc & Hd & Hk & A). apply all_Forall in A. cbn [w_size sized].
    assert (F : Forall (fun e => does G c (w_entry c (w_size G c) e) (entry_tot wr e) (entry_tot true e) /\
                                 sound (entry_tot wr e) (entry_tot true e) lt64) l).
    { rewrite Forall_forall in *. intros e He. destruct (IH e He (A e He)) as [D S]. apply does_entry; auto. }
    assert (F' : Forall (fun e => sound (entry_tot wr e) (entry_tot true e) lt64) l).
    { eapply Forall_impl; [|exact F]. now intros t [_ K]. }
    assert (S : sound (summed_to wr (lenN (ilint (lenN l))) (entry_tot wr) l)
                      (summed_to true (lenN (ilint (lenN l))) (entry_tot true) l) lt64).
    { now apply sound_sum. }
    assert (D : does G c (w_size_with c id (s <- w_sum c (w_entry c (w_size G c)) l 0 ;; pure (add_u64 c (encoded_size (lenN l)) s)))
      (framed wr id (summed_to wr (lenN (ilint (lenN l))) (entry_tot wr) l))
      (framed true id (summed_to true (lenN (ilint (lenN l))) (entry_tot true) l))).
    { apply does_framed; [exact Hi| |exact S]. apply does_counted; [exact Hc| |now apply sound_sum].
      apply does_sum; [exact F|apply two64_pos]. }
    split.
    + eapply does_iff; [| |exact D]; apply framed_iff; intros lg n; apply entries_tot.
    + eapply sound_iff; [| |apply sound_framed, S]; apply framed_iff; intros lg n; apply entries_tot.
Qed.
End Sizes.

Section Serialize.
Context {T W : Type} (G : world_impl T W) (c : cfg).
Notation log := (list (event T)).
Notation wr := (negb (overflow_checks c)).
Definition any (_ : unit) : Prop := True.
(** A grammar of a call without a value. *)
Definition on (B : log -> Prop) : log -> unit -> Prop := fun l _ => B l.

Lemma does_headed w id (vs : W -> res tag_error N * W) sv P Q B Bq : id < two64 ->
  does G c vs P Q -> sound P Q lt64 -> does G c sv (on B) (on Bq) -> sound (on B) (on Bq) any ->
  does G c (w_with G w id vs sv) (on (headed w id P B)) (on (headed w id Q Bq)) /\
  sound (on (headed w id P B)) (on (headed w id Q Bq)) any.
Proof.
  intros Hi D S Ds Ss. unfold w_with. rewrite is_implicit_spec.
  set (hd := fun (V : log -> N -> Prop) (l : log) (_ : unit) =>
    if id <=? 15 then l = [] else exists sl m, V sl m /\ l = sl ++ oks w (ilint_calls m)).
  assert (K : forall V C l x, on (headed w id V C) l x <->
    seq (on (fun l => l = oks w (ilint_calls id))) (fun _ => seq (hd V) (fun _ => on C)) l x).
  { intros V C l x. unfold on, headed, seq, hd. split.
    - intros (hl & bl & -> & HC & Hh). exists (oks w (ilint_calls id)), tt, (hl ++ bl). split; [reflexivity|]. split; [|reflexivity].
      exists hl, tt, bl. auto.
    - intros (l1 & [] & l2 & -> & (hl & [] & bl & Hh & HC & ->) & ->). exists hl, bl. auto. }
  assert (Dh : does G c (if id <=? 15 then ret tt else n <- vs ;; a_serialize_ilint (g_writer G w) n) (hd P) (hd Q) /\
               sound (hd P) (hd Q) any).
  { unfold hd. destruct (id <=? 15).
    - split.
      + eapply does_iff; [| |apply (does_ret G c tt)]; intros l []; (split; [intros ->; auto|now intros [-> _]]).
      + constructor; [auto|now intros l a ->|constructor|now exists [], tt].
    - assert (K2 : forall (V : log -> N -> Prop), forall l (x : unit), (exists sl m, V sl m /\ l = sl ++ oks w (ilint_calls m)) <->
        seq V (fun m => on (fun l => l = oks w (ilint_calls m))) l x).
      { intros V l x. unfold seq, on. split.
        - intros (sl & m & H & ->). exists sl, m, (oks w (ilint_calls m)). auto.
        - intros (sl & m & l2 & H & -> & ->). exists sl, m. auto. }
      split.
      + eapply does_iff; [apply K2|apply K2|]. eapply does_bind with (R1 := lt64) (R2 := any); [exact D|exact S| |]; intros m Hm.
        * apply does_calls. now apply makes_ilint.
        * apply sound_calls.
      + eapply sound_iff; [apply K2|apply K2|]. eapply sound_seq with (R1 := lt64); [exact S|]. intros m Hm. apply sound_calls. }
  destruct Dh as [Dh Sh]. split.
  - eapply does_iff; [apply K|apply K|]. eapply does_bind with (R1 := any) (R2 := any); [apply does_calls; now apply makes_ilint|apply sound_calls| |];
      intros [] _.
    + eapply does_bind with (R1 := any) (R2 := any); [exact Dh|exact Sh| |]; intros [] _; [exact Ds|exact Ss].
    + eapply sound_seq with (R1 := any); [exact Sh|]. intros [] _. exact Ss.
  - eapply sound_iff; [apply K|apply K|]. eapply sound_seq with (R1 := any); [apply sound_calls|]. intros [] _.
    eapply sound_seq with (R1 := any); [exact Sh|]. intros [] _. exact Ss.
Qed.
Lemma does_chain {A} (f : A -> W -> res tag_error unit * W) (P Q : A -> log -> Prop) l :
  Forall (fun x => does G c (f x) (on (P x)) (on (Q x)) /\ sound (on (P x)) (on (Q x)) any) l ->
  does G c (for_each l f) (on (chained P l)) (on (chained Q l)) /\ sound (on (chained P l)) (on (chained Q l)) any.
Proof.
  unfold for_each. induction 1 as [|x l [Dx Sx] _ [IHd IHs]].
  - cbn [fold_right chained]. split.
    + eapply does_iff; [| |apply (does_ret G c tt)]; intros lg []; unfold on; (split; [intros ->; auto|now intros [-> _]]).
    + constructor; unfold on; [auto|now intros lg a ->|constructor|now exists [], tt].
  - cbn [fold_right].
    assert (K : forall F lg y, on (chained F (x :: l)) lg y <-> seq (on (F x)) (fun _ => on (chained F l)) lg y).
    { intros F lg y. unfold on, seq. cbn [chained]. split.
      - intros (l1 & l2 & H1 & H2 & ->). exists l1, tt, l2. auto.
      - intros (l1 & [] & l2 & H1 & H2 & ->). exists l1, l2. auto. }
    split.
    + eapply does_iff; [apply K|apply K|]. eapply does_bind with (R1 := any) (R2 := any); auto.
    + eapply sound_iff; [apply K|apply K|]. eapply sound_seq with (R1 := any); auto.
Qed.
(** Written calls first. *)
Lemma does_after w calls m sv (P Q : log -> Prop) : makes (g_writer G w) TagIO m calls ->
  does G c sv (on P) (on Q) -> sound (on P) (on Q) any ->
  does G c (m ;;; sv) (on (fun l => exists l1, P l1 /\ l = oks w calls ++ l1)) (on (fun l => exists l1, Q l1 /\ l = oks w calls ++ l1)) /\
  sound (on (fun l => exists l1, P l1 /\ l = oks w calls ++ l1)) (on (fun l => exists l1, Q l1 /\ l = oks w calls ++ l1)) any.
Proof.
  intros Hm D S.
  assert (K : forall F l y, on (fun l => exists l1, F l1 /\ l = oks w calls ++ l1) l y <->
    seq (on (fun l => l = oks w calls)) (fun _ => on F) l y).
  { intros F l y. unfold on, seq. split.
    - intros (l1 & H & ->). exists (oks w calls), tt, l1. auto.
    - intros (l1 & [] & l2 & -> & H & ->). exists l2. auto. }
  split.
  - eapply does_iff; [apply K|apply K|]. eapply does_bind with (R1 := any) (R2 := any); auto; [now apply does_calls|apply sound_calls].
  - eapply sound_iff; [apply K|apply K|]. eapply sound_seq with (R1 := any); auto. apply sound_calls.
Qed.
Lemma chained_map {A B} (g : A -> B) (f : B -> log -> Prop) l lg : chained f (map g l) lg <-> chained (fun x => f (g x)) l lg.
Proof.
  revert lg. induction l as [|x l IH]; intros lg; [reflexivity|]. cbn [map chained]. split.
  - intros (l1 & l2 & H1 & H2 & E). exists l1, l2. split; [exact H1|]. split; [now apply IH|exact E].
  - intros (l1 & l2 & H1 & H2 & E). exists l1, l2. split; [exact H1|]. split; [now apply IH|exact E].
Qed.

Theorem does_serialize (HU : forall x u n u', g_size G x u = (Some n, u') -> n < two64) w t : ready t ->
  does G c (w_serialize G c w t) (on (serial wr w t)) (on (serial true w t)) /\
  sound (on (serial wr w t)) (on (serial true w t)) any.
Proof.
  unfold ready. induction t as [id v|x|id l IH|id l IH|id l IH] using otag_induction; intros R.
  - cbn [plain] in R. destruct R as [Wf L]. split; [|apply sound_calls]. apply does_calls. now apply (proj1 (serialize_makes_both _)).
  - cbn [w_serialize serial]. split.
    + constructor; unfold on.
      * intros u l u' [] H ->. apply ran_one_inv in H. exact H.
      * intros u y u' E. exists [ESer w x y]. split; [now apply ran_one|].
        assert (C : outcome (ESer w x y : event T) y -> cut c (fun (l : log) (_ : unit) => l = [ESer w x (Ok tt)]) [ESer w x y] y).
        { intros Ho. left. exists [], (ESer w x y), (ESer w x (Ok tt)), [], tt. split; [reflexivity|]. split; [constructor|].
          split; [exact Ho|]. split; [now split|reflexivity]. }
        destruct y as [[]|k| |]; [reflexivity|now apply C..].
    + constructor; unfold on; [auto| |constructor|now exists [ESer w x (Ok tt)], tt].
      intros l a ->. constructor; [reflexivity|constructor].
  - cbn [plain] in R. destruct R as (Hi & A). apply all_Forall in A.
    assert (F : Forall (fun t => does G c (w_size G c t) (sized wr t) (sized true t) /\ sound (sized wr t) (sized true t) lt64) l).
    { rewrite Forall_forall in *. intros t Ht. now apply does_size, A. }
    destruct (does_chain (w_serialize G c w) (serial wr w) (serial true w) l) as [Dc Sc].
    { rewrite Forall_forall in *. intros t Ht. now apply IH, A. }
    cbn [w_serialize serial]. apply does_headed; auto.
    + apply does_sum; [exact F|apply two64_pos].
    + apply sound_sum. eapply Forall_impl; [|exact F]. now intros t [_ K].
  - cbn [plain] in R. destruct R as (Hi & Hc & A). apply all_Forall in A.
    assert (F : Forall (fun t => does G c (w_size G c t) (sized wr t) (sized true t) /\ sound (sized wr t) (sized true t) lt64) l).
    { rewrite Forall_forall in *. intros t Ht. now apply does_size, A. }
    assert (F' : Forall (fun t => sound (sized wr t) (sized true t) lt64) l).
    { eapply Forall_impl; [|exact F]. now intros t [_ K]. }
    destruct (does_chain (w_serialize G c w) (serial wr w) (serial true w) l) as [Dc Sc].
    { rewrite Forall_forall in *. intros t Ht. now apply IH, A. }
    destruct (does_after w (ilint_calls (lenN l)) (a_serialize_ilint (g_writer G w) (lenN l)) _ _ _ (makes_ilint _ _ Hc) Dc Sc) as [Da Sa].
    cbn [w_serialize serial]. apply does_headed; auto.
    + apply does_counted; [exact Hc| |now apply sound_sum]. apply does_sum; [exact F|apply two64_pos].
    + now apply sound_sum.
  - cbn [plain] in R. destruct R as (Hi & Hc & Hd & Hk & A). apply all_Forall in A.
    assert (F : Forall (fun e => does G c (w_entry c (w_size G c) e) (entry_tot wr e) (entry_tot true e) /\
                                 sound (entry_tot wr e) (entry_tot true e) lt64) l).
    { rewrite Forall_forall in *. intros e He. destruct (does_size G c HU (snd e) (A e He)) as [D S]. apply does_entry; auto. }
    assert (F' : Forall (fun e => sound (entry_tot wr e) (entry_tot true e) lt64) l).
    { eapply Forall_impl; [|exact F]. now intros t [_ K]. }
    set (body := for_each (sort_unstable (map fst l)) (fun key =>
      match hm_get key (map (fun e => (fst e, w_serialize G c w (snd e))) l) with
      | Some value => a_serialize_string_tag (g_writer G w) key ;;; value
      | None => fail UnableToSerialize
      end)).
    set (part := fun wp (e : list N * otag T) lg => exists l2, serial wp w (snd e) l2 /\ lg = oks w (string_calls (fst e)) ++ l2).
    assert (Db : does G c body (on (chained (part wr) (sort_entries l))) (on (chained (part true) (sort_entries l))) /\
                 sound (on (chained (part wr) (sort_entries l))) (on (chained (part true) (sort_entries l))) any).
    { unfold body. rewrite sort_unstable_entries.
      assert (Eq : forall l', Forall (fun e => In e l) l' ->
        for_each (map fst l') (fun key =>
          match hm_get key (map (fun e => (fst e, w_serialize G c w (snd e))) l) with
          | Some value => a_serialize_string_tag (g_writer G w) key ;;; value
          | None => fail UnableToSerialize
          end) = for_each l' (fun e => a_serialize_string_tag (g_writer G w) (fst e) ;;; w_serialize G c w (snd e))).
      { unfold for_each. induction 1 as [|[k x] l' Hx _ IHl]; [reflexivity|]. cbn [map fold_right fst snd]. rewrite IHl.
        rewrite hm_get_map, (hm_get_in k x l Hd Hx). reflexivity. }
      assert (In' : Forall (fun e => In e l) (sort_entries l)).
      { apply Forall_forall. intros e He. eapply Permutation_in; [symmetry; apply sort_entries_perm|exact He]. }
      rewrite Eq by exact In'. apply does_chain. rewrite Forall_forall in *. intros e He. pose proof (In' e He) as Hl.
      destruct (IH e Hl (A e Hl)) as [De Se]. apply does_after; [|exact De|exact Se]. apply makes_string. apply enc_string_len. auto. }
    destruct Db as [Db Sb].
    destruct (does_after w (ilint_calls (lenN l)) (a_serialize_ilint (g_writer G w) (lenN l)) _ _ _ (makes_ilint _ _ Hc) Db Sb) as [Da Sa].
    cbn [w_serialize serial].
    assert (K : forall wp lg (y : unit),
      on (headed w id (entries_sized wp l) (fun log => exists l1,
        chained (fun e log => exists l2, snd e l2 /\ log = oks w (string_calls (fst e)) ++ l2)
          (sort_entries (map (fun e => (fst e, serial wp w (snd e))) l)) l1 /\ log = oks w (ilint_calls (lenN l)) ++ l1)) lg y <->
      on (headed w id (summed_to wp (lenN (ilint (lenN l))) (entry_tot wp) l)
        (fun log => exists l1, chained (part wp) (sort_entries l) l1 /\ log = oks w (ilint_calls (lenN l)) ++ l1)) lg y).
    { intros wp lg y. unfold on, headed.
      assert (K1 : forall l1, chained (fun e log => exists l2, snd e l2 /\ log = oks w (string_calls (fst e)) ++ l2)
          (sort_entries (map (fun e => (fst e, serial wp w (snd e))) l)) l1 <-> chained (part wp) (sort_entries l) l1).
      { intros l1. rewrite sort_entries_map, chained_map. reflexivity. }
      assert (K2 : forall lg n, entries_sized wp l lg n <-> summed_to wp (lenN (ilint (lenN l))) (entry_tot wp) l lg n).
      { intros lg' n. rewrite <- entries_tot. reflexivity. }
      split.
      - intros (hl & bl & E & (l1 & H1 & E1) & Hh). exists hl, bl. split; [exact E|]. split; [exists l1; split; [now apply K1|exact E1]|].
        destruct (id <=? 15); [exact Hh|]. destruct Hh as (sl & m & H & Eh). exists sl, m. split; [now apply K2|exact Eh].
      - intros (hl & bl & E & (l1 & H1 & E1) & Hh). exists hl, bl. split; [exact E|]. split; [exists l1; split; [now apply K1|exact E1]|].
        destruct (id <=? 15); [exact Hh|]. destruct Hh as (sl & m & H & Eh). exists sl, m. split; [now apply K2|exact Eh]. }
    destruct (does_headed w id (w_counted c (lenN l) (w_entries G c l)) (a_serialize_ilint (g_writer G w) (lenN l) ;;; body)
      (summed_to wr (lenN (ilint (lenN l))) (entry_tot wr) l) (summed_to true (lenN (ilint (lenN l))) (entry_tot true) l)
      (fun log => exists l1, chained (part wr) (sort_entries l) l1 /\ log = oks w (ilint_calls (lenN l)) ++ l1)
      (fun log => exists l1, chained (part true) (sort_entries l) l1 /\ log = oks w (ilint_calls (lenN l)) ++ l1)) as [Dh Sh]; auto.
    + apply does_counted; [exact Hc| |now apply sound_sum]. apply does_sum; [exact F|apply two64_pos].
    + now apply sound_sum.
    + split; [eapply does_iff; [apply K|apply K|exact Dh]|eapply sound_iff; [apply K|apply K|exact Sh]].
Qed.
End Serialize.

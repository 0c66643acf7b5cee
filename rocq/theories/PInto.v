(** What a failed deserialize_into leaves in the object: C77. *)
From Verif Require Import Base BaseFacts Types Spec SpecFacts IO IOSpec IOFacts Logic ILInt ILIntFacts Data DataFacts Tags
  TagsFacts Factory FactoryFacts DecodeFacts DeserFacts IntoFacts EngineFacts WireFacts StableFacts SortFacts FromFacts ClosedFacts
  ConsumeFacts PTags PLimits.

(** ** Specification
    [partial mk v0 n bs v]: a struct with the contents [v0] whose payload was
    declared as [n] bytes may hold [v] after a failure, the first bytes taken
    from the payload being [bs].
    - the contents may be those from before the call;
    - a byte vector has been resized to the declared size (with zeros) and
      starts with the bytes received; a BIN128 has only been overwritten;
    - lists hold exactly the items read so far, dictionaries the entries read
      so far, the last one for a key;
    - ranges, versions and decimals have their first fields replaced.
    No other type is ever changed, but for ILInts under an id of their own that
    are followed by excess bytes. *)
Inductive partial (mk : N -> option (N * kind)) : value -> N -> list N -> value -> Prop :=
| L_same v n bs : partial mk v n bs v
| L_bin128 old got : lenN got <= 16 -> partial mk (VBin128 old) 16 got (VBin128 (got ++ dropN (lenN got) old))
| L_raw old n got : lenN got <= n -> partial mk (VRaw old) n got (VRaw (got ++ dropN (lenN got) (resizeN n 0 old)))
| L_bytes old n got : lenN got <= n -> partial mk (VBytes old) n got (VBytes (got ++ dropN (lenN got) (resizeN n 0 old)))
| L_bigint old n got : lenN got <= n -> partial mk (VBigInt old) n got (VBigInt (got ++ dropN (lenN got) (resizeN n 0 old)))
| L_bigdec s0 old n sb got : lenN sb = 4 -> 4 + lenN got <= n ->
    partial mk (VBigDec s0 old) n (sb ++ got)
      (VBigDec (to_signed W32 (be_value sb)) (got ++ dropN (lenN got) (resizeN (n - 4) 0 old)))
| L_ilint v0 n v bs : ilint_repr v bs -> lenN bs < n -> partial mk (VILInt v0) n bs (VILInt v)
| L_silint z0 n z bs : i64_range z -> ilint_repr (zigzag z) bs -> lenN bs < n -> partial mk (VSILInt z0) n bs (VSILInt z)
| L_ilintarray l0 n c cb l ib : ilint_repr c cb -> c <= n -> ilints l ib ->
    (lenN l < c \/ lenN l = c /\ lenN (cb ++ ib) < n) ->
    partial mk (VILIntArray l0) n (cb ++ ib) (VILIntArray l)
| L_oid l0 n c cb l ib : ilint_repr c cb -> c <= n -> ilints l ib ->
    (lenN l < c \/ lenN l = c /\ lenN (cb ++ ib) < n) ->
    partial mk (VOID l0) n (cb ++ ib) (VOID l)
| L_seq l0 n l body : wires mk body l -> lenN body < n -> partial mk (VSeq l0) n body (VSeq l)
| L_arr l0 n c cb l body : ilint_repr c cb -> c <= n -> wires mk body l ->
    (lenN l < c \/ lenN l = c /\ lenN (cb ++ body) < n) ->
    partial mk (VArr l0) n (cb ++ body) (VArr l)
| L_range_first s0 c0 n s sb : ilint_repr s sb -> partial mk (VRange s0 c0) n sb (VRange s c0)
| L_range_both s0 c0 n s sb cb : ilint_repr s sb -> lenN cb = 2 -> lenN (sb ++ cb) < n ->
    partial mk (VRange s0 c0) n (sb ++ cb) (VRange s (be_value cb))
| L_version a0 b0 c0 d0 ws a b c d : (length ws < 4)%nat -> Forall (fun w : list N => lenN w = 4) ws ->
    [a; b; c; d] = map (fun w => to_signed W32 (be_value w)) ws ++ skipn (length ws) [a0; b0; c0; d0] ->
    partial mk (VVersion a0 b0 c0 d0) 16 (concat ws) (VVersion a b c d)
| L_dict l0 n c cb es body : ilint_repr c cb -> wire_entries mk body es ->
    (lenN es < c \/ lenN es = c /\ lenN (cb ++ body) < n) ->
    partial mk (VDict l0) n (cb ++ body) (VDict (dict_of es))
| L_strdict l0 n c cb es body : ilint_repr c cb -> wire_strings body es ->
    (lenN es < c \/ lenN es = c /\ lenN (cb ++ body) < n) ->
    partial mk (VStrDict l0) n (cb ++ body) (VStrDict (dict_of es)).

(** ** Failed methods
    What [m] leaves in the struct: [K] after a success that took [bs], [F]
    after a failure that took [bs] and possibly more. *)
Definition leaves {S A} (m : method S A) (s : S) (r : reader) (F : list N -> S -> Prop) (K : A -> list N -> S -> Prop) : Prop :=
  forall x s' r', m (s, r) = (x, (s', r')) ->
  match x with
  | Ok a => exists bs, delivers r bs r' /\ K a bs s'
  | _ => exists bs more, moved false r (bs ++ more) r' /\ F bs s'
  end.
Lemma leaves_bind {S A B} (m : method S A) (f : A -> method S B) s r (F : list N -> S -> Prop) (K : A -> list N -> S -> Prop) (K2 : B -> list N -> S -> Prop) :
  rwf r -> leaves m s r F K ->
  (forall a bs s1 r1, delivers r bs r1 -> rwf r1 -> K a bs s1 ->
     leaves (f a) s1 r1 (fun b2 s' => F (bs ++ b2) s') (fun c b2 s' => K2 c (bs ++ b2) s')) ->
  leaves (bind m f) s r F K2.
Proof.
  intros W Hm Hf x s' r'. unfold bind. destruct (m (s, r)) as [y [s1 r1]] eqn:E1. pose proof (Hm _ _ _ E1) as H1.
  destruct y as [a|err| |].
  2-4: intros H; apply pair_inv in H as [<- H]; apply pair_inv in H as [<- <-]; exact H1.
  destruct H1 as (bs & D & Ka). destruct (delivers_rwf _ _ _ W D) as [W1 _]. intros E2.
  pose proof (Hf a bs s1 r1 D W1 Ka _ _ _ E2) as H2. destruct x as [c|err| |].
  1:{ destruct H2 as (b2 & D2 & Kc). exists (bs ++ b2). split; [eapply delivers_trans; eauto|exact Kc]. }
  all: destruct H2 as (b2 & more & M2 & Fb); exists (bs ++ b2), more; (split; [|exact Fb]); rewrite <- app_assoc;
    eapply moved_trans; [apply moved_delivers; exact D|exact M2].
Qed.
Lemma leaves_on_reader {S A} (m : reader -> res tag_error A * reader) (P : A -> list N -> Prop) (s : S) r (F : list N -> S -> Prop) :
  rwf r -> sound m P -> Rmoves _ _ m -> F [] s -> leaves (on_reader m) s r F (fun a bs s' => P a bs /\ s' = s).
Proof.
  intros W Sm Mv Fs x s' r'. unfold on_reader. destruct (m r) as [y r1] eqn:E. intros H.
  apply pair_inv in H as [<- H]. apply pair_inv in H as [<- <-].
  destruct y as [a|err| |].
  1:{ destruct (Sm _ _ _ W E) as (bs & Pa & D). exists bs. auto. }
  all: destruct (Mv _ _ _ W E) as (bs & M); exists [], bs; split; [exact M|exact Fs].
Qed.
Lemma leaves_modify {S} (f : S -> S) s r (F : list N -> S -> Prop) : leaves (modify f) s r F (fun _ bs s' => bs = [] /\ s' = f s).
Proof. intros x s' r' H. apply modify_ok in H as (-> & -> & ->). exists []. split; [apply delivers_refl|auto]. Qed.
Lemma leaves_guard {S} (c : bool) e (s : S) r (F : list N -> S -> Prop) : F [] s ->
  leaves (if c then fail e else ret tt) s r F (fun _ bs s' => c = false /\ bs = [] /\ s' = s).
Proof.
  intros Fs x s' r'. destruct c; intros H; apply pair_inv in H as [<- H]; apply pair_inv in H as [<- <-].
  - exists [], []. split; [apply moved_refl|exact Fs].
  - exists []. split; [apply delivers_refl|auto].
Qed.
Lemma leaves_check {S} n k (s : S) r (F : list N -> S -> Prop) : F [] s ->
  leaves (check_size n k) s r F (fun _ bs s' => n = k /\ bs = [] /\ s' = s).
Proof.
  intros Fs x s' r'. unfold check_size. destruct (N.eqb_spec n k); intros H; apply pair_inv in H as [<- H]; apply pair_inv in H as [<- <-].
  - exists []. split; [apply delivers_refl|auto].
  - exists [], []. split; [apply moved_refl|exact Fs].
Qed.
Lemma leaves_ensure_empty {S} e (s : S) r (F : list N -> S -> Prop) : (limit_empty r = false -> F [] s) ->
  leaves (limited_reader_ensure_empty e) s r F (fun _ bs s' => True).
Proof.
  intros Fs x s' r'. unfold limited_reader_ensure_empty. cbn [snd]. intros H. apply pair_inv in H as [<- H]. apply pair_inv in H as [<- <-].
  destruct (limit_empty r).
  - exists []. split; [apply delivers_refl|auto].
  - exists [], []. split; [apply moved_refl|auto].
Qed.
Lemma leaves_weaken {S A} (m : method S A) s r (F F' : list N -> S -> Prop) (K K' : A -> list N -> S -> Prop) :
  leaves m s r F K -> (forall bs s', F bs s' -> F' bs s') -> (forall a bs s', K a bs s' -> K' a bs s') -> leaves m s r F' K'.
Proof.
  intros H HF HK x s' r' E. pose proof (H _ _ _ E) as Q. destruct x.
  1:{ destruct Q as (bs & D & Q). eauto. }
  all: destruct Q as (bs & more & D & Q); eauto.
Qed.
Lemma leaves_limited {S A} n (m : method S A) s r (F : list N -> S -> Prop) (K : A -> list N -> S -> Prop) :
  leaves m s (RLimited r n) F K -> leaves (limited n m) s r F K.
Proof.
  intros H x s' r'. unfold limited, LimitedReader_new. destruct (m (s, RLimited r n)) as [y [s1 r1]] eqn:E. intros H1.
  apply pair_inv in H1 as [<- H1]. apply pair_inv in H1 as [<- <-]. pose proof (H _ _ _ E) as Q. destruct y.
  1:{ destruct Q as (bs & D & Q). destruct (delivers_limited _ _ _ _ D) as (_ & D' & _). eauto. }
  all: destruct Q as (bs & more & D & Q); exists bs, more; split; [|exact Q]; destruct r1; cbn [moved unlimit] in *; tauto.
Qed.
(** Loops: the items read so far. *)
Lemma leaves_repeat {S A} (m : reader -> res tag_error A * reader) (R : A -> list N -> Prop) (store : A -> S -> S) :
  sound m R -> Rmoves _ _ m -> forall fuel count s r, rwf r ->
  leaves (repeat_read fuel m store count) s r
    (fun bs s' => exists l, chain R l bs /\ lenN l < count /\ s' = fold_left (fun s a => store a s) l s)
    (fun _ bs s' => exists l, chain R l bs /\ lenN l = count /\ s' = fold_left (fun s a => store a s) l s).
Proof.
  intros Sm Mv. induction fuel as [|f IH]; intros count s r W; cbn [repeat_read].
  - destruct (N.eqb_spec count 0) as [->|Hc]; intros x s' r' H; apply pair_inv in H as [<- H]; apply pair_inv in H as [<- <-].
    + exists []. split; [apply delivers_refl|]. exists []. repeat split. constructor.
    + exists [], []. split; [apply moved_refl|]. exists []. split; [constructor|]. split; [rewrite lenN_nil; lia|reflexivity].
  - destruct (N.eqb_spec count 0) as [->|Hc].
    { intros x s' r' H; apply pair_inv in H as [<- H]; apply pair_inv in H as [<- <-].
      exists []. split; [apply delivers_refl|]. exists []. repeat split. constructor. }
    eapply leaves_bind; [exact W|apply (leaves_on_reader m R); [exact W|exact Sm|exact Mv|]|].
    { exists []. split; [constructor|]. split; [rewrite lenN_nil; lia|reflexivity]. }
    intros a bs s1 r1 D W1 (Ra & ->). eapply leaves_bind; [exact W1|apply leaves_modify|].
    intros _ b2 s2 r2 D2 W2 (-> & ->). eapply leaves_weaken; [exact (IH (count - 1) _ r2 W2)| |]; cbv beta.
    + intros b3 s3 (l & C & L & ->). exists (a :: l). split; [cbn [app]; now constructor|]. split; [rewrite lenN_cons; lia|reflexivity].
    + intros _ b3 s3 (l & C & L & ->). exists (a :: l). split; [cbn [app]; now constructor|]. split; [rewrite lenN_cons; lia|reflexivity].
Qed.
Lemma leaves_while {S A} (m : reader -> res tag_error A * reader) (R : A -> list N -> Prop) (store : A -> S -> S) :
  sound m R -> Rmoves _ _ m -> forall fuel s r, rwf r ->
  leaves (while_read fuel m store) s r
    (fun bs s' => exists l r1, chain R l bs /\ delivers r bs r1 /\ limit_empty r1 = false /\ s' = fold_left (fun s a => store a s) l s)
    (fun _ bs s' => True).
Proof.
  intros Sm Mv. induction fuel as [|f IH]; intros s r W; cbn [while_read].
  - intros x s' r'. cbn [snd]. destruct (limit_empty r) eqn:Em; intros H; apply pair_inv in H as [<- H]; apply pair_inv in H as [<- <-].
    + exists []. split; [apply delivers_refl|exact I].
    + exists [], []. split; [apply moved_refl|]. exists [], r. split; [constructor|]. split; [apply delivers_refl|auto].
  - intros x s' r'. cbn [snd]. destruct (limit_empty r) eqn:Em.
    { intros H; apply pair_inv in H as [<- H]; apply pair_inv in H as [<- <-]. exists []. split; [apply delivers_refl|exact I]. }
    revert x s' r'.
    change (leaves (x <- on_reader m ;; modify (store x) ;;; while_read f m store) s r
      (fun bs s' => exists l r1, chain R l bs /\ delivers r bs r1 /\ limit_empty r1 = false /\ s' = fold_left (fun s a => store a s) l s)
      (fun _ bs s' => True)).
    eapply leaves_bind; [exact W|apply (leaves_on_reader m R); [exact W|exact Sm|exact Mv|]|].
    { exists [], r. split; [constructor|]. split; [apply delivers_refl|auto]. }
    intros a bs s1 r1 D W1 (Ra & ->). eapply leaves_bind; [exact W1|apply leaves_modify|].
    intros _ b2 s2 r2 D2 W2 (-> & ->). eapply leaves_weaken; [exact (IH _ r2 W2)| |]; cbv beta.
    + intros b3 s3 (l & r3 & C & D3 & Em3 & ->). exists (a :: l), r3. split; [cbn [app]; now constructor|].
      split; [|auto]. eapply delivers_trans; [exact D|]. eapply delivers_trans; eauto.
    + auto.
Qed.

(** ** Every type *)
Lemma moved_bytes ok r bs r' : rwf r -> moved ok r bs r' -> bytes_ok bs.
Proof.
  assert (P : forall d : list N, bytes_ok d -> forall o, prefix bs (dropN o d) -> bytes_ok bs).
  { intros d B o [q H]. pose proof (Forall_dropN _ o _ B) as Bd. rewrite H in Bd. now apply bytes_ok_app in Bd. }
  revert r'; induction r as [a o|v o|s IH n|d sc|s|sc]; intros r' W; destruct r'; cbn [moved rwf] in *; try contradiction.
  - intros (_ & _ & H). destruct W as [B _]. eauto.
  - intros (_ & _ & H). destruct W as [B _]. eauto.
  - intros (_ & _ & _ & H). eauto.
  - intros ->. now apply bytes_ok_app in W.
  - intros (_ & _ & H). eauto.
  - intros (calls & -> & ->). apply Forall_app in W as [W _]. clear -W. unfold served.
    induction calls as [|[err|b] calls IH]; cbn [flat_map app]; [constructor|..]; inversion W as [|c l Hb Hl]; subst.
    + now apply IH.
    + constructor; [exact Hb|now apply IH].
Qed.
Lemma leaves_in_place s r : rwf r ->
  leaves in_place s r (fun got s' => lenN got <= lenN s /\ s' = got ++ dropN (lenN got) s) (fun _ _ _ => True).
Proof.
  intros W x s' r'. unfold in_place. destruct (into_slice s r) as [[y v] r1] eqn:E. intros H.
  apply pair_inv in H as [<- H]. apply pair_inv in H as [<- <-].
  destruct (into_slice_spec _ _ _ _ _ W E) as (_ & _ & _ & _ & _ & Hok).
  unfold into_slice in E. destruct (read_all (lenN s) r) as [[z got] r2] eqn:Er.
  destruct (read_all_moved _ _ _ _ _ W Er) as (Mv & Lg & _).
  apply pair_inv in E as [E <-]. apply pair_inv in E as [<- <-].
  destruct z as [[]|err| |]; cbn [map_err is_ok] in *.
  1:{ destruct (Hok eq_refl) as [_ D]. exists (got ++ dropN (lenN got) s). auto. }
  all: exists got, []; rewrite app_nil_r; auto.
Qed.

Lemma leaves_raw n s r : rwf r ->
  leaves (raw_deserialize n) s r (fun got s' => lenN got <= n /\ s' = got ++ dropN (lenN got) (resizeN n 0 s)) (fun _ _ _ => True).
Proof.
  intros W. pose proof (leaves_in_place (resizeN n 0 s) r W) as H. rewrite lenN_resizeN in H. exact H.
Qed.
Lemma leaves_counted {A B} (m : reader -> res tag_error A * reader) (R : A -> list N -> Prop) (store : A -> list B -> list B)
  (g : N -> bool) n s r :
  sound m R -> Rmoves _ _ m -> rwf r ->
  leaves (limited n (
    count <- on_reader deserialize_ilint ;;
    (if g count then fail CorruptedData else ret tt) ;;;
    modify (fun _ => []) ;;;
    fuelled (fun f => repeat_read f m store count) ;;;
    limited_reader_ensure_empty CorruptedData)) s r
    (fun bs s' => s' = s \/ exists c cb l body, bs = cb ++ body /\ ilint_repr c cb /\ g c = false /\ chain R l body /\
       (lenN l < c \/ lenN l = c /\ lenN (cb ++ body) < n) /\ s' = fold_left (fun s a => store a s) l [])
    (fun _ _ _ => True).
Proof.
  intros Sm Mv W. apply leaves_limited.
  assert (W0 : rwf (RLimited r n)) by exact W.
  eapply leaves_bind; [exact W0|apply (leaves_on_reader _ _ _ _ _ W0 sound_deserialize_ilint (cl_ilint _ _ closed_moves)); now left|].
  intros c cb s1 r1 D1 W1 (Rc & ->).
  eapply leaves_bind; [exact W1|apply leaves_guard; now left|].
  intros _ b2 s2 r2 D2 W2 (Hg & -> & ->).
  eapply leaves_bind; [exact W2|apply leaves_modify|].
  intros _ b3 s3 r3 D3 W3 (-> & ->).
  eapply leaves_bind; [exact W3|unfold fuelled; eapply leaves_weaken; [exact (leaves_repeat m R store Sm Mv _ c [] r3 W3)| |]|].
  - intros bs s' (l & C & L & ->). right. exists c, cb, l, bs. cbn [app]. auto 10.
  - intros a bs s' H. exact H.
  - intros _ b4 s4 r4 D4 W4 (l & C & L & ->). apply leaves_ensure_empty. intros Em. right. exists c, cb, l, b4.
    cbn [app]. rewrite app_nil_r. split; [reflexivity|]. split; [exact Rc|]. split; [exact Hg|]. split; [exact C|]. split; [|reflexivity].
    right. split; [exact L|].
    assert (D : delivers (RLimited r n) (cb ++ b4) r4).
    { eapply delivers_trans; [exact D1|]. exact (delivers_trans _ _ _ _ _ D2 (delivers_trans _ _ _ _ _ D3 D4)). }
    destruct (delivers_limited _ _ _ _ D) as (Le & _ & He).
    destruct (N.eq_dec (lenN (cb ++ b4)) n) as [Eq|]; [|lia]. apply He in Eq. congruence.
Qed.
Lemma run_leaves {S} (m : method S unit) s mkv r (F : list N -> S -> Prop) (K : unit -> list N -> S -> Prop) x v r' :
  leaves m s r F K -> run m s mkv r = (x, v, r') -> x <> Ok tt ->
  exists bs more s', moved false r (bs ++ more) r' /\ F bs s' /\ v = mkv s'.
Proof.
  intros H E Hx. apply run_inv in E as (s' & E & ->). pose proof (H _ _ _ E) as Q.
  destruct x as [[]|err| |]; [congruence|..]; destruct Q as (bs & more & M & Q); eauto 6.
Qed.

Section Failed.
Variables (mk : N -> option (N * kind)) (deser : reader -> res tag_error tag * reader).
Hypothesis Hsound : sound deser (fun t bs => wire mk bs t).
Hypothesis Hmoves : Rmoves _ _ deser.

Lemma moves_sint w : Rmoves _ _ (deserialize_sint w).
Proof. exact (cl_sint _ _ closed_moves w). Qed.
Lemma moves_entry : Rmoves _ _ (k <- deserialize_string_tag_from_value ;; t <- deser ;; ret (k, t)).
Proof.
  apply (c_bind _ _ closed_moves); [exact (cl_string _ _ closed_moves)|]. intros k.
  apply (c_bind _ _ closed_moves); [exact Hmoves|]. intros t. apply (cl_ret _ _ closed_moves).
Qed.
Lemma moves_sentry :
  Rmoves _ _ (k <- deserialize_string_tag_from_value ;; v <- deserialize_string_tag_from_value ;; ret (k, v)).
Proof.
  apply (c_bind _ _ closed_moves); [exact (cl_string _ _ closed_moves)|]. intros k.
  apply (c_bind _ _ closed_moves); [exact (cl_string _ _ closed_moves)|]. intros t. apply (cl_ret _ _ closed_moves).
Qed.
Lemma leaves_range n s r : rwf r ->
  leaves (range_deserialize n) s r
    (fun bs s' => s' = s \/ (exists a, ilint_repr a bs /\ s' = (a, snd s)) \/
       exists a ab cb, bs = ab ++ cb /\ ilint_repr a ab /\ lenN cb = 2 /\ lenN bs < n /\ s' = (a, be_value cb))
    (fun _ _ _ => True).
Proof.
  intros W. apply leaves_limited. assert (W0 : rwf (RLimited r n)) by exact W.
  eapply leaves_bind; [exact W0|apply (leaves_on_reader _ _ _ _ _ W0 sound_deserialize_ilint (cl_ilint _ _ closed_moves)); now left|].
  intros a ab s1 r1 D1 W1 (Ra & ->).
  eapply leaves_bind; [exact W1|apply leaves_modify|].
  intros _ b2 s2 r2 D2 W2 (-> & ->).
  eapply leaves_bind; [exact W2|apply (leaves_on_reader _ _ _ _ _ W2 (sound_deserialize_uint W16) (cl_uint _ _ closed_moves W16))|].
  { right. left. exists a. cbn [app]. rewrite app_nil_r. auto. }
  intros c cb s3 r3 D3 W3 ((-> & Lc) & ->).
  eapply leaves_bind; [exact W3|apply leaves_modify|].
  intros _ b4 s4 r4 D4 W4 (-> & ->). apply leaves_ensure_empty. intros Em. right. right. exists a, ab, cb.
  cbn [app]. rewrite app_nil_r. split; [reflexivity|]. split; [exact Ra|]. split; [unfold lenN; now rewrite Lc|]. split; [|reflexivity].
  assert (D : delivers (RLimited r n) (ab ++ cb) r4).
  { eapply delivers_trans; [exact D1|]. eapply (delivers_trans _ [] _ cb); [exact D2|].
    replace cb with (cb ++ []) by apply app_nil_r. eapply delivers_trans; eauto. }
  destruct (delivers_limited _ _ _ _ D) as (Le & _ & He).
  destruct (N.eq_dec (lenN (ab ++ cb)) n) as [Eq|]; [|lia]. apply He in Eq. congruence.
Qed.
Lemma leaves_version n a0 b0 c0 d0 r : rwf r ->
  leaves (version_deserialize n) (a0, b0, c0, d0) r
    (fun bs s' => s' = (a0, b0, c0, d0) \/ n = 16 /\ exists ws, bs = concat ws /\ (length ws < 4)%nat /\ Forall (fun w : list N => lenN w = 4) ws /\
       (let '(a, b, c, d) := s' in [a; b; c; d] = map (fun w => to_signed W32 (be_value w)) ws ++ skipn (length ws) [a0; b0; c0; d0]))
    (fun _ _ _ => True).
Proof.
  intros W. eapply leaves_bind; [exact W|apply leaves_check; now left|].
  intros _ b1 s1 r1 D1 W1 (-> & -> & ->).
  eapply leaves_bind; [exact W1|apply (leaves_on_reader _ _ _ _ _ W1 (sound_deserialize_sint W32) (moves_sint W32)); now left|].
  intros a ab s2 r2 D2 W2 ((-> & La) & ->). eapply leaves_bind; [exact W2|apply leaves_modify|].
  intros _ e1 s3 r3 D3 W3 (-> & ->).
  eapply leaves_bind; [exact W3|apply (leaves_on_reader _ _ _ _ _ W3 (sound_deserialize_sint W32) (moves_sint W32))|].
  { right. split; [reflexivity|]. exists [ab]. cbn [app concat length map skipn]. rewrite !app_nil_r. split; [reflexivity|]. split; [lia|].
    split; [repeat constructor; unfold lenN; now rewrite La|reflexivity]. }
  intros b bb s4 r4 D4 W4 ((-> & Lb) & ->). eapply leaves_bind; [exact W4|apply leaves_modify|].
  intros _ e2 s5 r5 D5 W5 (-> & ->).
  eapply leaves_bind; [exact W5|apply (leaves_on_reader _ _ _ _ _ W5 (sound_deserialize_sint W32) (moves_sint W32))|].
  { right. split; [reflexivity|]. exists [ab; bb]. cbn [app concat length map skipn]. rewrite !app_nil_r. split; [reflexivity|]. split; [lia|].
    split; [repeat constructor; unfold lenN; now rewrite ?La, ?Lb|reflexivity]. }
  intros c cb s6 r6 D6 W6 ((-> & Lc) & ->). eapply leaves_bind; [exact W6|apply leaves_modify|].
  intros _ e3 s7 r7 D7 W7 (-> & ->).
  eapply leaves_bind; [exact W7|apply (leaves_on_reader _ _ _ _ _ W7 (sound_deserialize_sint W32) (moves_sint W32))|].
  { right. split; [reflexivity|]. exists [ab; bb; cb]. cbn [app concat length map skipn]. rewrite !app_nil_r. split; [reflexivity|]. split; [lia|].
    split; [repeat constructor; unfold lenN; now rewrite ?La, ?Lb, ?Lc|reflexivity]. }
  intros d db s8 r8 D8 W8 ((-> & Ld) & ->). eapply leaves_weaken; [apply leaves_modify|intros bs s' H; exact H|auto].
Qed.
Lemma leaves_bigdec n s r : rwf r ->
  leaves (bigdec_deserialize n) s r
    (fun bs s' => s' = s \/ exists sb got, bs = sb ++ got /\ lenN sb = 4 /\ 4 + lenN got <= n /\
       s' = (to_signed W32 (be_value sb), got ++ dropN (lenN got) (resizeN (n - 4) 0 (snd s))))
    (fun _ _ _ => True).
Proof.
  intros W. eapply leaves_bind; [exact W|apply leaves_guard; now left|].
  intros _ b1 s1 r1 D1 W1 (G & -> & ->).
  eapply leaves_bind; [exact W1|apply (leaves_on_reader _ _ _ _ _ W1 (sound_deserialize_sint W32) (moves_sint W32)); now left|].
  intros a sb s2 r2 D2 W2 ((-> & La) & ->). eapply leaves_bind; [exact W2|apply leaves_modify|].
  intros _ e1 s3 r3 D3 W3 (-> & ->). intros x [z s'] r'. unfold on_snd.
  destruct (raw_deserialize (n - 4) (snd s, r3)) as [y [t r4]] eqn:E. intros H. apply pair_inv in H as [<- H].
  apply pair_inv in H as [H <-]. apply pair_inv in H as [<- <-].
  pose proof (leaves_raw (n - 4) (snd s) r3 W3 _ _ _ E) as Q. apply N.ltb_ge in G. destruct y as [[]|err| |].
  1:{ destruct Q as (bs & D & _). eauto. }
  all: destruct Q as (bs & more & M & Lg & ->); exists bs, more; split; [exact M|]; right; exists sb, bs; cbn [app];
    repeat split; [unfold lenN; now rewrite La|lia].
Qed.

Lemma value_failed v0 n r x v r' :
  rwf r -> shape v0 -> deserialize_value deser v0 n r = (x, v, r') -> x <> Ok tt ->
  exists bs more, moved false r (bs ++ more) r' /\ partial mk v0 n bs v.
Proof.
  intros W Sh E Hx.
  assert (Same : forall id, read_at_once (Tag id v0) -> exists bs more, moved false r (bs ++ more) r' /\ partial mk v0 n bs v).
  { intros id Ho. rewrite (failed_value _ id _ _ _ _ _ _ Ho E Hx).
    pose proof (cl_value _ _ closed_moves deser Hmoves v0 n (fun x v' => map_ok (fun _ => v') x)) as Q.
    assert (Q' : Rmoves _ _ (fun r => let '(x, v', r') := deserialize_value deser v0 n r in (map_ok (fun _ => v') x, r')))
      by (apply Q; now intros [a|err| |] v').
    destruct (Q' r (map_ok (fun _ => v) x) r' W) as [bs Mb]; [now rewrite E|].
    exists [], bs. split; [|apply L_same]. destruct x as [[]|err| |]; [congruence|exact Mb..]. }
  destruct v0 as [|b0|w u0|w z0|u0|u0|l0|u0|z0|l0|l0|l0|l0|z0 l0|l0|l0|l0|u0 u1|z0 z1 z2 z3|l0|l0|l0];
    try (apply (Same 10); exact I); try (apply (Same 10); now left); clear Same; cbn [deserialize_value] in E.
  - (* bin128 *) unfold bin128_deserialize in E.
    assert (H : leaves (check_size n 16 ;;; in_place) l0 r
      (fun bs s' => s' = l0 \/ n = 16 /\ lenN bs <= 16 /\ s' = bs ++ dropN (lenN bs) l0) (fun _ _ _ => True)).
    { eapply leaves_bind; [exact W|apply leaves_check; now left|]. intros _ b1 s1 r1 D1 W1 (-> & -> & ->).
      eapply leaves_weaken; [exact (leaves_in_place l0 r1 W1)| |auto]. intros bs s' (L & ->). right.
      cbn [shape] in Sh. rewrite Sh in L. auto. }
    destruct (run_leaves _ _ _ _ _ _ _ _ _ H E Hx) as (bs & more & s' & M & [->|(-> & L & ->)] & ->).
    + exists bs, more. split; [exact M|apply L_same].
    + exists bs, more. split; [exact M|now apply L_bin128].
  - (* raw *) destruct (run_leaves _ _ _ _ _ _ _ _ _ (leaves_raw n l0 r W) E Hx) as (bs & more & s' & M & (L & ->) & ->).
    exists bs, more. split; [exact M|now apply L_raw].
  - destruct (run_leaves _ _ _ _ _ _ _ _ _ (leaves_raw n l0 r W) E Hx) as (bs & more & s' & M & (L & ->) & ->).
    exists bs, more. split; [exact M|now apply L_bytes].
  - destruct (run_leaves _ _ _ _ _ _ _ _ _ (leaves_raw n l0 r W) E Hx) as (bs & more & s' & M & (L & ->) & ->).
    exists bs, more. split; [exact M|now apply L_bigint].
  - destruct (run_leaves _ _ _ _ _ _ _ _ _ (leaves_bigdec n (z0, l0) r W) E Hx)
      as (bs & more & s' & M & [->|(sb & got & -> & L & Lg & ->)] & ->).
    + exists bs, more. split; [exact M|apply L_same].
    + exists (sb ++ got), more. split; [exact M|now apply L_bigdec].
  - destruct (run_leaves _ _ _ _ _ _ _ _ _ (leaves_counted _ _ push (fun c => n <? c) n l0 r sound_deserialize_ilint (cl_ilint _ _ closed_moves) W) E Hx)
      as (bs & more & s' & M & [->|(c & cb & l & body & -> & Rc & G & C & L & ->)] & ->).
    + exists bs, more. split; [exact M|apply L_same].
    + exists (cb ++ body), more. split; [exact M|]. rewrite fold_push. cbn [app].
      apply (L_ilintarray _ _ _ c); auto using chain_ilints. now apply N.ltb_ge.
  - (* seq *)
    assert (H : leaves (seq_deserialize deser n) l0 r
      (fun bs s' => exists l, wires mk bs l /\ lenN bs < n /\ s' = l) (fun _ _ _ => True)).
    { apply leaves_limited. assert (W0 : rwf (RLimited r n)) by exact W.
      eapply leaves_bind; [exact W0|apply leaves_modify|].
      intros _ b1 s1 r1 D1 W1 (-> & ->). unfold fuelled.
      eapply leaves_weaken; [exact (leaves_while deser _ push Hsound Hmoves _ [] r1 W1)| |auto].
      cbv beta. intros bs s' (l & r2 & C & D & Em & ->). cbn [app]. exists l. split; [now apply chain_wires|].
      split; [|now rewrite fold_push].
      destruct (delivers_limited _ _ _ _ (delivers_trans _ _ _ _ _ D1 D)) as (Le & _ & He). cbn [app] in *.
      destruct (N.eq_dec (lenN bs) n) as [Eq|]; [|lia]. apply He in Eq. congruence. }
    destruct (run_leaves _ _ _ _ _ _ _ _ _ H E Hx) as (bs & more & s' & M & (l & Ws & L & ->) & ->).
    exists bs, more. split; [exact M|now apply L_seq].
  - destruct (run_leaves _ _ _ _ _ _ _ _ _ (leaves_counted _ _ push (fun c => n <? c) n l0 r Hsound Hmoves W) E Hx)
      as (bs & more & s' & M & [->|(c & cb & l & body & -> & Rc & G & C & L & ->)] & ->).
    + exists bs, more. split; [exact M|apply L_same].
    + exists (cb ++ body), more. split; [exact M|]. rewrite fold_push. cbn [app].
      apply (L_arr _ _ _ c); auto using chain_wires. now apply N.ltb_ge.
  - destruct (run_leaves _ _ _ _ _ _ _ _ _ (leaves_range n (u0, u1) r W) E Hx)
      as (bs & more & s' & M & [->|[(a & Ra & ->)|(a & ab & cb & -> & Ra & Lc & L & ->)]] & ->); cbn [fst snd].
    + exists bs, more. split; [exact M|apply L_same].
    + exists bs, more. split; [exact M|now apply L_range_first].
    + exists (ab ++ cb), more. split; [exact M|now apply L_range_both].
  - destruct (run_leaves _ _ _ _ _ _ _ _ _ (leaves_version n z0 z1 z2 z3 r W) E Hx)
      as (bs & more & [[[a b] c] d] & M & [[= -> -> -> ->]|(-> & ws & -> & Lw & Fw & Eq)] & ->).
    + exists bs, more. split; [exact M|apply L_same].
    + exists (concat ws), more. split; [exact M|now apply L_version].
  - destruct (run_leaves _ _ _ _ _ _ _ _ _ (leaves_counted _ _ push (fun c => n <? c) n l0 r sound_deserialize_ilint (cl_ilint _ _ closed_moves) W) E Hx)
      as (bs & more & s' & M & [->|(c & cb & l & body & -> & Rc & G & C & L & ->)] & ->).
    + exists bs, more. split; [exact M|apply L_same].
    + exists (cb ++ body), more. split; [exact M|]. rewrite fold_push. cbn [app].
      apply (L_oid _ _ _ c); auto using chain_ilints. now apply N.ltb_ge.
  - destruct (run_leaves _ _ _ _ _ _ _ _ _ (leaves_counted _ _ (fun e => hm_insert (fst e) (snd e)) (fun _ => false) n l0 r
        (sound_entry mk deser Hsound) (moves_entry) W) E Hx)
      as (bs & more & s' & M & [->|(c & cb & l & body & -> & Rc & G & C & L & ->)] & ->).
    + exists bs, more. split; [exact M|apply L_same].
    + exists (cb ++ body), more. split; [exact M|]. rewrite fold_insert.
      apply (L_dict _ _ _ c); auto using chain_wire_entries.
  - destruct (run_leaves _ _ _ _ _ _ _ _ _ (leaves_counted _ _ (fun e => hm_insert (fst e) (snd e)) (fun _ => false) n l0 r
        sound_sentry moves_sentry W) E Hx)
      as (bs & more & s' & M & [->|(c & cb & l & body & -> & Rc & G & C & L & ->)] & ->).
    + exists bs, more. split; [exact M|apply L_same].
    + exists (cb ++ body), more. split; [exact M|]. rewrite fold_insert.
      apply (L_strdict _ _ _ c); auto using chain_wire_strings.
Qed.
End Failed.

(** ** C77 *)
(** Either nothing changed, or the header was read and had the object's id, and
    the contents left are one of [partial]. *)
Theorem C77_contents : forall e r t x t' r', engine_ok e -> rwf r -> wf t ->
  deserialize_into e r t = (x, t', r') -> x <> Ok tt ->
  t' = t \/
  exists idb szb n bs more v,
    ilint_repr (tag_id t) idb /\ wire_size (tag_id t) szb n /\ n <= 536870912 /\
    moved false r (idb ++ szb ++ bs ++ more) r' /\ lenN (bs ++ more) <= n /\
    partial (mk_of e) (tag_val t) n bs v /\ t' = Tag (tag_id t) v.
Proof.
  intros e r t x t' r' He W Wt. unfold deserialize_into.
  destruct (deserialize_ilint r) as [y r1] eqn:E1. destruct (safe_deserialize_ilint _ _ _ W E1) as (_ & W1 & _).
  destruct y as [wid| | |]; try (intros [= <- <- <-]; now left).
  destruct (N.eqb_spec wid (tag_id t)) as [->|]; cbn [negb]; try (intros [= <- <- <-]; now left).
  destruct (deserialize_tag_size (tag_id t) r1) as [y r2] eqn:E2. destruct (safe_tag_size _ _ _ _ W1 E2) as (_ & W2 & _).
  destruct y as [n| | |]; try (intros [= <- <- <-]; now left).
  destruct (sound_deserialize_ilint _ _ _ W E1) as (idb & R1 & D1).
  destruct (sound_tag_size _ _ _ _ W1 E2) as (szb & (Sz & Ln) & D2).
  assert (Mh : moved true r (idb ++ szb) r2) by (eapply moved_trans; apply moved_delivers; eassumption).
  unfold deserialize_tag_value_into, LimitedReader_new.
  destruct (deserialize_value _ (tag_val t) n (RLimited r2 n)) as [[y v] lr] eqn:E.
  intros H Hx. apply pair_inv in H as [H <-]. apply pair_inv in H as [Hy <-]. right. cbn [tag_id].
  pose proof (wf_shape _ Wt) as Sh.
  assert (G : exists bs more, moved false (RLimited r2 n) (bs ++ more) lr /\ partial (mk_of e) (tag_val t) n bs v).
  { destruct y as [[]|err| |].
    2-4: apply (value_failed (mk_of e) (deserialize_fuel (S (left r2)) e) (deserialize_fuel_sound e _ He) (fuel_moves _ e) _ _ (RLimited r2 n) _ _ _ W2 Sh E); discriminate.
    destruct (deserialize_value_sound (mk_of e) _ (deserialize_fuel_sound e _ He) (tag_val t) n (RLimited r2 n) v lr W2 Sh E) as (bs & D & P).
    destruct (delivers_limited _ _ _ _ D) as (L & _ & Em). specialize (P L). exists bs, [].
    rewrite app_nil_r. split; [now apply moved_delivers|]. cbn [tag_id] in Hy.
    destruct (limit_empty lr) eqn:El; [rewrite Bool.andb_false_r in Hy; congruence|].
    assert (Ls : lenN bs < n) by (destruct (N.eq_dec (lenN bs) n) as [Eq|]; [apply Em in Eq; congruence|lia]).
    destruct (tag_val t) eqn:Ev; cbn [kind_of] in P; inversion P; subst; rewrite ?lenN_app in *; try lia; try (now apply L_ilint); try (now apply L_silint).
    all: rewrite ?lenN_cons, ?lenN_nil in *; lia. }
  destruct G as (bs & more & M & P). exists idb, szb, n, bs, more, v.
  split; [exact R1|]. split; [exact Sz|]. split; [exact Ln|].
  destruct lr as [| |q k| | |]; cbn [moved unlimit] in *; try contradiction. destruct M as (Lb & _ & _ & M).
  split; [|auto]. rewrite app_assoc. exact (moved_trans _ _ _ _ _ _ Mh M).
Qed.
Print Assumptions C77_contents.

Lemma resize_bytes n vec : bytes_ok vec -> bytes_ok (resizeN n 0 vec).
Proof.
  intros B. unfold resizeN. destruct (n <=? lenN vec); [now apply Forall_takeN|].
  apply bytes_ok_app. split; [exact B|]. unfold repeatN. apply Forall_forall. intros x Hx. apply repeat_spec in Hx. subst x. reflexivity.
Qed.
Lemma partial_wf mk v0 n bs v : mk_ok mk -> wfv v0 -> bytes_ok bs -> partial mk v0 n bs v -> wfv v.
Proof.
  intros Hm W0 B P. destruct (wire_wf_all mk Hm) as (_ & _ & Ws & We).
  assert (Bo : forall got m (old : list N), bytes_ok got -> bytes_ok old -> bytes_ok (got ++ dropN (lenN got) (resizeN m 0 old))).
  { intros got m old Bg Bd. apply bytes_ok_app. split; [exact Bg|]. apply Forall_dropN. now apply resize_bytes. }
  destruct P as [v n bs|old got L|old n got L|old n got L|old n got L|s0 old n sb got Ls Lg|v0 n v bs R L|z0 n z bs Z R L
    |l0 n c cb l ib R Lc I L|l0 n c cb l ib R Lc I L|l0 n l body I L|l0 n c cb l body R Lc I L|s0 c0 n s sb R|s0 c0 n s sb cb R Lc L
    |a0 b0 c0 d0 ws a b c d Lw Fw Eq|l0 n c cb es body R I L|l0 n c cb es body R I L]; cbn [wfv] in *.
  - exact W0.
  - destruct W0 as [L0 B0]. split; [rewrite lenN_app, lenN_dropN; lia|]. apply bytes_ok_app. split; [exact B|now apply Forall_dropN].
  - now apply Bo.
  - now apply Bo.
  - now apply Bo.
  - apply bytes_ok_app in B as [B1 B2]. split; [apply to_signed_range; now apply (be_value_len W32)|]. apply Bo; tauto.
  - eapply ilint_repr_bound; eauto.
  - exact Z.
  - eapply ilints_bound; eauto.
  - eapply ilints_bound; eauto.
  - apply all_Forall. eauto.
  - apply bytes_ok_app in B as [B1 B2]. apply all_Forall. eauto.
  - split; [eapply ilint_repr_bound; eauto|tauto].
  - apply bytes_ok_app in B as [B1 B2]. split; [eapply ilint_repr_bound; eauto|now apply (be_value_len W16)].
  - assert (F : Forall (signed_range W32) [a; b; c; d]).
    { rewrite Eq. apply Forall_app. split.
      - clear -B Fw. induction Fw as [|w ws Hw Fw IH]; cbn [map concat] in *; [constructor|]. apply bytes_ok_app in B as [B1 B2].
        constructor; [apply to_signed_range; now apply (be_value_len W32)|auto].
      - assert (F0 : Forall (signed_range W32) [a0; b0; c0; d0]) by (destruct W0 as (? & ? & ? & ?); auto).
        apply Forall_forall. intros z Hz. rewrite Forall_forall in F0. apply F0.
        rewrite <- (firstn_skipn (length ws) [a0; b0; c0; d0]). apply in_or_app. now right. }
    inversion_clear F as [|? ? F1 G]. inversion_clear G as [|? ? F2 G']. inversion_clear G' as [|? ? F3 G]. inversion_clear G as [|? ? F4 _]. auto.
  - apply bytes_ok_app in B as [B1 B2].
    pose proof (dict_of_Forall _ _ (We _ _ I B2)) as F. rewrite all_Forall. split; [apply dict_of_NoDup|]. split.
    + eapply Forall_impl; [|exact F]. cbn beta. tauto.
    + eapply Forall_impl; [|exact F]. cbn beta. tauto.
  - split; [apply dict_of_NoDup|]. apply dict_of_Forall. clear -I. induction I as [|kb k vb v bs es Hk Hv I IH]; constructor; auto.
    split; eapply wire_string_utf8; eauto.
Qed.
(** The object is valid after any outcome: strings are UTF-8, a BIN128 has 16
    bytes, dictionary keys are distinct, numbers are in range, at any depth. *)
Theorem C77_valid : forall e r t x t' r', engine_ok e -> rwf r -> wf t ->
  deserialize_into e r t = (x, t', r') -> wf t'.
Proof.
  intros e r t x t' r' He W Wt E. pose proof (engine_mk_ok e He) as Hm.
  assert (Hx : x = Ok tt \/ x <> Ok tt) by (destruct x as [[]|err| |]; auto; right; discriminate).
  destruct Hx as [->|Hx].
  - unfold deserialize_into in E.
    destruct (deserialize_ilint r) as [y r1] eqn:E1. destruct y as [wid| | |]; try discriminate E.
    destruct (N.eqb_spec wid (tag_id t)) as [->|]; [|discriminate E]. cbn [negb] in E.
    destruct (deserialize_tag_size (tag_id t) r1) as [y r2] eqn:E2. destruct y as [n| | |]; try discriminate E.
    destruct (sound_deserialize_ilint _ _ _ W E1) as (idb & R & D1). destruct (delivers_rwf _ _ _ W D1) as [W1 _].
    destruct (sound_tag_size _ _ _ _ W1 E2) as (szb & (Sz & Ln) & D2). destruct (delivers_rwf _ _ _ W1 D2) as [W2 _].
    destruct (tag_value_into_sound (mk_of e) _ n t r2 t' r' (deserialize_fuel_sound e (S (left r2)) He) W2 (wf_shape _ Wt) E)
      as (body & v & D3 & -> & P & Hx).
    destruct (wire_wf_all (mk_of e) Hm) as (_ & Wp & _ & _). destruct t as [id v0]. destruct Wt as [Hi _]. cbn [tag_id] in *.
    split; [exact Hi|]. exact (proj1 (Wp _ _ _ _ P (moved_bytes _ _ _ _ W2 (moved_delivers true _ _ _ D3)))).
  - destruct (C77_contents e r t x t' r' He W Wt E Hx) as [->|(idb & szb & n & bs & more & v & _ & _ & _ & M & _ & P & ->)]; [exact Wt|].
    pose proof (moved_bytes _ _ _ _ W M) as B. rewrite !bytes_ok_app in B. destruct B as (_ & _ & B & _).
    destruct t as [id v0]. destruct Wt as [Hi Wv]. split; [exact Hi|]. exact (partial_wf _ _ _ _ _ Hm Wv B P).
Qed.
Print Assumptions C77_valid.

(** So a failed call spoils nothing: a further call, from whatever reader, has
    the outcome it would have had on the object as it was before (and on any
    other of its type and id), and takes as much from its reader. *)
Theorem C77_retry : forall e r t x t1 r1, engine_ok e -> rwf r -> wf t ->
  deserialize_into e r t = (x, t1, r1) ->
  forall r2 t0, rwf r2 -> wf t0 -> tag_id t0 = tag_id t -> kind_of (tag_val t0) = kind_of (tag_val t) ->
  exists y t1' t0' r3, deserialize_into e r2 t1 = (y, t1', r3) /\ deserialize_into e r2 t0 = (y, t0', r3) /\
    (y = Ok tt -> t1' = t0').
Proof.
  intros e r t x t1 r1 He W Wt E r2 t0 W2 W0 Hi Hk.
  destruct (C40_id_and_type _ _ _ _ _ _ E) as [Hi1 Hk1].
  pose proof (C77_valid e r t x t1 r1 He W Wt E) as Wt1.
  apply C39_previous_contents; [exact W2|exact Wt1|exact W0|congruence|congruence].
Qed.
Print Assumptions C77_retry.

(** A list cut after two of four items, a dictionary with a repeated key cut
    after two entries, a vector that got two of five bytes from a source that
    failed, a version with one new field; and the retries. *)
Example C77_instance :
  let e := create_std_engine true in
  deserialize_into e (RVec [21; 8; 4; 3; 9; 0; 200; 0] 0) (Tag 21 (VArr [Tag 0 VNull; Tag 0 VNull; Tag 0 VNull]))
  = (Err UnknownTag, Tag 21 (VArr [Tag 3 (VUInt W8 9); Tag 0 VNull]), RVec [21; 8; 4; 3; 9; 0; 200; 0] 8) /\
  deserialize_into e (RVec [30; 12; 3; 17; 1; 97; 0; 17; 1; 97; 3; 5; 99; 99] 0) (Tag 30 (VDict [([98], Tag 0 VNull)]))
  = (Err CorruptedData, Tag 30 (VDict [([97], Tag 3 (VUInt W8 5))]), RVec [30; 12; 3; 17; 1; 97; 0; 17; 1; 97; 3; 5; 99; 99] 13) /\
  deserialize_into e (RRead [16; 5; 7; 8] [Chunk 1; Chunk 1; Chunk 2; Fail (OtherKind 1)]) (Tag 16 (VBytes [1; 2; 3; 4]))
  = (Err (TagIO (IOErrorStd (OtherKind 1))), Tag 16 (VBytes [7; 8; 3; 4; 0]), RRead [] []) /\
  deserialize_into e (RVec [24; 16; 0; 0; 0; 7; 0] 0) (Tag 24 (VVersion 1 2 3 4))
  = (Err (TagIO UnableToReadData), Tag 24 (VVersion 7 2 3 4), RVec [24; 16; 0; 0; 0; 7; 0] 6) /\
  (exists r, deserialize_into e (RVec [16; 1; 9] 0) (Tag 16 (VBytes [7; 8; 3; 4; 0])) = (Ok tt, Tag 16 (VBytes [9]), r)) /\
  wf (Tag 21 (VArr [Tag 0 VNull; Tag 0 VNull; Tag 0 VNull])) /\ wf (Tag 30 (VDict [([98], Tag 0 VNull)])) /\ engine_ok e.
Proof.
  cbv zeta. split; [vm_compute; reflexivity|]. split; [vm_compute; reflexivity|]. split; [vm_compute; reflexivity|].
  split; [vm_compute; reflexivity|]. split; [eexists; vm_compute; reflexivity|].
  assert (Wn : wf (Tag 0 VNull)) by (split; [unfold two64; lia|exact I]).
  split; [split; [unfold two64; lia|cbn [wfv all fold_right]; auto]|]. split; [|apply std_engine_ok].
  split; [unfold two64; lia|]. cbn [wfv map fst snd all fold_right]. split; [repeat constructor; intros []|].
  split; [constructor; [apply utf8_ascii; reflexivity|constructor]|auto].
Qed.

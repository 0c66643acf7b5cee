(** What is taken from the source of a reader, also when a call fails. *)
From Verif Require Import Base BaseFacts Types Spec SpecFacts IO IOSpec IOFacts Logic ILInt ILIntFacts Data DataFacts Tags
  Factory FactoryFacts DecodeFacts DeserFacts ClosedFacts.

(** The bytes among the first calls of a custom reader. *)
Definition served (calls : list (io_error + N)) : list N :=
  flat_map (fun x => match x with inr b => [b] | inl _ => [] end) calls.
(** The source of [r] gave away [bs]; [ok]: the call succeeded, and every limit
    counted all of them.  In any case [bs] is within every limit, and no limit
    grows. *)
Fixpoint moved (ok : bool) (r : reader) (bs : list N) (r' : reader) : Prop :=
  match r, r' with
  | RByteArray a o, RByteArray a' o' => a' = a /\ o' = o + lenN bs /\ prefix bs (dropN o a)
  | RVec v o, RVec v' o' => v' = v /\ o' = o + lenN bs /\ prefix bs (dropN o v)
  | RLimited s n, RLimited s' n' =>
      lenN bs <= n /\ n' <= n /\ (ok = true -> n' = n - lenN bs) /\ moved ok s bs s'
  | RRead data _, RRead data' _ => data = bs ++ data'
  | RSeek s, RSeek s' =>
      sk_data s' = sk_data s /\ sk_pos s' = sk_pos s + lenN bs /\ prefix bs (dropN (sk_pos s) (sk_data s))
  | RCustom script, RCustom script' => exists calls, script = calls ++ script' /\ bs = served calls
  | _, _ => False
  end.

Lemma served_app a b : served (a ++ b) = served a ++ served b.
Proof. apply flat_map_app. Qed.
Lemma moved_refl ok r : moved ok r [] r.
Proof.
  induction r as [a o|v o|s IH n|d sc|s|sc]; cbn [moved]; rewrite ?lenN_nil.
  - split; [reflexivity|]. split; [lia|]. exists (dropN o a). reflexivity.
  - split; [reflexivity|]. split; [lia|]. exists (dropN o v). reflexivity.
  - split; [lia|]. split; [lia|]. split; [lia|exact IH].
  - reflexivity.
  - split; [reflexivity|]. split; [lia|]. exists (dropN (sk_pos s) (sk_data s)). reflexivity.
  - exists []. auto.
Qed.
Lemma prefix_step (d : list N) o b1 b2 : prefix b1 (dropN o d) -> prefix b2 (dropN (o + lenN b1) d) -> prefix (b1 ++ b2) (dropN o d).
Proof.
  intros [q H] [q' H']. exists q'. rewrite <- dropN_dropN, H in H'. rewrite dropN_app_exact in H' by reflexivity.
  rewrite H, H'. now rewrite app_assoc.
Qed.
Lemma moved_trans ok r b1 r1 b2 r2 : moved true r b1 r1 -> moved ok r1 b2 r2 -> moved ok r (b1 ++ b2) r2.
Proof.
  revert r1 r2; induction r as [a o|v o|s IH n|d sc|s|sc]; intros r1 r2; destruct r1; cbn [moved]; try contradiction;
    destruct r2; cbn [moved]; try contradiction; rewrite ?lenN_app.
  - intros (-> & -> & P) (-> & -> & P'). split; [reflexivity|]. split; [lia|]. now apply prefix_step.
  - intros (-> & -> & P) (-> & -> & P'). split; [reflexivity|]. split; [lia|]. now apply prefix_step.
  - intros (L & _ & E & H) (L' & Le & E' & H'). rewrite (E eq_refl) in *.
    split; [lia|]. split; [lia|]. split; [intros K; rewrite (E' K); lia|eauto].
  - intros -> ->. apply app_assoc.
  - intros (D & P & Q) (D' & P' & Q'). rewrite D, P in *. rewrite D'. split; [reflexivity|]. split; [lia|]. now apply prefix_step.
  - intros (c1 & -> & ->) (c2 & -> & ->). exists (c1 ++ c2). rewrite served_app, app_assoc. auto.
Qed.
Lemma moved_weaken ok r bs r' : moved true r bs r' -> moved ok r bs r'.
Proof.
  revert r'; induction r as [a o|v o|s IH n|d sc|s|sc]; intros r'; destruct r'; cbn [moved]; auto.
  intros (L & Le & E & H). auto.
Qed.
Lemma prefix_len {A} (p l : list A) : prefix p l -> lenN p <= lenN l.
Proof. intros [q ->]. rewrite lenN_app. lia. Qed.
Lemma moved_rwf ok r bs r' : rwf r -> moved ok r bs r' -> rwf r'.
Proof.
  revert r'; induction r as [a o|v o|s IH n|d sc|s|sc]; intros r' W; destruct r'; cbn [moved rwf] in *; try contradiction.
  - intros (-> & -> & P). apply prefix_len in P. rewrite lenN_dropN in P. split; [tauto|lia].
  - intros (-> & -> & P). apply prefix_len in P. rewrite lenN_dropN in P. split; [tauto|lia].
  - intros (_ & _ & _ & H). eauto.
  - intros ->. now apply bytes_ok_app in W.
  - intros (-> & _). exact W.
  - intros (c & -> & _). now apply Forall_app in W.
Qed.
Lemma read_custom_moved n sc x got sc' : read_custom_all n sc = (x, got, sc') ->
  (exists calls, sc = calls ++ sc' /\ got = served calls) /\ (length got <= n)%nat.
Proof.
  revert sc x got sc'; induction n as [|n IH]; intros sc x got sc'; cbn [read_custom_all].
  - intros [= <- <- <-]. split; [exists []; auto|cbn; lia].
  - destruct sc as [|[e|b] sc].
    + intros [= <- <- <-]. split; [exists []; auto|cbn; lia].
    + intros [= <- <- <-]. split; [exists [inl e]; auto|cbn; lia].
    + destruct (read_custom_all n sc) as [[y g] s1] eqn:E. intros [= <- <- <-].
      destruct (IH _ _ _ _ E) as ((c & -> & ->) & L). split; [exists (inr b :: c); auto|cbn; lia].
Qed.
Lemma read_all_moved n r x got r' : rwf r -> read_all n r = (x, got, r') ->
  moved (is_ok x) r got r' /\ lenN got <= n /\ (is_ok x = true -> lenN got = n).
Proof.
  revert n x got r'; induction r as [a o|v o|s IH m|d sc|s|sc]; intros n x got r' W; cbn [read_all rwf] in *;
    rewrite ?vecr_read_all_eq.
  - destruct (mem_read_all n a o) as [[y g] o'] eqn:E. intros H. apply pair_inv in H as [H <-]. apply pair_inv in H as [<- <-].
    destruct y as [[]|e| |] eqn:Ey; cbn [is_ok moved].
    1:{ apply mem_read_all_ok in E as (<- & -> & P). repeat split; auto; lia. }
    all: unfold mem_read_all in E; destruct (mem_can_read (lenN a) o n); [destruct (slice a o (o + n))|..]; try discriminate;
      apply pair_inv in E as [E <-]; apply pair_inv in E as [_ <-]; rewrite lenN_nil; repeat split; try lia; try discriminate; now exists (dropN o a).
  - destruct (mem_read_all n v o) as [[y g] o'] eqn:E. intros H. apply pair_inv in H as [H <-]. apply pair_inv in H as [<- <-].
    destruct y as [[]|e| |] eqn:Ey; cbn [is_ok moved].
    1:{ apply mem_read_all_ok in E as (<- & -> & P). repeat split; auto; lia. }
    all: unfold mem_read_all in E; destruct (mem_can_read (lenN v) o n); [destruct (slice v o (o + n))|..]; try discriminate;
      apply pair_inv in E as [E <-]; apply pair_inv in E as [_ <-]; rewrite lenN_nil; repeat split; try lia; try discriminate; now exists (dropN o v).
  - destruct (N.ltb_spec m n) as [L|L].
    + intros H. apply pair_inv in H as [H <-]. apply pair_inv in H as [<- <-]. cbn [is_ok moved]. rewrite lenN_nil.
      repeat split; try lia; try discriminate. apply moved_refl.
    + destruct (read_all n s) as [[y g] s'] eqn:E. intros H. apply pair_inv in H as [H <-]. apply pair_inv in H as [<- <-].
      destruct (IH _ _ _ _ W E) as (Mv & Lg & Eg). cbn [moved].
      split; [|auto]. split; [lia|]. split; [destruct (is_ok y); lia|]. split; [|exact Mv].
      intros K. rewrite K, (Eg K). reflexivity.
  - destruct (read_exact n d sc) as [[[y g] d'] sc'] eqn:E. intros H. apply pair_inv in H as [H <-]. apply pair_inv in H as [<- <-].
    apply read_exact_spec in E as (-> & _ & L & Eg & _). cbn [moved]. split; [reflexivity|]. split; [exact L|].
    intros K. destruct y as [[]|e| |]; try discriminate. auto.
  - destruct s as [d p sc sk]. cbn [seek_read_all]. destruct (read_exact n (dropN p d) sc) as [[[y g] d'] sc'] eqn:E.
    intros H. apply pair_inv in H as [H <-]. apply pair_inv in H as [<- <-].
    apply read_exact_spec in E as (P & _ & L & Eg & _). cbn [moved sk_data sk_pos]. split; [|split; [exact L|]].
    + split; [reflexivity|]. split; [reflexivity|]. now exists d'.
    + intros K. destruct y as [[]|e| |]; try discriminate. auto.
  - destruct (read_custom_all _ sc) as [[y g] sc'] eqn:E. intros H. apply pair_inv in H as [H <-]. apply pair_inv in H as [<- <-].
    destruct (read_custom_moved _ _ _ _ _ E) as (K & L). cbn [moved]. split; [exact K|]. split; [unfold lenN; lia|].
    destruct (read_custom_all_spec _ _ _ _ _ E) as (_ & S & _). intros Ky. destruct y as [[]|e| |]; try discriminate.
    destruct (S eq_refl) as [S1 S2]. unfold lenN in *. rewrite S2, app_length, map_length in S1. unfold lenN. lia.
Qed.

(** ** Functions built from reads *)
Definition Rmoves (E A : Type) (m : reader -> res E A * reader) : Prop :=
  forall r x r', rwf r -> m r = (x, r') -> exists bs, moved (is_ok x) r bs r'.
Definition Mmoves (S A : Type) (m : method S A) : Prop :=
  forall s r x s' r', rwf r -> m (s, r) = (x, (s', r')) -> exists bs, moved (is_ok x) r bs r'.
Lemma closed_moves : closed Rmoves Mmoves.
Proof.
  assert (Ht : forall r x r', rwf r -> (exists bs, moved true r bs r') -> (exists b2 r2, moved (is_ok (E := tag_error) (A := unit) x) r' b2 r2) -> True) by auto.
  clear Ht. constructor.
  - intros r x r' W. rewrite read_as_read_all by exact W. destruct (read_all 1 r) as [[y g] r1] eqn:E.
    intros H. apply pair_inv in H as [<- <-]. destruct (read_all_moved _ _ _ _ _ W E) as [Mv _]. exists g. now destruct y.
  - intros n r x r' W. unfold fetch. destruct (read_all n r) as [[y g] r1] eqn:E.
    intros H. apply pair_inv in H as [<- <-]. destruct (read_all_moved _ _ _ _ _ W E) as [Mv _]. exists g. now destruct y.
  - intros E A x r y r' W [= <- <-]. exists []. apply moved_refl.
  - intros E A B m f Hm Hf r x r' W. unfold bind. destruct (m r) as [y r1] eqn:E1.
    destruct (Hm _ _ _ W E1) as [b1 M1].
    destruct y as [a|e| |]; try (intros [= <- <-]; exists b1; exact M1).
    intros E2. destruct (Hf a _ _ _ (moved_rwf _ _ _ _ W M1) E2) as [b2 M2]. exists (b1 ++ b2). exact (moved_trans _ _ _ _ _ _ M1 M2).
  - intros E E' A f m Hm r x r' W. unfold lift_err. destruct (m r) as [y r1] eqn:E1. intros H. apply pair_inv in H as [<- <-].
    destruct (Hm _ _ _ W E1) as [b1 M1]. exists b1. now destruct y.
  - intros S A g s r x s' r' W [= <- <- <-]. exists []. apply moved_refl.
  - intros S f s r x s' r' W [= <- <- <-]. exists []. apply moved_refl.
  - intros S A B m f Hm Hf s r x s' r' W. unfold bind. destruct (m (s, r)) as [y [s1 r1]] eqn:E1.
    destruct (Hm _ _ _ _ _ W E1) as [b1 M1].
    destruct y as [a|e| |]; try (intros [= <- <- <-]; exists b1; exact M1).
    intros E2. destruct (Hf a _ _ _ _ _ (moved_rwf _ _ _ _ W M1) E2) as [b2 M2]. exists (b1 ++ b2). exact (moved_trans _ _ _ _ _ _ M1 M2).
  - intros S A c m1 m2 H1 H2 s r x s' r' W. destruct (c (s, r)); [now apply H1|now apply H2].
  - intros S A g m H s r x s' r' W. apply H. exact W.
  - intros S A m Hm s r x s' r' W. unfold on_reader. destruct (m r) as [y r1] eqn:E1. intros [= <- <- <-]. eauto.
  - intros S A n m Hm s r x s' r' W. unfold limited, LimitedReader_new.
    destruct (m (s, RLimited r n)) as [y [s1 r1]] eqn:E1. intros [= <- <- <-].
    destruct (Hm s (RLimited r n) _ _ _ W E1) as [b1 M1]. exists b1. destruct r1; cbn [moved unlimit] in *; try contradiction. tauto.
  - intros s r x s' r' W. unfold in_place, into_slice. destruct (read_all (lenN s) r) as [[y g] r1] eqn:E.
    intros H. apply pair_inv in H as [<- H]. apply pair_inv in H as [_ <-].
    destruct (read_all_moved _ _ _ _ _ W E) as [Mv _]. exists g. now destruct y.
  - intros S T A get put m Hm s r x s' r' W. cbn [fst snd]. destruct (m (get s, r)) as [y [t1 r1]] eqn:E1.
    intros [= <- <- <-]. eauto.
  - intros S A B s m g Hg Hm r x r' W. destruct (m (s, r)) as [y [s1 r1]] eqn:E1. intros [= <- <-].
    rewrite Hg. eauto.
  - intros E A m m' Hx Hm r x r' W E1. rewrite <- Hx in E1. eauto.
  - intros S A m m' Hx Hm s r x s' r' W E1. rewrite <- Hx in E1. eauto.
Qed.

(** At most [K] bytes. *)
Definition takes {E A} (K : N) (m : reader -> res E A * reader) : Prop :=
  forall r x r', rwf r -> m r = (x, r') -> exists bs, moved (is_ok x) r bs r' /\ lenN bs <= K.
Lemma takes_decode : takes 9 decode.
Proof.
  intros r x r' W. unfold decode, bind, lift_err. destruct (read r) as [y r1] eqn:E1.
  pose proof (read_as_read_all r W) as Er. rewrite E1 in Er. destruct (read_all 1 r) as [[z g] r2] eqn:E2.
  apply pair_inv in Er as [-> ->]. destruct (read_all_moved _ _ _ _ _ W E2) as (Mv & L1 & _).
  destruct (read_wf _ _ _ W E1) as (_ & W1 & _ & B).
  destruct z as [[]|e| |]; cbn [map_ok map_err is_ok] in *;
    try (intros H; apply pair_inv in H as [<- <-]; exists g; cbn [is_ok]; split; [exact Mv|lia]).
  cbv zeta. destruct (_ =? 1).
  - intros H. apply pair_inv in H as [<- <-]. exists g. cbn [is_ok]. split; [exact Mv|lia].
  - unfold fetch. destruct (read_all (decoded_size (hd 0 g) - 1) r2) as [[z g2] r3] eqn:E3.
    destruct (read_all_moved _ _ _ _ _ W1 E3) as (Mv2 & L2 & _).
    assert (Hs : decoded_size (hd 0 g) <= 9).
    { specialize (B _ eq_refl). unfold decoded_size, ILINT_BASE, byte_ok in *. destruct (_ <? _); lia. }
    intros H. exists (g ++ g2). rewrite lenN_app. split; [|lia].
    pose proof (moved_trans _ _ _ _ _ _ Mv Mv2) as MM.
    destruct z as [[]|e| |]; cbn [map_ok map_err is_ok] in *; apply pair_inv in H as [<- <-]; try exact MM.
    now apply moved_weaken.
Qed.
Lemma takes_lift {E E' A} K (f : E -> E') (m : reader -> res E A * reader) : takes K m -> takes K (lift_err f m).
Proof.
  intros Hm r x r' W. unfold lift_err. destruct (m r) as [y r1] eqn:E1. intros H. apply pair_inv in H as [<- <-].
  destruct (Hm _ _ _ W E1) as (b & Mb & L). exists b. split; [now destruct y|exact L].
Qed.
Lemma takes_ilint : takes 9 deserialize_ilint.
Proof. do 2 apply takes_lift. apply takes_decode. Qed.
Lemma takes_tag_size id : takes 9 (deserialize_tag_size id).
Proof.
  intros r x r' W. unfold deserialize_tag_size, bind. destruct (is_implicit_tag id).
  - cbn [ret]. intros H. apply pair_inv in H as [<- <-]. exists []. rewrite lenN_nil. split; [|lia].
    destruct (is_ok _); apply moved_refl.
  - destruct (deserialize_ilint r) as [y r1] eqn:E1. destruct (takes_ilint _ _ _ W E1) as (b & Mb & L).
    destruct y as [a|e| |]; intros H; apply pair_inv in H as [<- <-]; exists b; (split; [|exact L]); try exact Mb.
    now apply moved_weaken.
Qed.
Lemma moved_delivers ok r bs r' : delivers r bs r' -> moved ok r bs r'.
Proof.
  revert r'; induction r as [a o|v o|s IH n|d sc|s|sc]; intros r'; destruct r'; cbn [delivers moved]; try contradiction; try tauto.
  - intros (L & -> & D). split; [exact L|]. split; [lia|]. auto.
  - intros ->. exists (map inr bs). split; [reflexivity|]. unfold served. induction bs as [|b bs IH]; [reflexivity|]. cbn. now rewrite <- IH.
Qed.
(** The payload of a tag takes at most its declared size. *)
Lemma into_moved d n t r x t' r' : Rmoves _ _ d -> rwf r -> deserialize_tag_value_into d n t r = (x, t', r') ->
  exists bs, moved (is_ok x) r bs r' /\ lenN bs <= n.
Proof.
  intros Hd W E.
  assert (K : exists bs, moved (is_ok x) (RLimited r n) bs (RLimited r' 0) \/ (moved (is_ok x) r bs r' /\ lenN bs <= n)).
  { unfold deserialize_tag_value_into, LimitedReader_new in E.
    destruct (deserialize_value d (tag_val t) n (RLimited r n)) as [[y v] lr] eqn:Ev.
    pose proof (cl_value _ _ closed_moves d Hd (tag_val t) n (fun x v' => map_ok (fun _ => v') x)) as Q.
    assert (Q' : Rmoves _ _ (fun r => let '(x, v', r') := deserialize_value d (tag_val t) n r in (map_ok (fun _ => v') x, r')))
      by (apply Q; now intros [a|e| |] v').
    destruct (Q' (RLimited r n) (map_ok (fun _ => v) y) lr W) as [bs Mb]; [now rewrite Ev|].
    apply pair_inv in E as [E <-]. apply pair_inv in E as [<- <-]. exists bs. right.
    destruct lr; cbn [moved unlimit] in *; try contradiction. destruct Mb as (L & _ & _ & Mb). split; [|exact L].
    destruct y as [[]|e| |]; cbn [map_ok is_ok] in *; try exact Mb. destruct (_ && _); [now apply moved_weaken|exact Mb]. }
  destruct K as (bs & [(L & _ & _ & Mb)|K]); eauto.
Qed.
(** The bytes taken by a call that reads one tag: less than a header, or a header
    and at most as many bytes as it declares. *)
Definition extent (ok : bool) (bs : list N) : Prop :=
  (ok = false /\ lenN bs <= 18) \/
  exists wid n idb szb body, bs = idb ++ szb ++ body /\ ilint_repr wid idb /\ wire_size wid szb n /\ n <= 536870912 /\ lenN body <= n.
Lemma ilint_repr_len v bs : ilint_repr v bs -> 1 <= lenN bs <= 9.
Proof. intros [w H|body H1 H2]; rewrite ?lenN_cons, ?lenN_nil; lia. Qed.
Lemma wire_size_len wid szb n : wire_size wid szb n -> lenN szb <= 9.
Proof. intros [H|m z H R]; [rewrite lenN_nil; lia|]. apply ilint_repr_len in R. lia. Qed.
Lemma extent_len ok bs : extent ok bs -> lenN bs <= 536870930.
Proof.
  intros [[_ H]|(wid & n & idb & szb & body & -> & R & Sz & L & Lb)]; [lia|].
  apply ilint_repr_len in R. apply wire_size_len in Sz. rewrite !lenN_app. lia.
Qed.
Lemma fuel_moves f e : Rmoves _ _ (deserialize_fuel f e).
Proof. apply (cl_deserialize_fuel _ _ closed_moves). Qed.
Lemma deserialize_extent e r x r' : rwf r -> deserialize e r = (x, r') ->
  exists bs, moved (is_ok x) r bs r' /\ extent (is_ok x) bs.
Proof.
  intros W H. unfold deserialize in H. cbn [deserialize_fuel] in H. unfold bind in H.
  destruct (deserialize_ilint r) as [y r1] eqn:E1. destruct (takes_ilint _ _ _ W E1) as (b1 & M1 & L1).
  destruct y as [wid|err| |]; cycle 1.
  1-3: apply pair_inv in H as [<- <-]; exists b1; split; [exact M1|left; cbn; split; [reflexivity|lia]].
  pose proof (moved_rwf _ _ _ _ W M1) as W1.
  destruct (sound_deserialize_ilint _ _ _ W E1) as (idb & R1 & D1).
  destruct (deserialize_tag_size wid r1) as [y r2] eqn:E2. destruct (takes_tag_size wid _ _ _ W1 E2) as (b2 & M2 & L2).
  destruct y as [n|err| |]; cycle 1.
  1-3: apply pair_inv in H as [<- <-]; exists (b1 ++ b2); (split; [exact (moved_trans _ _ _ _ _ _ M1 M2)|left; cbn; rewrite lenN_app; split; [reflexivity|lia]]).
  pose proof (moved_rwf _ _ _ _ W1 M2) as W2.
  destruct (sound_tag_size _ _ _ _ W1 E2) as (szb & (Sz & Ln) & D2).
  assert (Mh : moved true r (idb ++ szb) r2) by (eapply moved_trans; apply moved_delivers; eassumption).
  assert (Hx : forall ok body, lenN body <= n -> extent ok ((idb ++ szb) ++ body)).
  { intros ok body Lb. right. exists wid, n, idb, szb, body. rewrite <- app_assoc. auto. }
  destruct (create_tag e wid) as [[t|]|err| |]; cbn [fail] in H.
  - destruct (deserialize_tag_value_into _ n t r2) as [[y t'] r3] eqn:E3.
    destruct (into_moved _ _ _ _ _ _ _ (fuel_moves _ e) W2 E3) as (b3 & M3 & L3).
    apply pair_inv in H as [<- <-]. exists ((idb ++ szb) ++ b3). split; [|now apply Hx].
    replace (is_ok (map_ok (fun _ => t') y)) with (is_ok y) by (destruct y; reflexivity). exact (moved_trans _ _ _ _ _ _ Mh M3).
  - apply pair_inv in H as [<- <-]. exists (idb ++ szb). split; [now apply moved_weaken|].
    rewrite <- (app_nil_r (idb ++ szb)). apply Hx. rewrite lenN_nil. lia.
  - apply pair_inv in H as [<- <-]. exists (idb ++ szb). split; [now apply moved_weaken|].
    rewrite <- (app_nil_r (idb ++ szb)). apply Hx. rewrite lenN_nil. lia.
  - apply pair_inv in H as [<- <-]. exists (idb ++ szb). split; [now apply moved_weaken|].
    rewrite <- (app_nil_r (idb ++ szb)). apply Hx. rewrite lenN_nil. lia.
  - apply pair_inv in H as [<- <-]. exists (idb ++ szb). split; [now apply moved_weaken|].
    rewrite <- (app_nil_r (idb ++ szb)). apply Hx. rewrite lenN_nil. lia.
Qed.
Lemma deserialize_into_extent e r t x t' r' : rwf r -> deserialize_into e r t = (x, t', r') ->
  exists bs, moved (is_ok x) r bs r' /\ extent (is_ok x) bs.
Proof.
  intros W H. unfold deserialize_into in H.
  destruct (deserialize_ilint r) as [y r1] eqn:E1. destruct (takes_ilint _ _ _ W E1) as (b1 & M1 & L1).
  destruct y as [wid|err| |]; cycle 1.
  1-3: apply pair_inv in H as [H <-]; apply pair_inv in H as [<- _]; exists b1; split; [exact M1|left; cbn; split; [reflexivity|lia]].
  pose proof (moved_rwf _ _ _ _ W M1) as W1.
  destruct (sound_deserialize_ilint _ _ _ W E1) as (idb & R1 & D1).
  destruct (negb _).
  { apply pair_inv in H as [H <-]; apply pair_inv in H as [<- _]. exists b1. split; [now apply moved_weaken|left; cbn; split; [reflexivity|lia]]. }
  destruct (deserialize_tag_size wid r1) as [y r2] eqn:E2. destruct (takes_tag_size wid _ _ _ W1 E2) as (b2 & M2 & L2).
  destruct y as [n|err| |]; cycle 1.
  1-3: apply pair_inv in H as [H <-]; apply pair_inv in H as [<- _]; exists (b1 ++ b2); (split; [exact (moved_trans _ _ _ _ _ _ M1 M2)|left; cbn; rewrite lenN_app; split; [reflexivity|lia]]).
  pose proof (moved_rwf _ _ _ _ W1 M2) as W2.
  destruct (sound_tag_size _ _ _ _ W1 E2) as (szb & (Sz & Ln) & D2).
  assert (Mh : moved true r (idb ++ szb) r2) by (eapply moved_trans; apply moved_delivers; eassumption).
  destruct (into_moved _ _ _ _ _ _ _ (fuel_moves _ e) W2 H) as (b3 & M3 & L3).
  exists ((idb ++ szb) ++ b3). split; [exact (moved_trans _ _ _ _ _ _ Mh M3)|].
  right. exists wid, n, idb, szb, b3. rewrite <- app_assoc. auto.
Qed.
(** The string tag read without a factory. *)
Lemma string_extent r x r' : rwf r -> deserialize_string_tag_from_value r = (x, r') ->
  exists bs, moved (is_ok x) r bs r' /\ extent (is_ok x) bs.
Proof.
  intros W H. unfold deserialize_string_tag_from_value, deserialize_string_tag_from_value_into, bind, on_reader in H.
  cbn [fst snd] in H.
  destruct (deserialize_ilint r) as [y r1] eqn:E1. destruct (takes_ilint _ _ _ W E1) as (b1 & M1 & L1).
  destruct y as [wid|err| |]; cycle 1.
  1-3: cbn [fst snd] in H; apply pair_inv in H as [<- <-]; exists b1; split; [exact M1|left; cbn; split; [reflexivity|lia]].
  pose proof (moved_rwf _ _ _ _ W M1) as W1.
  destruct (sound_deserialize_ilint _ _ _ W E1) as (idb & R1 & D1).
  destruct (N.eqb_spec wid IL_STRING_TAG_ID) as [->|Hn]; cbn [negb ret fail fst snd] in H; cycle 1.
  { apply pair_inv in H as [<- <-]. exists b1. split; [now apply moved_weaken|left; cbn; split; [reflexivity|lia]]. }
  destruct (deserialize_ilint r1) as [y r2] eqn:E2. destruct (takes_ilint _ _ _ W1 E2) as (b2 & M2 & L2).
  destruct y as [len|err| |]; cycle 1.
  1-3: cbn [fst snd] in H; apply pair_inv in H as [<- <-]; exists (b1 ++ b2); (split; [exact (moved_trans _ _ _ _ _ _ M1 M2)|left; cbn; rewrite lenN_app; split; [reflexivity|lia]]).
  pose proof (moved_rwf _ _ _ _ W1 M2) as W2.
  destruct (sound_deserialize_ilint _ _ _ W1 E2) as (szb & R2 & D2). cbn [fst snd] in H.
  unfold tag_size_to_usize in H. destruct (N.ltb_spec MAX_TAG_SIZE len) as [Lt|Ln].
  { apply pair_inv in H as [<- <-]. exists (b1 ++ b2). split; [|left; cbn; rewrite lenN_app; split; [reflexivity|lia]].
    apply moved_weaken. exact (moved_trans _ _ _ _ _ _ M1 M2). }
  assert (Mh : moved true r (idb ++ szb) r2) by (eapply moved_trans; apply moved_delivers; eassumption).
  assert (Hx : forall ok body, lenN body <= len -> extent ok ((idb ++ szb) ++ body)).
  { intros ok body Lb. right. exists 17, len, idb, szb, body. rewrite <- app_assoc. unfold IL_STRING_TAG_ID, MAX_TAG_SIZE in *.
    split; [reflexivity|]. split; [exact R1|]. split; [constructor; [lia|exact R2]|]. split; [lia|exact Lb]. }
  unfold deserialize_bytes, lift_err, fetch in H.
  destruct (read_all len r2) as [[y g] r3] eqn:E3. destruct (read_all_moved _ _ _ _ _ W2 E3) as (M3 & L3 & _).
  pose proof (moved_trans _ _ _ _ _ _ Mh M3) as MM. exists ((idb ++ szb) ++ g).
  destruct y as [[]|err| |]; cbn [map_ok map_err fst snd is_ok] in *.
  2-4: apply pair_inv in H as [<- <-]; split; [exact MM|now apply Hx].
  destruct (from_utf8 g); cbn [modify fail fst snd] in H; apply pair_inv in H as [<- <-]; (split; [|now apply Hx]); cbn [is_ok]; now apply moved_weaken.
Qed.

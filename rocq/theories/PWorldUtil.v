(** from_bytes and the clones when the objects and the creators of the user share
    state: C93. *)
From Verif Require Import Base BaseFacts Types Spec IO IOSpec IOFacts ILInt Data Tags Factory FactoryFacts DeserFacts EngineFacts FromFacts Open OpenFacts POpen Prog ProgFacts
  IntoCallFacts IntoProg IntoProgFacts PIntoProg FullProg PFull OpenUtil Any AnyFacts AnyScan AnyProg AnyFull PAnyFull PProg World WorldFacts PWorld
  AnyWriter WorldRead WorldReadFacts WorldReadRuns Panic PanicFacts PPanicWorld PWorldRead WorldUtil WorldReadSim.

(** *** Code beside a value that it cannot reach *)
Section Aside.
Context {W1 W2 S1 S2 : Type} (R : W1 -> W2 -> Prop) (Q : S1 -> S2 -> Prop).
Definition pairs (u1 : W1 * S1) (u2 : W2 * S2) : Prop := R (fst u1) (fst u2) /\ Q (snd u1) (snd u2).
Lemma aside_sim {A} (f1 : W1 -> A * W1) f2 : msim R f1 f2 -> msim pairs (aside f1) (aside f2).
Proof.
  intros H [w1 s1] [w2 s2] [Hr Hq]. cbn [fst snd] in *. unfold aside. cbn [fst snd]. destruct (H _ _ Hr) as (v & y1 & y2 & -> & -> & K).
  exists v, (y1, s1), (y2, s2). repeat split; auto.
Qed.
Lemma aside_same_reader M1 M2 : same_reader R M1 M2 -> same_reader pairs (aside_reader M1) (aside_reader M2).
Proof. intros [H1 H2]. split; [now apply aside_sim|]. intros buff. apply aside_sim, H2. Qed.
Lemma aside_same_prog {I A} (p1 : wprog I W1 A) p2 : same_prog R A p1 p2 -> same_prog pairs A (aside_prog p1) (aside_prog p2).
Proof.
  induction 1; cbn [aside_prog]; constructor; auto using aside_same_reader.
  - intros [w1 s1] [w2 s2] [Hr Hq]. cbn [fst snd] in *. unfold aside. cbn [fst snd]. specialize (H _ _ Hr). destruct (f1 w1), (f2 w2). now split.
  - intros [w1 s1] [w2 s2] [Hr Hq]. cbn [fst snd] in *. unfold aside. cbn [fst snd]. specialize (H1 _ _ Hr). now destruct (f1 w1), (f2 w2).
Qed.
Lemma aside_same_code {T} (Z1 : reading_impl T W1) Z2 : same_code R Z1 Z2 -> same_code pairs (aside_code Z1) (aside_code Z2).
Proof.
  intros [H1 H2 H3]. constructor; [intros x; apply aside_sim, H1|intros n x; apply aside_same_prog, H2|].
  intros id. specialize (H3 id). cbn [aside_code z_create]. destruct (z_create Z1 id), (z_create Z2 id); cbn [option_map]; auto. now apply aside_sim.
Qed.
End Aside.
Lemma msim_eq {X V} (m : X -> V * X) : msim eq m m.
Proof. intros x y <-. destruct (m x) as [v z]. eauto 7. Qed.
Lemma same_prog_eq {I W A} (p : wprog I W A) : same_prog eq A p p.
Proof. induction p; constructor; auto; try (intros u1 u2 <-; auto); (split; intros; apply msim_eq). Qed.
Lemma same_code_eq {T W} (Z : reading_impl T W) : same_code eq Z Z.
Proof. constructor; [intros x; apply msim_eq|intros n x; apply same_prog_eq|]. intros id. destruct (z_create Z id); [apply msim_eq|exact Logic.I]. Qed.
Lemma aside_impl_ok {W S} (M : reader_impl W) : impl_ok M -> impl_ok (aside_reader (S := S) M).
Proof.
  intros [H1 H2]. constructor; cbn [aside_reader u_read u_read_all]; unfold aside.
  - intros [w s] x u'. cbn [fst snd]. destruct (u_read M w) as [y w'] eqn:E. intros E'. apply pair_inv in E' as [<- _]. eauto.
  - intros buff [w s] x buff' u'. cbn [fst snd]. destruct (u_read_all M buff w) as [[y b] w'] eqn:E. intros E'. apply pair_inv in E' as [E' _]. apply pair_inv in E' as [<- <-]. eauto.
Qed.
Lemma aside_calm {T W S A} others (p : wprog (otag T) W A) : wcalm others p -> wcalm others (aside_prog (S := S) p).
Proof.
  induction p as [A a|A|A B f k IH|A k IH|A old k IH|A n k IH|A n k IH|A k IH|A t k IH|A B n body IHb k IH|A M' k IH|A M' t k IH];
    cbn [aside_prog wcalm]; auto.
  - intros H [w s]. unfold aside. cbn [fst snd]. specialize (H w). destruct (f w). cbn [fst] in *. auto.
  - intros [H1 H2]. split; auto.
  - intros [H1 H2]. split; auto.
  - intros (H0 & H1 & H2). split; [exact H0|]. split; [now apply aside_impl_ok|auto].
  - intros (H0 & H1 & H2 & H3). split; [exact H0|]. split; [now apply aside_impl_ok|]. split; auto.
Qed.
Lemma aside_ok {T W S} others (Z : reading_impl T W) : reading_ok others Z -> reading_ok others (aside_code (S := S) Z).
Proof.
  intros [H1 H2 H3]. constructor; cbn [aside_code z_id z_value z_create].
  - intros x [w s]. unfold aside. cbn [fst snd]. specialize (H1 x w). now destruct (z_id Z x w).
  - intros n x. apply aside_calm, H2.
  - intros id f [w s]. destruct (z_create Z id) as [g|] eqn:E; cbn [option_map]; [|discriminate]. intros E'. assert (f = aside g) as -> by congruence.
    destruct (H3 id g w E) as (t & w' & Eg & Tt). exists t, (w', s). unfold aside. cbn [fst snd]. now rewrite Eg.
Qed.
(** The local reader, with what is known of it. *)
Definition carried_ok {W} : reader_impl (W * wreader) := {|
  u_read := fun u => let '(x, r) := u_read reader_as_impl (snd u) in (x, (fst u, r));
  u_read_all := fun buff u => let '(x, b, r) := u_read_all reader_as_impl buff (snd u) in (x, b, (fst u, r)) |}.
Lemma carried_impl_ok {W} : impl_ok (carried_ok (W := W)).
Proof.
  destruct reader_as_impl_ok as [H1 H2]. constructor; cbn [carried_ok u_read u_read_all].
  - intros [w s] x u'. cbn [fst snd]. destruct (u_read reader_as_impl s) as [y w'] eqn:E. intros E'. apply pair_inv in E' as [<- _]. eauto.
  - intros buff [w s] x buff' u'. cbn [fst snd]. destruct (u_read_all reader_as_impl buff s) as [[y b] w'] eqn:E. intros E'. apply pair_inv in E' as [E' _]. apply pair_inv in E' as [<- <-]. eauto.
Qed.
Definition held (r : reader) (w : wreader) : Prop := r = proj1_sig w.
Lemma carried_same {W} : same_reader (pairs (W1 := W) eq held) carried carried_ok.
Proof.
  split; [|intros buff]; intros [w1 r] [w2 [q Wq]] [E1 E2]; unfold held in E2; cbn [fst snd proj1_sig] in *; subst w2 r; cbn [carried carried_ok reader_as_impl u_read u_read_all fst snd].
  - exists (fst (read q)), (w1, snd (read q)), (w1, exist _ (snd (read q)) (read_rwf q Wq)). split; [now destruct (read q)|]. now repeat split.
  - exists (fst (fst (read_all (lenN buff) q)), snd (fst (read_all (lenN buff) q)) ++ dropN (lenN (snd (fst (read_all (lenN buff) q)))) buff), (w1, snd (read_all (lenN buff) q)),
      (w1, exist _ (snd (read_all (lenN buff) q)) (read_all_rwf (lenN buff) q Wq)). split; [now destruct (read_all (lenN buff) q) as [[? ?] ?]|]. now repeat split.
Qed.
(** What follows the call of deserialize in from_bytes. *)
Definition checked {T} (x : res tag_error (otag T)) (r : reader) : res tag_error (otag T) :=
  match x, r with
  | Ok t, RByteArray a o =>
      match mem_available (lenN a) o with
      | Ok n => if n =? 0 then Ok t else Err CorruptedData
      | Err err => Err (TagIO err)
      | Panic => Panic
      | OutOfFuel => OutOfFuel
      end
  | Ok _, _ => Panic
  | _, _ => x
  end.

(** The value beside the state makes no difference to the code of the user, and this
    code leaves it alone: on every reader that does not use it either, all is as
    without it. *)
Theorem C93_beside : forall T W S c (Z : reading_impl T W) e f (M : reader_impl W) (s : S) u,
  (forall x u', w_deserialize c Z e f M (ABase u) = (x, ABase u') ->
     w_deserialize c (aside_code Z) e f (aside_reader M) (ABase (u, s)) = (x, ABase (u', s))) /\
  (forall t x t' u', w_deserialize_into c Z e f M (ABase u) t = (x, t', ABase u') ->
     w_deserialize_into c (aside_code Z) e f (aside_reader M) (ABase (u, s)) t = (x, t', ABase (u', s))).
Proof.
  intros T W S c Z e f M s u.
  assert (As : forall A (g : W -> A * W), msim (fun v p => p = (v, s)) g (aside g)).
  { intros A g v p ->. unfold aside. cbn [fst snd]. destruct (g v) as [a v']. eauto 7. }
  assert (Rs : forall N : reader_impl W, same_reader (fun v p => p = (v, s)) N (aside_reader N)) by (intros N; split; intros; apply As).
  assert (Ps : forall A (p : wprog (otag T) W A), same_prog (fun v p => p = (v, s)) A p (aside_prog p)).
  { intros A p. induction p as [A a|A|A B g k IH|A k IH|A old k IH|A n k IH|A n k IH|A k IH|A t k IH|A B n body IHb k IH|A M' k IH|A M' t k IH]; cbn [aside_prog]; constructor; auto.
    - intros v q ->. unfold aside. cbn [fst snd]. now destruct (g v).
    - intros v q ->. unfold aside. cbn [fst snd]. destruct (g v). apply IH. }
  destruct (C92_answers T _ _ (fun v p => p = (v, s)) c Z (aside_code Z) e f M (aside_reader M)) as [K1 K2]; [|apply Rs|].
  { constructor; cbn [aside_code z_id z_value z_create]; [intros x; apply As|intros n x; apply Ps|]. intros id. destruct (z_create Z id); [apply As|exact Logic.I]. }
  split.
  - intros x u' E. destruct (K1 (ABase u) (ABase (u, s)) eq_refl) as (y & r1 & r2 & E1 & E2 & A). rewrite E1 in E. apply pair_inv in E as [-> ->].
    destruct r2 as [p|]; cbn [asim] in A; [|contradiction]. now subst p.
  - intros t x t' u' E. destruct (K2 (ABase u) (ABase (u, s)) t eq_refl) as (y & t1 & r1 & r2 & E1 & E2 & A). rewrite E1 in E. apply pair_inv in E as [E ->]. apply pair_inv in E as [-> ->].
    destruct r2 as [p|]; cbn [asim] in A; [|contradiction]. now subst p.
Qed.
Print Assumptions C93_beside.

(** *** from_bytes *)
(** A reader on a list of bytes that hands out everything that is asked for or
    nothing: what a slice is to the code that reads it. *)
Definition slice_reader {W} : reader_impl (W * list N) := {|
  u_read := fun u => match snd u with
                     | [] => (Err EndOfData, u)
                     | b :: l => (Ok b, (fst u, l))
                     end;
  u_read_all := fun buff u =>
    if lenN buff <=? lenN (snd u) then (Ok tt, takeN (lenN buff) (snd u), (fst u, dropN (lenN buff) (snd u)))
    else (Err (if lenN (snd u) =? 0 then EndOfData else UnableToReadData), buff, u) |}.
(** The reader of from_bytes has handed out [o] bytes of [raw]. *)
Definition at_offset (raw : list N) (r : reader) (l : list N) : Prop :=
  exists o, r = RByteArray raw o /\ o <= lenN raw /\ l = dropN o raw.
Lemma slice_same {W} raw : same_reader (pairs (W1 := W) eq (at_offset raw)) carried slice_reader.
Proof.
  split; [|intros buff]; intros [w1 r] [w2 l] [E1 (o & Er & Lo & El)]; cbn [fst snd] in *; subst w2 r l; cbn [carried slice_reader u_read u_read_all fst snd].
  - cbn [read]. unfold mem_read, mem_can_read, mem_available. change (1 =? 0) with false. cbv iota. destruct (o <=? lenN raw) eqn:Eo; [|apply N.leb_gt in Eo; lia].
    destruct (lenN raw - o =? 0) eqn:E0.
    + apply N.eqb_eq in E0. rewrite (dropN_all o raw) by lia. do 3 eexists. split; [reflexivity|]. split; [reflexivity|]. split; [reflexivity|]. exists o. repeat split; auto. now rewrite dropN_all by lia.
    + apply N.eqb_neq in E0. destruct (lenN raw - o <? 1) eqn:E1; [apply N.ltb_lt in E1; lia|]. destruct (nthN_lt raw o) as [b Hb]; [lia|]. rewrite Hb, (nthN_dropN _ _ _ Hb).
      do 3 eexists. split; [reflexivity|]. split; [reflexivity|]. split; [reflexivity|]. exists (o + 1). repeat split; auto. lia.
  - assert (Ld : lenN (dropN o raw) = lenN raw - o) by apply lenN_dropN. rewrite Ld. cbn [read_all]. unfold mem_read_all, mem_can_read, mem_available.
    destruct (lenN buff =? 0) eqn:Eb.
    + apply N.eqb_eq in Eb. rewrite Eb. rewrite slice_ok by lia. replace (o + 0 - o) with 0 by lia. rewrite !takeN_0, !dropN_0. destruct (0 <=? lenN raw - o) eqn:E0; [|apply N.leb_gt in E0; lia].
      assert (buff = []) as -> by (destruct buff; [reflexivity|rewrite lenN_cons in Eb; lia]).
      do 3 eexists. split; [reflexivity|]. split; [reflexivity|]. split; [reflexivity|]. exists (o + 0). replace (o + 0) with o by lia. repeat split; auto.
    + apply N.eqb_neq in Eb. destruct (o <=? lenN raw) eqn:Eo; [|apply N.leb_gt in Eo; lia]. destruct (lenN raw - o =? 0) eqn:E0.
      * apply N.eqb_eq in E0. destruct (lenN buff <=? lenN raw - o) eqn:E1; [apply N.leb_le in E1; lia|]. change (lenN (@nil N)) with 0. rewrite dropN_0.
        do 3 eexists. split; [reflexivity|]. split; [reflexivity|]. split; [reflexivity|]. exists o. auto.
      * destruct (lenN raw - o <? lenN buff) eqn:E1.
        -- apply N.ltb_lt in E1. destruct (lenN buff <=? lenN raw - o) eqn:E2; [apply N.leb_le in E2; lia|]. change (lenN (@nil N)) with 0. rewrite dropN_0.
           do 3 eexists. split; [reflexivity|]. split; [reflexivity|]. split; [reflexivity|]. exists o. auto.
        -- apply N.ltb_ge in E1. destruct (lenN buff <=? lenN raw - o) eqn:E2; [|apply N.leb_gt in E2; lia]. rewrite slice_ok by lia. replace (o + lenN buff - o) with (lenN buff) by lia.
           rewrite lenN_takeN. rewrite Ld. rewrite (dropN_all _ buff) by lia. rewrite app_nil_r. do 3 eexists. split; [reflexivity|]. split; [reflexivity|]. split; [reflexivity|].
           exists (o + lenN buff). repeat split; auto; [lia|]. now rewrite dropN_dropN.
Qed.
(** from_bytes reads a tag from the slice as from any reader, and accepts it exactly
    if nothing of the slice is left; the state of the user is what the reading has
    left, also when it fails and when bytes are left. *)
Theorem C93_from_bytes : forall T W c (Z : reading_impl T W) e f raw u,
  exists x r' u' rest used, w_deserialize c (aside_code Z) e f slice_reader (ABase (u, raw)) = (x, r') /\ a_state r' = (u', rest) /\ raw = used ++ rest /\
    snd (w_from_bytes c Z e f raw u) = u' /\
    (forall t, fst (w_from_bytes c Z e f raw u) = Ok t <-> x = Ok t /\ rest = []) /\
    (forall err, fst (w_from_bytes c Z e f raw u) = Err err <-> x = Err err \/ (err = CorruptedData /\ rest <> [] /\ exists t, x = Ok t)) /\
    (fst (w_from_bytes c Z e f raw u) = Panic <-> x = Panic).
Proof.
  intros T W c Z e f raw u.
  destruct (C92_answers T _ _ (pairs eq (at_offset raw)) c (aside_code Z) (aside_code Z) e f carried slice_reader) as [K _].
  { apply aside_same_code, same_code_eq. } { apply slice_same. }
  destruct (K (ABase (u, ByteArrayReader_new raw)) (ABase (u, raw))) as (x & r1 & r2 & E1 & E2 & A).
  { split; [reflexivity|]. exists 0. repeat split; [lia|now rewrite dropN_0]. }
  apply asim_state in A. destruct (a_state r1) as [u1 q1] eqn:S1, (a_state r2) as [u2 rest] eqn:S2. destruct A as [Eu (o & Eq & Lo & El)]. cbn [fst snd] in *. subst u2 q1.
  exists x, r2, u1, rest, (takeN o raw). split; [exact E2|]. split; [exact S2|]. split; [rewrite El; symmetry; apply takeN_dropN|].
  unfold w_from_bytes. rewrite E1, S1. cbn [fst snd]. split; [reflexivity|]. unfold mem_available. destruct (o <=? lenN raw) eqn:Eo; [|apply N.leb_gt in Eo; lia].
  assert (Hr : (lenN raw - o =? 0) = true <-> rest = []).
  { rewrite N.eqb_eq, El. split; [intros L; apply dropN_all; lia|]. intros L. rewrite <- (lenN_dropN o raw), L. reflexivity. }
  destruct x as [t|err| |].
  - destruct (lenN raw - o =? 0).
    + assert (Er : rest = []) by now apply Hr. split; [intros t'; split; [intros H; split; [exact H|exact Er]|intros [H _]; exact H]|].
      split; [intros err; split; [discriminate|]; intros [H|(_ & H & _)]; [discriminate|contradiction]|]. split; discriminate.
    + assert (Er : rest <> []) by (intros H; apply Hr in H; discriminate). split; [intros t'; split; [discriminate|]; intros [_ H]; contradiction|].
      split; [intros err; split; [intros H; right; split; [congruence|split; [exact Er|eauto]]|]; intros [H|(-> & _)]; [discriminate|reflexivity]|]. split; discriminate.
  - split; [intros t'; split; [discriminate|intros [H _]; discriminate]|]. split; [intros err'; split; [auto|]; intros [H|(_ & _ & t & H)]; [exact H|discriminate]|]. split; discriminate.
  - split; [intros t'; split; [discriminate|intros [H _]; discriminate]|]. split; [intros err'; split; [discriminate|]; intros [H|(_ & _ & t & H)]; discriminate|]. split; auto.
  - split; [intros t'; split; [discriminate|intros [H _]; discriminate]|]. split; [intros err'; split; [discriminate|]; intros [H|(_ & _ & t & H)]; discriminate|]. split; discriminate.
Qed.
Print Assumptions C93_from_bytes.

(** The same run on the reader with its invariant. *)
Lemma from_bytes_run {T W} c (Z : reading_impl T W) e f raw u (Wr : rwf (ByteArrayReader_new raw)) :
  exists x r' u' q, w_deserialize c (aside_code Z) e f carried_ok (ABase (u, exist _ (ByteArrayReader_new raw) Wr)) = (x, r') /\ a_state r' = (u', q) /\
    w_from_bytes c Z e f raw u = (checked x (proj1_sig q), u').
Proof.
  destruct (C92_answers T _ _ (pairs eq held) c (aside_code Z) (aside_code Z) e f carried carried_ok) as [K _].
  { apply aside_same_code, same_code_eq. } { apply carried_same. }
  destruct (K (ABase (u, ByteArrayReader_new raw)) (ABase (u, exist _ (ByteArrayReader_new raw) Wr))) as (x & r1 & r2 & E1 & E2 & A); [now split|].
  apply asim_state in A. destruct (a_state r1) as [u1 q1] eqn:S1, (a_state r2) as [u2 q2] eqn:S2. destruct A as [Eu Eq]. unfold held in Eq. cbn [fst snd] in *. subst u2 q1.
  exists x, r2, u1, q2. split; [exact E2|]. split; [exact S2|]. unfold w_from_bytes. rewrite E1, S1. reflexivity.
Qed.
(** It does not panic if the code of the user does not, and it ends if this code does
    not read from other readers. *)
Theorem C93_total : forall T W c (Z : reading_impl T W) e f raw u,
  1 <= usize_max c -> engine_total e -> engine_bytes e -> bytes_ok raw ->
  (reading_ok True Z -> fst (w_from_bytes c Z e f raw u) <> Panic) /\
  (reading_ok False Z -> 536870913 < N.of_nat f -> returns (fst (w_from_bytes c Z e f raw u))).
Proof.
  intros T W c Z e f raw u Hc Ht He B. assert (Wr : rwf (ByteArrayReader_new raw)) by (cbn; split; [exact B|lia]).
  destruct (from_bytes_run c Z e f raw u Wr) as (x & r' & u' & q & E & _ & Ef).
  destruct (C93_from_bytes T W c Z e f raw u) as (y & r2' & u2 & rest & used & Es & _ & Eraw & Eu & KO & KE & KP).
  destruct (C92_answers T _ _ (pairs eq (at_offset raw)) c (aside_code Z) (aside_code Z) e f carried slice_reader) as [K _].
  { apply aside_same_code, same_code_eq. } { apply slice_same. }
  destruct (K (ABase (u, ByteArrayReader_new raw)) (ABase (u, raw))) as (x1 & r1 & r2 & E1 & E2 & A).
  { split; [reflexivity|]. exists 0. repeat split; [lia|now rewrite dropN_0]. }
  destruct (C92_answers T _ _ (pairs eq held) c (aside_code Z) (aside_code Z) e f carried carried_ok) as [K' _].
  { apply aside_same_code, same_code_eq. } { apply carried_same. }
  destruct (K' (ABase (u, ByteArrayReader_new raw)) (ABase (u, exist _ (ByteArrayReader_new raw) Wr))) as (x3 & r3 & r4 & E3 & E4 & A'); [now split|].
  assert (x = y) as <- by congruence. split.
  - intros HZ H. apply KP in H. subst x. destruct (C92_confined T _ c (aside_code Z) e f carried_ok (ABase (u, exist _ (ByteArrayReader_new raw) Wr)) Hc Ht He carried_impl_ok (aside_ok True Z HZ)) as [C _].
    now destruct (C _ _ E).
  - intros HZ Lf. destruct (C92_ends T _ c (aside_code Z) e f carried_ok (ABase (u, exist _ (ByteArrayReader_new raw) Wr)) Hc Ht He carried_impl_ok (aside_ok False Z HZ) Lf) as [C _].
    rewrite E in C. cbn [fst] in C. destruct x as [t|err| |]; try contradiction.
    + destruct (fst (w_from_bytes c Z e f raw u)) as [t1|e1| |] eqn:Ex; cbn [returns]; auto; [pose proof (proj1 KP eq_refl); discriminate|].
      assert (D : rest = [] \/ rest <> []) by (destruct rest; [now left|right; discriminate]). destruct D as [D|D].
      * assert (H : OutOfFuel = Ok t) by (apply KO; auto). discriminate.
      * assert (H : OutOfFuel = Err CorruptedData) by (apply KE; right; eauto). discriminate.
    + assert (H : fst (w_from_bytes c Z e f raw u) = Err err) by (apply KE; auto). rewrite H. exact Logic.I.
Qed.
Print Assumptions C93_total.

(** The results depend on the state only through the answers of the code. *)
Theorem C93_answers : forall T W1 W2 (R : W1 -> W2 -> Prop) c (Z1 : reading_impl T W1) (Z2 : reading_impl T W2) e f raw u1 u2,
  same_code R Z1 Z2 -> R u1 u2 ->
  fst (w_from_bytes c Z1 e f raw u1) = fst (w_from_bytes c Z2 e f raw u2) /\ R (snd (w_from_bytes c Z1 e f raw u1)) (snd (w_from_bytes c Z2 e f raw u2)).
Proof.
  intros T W1 W2 R c Z1 Z2 e f raw u1 u2 HZ HR.
  destruct (C92_answers T _ _ (pairs R eq) c (aside_code Z1) (aside_code Z2) e f carried carried) as [K _].
  { now apply aside_same_code. }
  { split; [|intros buff]; intros [w1 r1] [w2 r2] [H1 H2]; cbn [fst snd] in *; subst r2; cbn [carried u_read u_read_all fst snd].
    - destruct (read r1) as [x r']. do 3 eexists. split; [reflexivity|]. split; [reflexivity|]. now split.
    - destruct (read_all (lenN buff) r1) as [[x got] r']. do 3 eexists. split; [reflexivity|]. split; [reflexivity|]. now split. }
  destruct (K (ABase (u1, ByteArrayReader_new raw)) (ABase (u2, ByteArrayReader_new raw))) as (x & r1 & r2 & E1 & E2 & A); [now split|].
  apply asim_state in A. destruct A as [A1 A2]. unfold w_from_bytes. rewrite E1, E2. cbn [fst snd]. now rewrite A2.
Qed.
Print Assumptions C93_answers.

(** *** Code without state *)
(** Programs that only use their own reader and no state: from_bytes of C89 over the
    functions of C85, and the state stays. *)
Theorem C93_stateless : forall T W c (D : user_impl T) (Y : yscript T) e f raw (u : W) x u',
  cfg_ok c -> (forall n x, ydirect (Y n x)) -> (forall n x, ycalm (Y n x)) -> (forall n x, yaims (Y n x)) -> (forall id, u_create D id <> Some None) ->
  engine_total e -> engine_bytes e -> bytes_ok raw ->
  w_from_bytes c (without_state D Y) e f raw u = (x, u') -> returns x ->
  u' = u /\ from_bytes_over (y_deserialize c D Y e f) raw = x.
Proof.
  intros T W c D Y e f raw u x u' Hc Hd Hp Ha Hn Ht He B E Rx. assert (Wr : rwf (ByteArrayReader_new raw)) by (cbn; split; [exact B|lia]).
  destruct (C92_answers T (W * reader) wreader (fun a b => fst a = u /\ held (snd a) b) c (aside_code (without_state D Y)) (without_state D Y) e f carried reader_as_impl) as [K _].
  { constructor; cbn [aside_code without_state z_id z_value z_create].
    - intros y [w1 r1] q [H1 H2]. do 3 eexists. split; [reflexivity|]. split; [reflexivity|]. now split.
    - intros n y. specialize (Hd n y). clear -Hd. revert Hd. generalize (Y n y). intros p.
      induction p; cbn [ydirect to_w aside_prog]; intros Hd; try contradiction; constructor; intuition auto.
    - intros id. destruct (u_create D id) as [o|]; cbn [option_map]; [|exact Logic.I]. intros [w1 r1] q [H1 H2]. do 3 eexists. split; [reflexivity|]. split; [reflexivity|]. now split. }
  { split; [|intros buff]; intros [w1 r1] [q Wq] [H1 H2]; unfold held in H2; cbn [fst snd proj1_sig] in *; subst w1 r1; cbn [carried reader_as_impl u_read u_read_all fst snd].
    - exists (fst (read q)), (u, snd (read q)), (exist _ (snd (read q)) (read_rwf q Wq)). split; [now destruct (read q)|]. now repeat split.
    - exists (fst (fst (read_all (lenN buff) q)), snd (fst (read_all (lenN buff) q)) ++ dropN (lenN (snd (fst (read_all (lenN buff) q)))) buff), (u, snd (read_all (lenN buff) q)),
        (exist _ (snd (read_all (lenN buff) q)) (read_all_rwf (lenN buff) q Wq)). split; [now destruct (read_all (lenN buff) q) as [[? ?] ?]|]. now repeat split. }
  destruct (K (ABase (u, ByteArrayReader_new raw)) (ABase (exist _ (ByteArrayReader_new raw) Wr))) as (y & r1 & r2 & E1 & E2 & A); [now split|].
  destruct (C92_stateless T wreader reader_as_impl c D Y e f (ABase (exist _ (ByteArrayReader_new raw) Wr)) Hd) as [S _]. rewrite S in E2.
  apply asim_state in A. destruct A as [A1 A2]. unfold w_from_bytes in E. rewrite E1 in E. apply pair_inv in E as [Ex Eu]. split; [congruence|].
  assert (Ry : returns y) by (destruct y; try exact Logic.I; subst x; exact Rx).
  destruct (C87_library_readers T c D Y e f (ByteArrayReader_new raw) Wr y r2 Hc Hp Ha Hn Ht He E2 Ry) as (q & Wq & -> & Ey).
  cbn [a_state] in A2. unfold held in A2. cbn [proj1_sig] in A2. unfold from_bytes_over. rewrite Ey, <- Ex, A2. destruct y; try contradiction; [|reflexivity]. now destruct q.
Qed.
Print Assumptions C93_stateless.

(** *** Without creators of the user *)
Section Plain.
Context {W1 W2 T : Type} (R : W1 -> W2 -> Prop) (c : cfg) (Z1 : reading_impl T W1) (Z2 : reading_impl T W2) (e : engine).
Hypothesis N1 : forall id, z_create Z1 id = None.
Hypothesis N2 : forall id, z_create Z2 id = None.
Lemma emb_not_user (t : tag) x : emb (T := T) t <> OUser x.
Proof. destruct t as [id v]. destruct v; discriminate. Qed.
Lemma plain_check t : (forall x, t <> OUser x) -> msim (asim R) (w_check Z1 t) (w_check Z2 t).
Proof.
  intros Nu. assert (I : msim (asim R) (w_id Z1 t) (w_id Z2 t)) by (destruct t as [i v|x|i l|i l|i l]; [|now elim (Nu x)|..]; apply s_ret).
  apply s_bind; [exact I|]. intros i. apply s_if; [apply s_ret|]. apply s_bind; [exact I|]. intros j. apply s_if; [apply s_ret|].
  intros r1 r2 H. rewrite (asim_empty _ _ _ H). eauto 7.
Qed.
Lemma plain_tail n (v1 : areader W1 -> res tag_error unit * otag T * areader W1) v2 : msim (asim R) v1 v2 -> (forall r y t' r', v1 r = (y, t', r') -> forall x, t' <> OUser x) ->
  msim (asim R) (fun r => let '(x, t', lr) := v1 (ALimited r n) in match x with Ok _ => let '(y, lr') := w_check Z1 t' lr in (y, t', a_unlimit lr') | _ => (x, t', a_unlimit lr) end)
    (fun r => let '(x, t', lr) := v2 (ALimited r n) in match x with Ok _ => let '(y, lr') := w_check Z2 t' lr in (y, t', a_unlimit lr') | _ => (x, t', a_unlimit lr) end).
Proof.
  intros G Nu r1 r2 H. destruct (G (ALimited r1 n) (ALimited r2 n) (conj H eq_refl)) as ([y t'] & y1 & y2 & E1 & E2 & K). rewrite E1, E2. pose proof (Nu _ _ _ _ E1) as Nu'.
  destruct y as [[]|er| |]; [|do 3 eexists; (split; [reflexivity|]; split; [reflexivity|]; now apply asim_unlimit)..].
  destruct (plain_check t' Nu' _ _ K) as (z & z1 & z2 & -> & -> & Kz). do 3 eexists. split; [reflexivity|]. split; [reflexivity|]. now apply asim_unlimit.
Qed.
(** No code of the user is called if there is no user object. *)
Lemma plain_sim M1 M2 : same_reader R M1 M2 -> forall f, msim (asim R) (w_deserialize c Z1 e f M1) (w_deserialize c Z2 e f M2).
Proof.
  intros HM. unfold w_deserialize. induction f as [|f IH]; [apply s_pure|]. cbn [w_fuel fst snd].
  set (us1 := w_user c Z1 M1 _ _ _ _). set (us2 := w_user c Z2 M2 _ _ _ _).
  set (d1 := fst (w_fuel c Z1 e f M1)) in *. set (d2 := fst (w_fuel c Z2 e f M2)) in *. clearbody us1 us2 d1 d2. unfold w_step.
  assert (V : forall t n, (forall x, t <> OUser x) -> msim (asim R) (w_value_into Z1 (av_value M1 us1 d1) n t) (w_value_into Z2 (av_value M2 us2 d2) n t)).
  { intros t n Nu. unfold w_value_into. apply (plain_tail n (av_value M1 us1 d1 t n) (av_value M2 us2 d2 t n)).
    - destruct t as [i v|x|i l|i l|i l]; [|now elim (Nu x)|..]; unfold av_value, ao_run.
      + intros r1 r2 H. destruct (s_value R M1 M2 HM (fun r => (Panic, r)) (fun r => (Panic, r)) v n (s_pure _ _) _ _ H) as ([x v'] & y1 & y2 & -> & -> & K). eauto 7.
      + now apply s_run, s_seq.
      + now apply s_run, s_arr.
      + now apply s_run, s_dict.
    - intros r y t' r'. destruct t as [i v|x|i l|i l|i l]; [|now elim (Nu x)|..]; unfold av_value, ao_run; intros E.
      + destruct (a_value M1 _ v n r) as [[? ?] ?]. apply pair_inv in E as [E _]. apply pair_inv in E as [_ <-]. discriminate.
      + destruct (a_seq d1 n (l, r)) as [? [? ?]]. apply pair_inv in E as [E _]. apply pair_inv in E as [_ <-]. discriminate.
      + destruct (a_arr M1 d1 n (l, r)) as [? [? ?]]. apply pair_inv in E as [E _]. apply pair_inv in E as [_ <-]. discriminate.
      + destruct (a_dict M1 d1 n (l, r)) as [? [? ?]]. apply pair_inv in E as [E _]. apply pair_inv in E as [_ <-]. discriminate. }
  apply s_bind; [now apply s_ilint|]. intros id. apply s_bind; [now apply s_tag_size|]. intros n.
  intros r1 r2 H. unfold bind, w_create. rewrite N1, N2. destruct (create_tag e id) as [[t|]|er| |]; cbn [map_ok option_map]; eauto 7; [|now apply s_fail].
  destruct (V (emb t) n (emb_not_user t) _ _ H) as ([y t'] & y1 & y2 & -> & -> & K). eauto 7.
Qed.
End Plain.
(** A user type that is never made. *)
Definition nobody {T} : user_impl T := {|
  u_id := fun _ => 0; u_size := fun _ => 0; u_serialize := fun _ w => (Ok tt, w); u_to_bytes := fun _ => Ok [];
  u_deserialize_value := fun _ _ s => (Ok tt, s); u_create := fun _ => None |}.
(** Without creators of the user, from_bytes is that of the closed model, whatever
    the code of the user may do: none of it is called, and the state stays. *)
Theorem C93_plain : forall T W c (Z : reading_impl T W) e f raw u,
  cfg_ok c -> engine_ok e -> engine_total e -> bytes_ok raw -> 536870913 < N.of_nat f ->
  w_from_bytes c (no_creators Z) e f raw u = (map_ok emb (from_bytes e raw), u).
Proof.
  intros T W c Z e f raw u Hc He Ht B Lf. assert (Wr : rwf (ByteArrayReader_new raw)) by (cbn; split; [exact B|lia]).
  assert (Hc1 : 1 <= usize_max c) by (unfold cfg_ok in Hc; lia). pose proof (engine_ok_bytes e He) as Hb.
  set (Y := fun (n : N) (x : T) => YDone (I := otag T) (@None tag_error, x)).
  pose proof (plain_sim (fun (a : W * reader) (b : wreader) => fst a = u /\ held (snd a) b) c (aside_code (no_creators Z)) (without_state nobody Y) e
    (fun _ => eq_refl) (fun _ => eq_refl) carried reader_as_impl) as K.
  specialize (K ltac:(split; [|intros buff]; intros [w1 r1] [q Wq] [H1 H2]; unfold held in H2; cbn [fst snd proj1_sig] in *; subst w1 r1; cbn [carried reader_as_impl u_read u_read_all fst snd];
    [exists (fst (read q)), (u, snd (read q)), (exist _ (snd (read q)) (read_rwf q Wq)); split; [now destruct (read q)|]; now repeat split
    |exists (fst (fst (read_all (lenN buff) q)), snd (fst (read_all (lenN buff) q)) ++ dropN (lenN (snd (fst (read_all (lenN buff) q)))) buff), (u, snd (read_all (lenN buff) q)),
        (exist _ (snd (read_all (lenN buff) q)) (read_all_rwf (lenN buff) q Wq)); split; [now destruct (read_all (lenN buff) q) as [[? ?] ?]|]; now repeat split])).
  destruct (K f (ABase (u, ByteArrayReader_new raw)) (ABase (exist _ (ByteArrayReader_new raw) Wr))) as (y & r1 & r2 & E1 & E2 & A); [now split|].
  assert (HZ : reading_ok False (without_state (W := wreader) nobody Y)) by (constructor; [discriminate|intros n x; exact Logic.I|discriminate]).
  destruct (C92_ends T _ c (without_state nobody Y) e f reader_as_impl (ABase (exist _ (ByteArrayReader_new raw) Wr)) Hc1 Ht Hb reader_as_impl_ok HZ Lf) as [Ry _].
  rewrite E2 in Ry. cbn [fst] in Ry.
  destruct (C92_stateless T wreader reader_as_impl c nobody Y e f (ABase (exist _ (ByteArrayReader_new raw) Wr)) (fun _ _ => Logic.I)) as [S _]. rewrite S in E2.
  destruct (C87_library_readers T c nobody Y e f (ByteArrayReader_new raw) Wr y r2 Hc (fun _ _ => Logic.I) (fun _ _ => Logic.I) ltac:(discriminate) Ht Hb E2 Ry) as (q & Wq & -> & Ey).
  destruct (C85_written_out T c nobody Y e f (ByteArrayReader_new raw) Hc (fun _ _ => Logic.I) Hb Wr) as (Ha & Ei & _). specialize (Ei _ _ Ey Ry).
  set (X := ysettled _ _ Y) in *. clearbody X.
  destruct (C83_written_out T c nobody X e (ByteArrayReader_new raw) Hc Ha Hb Wr) as [Eo _]. rewrite Eo in Ei.
  destruct (C63_conservative T (scripted c nobody (unrolled nobody X)) e (fun _ => eq_refl)) as (_ & _ & C). rewrite <- C.
  unfold o_from_bytes. rewrite Ei. unfold w_from_bytes. rewrite E1. apply asim_state in A. destruct A as [A1 A2]. cbn [a_state] in A2. unfold held in A2. cbn [proj1_sig] in A2.
  rewrite A1, A2. f_equal. destruct y; try contradiction; [|reflexivity]. now destruct q.
Qed.
Print Assumptions C93_plain.

(** *** The clones *)
(** A clone is what the factory makes of the bytes of the object, and the two share the
    state: the object is asked first. *)
Theorem C93_clone : forall T W c (G : world_impl T W) (Z : reading_impl T W) e f t u, sizes_u64 G -> ready t ->
  (forall t' u', w_clone_with_factory c G Z e f t u = (Ok t', u') <->
     exists bs l u1, ran G u l u1 /\ bytes_log (negb (overflow_checks c)) c t l bs /\ w_from_bytes c Z e f bs u1 = (Ok t', u')) /\
  (forall err u', w_clone_with_factory c G Z e f t u = (Err err, u') <->
     w_to_bytes G c t u = (Err err, u') \/
     exists bs l u1, ran G u l u1 /\ bytes_log (negb (overflow_checks c)) c t l bs /\ w_from_bytes c Z e f bs u1 = (Err err, u')) /\
  (forall u', w_clone_with_factory c G Z e f t u = (Panic, u') <->
     w_to_bytes G c t u = (Panic, u') \/
     exists bs l u1, ran G u l u1 /\ bytes_log (negb (overflow_checks c)) c t l bs /\ w_from_bytes c Z e f bs u1 = (Panic, u')).
Proof.
  intros T W c G Z e f t u HG Rt. pose proof (fun bs u' => C90_to_bytes T W G c t u bs u' HG Rt) as B.
  unfold w_clone_with_factory, bind. destruct (w_to_bytes G c t u) as [[s|e0| |] u0] eqn:E0.
  - assert (S : forall x u', w_from_bytes c Z e f s u0 = (x, u') <->
      exists bs l u1, ran G u l u1 /\ bytes_log (negb (overflow_checks c)) c t l bs /\ w_from_bytes c Z e f bs u1 = (x, u')).
    { intros x u'. split.
      - intros E. destruct (proj1 (B s u0) eq_refl) as (l & H1 & H2). eauto 6.
      - intros (bs & l & u1 & H1 & H2 & H3). assert (H : (Ok s, u0) = (Ok bs, u1) :> res tag_error (list N) * W) by (apply B; eauto). congruence. }
    split; [intros; apply S|]. split; intros; rewrite S; (split; [auto|]); intros [H|H]; [discriminate|exact H|discriminate|exact H].
  - assert (N : forall bs l u1, ~ (ran G u l u1 /\ bytes_log (negb (overflow_checks c)) c t l bs)).
    { intros bs l u1 H. assert (K : (Err e0, u0) = (Ok bs, u1) :> res tag_error (list N) * W) by (apply B; eauto). discriminate. }
    split; [intros; split; [discriminate|]; intros (bs & l & u1 & H1 & H2 & _); elim (N bs l u1); auto|].
    split; intros; (split; [intros E; left; apply pair_inv in E as [E ->]; congruence|]); intros [H|(bs & l & u1 & H1 & H2 & _)];
      try (elim (N bs l u1); now auto); apply pair_inv in H as [H ->]; congruence.
  - assert (N : forall bs l u1, ~ (ran G u l u1 /\ bytes_log (negb (overflow_checks c)) c t l bs)).
    { intros bs l u1 H. assert (K : (Panic, u0) = (Ok bs, u1) :> res tag_error (list N) * W) by (apply B; eauto). discriminate. }
    split; [intros; split; [discriminate|]; intros (bs & l & u1 & H1 & H2 & _); elim (N bs l u1); auto|].
    split; intros; (split; [intros E; left; apply pair_inv in E as [E ->]; congruence|]); intros [H|(bs & l & u1 & H1 & H2 & _)];
      try (elim (N bs l u1); now auto); apply pair_inv in H as [H ->]; congruence.
  - assert (N : forall bs l u1, ~ (ran G u l u1 /\ bytes_log (negb (overflow_checks c)) c t l bs)).
    { intros bs l u1 H. assert (K : (OutOfFuel, u0) = (Ok bs, u1) :> res tag_error (list N) * W) by (apply B; eauto). discriminate. }
    split; [intros; split; [discriminate|]; intros (bs & l & u1 & H1 & H2 & _); elim (N bs l u1); auto|].
    split; intros; (split; [intros E; left; apply pair_inv in E as [E ->]; congruence|]); intros [H|(bs & l & u1 & H1 & H2 & _)];
      try (elim (N bs l u1); now auto); apply pair_inv in H as [H ->]; congruence.
Qed.
Print Assumptions C93_clone.
(** iltag_clone: after the bytes have been asked for, no code of the user runs; the
    clone is what the closed model makes of the bytes and holds no user object. *)
Theorem C93_plain_clone : forall T W c (G : world_impl T W) (Z : reading_impl T W) f t u, cfg_ok c -> 536870913 < N.of_nat f ->
  (forall bs u', w_to_bytes G c t u = (Ok bs, u') -> bytes_ok bs -> w_clone c G Z f t u = (map_ok emb (from_bytes (create_std_engine false) bs), u')) /\
  (forall err u', w_to_bytes G c t u = (Err err, u') -> w_clone c G Z f t u = (Err err, u')).
Proof.
  intros T W c G Z f t u Hc Lf. unfold w_clone, w_clone_with_factory, bind. split.
  - intros bs u' -> B. apply C93_plain; auto using std_engine_ok, std_engine_total.
  - intros err u' ->. reflexivity.
Qed.
Print Assumptions C93_plain_clone.
(** *** Panics *)
Lemma aside_mends {I W S A} (p1 p2 : wprog I W A) : wmends A p1 p2 -> wmends A (aside_prog (S := S) p1) (aside_prog p2).
Proof.
  assert (Rm : forall M1 M2 : reader_impl W, reader_mends M1 M2 -> reader_mends (aside_reader (S := S) M1) (aside_reader M2)).
  { intros M1 M2 [H1 H2]. split.
    - intros [w s]. cbn [aside_reader u_read]. unfold aside. cbn [fst snd]. specialize (H1 w). destruct (u_read M1 w) as [x w']. cbn [fst snd] in *. intros R. now rewrite (H1 R).
    - intros buff [w s]. cbn [aside_reader u_read_all]. unfold aside. cbn [fst snd]. specialize (H2 buff w). destruct (u_read_all M1 buff w) as [[x b] w']. cbn [fst snd] in *. intros R. now rewrite (H2 R). }
  induction 1; cbn [aside_prog]; constructor; auto.
Qed.
Lemma aside_code_mends {T W S} (Z1 Z2 : reading_impl T W) : reading_mends Z1 Z2 -> reading_mends (aside_code (S := S) Z1) (aside_code Z2).
Proof.
  intros (H1 & H2 & H3). split; [|split]; cbn [aside_code z_id z_value z_create].
  - intros x [w s]. unfold aside. cbn [fst snd]. specialize (H1 x w). destruct (z_id Z1 x w) as [a w']. cbn [fst] in *. intros R. now rewrite (H1 R).
  - intros n x. apply aside_mends, H2.
  - intros id. specialize (H3 id). destruct (z_create Z1 id) as [f1|], (z_create Z2 id) as [f2|]; cbn [option_map]; auto.
    intros [w s]. unfold aside. cbn [fst snd]. specialize (H3 w). destruct (f1 w) as [a w']. cbn [fst] in *. intros R. now rewrite (H3 R).
Qed.
(** A panic of the code of the user is never caught: where from_bytes and the clones
    return, they do the same with code that does not panic where this code does. *)
Theorem C93_panics : forall T W c (Z1 Z2 : reading_impl T W) (G1 G2 : world_impl T W) e f, reading_mends Z1 Z2 -> world_mends G1 G2 ->
  (forall raw u x u', w_from_bytes c Z1 e f raw u = (x, u') -> returns x -> w_from_bytes c Z2 e f raw u = (x, u')) /\
  (forall t u x u', w_clone_with_factory c G1 Z1 e f t u = (x, u') -> returns x -> w_clone_with_factory c G2 Z2 e f t u = (x, u')) /\
  (forall t u x u', w_clone c G1 Z1 f t u = (x, u') -> returns x -> w_clone c G2 Z2 f t u = (x, u')).
Proof.
  intros T W c Z1 Z2 G1 G2 e f HZ HG.
  assert (F : forall (Y1 Y2 : reading_impl T W) e, reading_mends Y1 Y2 -> forall raw u x u', w_from_bytes c Y1 e f raw u = (x, u') -> returns x -> w_from_bytes c Y2 e f raw u = (x, u')).
  { intros Y1 Y2 e' HY raw u x u' E R. unfold w_from_bytes in *.
    destruct (w_deserialize c (aside_code Y1) e' f carried (ABase (u, ByteArrayReader_new raw))) as [y r'] eqn:Ey. apply pair_inv in E as [Ex Eu].
    assert (Ry : returns y) by (destruct y; try exact Logic.I; subst x; exact R).
    destruct (C88_shared_reading T _ c (aside_code Y1) (aside_code Y2) e' f carried carried (aside_code_mends Y1 Y2 HY) ltac:(now split)) as [K _].
    rewrite (K _ _ _ Ey Ry). congruence. }
  assert (C : forall (Y1 Y2 : reading_impl T W) e, reading_mends Y1 Y2 -> forall t u x u', w_clone_with_factory c G1 Y1 e f t u = (x, u') -> returns x -> w_clone_with_factory c G2 Y2 e f t u = (x, u')).
  { intros Y1 Y2 e' HY t u x u' E R. unfold w_clone_with_factory, bind in *. destruct (C88_shared_writing T W c G1 G2 HG) as (_ & _ & B & _).
    destruct (w_to_bytes G1 c t u) as [[s|er| |] u1] eqn:E1.
    - rewrite (B _ _ _ _ E1 Logic.I). eapply F; eauto.
    - rewrite (B _ _ _ _ E1 Logic.I). exact E.
    - apply pair_inv in E as [<- _]. elim R.
    - apply pair_inv in E as [<- _]. elim R. }
  split; [now apply F|]. split; [now apply C|]. apply C. destruct HZ as (H1 & H2 & _). split; [exact H1|]. split; [exact H2|]. intros id. exact Logic.I.
Qed.
Print Assumptions C93_panics.

(** *** Concrete cases *)
(** The state: how many objects have been made, and the vector that is written.  An
    object is a number: its last byte is what is serialized, and the rest is the number
    it got when it was made. *)
Definition numbered : world_impl N (N * list N) := {|
  g_size := fun x u => (Some 3, u);
  g_serialize := fun _ x u => (Ok tt, (fst u, snd u ++ [100; 1; x mod 256]));
  g_to_bytes := fun x u => (Ok [100; 1; x mod 256], u);
  g_writer := fun _ => WriterImpl _ (fun b u => (Ok tt, (fst u, snd u ++ [b]))) (fun bs u => (Ok tt, (fst u, snd u ++ bs)));
  g_vec := fun u => (0, (fst u, []));
  g_into := fun _ u => (snd u, u) |}.
Definition makers : reading_impl N (N * list N) := {|
  z_id := fun x u => (Some 100, u);
  z_value := fun n x => WRead (fun y => match y with
    | Ok b => WDone (None, 256 * x + b)
    | Err err => WDone (Some (TagIO err), x)
    | _ => WDone (Some (TagIO EndOfData), x) end);
  z_create := fun id => if id =? 100 then Some (fun u => (Some (OUser (fst u)), (fst u + 1, snd u))) else None |}.
Definition pair_of : otag N := OSeq 22 [OUser 7; OStd 1 (VBool true); OUser 9].
Lemma numbered_u64 : sizes_u64 numbered.
Proof. intros x u n u' E. cbn [numbered g_size] in E. apply pair_inv in E as [E _]. injection E as <-. reflexivity. Qed.
Lemma pair_ready : ready pair_of.
Proof. cbn. repeat split; vm_compute; reflexivity. Qed.
Notation std := (create_std_engine true).
(** The bytes are asked for first, then the two objects are made, in order. *)
Example C93_clone_instance :
  w_clone_with_factory c64 numbered makers std 3 pair_of (5, []) = (Ok (OSeq 22 [OUser (256 * 5 + 7); OStd 1 (VBool true); OUser (256 * 6 + 9)]), (7, [22; 8; 100; 1; 7; 1; 1; 100; 1; 9])) /\
  exists bs l u1, ran numbered (5, []) l u1 /\ bytes_log (negb (overflow_checks c64)) c64 pair_of l bs /\
    w_from_bytes c64 makers std 3 bs u1 = (Ok (OSeq 22 [OUser (256 * 5 + 7); OStd 1 (VBool true); OUser (256 * 6 + 9)]), (7, [22; 8; 100; 1; 7; 1; 1; 100; 1; 9])).
Proof.
  assert (E : w_clone_with_factory c64 numbered makers std 3 pair_of (5, []) = (Ok (OSeq 22 [OUser (256 * 5 + 7); OStd 1 (VBool true); OUser (256 * 6 + 9)]), (7, [22; 8; 100; 1; 7; 1; 1; 100; 1; 9]))) by (vm_compute; reflexivity).
  split; [exact E|]. destruct (C93_clone _ _ c64 numbered makers std 3 pair_of (5, []) numbered_u64 pair_ready) as [K _]. now apply K.
Qed.
(** Bytes that are left: the objects have been made before the call fails. *)
Example C93_from_bytes_instance :
  w_from_bytes c64 makers std 3 [22; 3; 100; 1; 7; 0] (5, []) = (Err CorruptedData, (6, [])) /\
  w_from_bytes c64 makers std 3 [22; 3; 100; 1; 7] (5, []) = (Ok (OSeq 22 [OUser 1287]), (6, [])) /\
  w_from_bytes c64 makers std 3 [22; 6; 100; 1; 7; 100; 1] (5, []) = (Err (TagIO EndOfData), (7, [])).
Proof. repeat split; vm_compute; reflexivity. Qed.
Lemma makers_ok others : reading_ok others makers.
Proof.
  constructor.
  - discriminate.
  - intros n x. cbn. intros [b|err| |]; exact Logic.I.
  - intros id f u E. cbn [makers z_create] in E. destruct (id =? 100); [|discriminate].
    assert (E1 : f = fun u => (Some (OUser (fst u)), (fst u + 1, snd u))) by congruence. subst f. do 2 eexists. split; [reflexivity|exact Logic.I].
Qed.
Example C93_total_instance : forall u, returns (fst (w_from_bytes c64 makers std (N.to_nat 536870914) [22; 6; 100; 1; 7; 100; 1] u)).
Proof.
  intros u. apply C93_total; [vm_compute; discriminate|apply std_engine_total|apply engine_ok_bytes, std_engine_ok|repeat constructor|apply makers_ok|].
  rewrite N2Nat.id. reflexivity.
Qed.
(** Creators that do not look at the number: two states that differ in it cannot be told
    apart. *)
Definition plain_makers : reading_impl N (N * list N) := {|
  z_id := z_id makers;
  z_value := z_value makers;
  z_create := fun id => if id =? 100 then Some (fun u => (Some (OUser 0), (fst u + 1, snd u))) else None |}.
Example C93_answers_instance : forall raw k1 k2,
  fst (w_from_bytes c64 plain_makers std 9 raw (k1, [])) = fst (w_from_bytes c64 plain_makers std 9 raw (k2, [])).
Proof.
  intros raw k1 k2. apply (C93_answers _ _ _ (fun u v => snd u = snd v)); [|reflexivity]. constructor.
  - intros x u v H. do 3 eexists. split; [reflexivity|]. split; [reflexivity|exact H].
  - intros n x. cbn. constructor. intros [b|err| |]; constructor.
  - intros id. cbn [plain_makers z_create]. destruct (id =? 100); [|exact Logic.I]. intros u v H. do 3 eexists. split; [reflexivity|]. split; [reflexivity|exact H].
Qed.
(** iltag_clone: user objects become raw tags, and the number is not touched. *)
Example C93_plain_clone_instance : w_clone c64 numbered makers (N.to_nat 536870914) pair_of (5, []) =
    (map_ok emb (from_bytes (create_std_engine false) [22; 8; 100; 1; 7; 1; 1; 100; 1; 9]), (5, [22; 8; 100; 1; 7; 1; 1; 100; 1; 9])) /\
  map_ok (emb (T := N)) (from_bytes (create_std_engine false) [22; 8; 100; 1; 7; 1; 1; 100; 1; 9]) =
    Ok (OSeq 22 [OStd 100 (VRaw [7]); OStd 1 (VBool true); OStd 100 (VRaw [9])]).
Proof.
  split; [|vm_compute; reflexivity]. apply C93_plain_clone; [vm_compute; repeat split; discriminate|rewrite N2Nat.id; reflexivity|vm_compute; reflexivity|repeat constructor].
Qed.
(** Two clones of one object are not equal in general, and a clone need not be what
    it is a clone of, although every answer is the same whenever it is asked for. *)
Theorem C93_same_clones_refuted : exists T W c (G : world_impl T W) (Z : reading_impl T W) e f t u t1 u1 t2 u2, sizes_u64 G /\ ready t /\ reading_ok False Z /\
  (forall x v, fst (g_to_bytes G x v) = fst (g_to_bytes G x u)) /\
  w_clone_with_factory c G Z e f t u = (Ok t1, u1) /\ w_clone_with_factory c G Z e f t u1 = (Ok t2, u2) /\ t1 <> t2 /\ t1 <> t /\
  w_are_equal G c t t1 u2 = (Ok true, u2) /\ w_are_equal G c t1 t2 u2 = (Ok true, u2).
Proof.
  exists N, (N * list N)%type, c64, numbered, makers, std, 3%nat, pair_of, (5, []), (OSeq 22 [OUser 1287; OStd 1 (VBool true); OUser 1545]).
  exists (7, [22; 8; 100; 1; 7; 1; 1; 100; 1; 9]), (OSeq 22 [OUser 1799; OStd 1 (VBool true); OUser 2057]), (9, [22; 8; 100; 1; 7; 1; 1; 100; 1; 9]).
  split; [exact numbered_u64|]. split; [exact pair_ready|]. split; [apply makers_ok|]. split; [reflexivity|].
  split; [vm_compute; reflexivity|]. split; [vm_compute; reflexivity|]. split; [discriminate|]. split; [discriminate|]. split; vm_compute; reflexivity.
Qed.
Print Assumptions C93_same_clones_refuted.
(** A failing from_bytes is not without effect: it may leave another state. *)
Theorem C93_failure_without_effect_refuted : exists T W c (Z : reading_impl T W) e f raw u err u', reading_ok False Z /\
  w_from_bytes c Z e f raw u = (Err err, u') /\ u' <> u.
Proof.
  exists N, (N * list N)%type, c64, makers, std, 3%nat, [22; 3; 100; 1; 7; 0], (5, []), CorruptedData, (6, []).
  split; [apply makers_ok|]. split; [vm_compute; reflexivity|discriminate].
Qed.
Print Assumptions C93_failure_without_effect_refuted.
(** A creator that panics the second time it is called: code that does not panic there
    gives the same clone of one object, and the clone of two panics. *)
Definition once : reading_impl N (N * list N) := {|
  z_id := z_id makers;
  z_value := z_value makers;
  z_create := fun id => if id =? 100 then Some (fun u => if fst u =? 5 then (Some (OUser (fst u)), (fst u + 1, snd u)) else (None, u)) else None |}.
Example C93_panics_instance : reading_mends once makers /\ world_mends numbered numbered /\
  (exists x u', w_clone_with_factory c64 numbered once std 3 (OUser 8) (5, []) = (x, u') /\ returns x /\
                w_clone_with_factory c64 numbered makers std 3 (OUser 8) (5, []) = (x, u')) /\
  fst (w_clone_with_factory c64 numbered once std 3 pair_of (5, [])) = Panic.
Proof.
  assert (HZ : reading_mends once makers).
  { split; [|split].
    - reflexivity.
    - intros n x. cbn. constructor. intros [b|err| |]; constructor.
    - intros id. cbn [once makers z_create]. destruct (id =? 100); [|exact Logic.I]. intros u. destruct (fst u =? 5); [reflexivity|]. intros H. now elim H. }
  assert (HG : world_mends numbered numbered) by (repeat split).
  split; [exact HZ|]. split; [exact HG|]. split; [|vm_compute; reflexivity].
  destruct (C93_panics _ _ c64 once makers numbered numbered std 3 HZ HG) as (_ & K & _).
  assert (E : w_clone_with_factory c64 numbered once std 3 (OUser 8) (5, []) = (Ok (OUser 1288), (6, []))) by (vm_compute; reflexivity).
  do 2 eexists. split; [exact E|]. split; [exact Logic.I|]. exact (K _ _ _ _ E Logic.I).
Qed.
(** The reader of C92 with its counter, beside a list. *)
Example C93_beside_instance :
  w_deserialize c64 serial std 3 meter (ABase (two, 0)) = (Ok (OSeq 22 [OUser 15; OUser 27]), ABase ([], 29)) /\
  w_deserialize c64 (aside_code serial) std 3 (aside_reader meter) (ABase ((two, 0), [1; 2])) = (Ok (OSeq 22 [OUser 15; OUser 27]), ABase (([], 29), [1; 2])).
Proof.
  assert (E : w_deserialize c64 serial std 3 meter (ABase (two, 0)) = (Ok (OSeq 22 [OUser 15; OUser 27]), ABase ([], 29))) by (vm_compute; reflexivity).
  split; [exact E|]. now apply C93_beside.
Qed.
(** Code without state. *)
Example C93_stateless_instance : forall u : N * list N, exists x,
  w_from_bytes c64 (without_state bag_user bag) std 3 [22; 5; 100; 3; 5; 6; 7] u = (x, u) /\
  from_bytes_over (y_deserialize c64 bag_user bag std 3) [22; 5; 100; 3; 5; 6; 7] = x /\ x = Ok (OSeq 22 [OUser [5; 6; 7]]).
Proof.
  intros [k l]. exists (Ok (OSeq 22 [OUser [5; 6; 7]])).
  assert (E : w_from_bytes c64 (without_state bag_user bag) std 3 [22; 5; 100; 3; 5; 6; 7] (k, l) = (Ok (OSeq 22 [OUser [5; 6; 7]]), (k, l))) by (vm_compute; reflexivity).
  split; [exact E|]. split; [|reflexivity].
  eapply (C93_stateless _ _ c64 bag_user bag std 3 [22; 5; 100; 3; 5; 6; 7] (k, l)); [vm_compute; repeat split; discriminate| | | | | | |repeat constructor|exact E|exact Logic.I].
  - intros n x. cbn. intros [y|err| |] b; exact Logic.I.
  - intros n x. cbn. intros [y|err| |] b R; cbn; exact Logic.I || contradiction.
  - intros n x. cbn. intros [y|err| |] b; exact Logic.I.
  - intros id. cbn. destruct (id =? 100); discriminate.
  - apply std_engine_total.
  - apply engine_ok_bytes, std_engine_ok.
Qed.

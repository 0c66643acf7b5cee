(** Writers of the user, whatever their methods do: C72. *)
From Verif Require Import Base BaseFacts Types Spec SpecFacts IO IOSpec IOFacts WriterFacts ILInt ILIntFacts
  WLogic Data DataFacts Tags SortFacts TagsFacts CallFacts AnyWriter AnyWriterFacts.

(** [tr] lists calls made one after the other from [u] to [u'], with their results. *)
Inductive made {W} (M : writer_impl W) : W -> list (wcall * res io_error unit) -> W -> Prop :=
| made_nil u : made M u [] u
| made_write u b x u1 tr u2 : u_write M b u = (x, u1) -> made M u1 tr u2 -> made M u ((CWrite b, x) :: tr) u2
| made_write_all u bs x u1 tr u2 : u_write_all M bs u = (x, u1) -> made M u1 tr u2 -> made M u ((CWriteAll bs, x) :: tr) u2.
Definition done (c : wcall * res io_error unit) : Prop := snd c = Ok tt.
(** The methods of the user return. *)
Definition writer_returns {W} (M : writer_impl W) : Prop :=
  (forall b u, returns (fst (u_write M b u))) /\ (forall bs u, returns (fst (u_write_all M bs u))).

Lemma make_calls_made {W} (M : writer_impl W) {E} (wrap : io_error -> E) l u : writer_returns M ->
  exists tr u', made M u tr u' /\
    ((make_calls M wrap l u = (Ok tt, u') /\ Forall done tr /\ map fst tr = l) \/
     (exists tr0 c i rest, make_calls M wrap l u = (Err (wrap i), u') /\ tr = tr0 ++ [(c, Err i)] /\ Forall done tr0 /\
        l = map fst tr0 ++ c :: rest)).
Proof.
  intros [R1 R2]. revert u. induction l as [|c l IH]; intros u.
  - exists [], u. split; [constructor|]. left. repeat split. constructor.
  - cbn [make_calls].
    assert (K : exists x u1, make_call M c u = (x, u1) /\ returns x /\
              forall tr u2, made M u1 tr u2 -> made M u ((c, x) :: tr) u2).
    { destruct c as [b|bs]; cbn [make_call].
      - specialize (R1 b u). destruct (u_write M b u) as [x u1] eqn:Ec. exists x, u1. split; [reflexivity|]. split; [exact R1|].
        intros tr u2 H. econstructor; eauto.
      - specialize (R2 bs u). destruct (u_write_all M bs u) as [x u1] eqn:Ec. exists x, u1. split; [reflexivity|]. split; [exact R2|].
        intros tr u2 H. econstructor; eauto. }
    destruct K as (x & u1 & -> & R & K). destruct x as [[]|i| |]; try contradiction.
    + destruct (IH u1) as (tr & u' & Hm & [(H1 & H2 & H3)|(tr0 & d & i & rest & H1 & H2 & H3 & H4)]).
      * exists ((c, Ok tt) :: tr), u'. split; [now apply K|]. left. split; [exact H1|]. split; [now constructor|].
        cbn [map fst]. now rewrite H3.
      * exists ((c, Ok tt) :: tr), u'. split; [now apply K|]. right. exists ((c, Ok tt) :: tr0), d, i, rest.
        split; [exact H1|]. split; [now rewrite H2|]. split; [now constructor|]. cbn [map fst app]. now rewrite H4.
    + exists [(c, Err i)], u1. split; [apply K; constructor|]. right. exists [], c, i, l. repeat split. constructor.
Qed.

(** ** C72.  The calls on the writer are a function of the tag, up to the first failure. *)
Theorem C72_serialize : forall W (M : writer_impl W) t u, wf t -> lenN (enc t) < two64 -> writer_returns M ->
  exists tr u', made M u tr u' /\
    ((a_serialize M t u = (Ok tt, u') /\ Forall done tr /\ map fst tr = calls_of t) \/
     (exists tr0 c i rest, a_serialize M t u = (Err (TagIO i), u') /\ tr = tr0 ++ [(c, Err i)] /\ Forall done tr0 /\
        calls_of t = map fst tr0 ++ c :: rest)).
Proof.
  intros W M t u Wt L R. rewrite (proj1 (serialize_makes_both M) t Wt L u). now apply make_calls_made.
Qed.
Print Assumptions C72_serialize.

Theorem C72_serialize_value : forall W (M : writer_impl W) v u, wfv v -> lenN (encv v) < two64 -> writer_returns M ->
  exists tr u', made M u tr u' /\
    ((a_serialize_value M v u = (Ok tt, u') /\ Forall done tr /\ map fst tr = value_calls v) \/
     (exists tr0 c i rest, a_serialize_value M v u = (Err (TagIO i), u') /\ tr = tr0 ++ [(c, Err i)] /\ Forall done tr0 /\
        value_calls v = map fst tr0 ++ c :: rest)).
Proof.
  intros W M v u Wv L R. rewrite (proj2 (serialize_makes_both M) v Wv L u). now apply make_calls_made.
Qed.
Print Assumptions C72_serialize_value.

(** The bytes given by these calls, in order, are the encoding. *)
Theorem C72_bytes : forall t, wf t -> flat_map wcall_bytes (calls_of t) = enc t.
Proof. apply (proj1 written_both). Qed.
Print Assumptions C72_bytes.
Theorem C72_value_bytes : forall v, wfv v -> flat_map wcall_bytes (value_calls v) = encv v.
Proof. apply (proj2 written_both). Qed.
Print Assumptions C72_value_bytes.

(** So the bytes of the calls that succeeded are a prefix of the encoding, all
    of it when the serialization succeeds. *)
Theorem C72_prefix : forall W (M : writer_impl W) t u x u', wf t -> lenN (enc t) < two64 -> writer_returns M ->
  a_serialize M t u = (x, u') ->
  exists tr given rest, made M u tr u' /\ enc t = given ++ rest /\
    given = flat_map (fun c => match snd c with Ok _ => wcall_bytes (fst c) | _ => [] end) tr /\
    (x = Ok tt -> rest = []).
Proof.
  intros W M t u x u' Wt L R E. destruct (C72_serialize W M t u Wt L R) as (tr & v & Hm & H). pose proof (C72_bytes t Wt) as B.
  assert (D : forall tr, Forall done tr ->
    flat_map (fun c : wcall * res io_error unit => match snd c with Ok _ => wcall_bytes (fst c) | _ => [] end) tr
    = flat_map wcall_bytes (map fst tr)).
  { clear. induction 1 as [|[c y] tr Hd _ IH]; [reflexivity|]. cbn [flat_map map fst snd]. unfold done in Hd. cbn [snd] in Hd.
    now rewrite Hd, IH. }
  destruct H as [(H1 & H2 & H3)|(tr0 & c & i & rest & H1 & H2 & H3 & H4)]; rewrite H1 in E.
  - assert (x = Ok tt /\ v = u') as [-> ->] by (split; congruence).
    exists tr, (enc t), []. split; [exact Hm|]. split; [now rewrite app_nil_r|]. split; [|reflexivity].
    now rewrite D, H3.
  - assert (x = Err (TagIO i) /\ v = u') as [-> ->] by (split; congruence).
    exists tr, (flat_map wcall_bytes (map fst tr0)), (flat_map wcall_bytes (c :: rest)). split; [exact Hm|].
    split; [rewrite <- B, H4; apply flat_map_app|]. split; [|discriminate].
    rewrite H2, flat_map_app, D by assumption. cbn. now rewrite app_nil_r.
Qed.
Print Assumptions C72_prefix.

(** The number of calls is linear in the encoding. *)
Lemma concat_calls_len {A} (f : A -> list wcall) (g : A -> list N) (l : list A) :
  Forall (fun x => lenN (f x) <= 2 * lenN (g x)) l -> lenN (concat (map f l)) <= 2 * lenN (concat (map g l)).
Proof. induction 1 as [|x l H _ IH]; [cbn; lia|]. cbn [map concat]. rewrite !lenN_app. lia. Qed.
Lemma ilint_calls_len v : lenN (ilint_calls v) = 1.
Proof. unfold ilint_calls. destruct (v <? 248); reflexivity. Qed.
Lemma fixed_calls_len w v : lenN (fixed_calls w v) = 1.
Proof. destruct w; reflexivity. Qed.
Lemma string_calls_len s : lenN (string_calls s) = 3.
Proof. unfold string_calls. rewrite !lenN_app, !ilint_calls_len. reflexivity. Qed.
Lemma enc_string_pos s : 2 <= lenN (enc_string s).
Proof. unfold enc_string. rewrite !lenN_app. pose proof (lenN_ilint_pos 17). pose proof (lenN_ilint_pos (lenN s)). lia. Qed.
Lemma calls_len_both : (forall t, wf t -> lenN (calls_of t) <= 2 * lenN (enc t)) /\
  (forall v, wfv v -> lenN (value_calls v) <= 2 * lenN (encv v) + 1).
Proof.
  apply value_induction.
  - intros v IH Wv.
    assert (IH' : Forall (fun t => lenN (calls_of t) <= 2 * lenN (enc t)) (children v)).
    { rewrite Forall_forall in *. intros t Ht. apply IH; [assumption|].
      pose proof (wfv_children _ Wv) as F. rewrite Forall_forall in F. auto. }
    clear IH. destruct v; cbn [value_calls encv children wfv] in *;
      rewrite ?lenN_app, ?ilint_calls_len, ?fixed_calls_len, ?flat_map_concat_map; try (cbn; lia);
      try match goal with |- context [ilint (lenN ?x)] => pose proof (lenN_ilint_pos (lenN x)) end.
    + change (lenN [CWriteAll (be_bytes 4 (of_signed W32 scale)); CWriteAll bs]) with 2.
      change (lenN (be_bytes 4 (of_signed W32 scale))) with 4. lia.
    + enough (lenN (concat (map ilint_calls l)) <= 2 * lenN (concat (map ilint l))) by lia.
      apply concat_calls_len. apply Forall_forall. intros x _. rewrite ilint_calls_len. pose proof (lenN_ilint_pos x). lia.
    + apply concat_calls_len in IH'. lia.
    + apply concat_calls_len in IH'. lia.
    + pose proof (lenN_ilint_pos start). change (lenN [CWriteAll (be_bytes 2 count)]) with 1. lia.
    + enough (lenN (concat (map ilint_calls l)) <= 2 * lenN (concat (map ilint l))) by lia.
      apply concat_calls_len. apply Forall_forall. intros x _. rewrite ilint_calls_len. pose proof (lenN_ilint_pos x). lia.
    + rewrite !sort_entries_map, !map_map. cbn [fst snd].
      match goal with |- 1 + ?a <= 2 * (_ + ?b) + 1 => enough (a <= 2 * b) by lia end.
      apply concat_calls_len. rewrite Forall_map in IH'. apply Forall_forall. intros e He.
      rewrite !lenN_app, string_calls_len. pose proof (enc_string_pos (fst e)).
      assert (In e l) by (eapply Permutation_in; [symmetry; apply sort_entries_perm|exact He]).
      rewrite Forall_forall in IH'. specialize (IH' e ltac:(assumption)). cbn beta in IH'. lia.
    + match goal with |- 1 + ?a <= 2 * (_ + ?b) + 1 => enough (a <= 2 * b) by lia end.
      apply concat_calls_len. apply Forall_forall. intros e _. rewrite !lenN_app, !string_calls_len.
      pose proof (enc_string_pos (fst e)). pose proof (enc_string_pos (snd e)). lia.
  - intros id v IH [Hid Wv]. specialize (IH Wv). cbn [calls_of enc]. unfold enc_header. rewrite !lenN_app.
    pose proof (lenN_ilint_pos id). rewrite ilint_calls_len. destruct (id <=? 15); rewrite ?ilint_calls_len; cbn [lenN length];
      change (lenN (@nil N)) with 0; change (lenN (@nil wcall)) with 0; [lia|].
    pose proof (lenN_ilint_pos (lenN (encv v))). lia.
Qed.
Theorem C72_number_of_calls : forall t, wf t -> lenN (calls_of t) <= 2 * lenN (enc t).
Proof. apply (proj1 calls_len_both). Qed.
Print Assumptions C72_number_of_calls.

(** An ILInt is written by one call: [write] for the values of one byte,
    [write_all] otherwise. *)
Theorem C72_ilint : forall W (M : writer_impl W) v u, v < two64 ->
  a_encode M v u =
  (if v <? 248 then lift_err ILIntIO (u_write M v) u else lift_err ILIntIO (u_write_all M (ilint v)) u).
Proof.
  intros W M v u H. rewrite (makes_encode M v H u). unfold ilint_calls, lift_err. destruct (v <? 248); cbn [make_calls make_call].
  - destruct (u_write M v u) as [[[]|e| |] u1]; reflexivity.
  - destruct (u_write_all M (ilint v) u) as [[[]|e| |] u1]; reflexivity.
Qed.
Print Assumptions C72_ilint.
Theorem C72_signed_ilint : forall W (M : writer_impl W) z u, i64_range z ->
  a_signed_encode M z u =
  (if zigzag z <? 248 then lift_err ILIntIO (u_write M (zigzag z)) u
   else lift_err ILIntIO (u_write_all M (ilint (zigzag z))) u).
Proof.
  intros W M z u H. unfold a_signed_encode. rewrite encode_sign_spec by assumption. apply C72_ilint. now apply zigzag_bound.
Qed.
Print Assumptions C72_signed_ilint.
(** So is a number of a fixed size. *)
Theorem C72_numbers : forall W (M : writer_impl W) w v z u, v < wmod w ->
  a_write_uint M w v u = (match w with W8 => u_write M v | _ => u_write_all M (be_bytes (wbytes w) v) end) u /\
  a_write_sint M w z u = (match w with W8 => u_write M (of_signed W8 z) | _ => u_write_all M (be_bytes (wbytes w) (of_signed w z)) end) u /\
  a_write_f32 M v u = u_write_all M (be_bytes 4 v) u /\ a_write_f64 M v u = u_write_all M (be_bytes 8 v) u.
Proof.
  intros W M w v z u H.
  assert (forall w x, to_be_bytes w x = be_bytes (wbytes w) x) as B by (intros; apply to_be_bytes_spec).
  unfold a_write_f32, a_write_f64. rewrite !B. cbn [wbytes].
  split; [destruct w; cbn [a_write_uint]; rewrite ?B; reflexivity|].
  split; [destruct w; cbn [a_write_sint]; rewrite ?B, ?cast_unsigned_spec; reflexivity|]. now split.
Qed.
Print Assumptions C72_numbers.

(** Two writers that answer alike get the same calls and the same result. *)
Theorem C72_same_answers : forall W1 W2 (M1 : writer_impl W1) (M2 : writer_impl W2) (R : W1 -> W2 -> Prop),
  (forall b u1 u2, R u1 u2 ->
     fst (u_write M1 b u1) = fst (u_write M2 b u2) /\ R (snd (u_write M1 b u1)) (snd (u_write M2 b u2))) ->
  (forall bs u1 u2, R u1 u2 ->
     fst (u_write_all M1 bs u1) = fst (u_write_all M2 bs u2) /\
     R (snd (u_write_all M1 bs u1)) (snd (u_write_all M2 bs u2))) ->
  forall t u1 u2, wf t -> lenN (enc t) < two64 -> R u1 u2 ->
  fst (a_serialize M1 t u1) = fst (a_serialize M2 t u2) /\ R (snd (a_serialize M1 t u1)) (snd (a_serialize M2 t u2)).
Proof.
  intros W1 W2 M1 M2 R H1 H2 t u1 u2 Wt L. rewrite (proj1 (serialize_makes_both M1) t Wt L u1), (proj1 (serialize_makes_both M2) t Wt L u2).
  generalize (calls_of t). intros l. revert u1 u2. induction l as [|c l IH]; intros u1 u2 HR; cbn [make_calls fst snd]; [now split|].
  assert (K : fst (make_call M1 c u1) = fst (make_call M2 c u2) /\ R (snd (make_call M1 c u1)) (snd (make_call M2 c u2))).
  { destruct c; cbn [make_call]; auto. }
  destruct (make_call M1 c u1) as [x1 v1]. destruct (make_call M2 c u2) as [x2 v2]. cbn [fst snd] in K.
  destruct K as [-> K]. destruct x2 as [[]|e| |]; cbn [fst snd]; auto.
Qed.
Print Assumptions C72_same_answers.

(** The writers of the library are an instance. *)
Theorem C72_library_writers : forall t w, a_serialize library_writer t w = serialize t w.
Proof. reflexivity. Qed.
Print Assumptions C72_library_writers.

(** A type that provides [write] only gets the bytes of the encoding one by one. *)
Definition byte_writer {W} (wr : N -> W -> res io_error unit * W) : writer_impl W :=
  WriterImpl _ wr (default_write_all wr).
Lemma default_write_all_app {W} (wr : N -> W -> res io_error unit * W) a b u :
  default_write_all wr (a ++ b) u = bind (default_write_all wr a) (fun _ => default_write_all wr b) u.
Proof.
  revert u. induction a as [|x a IH]; intros u; [reflexivity|]. cbn [app default_write_all]. unfold bind in *.
  cbn [default_write_all]. destruct (wr x u) as [[[]|e| |] u1]; auto.
Qed.
Theorem C72_default_write_all : forall W (wr : N -> W -> res io_error unit * W) t u, wf t -> lenN (enc t) < two64 ->
  a_serialize (byte_writer wr) t u = lift_err TagIO (default_write_all wr (enc t)) u.
Proof.
  intros W wr t u Wt L. rewrite (proj1 (serialize_makes_both (byte_writer wr)) t Wt L u), <- (C72_bytes t Wt).
  generalize (calls_of t). intros l. revert u. induction l as [|c l IH]; intros u; [reflexivity|].
  cbn [make_calls flat_map]. unfold lift_err in *. rewrite default_write_all_app. unfold bind.
  assert (K : make_call (byte_writer wr) c u = default_write_all wr (wcall_bytes c) u).
  { destruct c as [b|bs]; [|reflexivity]. cbn. destruct (wr b u) as [[[]|e| |] u1]; reflexivity. }
  rewrite K. destruct (default_write_all wr (wcall_bytes c) u) as [[[]|e| |] u1]; [apply IH|reflexivity..].
Qed.
Print Assumptions C72_default_write_all.

(** A writer that records its calls and fails at the third; and one whose
    [write] says yes and drops the byte. *)
Definition third (l : list wcall) : res io_error unit := if lenN l =? 2 then Err UnableToWriteData else Ok tt.
Definition failing_third : writer_impl (list wcall) :=
  WriterImpl _ (fun b l => (third l, l ++ [CWrite b])) (fun bs l => (third l, l ++ [CWriteAll bs])).
Definition dropping : writer_impl (list N) :=
  WriterImpl _ (fun b l => (Ok tt, l)) (fun bs l => (Ok tt, l ++ bs)).
Definition dict_tag : tag :=
  Tag 30 (VDict [([98], Tag 10 (VILInt 300)); ([97], Tag 16 (VBytes [1; 2]))]).
Example C72_ex_wf : wf dict_tag /\ lenN (enc dict_tag) < two64 /\ writer_returns failing_third /\ writer_returns dropping.
Proof.
  split; [|split; [vm_compute; reflexivity|split; split; intros; cbn; try exact I; unfold third; destruct (lenN u =? 2); exact I]].
  cbn [dict_tag wf wfv map fst snd all fold_right]. split; [reflexivity|]. split; [|split].
  - constructor; [intros [H|[]]; discriminate|]. constructor; [intros []|constructor].
  - constructor; [exists [98]|constructor; [exists [97]|constructor]]; (split; [|reflexivity]); (constructor; [|constructor]);
      unfold scalar; cbn [fst]; lia.
  - split; [split; reflexivity|]. split; [|exact I]. split; [reflexivity|].
    repeat constructor; lia.
Qed.
Example C72_ex_calls : calls_of dict_tag =
  [CWrite 30; CWrite 14; CWrite 2; CWrite 17; CWrite 1; CWriteAll [97]; CWrite 16; CWrite 2; CWriteAll [1; 2];
   CWrite 17; CWrite 1; CWriteAll [98]; CWrite 10; CWriteAll [248; 52]].
Proof. vm_compute. reflexivity. Qed.
Example C72_ex_fails : a_serialize failing_third dict_tag [] = (Err (TagIO UnableToWriteData), [CWrite 30; CWrite 14; CWrite 2]).
Proof. vm_compute. reflexivity. Qed.
Example C72_ex_dropping : a_serialize dropping dict_tag [] = (Ok tt, [97; 1; 2; 98; 248; 52]).
Proof. vm_compute. reflexivity. Qed.

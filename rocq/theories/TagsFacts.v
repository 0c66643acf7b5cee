(** Proofs about Tags.v: sizes and serialization against [enc]. *)
From Coq Require Import Sorted.
From Verif Require Import Base BaseFacts Types Spec SpecFacts IO IOSpec IOFacts WriterFacts Logic WLogic
  ILInt ILIntFacts Data DataFacts Tags SortFacts.

(** ** Induction over tags *)
Definition children (v : value) : list tag :=
  match v with
  | VSeq l | VArr l => l
  | VDict l => map snd l
  | _ => []
  end.
Lemma tag_induction (P : tag -> Prop) :
  (forall id v, Forall P (children v) -> P (Tag id v)) -> forall t, P t.
Proof.
  intros H. fix IH 1. intros [id v]. apply H.
  destruct v; cbn [children]; try apply Forall_nil.
  - induction l as [|t l IHl]; constructor; [apply IH|exact IHl].
  - induction l as [|t l IHl]; constructor; [apply IH|exact IHl].
  - induction l as [|[k t] l IHl]; cbn [map snd]; constructor; [apply IH|exact IHl].
Qed.
Lemma value_induction (P : tag -> Prop) (Q : value -> Prop) :
  (forall v, Forall P (children v) -> Q v) -> (forall id v, Q v -> P (Tag id v)) ->
  (forall t, P t) /\ (forall v, Q v).
Proof.
  intros HQ HP. assert (HT : forall t, P t) by (apply tag_induction; auto).
  split; [exact HT|]. intros v. apply HQ. now apply Forall_forall.
Qed.

Lemma all_Forall {A} (P : A -> Prop) l : all P l <-> Forall P l.
Proof.
  induction l as [|x l IH]; cbn [all fold_right]; [now split|]. fold (all P l). rewrite IH.
  split; [intros []; now constructor|inversion 1; auto].
Qed.
Lemma wfv_children v : wfv v -> Forall wf (children v).
Proof.
  destruct v; cbn [children wfv]; intros H; try apply Forall_nil.
  - now apply all_Forall.
  - now apply all_Forall.
  - destruct H as (_ & _ & H). apply all_Forall in H. now rewrite Forall_map.
Qed.

(** ** Lengths *)
Lemma fold_left_sum {A} (f : A -> N) l a : fold_left (fun acc x => acc + f x) l a = a + fold_left (fun acc x => acc + f x) l 0.
Proof.
  revert a; induction l as [|x l IH]; intros a; cbn [fold_left]; [lia|]. rewrite IH, (IH (0 + f x)). lia.
Qed.
Lemma lenN_concat {A B} (g : A -> list B) l :
  lenN (concat (map g l)) = fold_left (fun acc x => acc + lenN (g x)) l 0.
Proof.
  induction l as [|x l IH]; cbn [map concat fold_left]; [apply lenN_nil|].
  rewrite lenN_app, IH, (fold_left_sum (fun x => lenN (g x)) l (0 + _)). lia.
Qed.
Lemma lenN_flat_map {A B} (g : A -> list B) l :
  lenN (flat_map g l) = fold_left (fun acc x => acc + lenN (g x)) l 0.
Proof. rewrite flat_map_concat_map. apply lenN_concat. Qed.
Lemma fold_left_sum_ext {A} (f g : A -> N) l a :
  Forall (fun x => f x = g x) l -> fold_left (fun acc x => acc + f x) l a = fold_left (fun acc x => acc + g x) l a.
Proof.
  intros H; revert a; induction H as [|x l Hx H IH]; intros a; cbn [fold_left]; [reflexivity|].
  now rewrite Hx, IH.
Qed.
Lemma fold_left_sum_perm {A} (f : A -> N) l l' : Permutation l l' ->
  forall a, fold_left (fun acc x => acc + f x) l a = fold_left (fun acc x => acc + f x) l' a.
Proof.
  induction 1 as [|x l l' P IH|x y l|l l' l'' P IH P' IH']; intros a; cbn [fold_left]; auto.
  - f_equal. lia.
  - now rewrite IH.
Qed.
Lemma fold_left_sum_in {A} (f : A -> N) l x : In x l -> f x <= fold_left (fun acc x => acc + f x) l 0.
Proof.
  induction l as [|y l IH]; cbn [In fold_left]; [easy|]. rewrite (fold_left_sum f l (0 + f y)).
  intros [->|H]; [lia|]. apply IH in H. lia.
Qed.
Lemma fold_left_sum_len {A} (f : A -> N) l :
  (forall x, In x l -> 1 <= f x) -> lenN l <= fold_left (fun acc x => acc + f x) l 0.
Proof.
  induction l as [|y l IH]; intros H; cbn [fold_left]; [rewrite lenN_nil; lia|].
  rewrite (fold_left_sum f l (0 + f y)), lenN_cons.
  assert (1 <= f y) by (apply H; now left).
  assert (lenN l <= fold_left (fun acc x => acc + f x) l 0) by (apply IH; intros; apply H; now right). lia.
Qed.
Lemma fold_left_map {A B} (f : B -> N) (g : A -> B) l a :
  fold_left (fun acc x => acc + f x) (map g l) a = fold_left (fun acc x => acc + f (g x)) l a.
Proof. revert a; induction l as [|x l IH]; intros a; cbn [map fold_left]; auto. Qed.

Lemma lenN_enc_pos t : 1 <= lenN (enc t).
Proof.
  destruct t as [id v]. cbn [enc]. unfold enc_header. rewrite !lenN_app.
  pose proof (lenN_ilint_pos id). lia.
Qed.
Lemma lenN_enc_string s : lenN (enc_string s) = 1 + lenN (ilint (lenN s)) + lenN s.
Proof. unfold enc_string. rewrite !lenN_app. change (lenN (ilint 17)) with 1. lia. Qed.
Lemma lenN_enc_string_pos s : 1 <= lenN (enc_string s).
Proof. rewrite lenN_enc_string. lia. Qed.

(** Bytes of a dictionary's entries, in iteration order. *)
Lemma lenN_dict_entries (l : list (list N * tag)) :
  lenN (concat (map (fun e => enc_string (fst e) ++ snd e) (sort_entries (map (fun e => (fst e, enc (snd e))) l))))
  = fold_left (fun acc e => acc + (lenN (enc_string (fst e)) + lenN (enc (snd e)))) l 0.
Proof.
  rewrite sort_entries_map, map_map, lenN_concat. cbn [fst snd].
  rewrite (fold_left_sum_perm _ _ l) by (symmetry; apply sort_entries_perm).
  apply fold_left_sum_ext. apply Forall_forall. intros x _. apply lenN_app.
Qed.
Lemma lenN_strdict_entries (l : list (list N * list N)) :
  lenN (concat (map (fun e => enc_string (fst e) ++ enc_string (snd e)) (sort_entries l)))
  = fold_left (fun acc e => acc + (lenN (enc_string (fst e)) + lenN (enc_string (snd e)))) l 0.
Proof.
  rewrite lenN_concat. rewrite (fold_left_sum_perm _ _ l) by (symmetry; apply sort_entries_perm).
  apply fold_left_sum_ext. apply Forall_forall. intros x _. apply lenN_app.
Qed.

(** A child is no longer than its parent's payload. *)
Lemma child_len v t : In t (children v) -> lenN (enc t) <= lenN (encv v).
Proof.
  destruct v; cbn [children encv]; intros H; try contradiction; rewrite ?lenN_app.
  - rewrite lenN_concat. now apply (fold_left_sum_in (fun t => lenN (enc t))).
  - rewrite lenN_concat. apply (fold_left_sum_in (fun t => lenN (enc t))) in H. lia.
  - rewrite lenN_dict_entries. apply in_map_iff in H as ([k t'] & <- & H). cbn [snd].
    apply (fold_left_sum_in (fun e => lenN (enc_string (fst e)) + lenN (enc (snd e)))) in H.
    cbn [fst snd] in H. lia.
Qed.
Lemma enc_payload_len id v : lenN (encv v) <= lenN (enc (Tag id v)).
Proof. cbn [enc]. rewrite lenN_app. lia. Qed.
Lemma lenN_ilint_lt v : v < two64 -> lenN (ilint v) = encoded_size v.
Proof. intros H. symmetry. now apply encoded_size_spec. Qed.

(** ** Sizes *)
Lemma ilints_size l a : Forall (fun n => n < two64) l ->
  fold_left (fun size x => size + encoded_size x) l a = a + lenN (flat_map ilint l).
Proof.
  intros H. rewrite lenN_flat_map, <- fold_left_sum.
  apply fold_left_sum_ext. eapply Forall_impl; [|exact H]. intros x Hx. now apply encoded_size_spec.
Qed.
Lemma string_size_spec s : lenN s < two64 -> string_tag_size_from_value s = lenN (enc_string s).
Proof.
  intros H. unfold string_tag_size_from_value. rewrite lenN_enc_string, lenN_ilint_lt by assumption. lia.
Qed.

Lemma count_bound v : lenN (encv v) < two64 ->
  match v with
  | VSeq l | VArr l => lenN l < two64
  | VILIntArray l | VOID l => lenN l < two64
  | VDict l => lenN l < two64 /\ Forall (fun e => lenN (fst e) < two64) l
  | VStrDict l => lenN l < two64 /\ Forall (fun e => lenN (fst e) < two64 /\ lenN (snd e) < two64) l
  | _ => True
  end.
Proof.
  destruct v; cbn [encv]; intros H; try exact I; rewrite ?lenN_app in H.
  - rewrite lenN_flat_map in H. pose proof (fold_left_sum_len (fun x => lenN (ilint x)) l (fun x _ => lenN_ilint_pos x)). lia.
  - rewrite lenN_concat in H. pose proof (fold_left_sum_len (fun x => lenN (enc x)) l (fun x _ => lenN_enc_pos x)). lia.
  - rewrite lenN_concat in H. pose proof (fold_left_sum_len (fun x => lenN (enc x)) l (fun x _ => lenN_enc_pos x)). lia.
  - rewrite lenN_flat_map in H. pose proof (fold_left_sum_len (fun x => lenN (ilint x)) l (fun x _ => lenN_ilint_pos x)). lia.
  - rewrite lenN_dict_entries in H. split.
    + pose proof (fold_left_sum_len (fun e => lenN (enc_string (fst e)) + lenN (enc (snd e))) l) as K.
      assert (lenN l <= fold_left (fun acc e => acc + (lenN (enc_string (fst e)) + lenN (enc (snd e)))) l 0).
      { apply K. intros x _. pose proof (lenN_enc_pos (snd x)). lia. } lia.
    + apply Forall_forall. intros e He.
      apply (fold_left_sum_in (fun e => lenN (enc_string (fst e)) + lenN (enc (snd e)))) in He.
      cbv beta in He. rewrite lenN_enc_string in He. lia.
  - rewrite lenN_strdict_entries in H. split.
    + pose proof (fold_left_sum_len (fun e => lenN (enc_string (fst e)) + lenN (enc_string (snd e))) l) as K.
      assert (lenN l <= fold_left (fun acc e => acc + (lenN (enc_string (fst e)) + lenN (enc_string (snd e)))) l 0).
      { apply K. intros x _. pose proof (lenN_enc_string_pos (snd x)). lia. } lia.
    + apply Forall_forall. intros e He.
      apply (fold_left_sum_in (fun e => lenN (enc_string (fst e)) + lenN (enc_string (snd e)))) in He.
      cbv beta in He. rewrite !lenN_enc_string in He. lia.
Qed.

Lemma is_implicit_spec id : is_implicit_tag id = (id <=? 15).
Proof. reflexivity. Qed.

Lemma size_spec_both :
  (forall t, wf t -> lenN (enc t) < two64 -> size t = lenN (enc t)) /\
  (forall v, wfv v -> lenN (encv v) < two64 -> value_size v = lenN (encv v)).
Proof.
  apply value_induction.
  - intros v IH W L.
    assert (IH' : Forall (fun t => size t = lenN (enc t)) (children v)).
    { rewrite Forall_forall in *. intros t Ht. apply IH; [assumption| |].
      - pose proof (wfv_children _ W) as F. rewrite Forall_forall in F. auto.
      - pose proof (child_len _ _ Ht). lia. }
    clear IH. pose proof (count_bound _ L) as C.
    destruct v; cbn [value_size encv children wfv] in *; rewrite ?lenN_app, ?lenN_be_bytes; try reflexivity.
    + symmetry. apply W.
    + now apply encoded_size_spec.
    + unfold signed_encoded_size. rewrite encode_sign_spec by assumption.
      apply encoded_size_spec. now apply zigzag_bound.
    + rewrite ilints_size by assumption. now rewrite lenN_ilint_lt.
    + rewrite lenN_concat. now apply fold_left_sum_ext.
    + rewrite lenN_concat, lenN_ilint_lt by assumption. f_equal. now apply fold_left_sum_ext.
    + rewrite lenN_ilint_lt by apply W. reflexivity.
    + rewrite ilints_size by assumption. now rewrite lenN_ilint_lt.
    + rewrite lenN_dict_entries, lenN_ilint_lt by apply C. f_equal. apply fold_left_sum_ext.
      rewrite Forall_map in IH'. destruct C as [_ C]. rewrite Forall_forall in *. intros e He.
      rewrite (IH' e He), string_size_spec by now apply C. reflexivity.
    + rewrite lenN_strdict_entries, lenN_ilint_lt by apply C. f_equal. apply fold_left_sum_ext.
      destruct C as [_ C]. rewrite Forall_forall in *. intros e He. destruct (C e He) as [C1 C2].
      now rewrite !string_size_spec.
  - intros id v IH [Hid W] L. pose proof (enc_payload_len id v) as Lp.
    cbn [size]. rewrite IH by (assumption || lia). cbn [enc]. unfold enc_header. rewrite is_implicit_spec.
    rewrite !lenN_app, lenN_ilint_lt by assumption. destruct (id <=? 15).
    + rewrite lenN_nil. lia.
    + rewrite lenN_ilint_lt by lia. lia.
Qed.
Lemma size_spec t : wf t -> lenN (enc t) < two64 -> size t = lenN (enc t).
Proof. apply size_spec_both. Qed.
Lemma value_size_spec v : wfv v -> lenN (encv v) < two64 -> value_size v = lenN (encv v).
Proof. apply size_spec_both. Qed.

(** ** Serialization *)
Lemma emits_for_each {E X} (l : list X) (f : X -> writer -> res E unit * writer) (g : X -> list N) :
  Forall (fun x => emits (f x) (g x)) l -> emits (for_each l f) (concat (map g l)).
Proof.
  induction 1 as [|x l Hx H IH]; cbn [for_each fold_right map concat]; [apply emits_ret|].
  now apply emits_bind.
Qed.
Lemma emits_bind_nil {E} (m1 m2 : writer -> res E unit * writer) b2 :
  emits m1 [] -> emits m2 b2 -> emits (m1 ;;; m2) b2.
Proof. intros H1 H2. now apply (emits_bind m1 m2 [] b2). Qed.
Lemma emits_bind_r {E} (m1 m2 : writer -> res E unit * writer) b1 :
  emits m1 b1 -> emits m2 [] -> emits (m1 ;;; m2) b1.
Proof. intros H1 H2. rewrite <- (app_nil_r b1). now apply emits_bind. Qed.
Lemma emits_serialize_string s : lenN s < two64 -> emits (serialize_string_tag_from_value s) (enc_string s).
Proof.
  intros H. unfold serialize_string_tag_from_value, enc_string.
  apply emits_bind; [now apply emits_serialize_ilint|].
  apply emits_bind; [now apply emits_serialize_ilint|]. apply emits_serialize_bytes.
Qed.
Lemma emits_dict {A} (l : list (list N * A)) (ser : A -> writer -> res tag_error unit * writer) (code : A -> list N) :
  NoDup (map fst l) ->
  Forall (fun e => lenN (fst e) < two64 /\ emits (ser (snd e)) (code (snd e))) l ->
  emits (for_each (sort_unstable (map fst l)) (fun key =>
           match hm_get key (map (fun e => (fst e, ser (snd e))) l) with
           | Some value => serialize_string_tag_from_value key ;;; value
           | None => fail UnableToSerialize
           end))
        (concat (map (fun e => enc_string (fst e) ++ code (snd e)) (sort_entries l))).
Proof.
  intros D F. rewrite sort_unstable_entries.
  assert (K : Forall (fun e => In e l) (sort_entries l)).
  { apply Forall_forall. intros e He. eapply Permutation_in; [symmetry; apply sort_entries_perm|exact He]. }
  revert K. generalize (sort_entries l). intros l'.
  induction 1 as [|[k x] l' Hx H IH]; cbn [map for_each fold_right concat fst snd]; [apply emits_ret|].
  apply emits_bind; [|exact IH]. rewrite hm_get_map, (hm_get_in k x l D Hx). cbn [option_map].
  rewrite Forall_forall in F. destruct (F _ Hx) as [L Em]. cbn [fst snd] in *.
  apply emits_bind; [now apply emits_serialize_string|assumption].
Qed.

Lemma serialize_emits_both :
  (forall t, wf t -> lenN (enc t) < two64 -> emits (serialize t) (enc t)) /\
  (forall v, wfv v -> lenN (encv v) < two64 -> emits (serialize_value v) (encv v)).
Proof.
  apply value_induction.
  - intros v IH W L.
    assert (IH' : Forall (fun t => emits (serialize t) (enc t)) (children v)).
    { rewrite Forall_forall in *. intros t Ht. apply IH; [assumption| |].
      - pose proof (wfv_children _ W) as F. rewrite Forall_forall in F. auto.
      - pose proof (child_len _ _ Ht). lia. }
    clear IH. pose proof (count_bound _ L) as C.
    destruct v; cbn [serialize_value encv children wfv] in *.
    + apply emits_ret.
    + assert (H : emits (serialize_uint W8 (if b then 1 else 0)) (be_bytes 1 (if b then 1 else 0))).
      { apply (emits_serialize_uint W8). destruct b; reflexivity. }
      destruct b; exact H.
    + now apply emits_serialize_uint.
    + apply emits_serialize_sint.
    + apply emits_serialize_f32.
    + apply emits_serialize_f64.
    + apply emits_lift, emits_write_all.
    + now apply emits_serialize_ilint.
    + now apply emits_serialize_signed_ilint.
    + apply emits_serialize_bytes.
    + apply emits_serialize_bytes.
    + apply emits_serialize_bytes.
    + apply emits_serialize_bytes.
    + apply emits_bind; [apply (emits_serialize_sint W32)|apply emits_serialize_bytes].
    + apply emits_bind; [now apply emits_serialize_ilint|]. rewrite flat_map_concat_map.
      apply emits_for_each. eapply Forall_impl; [|exact W]. intros x Hx. now apply emits_serialize_ilint.
    + now apply emits_for_each.
    + apply emits_bind; [now apply emits_serialize_ilint|]. now apply emits_for_each.
    + apply emits_bind; [now apply emits_serialize_ilint|]. now apply (emits_serialize_uint W16).
    + replace (be_bytes 4 (of_signed W32 major) ++ be_bytes 4 (of_signed W32 minor)
         ++ be_bytes 4 (of_signed W32 revision) ++ be_bytes 4 (of_signed W32 build))
        with (concat (map (fun z => be_bytes 4 (of_signed W32 z)) [major; minor; revision; build])).
      * apply emits_for_each. apply Forall_forall. intros z _. apply (emits_serialize_sint W32).
      * cbn [map concat]. now rewrite app_nil_r.
    + apply emits_bind; [now apply emits_serialize_ilint|]. rewrite flat_map_concat_map.
      apply emits_for_each. eapply Forall_impl; [|exact W]. intros x Hx. now apply emits_serialize_ilint.
    + destruct W as (D & _). apply emits_bind; [now apply emits_serialize_ilint|].
      rewrite sort_entries_map, map_map. cbn [fst snd]. apply (emits_dict l serialize enc D).
      destruct C as [_ C]. rewrite Forall_map in IH'. rewrite Forall_forall in *. auto.
    + destruct W as (D & _). apply emits_bind; [now apply emits_serialize_ilint|].
      pose proof (emits_dict l serialize_string_tag_from_value enc_string D) as K.
      assert (K' : emits (for_each (sort_unstable (map fst l)) (fun key =>
           match hm_get key (map (fun e => (fst e, serialize_string_tag_from_value (snd e))) l) with
           | Some value => serialize_string_tag_from_value key ;;; value
           | None => fail UnableToSerialize
           end)) (concat (map (fun e => enc_string (fst e) ++ enc_string (snd e)) (sort_entries l)))).
      { apply K. destruct C as [_ C]. eapply Forall_impl; [|exact C]. intros e [C1 C2].
        split; [assumption|]. now apply emits_serialize_string. }
      revert K'. generalize (concat (map (fun e => enc_string (fst e) ++ enc_string (snd e)) (sort_entries l))).
      clear. intros bs. unfold for_each.
      match goal with |- emits ?a _ -> emits ?b _ => replace b with a; [auto|] end.
      generalize (sort_unstable (map fst l)). intros keys.
      induction keys as [|k keys IH]; cbn [fold_right]; [reflexivity|]. rewrite IH, hm_get_map.
      destruct (hm_get k l); reflexivity.
  - intros id v IH [Hid W] L. pose proof (enc_payload_len id v) as Lp.
    cbn [serialize enc]. unfold enc_header. rewrite <- app_assoc.
    apply emits_bind; [now apply emits_serialize_ilint|]. rewrite is_implicit_spec.
    apply emits_bind; [|apply IH; [assumption|lia]].
    destruct (id <=? 15); [apply emits_ret|]. rewrite value_size_spec by (assumption || lia).
    apply emits_serialize_ilint. lia.
Qed.
Lemma serialize_emits t : wf t -> lenN (enc t) < two64 -> emits (serialize t) (enc t).
Proof. apply serialize_emits_both. Qed.
Lemma serialize_value_emits v : wfv v -> lenN (encv v) < two64 -> emits (serialize_value v) (encv v).
Proof. apply serialize_emits_both. Qed.
Lemma to_bytes_spec t : wf t -> lenN (enc t) < two64 -> to_bytes t = Ok (enc t).
Proof.
  intros W L. unfold to_bytes. destruct (serialize t VecWriter_new) as [x w'] eqn:E.
  destruct (serialize_emits t W L VecWriter_new x w') as (R & (p & Pp & Q & O) & A); [apply N.le_refl|assumption|].
  assert (x = Ok tt) as -> by (apply A; split; [apply N.le_refl|reflexivity]).
  specialize (O eq_refl). subst p. destruct w'; cbn [puts VecWriter_new] in Q; try contradiction.
  destruct Q as (-> & _). f_equal. unfold overwrite. rewrite takeN_0, dropN_all, app_nil_r; [reflexivity|].
  rewrite lenN_nil. lia.
Qed.

(** ** Encodings are bytes *)
Lemma enc_string_bytes s : lenN s < two64 -> utf8 s -> bytes_ok (enc_string s).
Proof.
  intros L U. unfold enc_string. rewrite !bytes_ok_app. repeat split.
  - now apply ilint_bytes_ok.
  - now apply ilint_bytes_ok.
  - now apply utf8_bytes_ok.
Qed.
Lemma bytes_ok_concat {A} (g : A -> list N) l : Forall (fun x => bytes_ok (g x)) l -> bytes_ok (concat (map g l)).
Proof.
  induction 1 as [|x l Hx H IH]; cbn [map concat]; [apply bytes_ok_nil|]. now apply bytes_ok_app.
Qed.
Lemma enc_bytes_both :
  (forall t, wf t -> lenN (enc t) < two64 -> bytes_ok (enc t)) /\
  (forall v, wfv v -> lenN (encv v) < two64 -> bytes_ok (encv v)).
Proof.
  apply value_induction.
  - intros v IH W L.
    assert (IH' : Forall (fun t => bytes_ok (enc t)) (children v)).
    { rewrite Forall_forall in *. intros t Ht. apply IH; [assumption| |].
      - pose proof (wfv_children _ W) as F. rewrite Forall_forall in F. auto.
      - pose proof (child_len _ _ Ht). lia. }
    clear IH. pose proof (count_bound _ L) as C.
    destruct v; cbn [encv children wfv] in *; rewrite ?bytes_ok_app; repeat split;
      try (apply be_bytes_ok); try (now apply ilint_bytes_ok); try assumption; try apply W; try apply bytes_ok_nil.
    + apply bytes_ok_cons. split; [destruct b; reflexivity|apply bytes_ok_nil].
    + apply ilint_bytes_ok. now apply zigzag_bound.
    + now apply utf8_bytes_ok.
    + rewrite flat_map_concat_map. apply bytes_ok_concat. eapply Forall_impl; [|exact W].
      intros x. apply ilint_bytes_ok.
    + now apply bytes_ok_concat.
    + now apply bytes_ok_concat.
    + rewrite flat_map_concat_map. apply bytes_ok_concat. eapply Forall_impl; [|exact W].
      intros x. apply ilint_bytes_ok.
    + rewrite sort_entries_map, map_map. apply bytes_ok_concat. cbn [fst snd].
      rewrite <- sort_entries_perm. destruct W as (_ & U & _). destruct C as [_ C].
      rewrite Forall_map in IH'. rewrite Forall_forall in *. intros e He. apply bytes_ok_app.
      split; [apply enc_string_bytes; auto|auto].
    + apply bytes_ok_concat. rewrite <- sort_entries_perm. destruct W as (_ & U). destruct C as [_ C].
      rewrite Forall_forall in *. intros e He. apply bytes_ok_app.
      split; apply enc_string_bytes; try apply C; try apply U; assumption.
  - intros id v IH [Hid W] L. pose proof (enc_payload_len id v) as Lp.
    cbn [enc]. unfold enc_header. rewrite !bytes_ok_app. repeat split.
    + now apply ilint_bytes_ok.
    + destruct (id <=? 15); [apply bytes_ok_nil|]. apply ilint_bytes_ok. lia.
    + apply IH; [assumption|lia].
Qed.
Lemma enc_bytes_ok t : wf t -> lenN (enc t) < two64 -> bytes_ok (enc t).
Proof. apply enc_bytes_both. Qed.
Lemma encv_bytes_ok v : wfv v -> lenN (encv v) < two64 -> bytes_ok (encv v).
Proof. apply enc_bytes_both. Qed.

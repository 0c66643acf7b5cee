(** The cost of [size], [serialize] and [to_bytes]: C53. *)
From Coq Require Import Permutation.
From Verif Require Import Base BaseFacts Types Spec SpecFacts IO IOSpec WLogic ILInt ILIntFacts Data Tags SortFacts TagsFacts Factory Cost CostFacts.

(** ** Measures of a tag
    [nesting]: the number of explicit tags on the longest path into the tag.
    [tags]: the number of tags in it, itself included. *)
Definition maximum {A} (f : A -> N) (l : list A) : N := fold_right (fun x a => N.max (f x) a) 0 l.
Fixpoint nesting (t : tag) : N :=
  match t with
  | Tag id v =>
      (if id <=? 15 then 0 else 1)
      + match v with
        | VSeq l | VArr l => maximum nesting l
        | VDict l => maximum (fun e => nesting (snd e)) l
        | _ => 0
        end
  end.
Fixpoint tags (t : tag) : N :=
  match t with
  | Tag _ v =>
      1 + match v with
          | VSeq l | VArr l => total tags l
          | VDict l => total (fun e => tags (snd e)) l
          | _ => 0
          end
  end.
Lemma maximum_map {A B} (f : B -> N) (g : A -> B) l : maximum f (map g l) = maximum (fun x => f (g x)) l.
Proof. induction l as [|x l IH]; cbn [map maximum fold_right]; [reflexivity|]. fold (maximum f (map g l)). rewrite IH. reflexivity. Qed.
Lemma maximum_in {A} (f : A -> N) l x : In x l -> f x <= maximum f l.
Proof.
  induction l as [|y l IH]; intros H; [destruct H|]. cbn [maximum fold_right]. fold (maximum f l).
  destruct H as [<-|H]; [lia|specialize (IH H); lia].
Qed.
Lemma maximum_reached {A} (f : A -> N) l : maximum f l = 0 \/ exists x, In x l /\ f x = maximum f l.
Proof.
  induction l as [|y l IH]; [now left|]. cbn [maximum fold_right]. fold (maximum f l).
  destruct IH as [E|(x & Hx & E)]; destruct (N.le_ge_cases (f y) (maximum f l)) as [L|L].
  - left. lia.
  - right. exists y. split; [now left|lia].
  - right. exists x. split; [now right|lia].
  - right. exists y. split; [now left|lia].
Qed.
Lemma nesting_tag id v : nesting (Tag id v) = (if id <=? 15 then 0 else 1) + maximum nesting (children v).
Proof. cbn [nesting]. destruct v; cbn [children]; try reflexivity. now rewrite maximum_map. Qed.
Lemma tags_tag id v : tags (Tag id v) = 1 + total tags (children v).
Proof. cbn [tags]. destruct v; cbn [children]; try reflexivity. now rewrite total_map. Qed.
Lemma total_enc v : total (fun t => lenN (enc t)) (children v) <= lenN (encv v).
Proof.
  assert (E : forall l, lenN (concat (map enc l)) = total (fun t => lenN (enc t)) l).
  { induction l as [|t l IH]; cbn [map concat total fold_right]; [reflexivity|]. now rewrite lenN_app, IH. }
  destruct v; cbn [children encv]; try apply N.le_0_l.
  - now rewrite E.
  - rewrite lenN_app, E. lia.
  - rewrite lenN_app, lenN_dict_entries, total_map.
    enough (H : forall a, a + total (fun e : list N * tag => lenN (enc (snd e))) l
                <= fold_left (fun acc e => acc + (lenN (enc_string (fst e)) + lenN (enc (snd e)))) l a).
    { specialize (H 0). lia. }
    induction l as [|e l IH]; intros a; cbn [total fold_right fold_left]; [lia|].
    fold (total (fun e : list N * tag => lenN (enc (snd e))) l).
    specialize (IH (a + (lenN (enc_string (fst e)) + lenN (enc (snd e))))). lia.
Qed.
Lemma tags_le_bytes t : tags t <= lenN (enc t).
Proof.
  revert t. apply (value_induction (fun t => tags t <= lenN (enc t)) (fun v => total tags (children v) <= lenN (encv v))).
  - intros v IH. etransitivity; [|apply total_enc]. apply total_le. now apply Forall_forall.
  - intros id v IH. rewrite tags_tag. cbn [enc]. unfold enc_header. rewrite !lenN_app. pose proof (lenN_ilint_pos id). lia.
Qed.

(** ** The calls of [value_size] *)
(** The counted functions return what the real ones do. *)
Theorem C53_counted_program : forall t,
  fst (size_c t) = size t /\
  (wf t -> fst (to_bytes_c t) = to_bytes t) /\
  (wf t -> forall w c, let '(x, (w', _)) := serialize_c t (w, c) in (x, w') = serialize t w).
Proof.
  intros t. rewrite (proj1 size_c_both). split; [reflexivity|]. split.
  - intros W. unfold to_bytes_c, to_bytes. rewrite (proj1 size_c_both).
    destruct (serialize_c t (VecWriter_new, calls t)) as [x [w' c']] eqn:E.
    destruct (proj1 serialize_c_both t W _ _ _ _ _ E) as (E0 & _). rewrite E0. cbn [fst].
    destruct x as [[]| | |]; [destruct w'|..]; reflexivity.
  - intros W w c. destruct (serialize_c t (w, c)) as [x [w' c']] eqn:E.
    destruct (proj1 serialize_c_both t W _ _ _ _ _ E) as (E0 & _). now rewrite E0.
Qed.
Print Assumptions C53_counted_program.

Lemma calls_lower_both :
  (forall t, 2 ^ nesting t <= calls t) /\ (forall v, 2 ^ maximum nesting (children v) <= calls_value v).
Proof.
  apply value_induction.
  - intros v IH. unfold calls_value.
    assert (1 <= own v) by (destruct v; cbn [own]; lia).
    destruct (maximum_reached nesting (children v)) as [->|(t & Ht & <-)]; [rewrite N.pow_0_r; lia|].
    rewrite Forall_forall in IH. specialize (IH t Ht). pose proof (total_in calls _ _ Ht). lia.
  - intros id v IH. rewrite nesting_tag, calls_tag. unfold times.
    destruct (id <=? 15); [rewrite N.add_0_l; lia|]. rewrite N.pow_add_r, N.pow_1_r. lia.
Qed.
Lemma calls_upper_both :
  (forall t, calls t <= 2 ^ nesting t * (2 * tags t)) /\
  (forall v, calls_value v <= 2 ^ maximum nesting (children v) * (2 * (1 + total tags (children v)))).
Proof.
  apply value_induction.
  - intros v IH. unfold calls_value. assert (own v <= 2) by (destruct v; cbn [own]; lia).
    assert (K : total calls (children v) <= total (fun t => 2 ^ maximum nesting (children v) * 2 * tags t) (children v)).
    { apply total_le. intros t Ht. rewrite Forall_forall in IH. etransitivity; [now apply IH|].
      rewrite <- N.mul_assoc. apply N.mul_le_mono_r. apply N.pow_le_mono_r; [lia|]. now apply maximum_in. }
    rewrite total_scale in K.
    assert (1 <= 2 ^ maximum nesting (children v)). { pose proof (N.pow_nonzero 2 (maximum nesting (children v))). lia. }
    nia.
  - intros id v IH. rewrite nesting_tag, calls_tag, tags_tag. unfold times.
    destruct (id <=? 15); [rewrite N.add_0_l; lia|]. rewrite N.pow_add_r, N.pow_1_r. lia.
Qed.

(** [size] makes at least 2^nesting calls, and at most 2^(nesting+1) for each
    tag inside, hence for each byte of the encoding. *)
Theorem C53_size_calls : forall t,
  2 ^ nesting t <= snd (size_c t) <= 2 ^ (nesting t + 1) * tags t /\
  snd (size_c t) <= 2 ^ (nesting t + 1) * lenN (enc t).
Proof.
  intros t. rewrite (proj1 size_c_both). cbn [snd]. rewrite N.pow_add_r, N.pow_1_r.
  pose proof (proj1 calls_lower_both t). pose proof (proj1 calls_upper_both t). pose proof (tags_le_bytes t).
  repeat split; [lia|lia|nia].
Qed.
Print Assumptions C53_size_calls.

Lemma ser_calls_lower t : 2 ^ nesting t <= 2 * ser_calls t + 1.
Proof.
  revert t. apply (value_induction (fun t => 2 ^ nesting t <= 2 * ser_calls t + 1)
    (fun v => 2 ^ maximum nesting (children v) <= calls_value v /\ 2 ^ maximum nesting (children v) <= 2 * ser_calls_value v + 1)).
  - intros v IH. split; [apply calls_lower_both|]. unfold ser_calls_value.
    destruct (maximum_reached nesting (children v)) as [->|(t & Ht & <-)]; [rewrite N.pow_0_r; lia|].
    rewrite Forall_forall in IH. specialize (IH t Ht). pose proof (total_in ser_calls _ _ Ht). lia.
  - intros id v [IH1 IH2]. rewrite nesting_tag, ser_calls_tag.
    destruct (id <=? 15); [rewrite N.add_0_l; lia|]. rewrite N.pow_add_r, N.pow_1_r. lia.
Qed.
(** The same for a successful [serialize], even after the size is known, and for [to_bytes]. *)
Theorem C53_serialize_calls : forall t w x w' n, wf t ->
  serialize_c t (w, 0) = (x, (w', n)) -> x = Ok tt -> 2 ^ nesting t <= 2 * n + 1.
Proof.
  intros t w x w' n W E Hx. destruct (proj1 serialize_c_both t W _ _ _ _ _ E) as (_ & _ & O).
  rewrite (O Hx). pose proof (ser_calls_lower t). lia.
Qed.
Print Assumptions C53_serialize_calls.
Theorem C53_to_bytes_calls : forall t, wf t -> 2 ^ nesting t <= snd (to_bytes_c t).
Proof.
  intros t W. unfold to_bytes_c. rewrite (proj1 size_c_both).
  destruct (serialize_c t (VecWriter_new, calls t)) as [x [w' c']] eqn:E.
  destruct (proj1 serialize_c_both t W _ _ _ _ _ E) as (_ & B & _). cbn [snd].
  pose proof (proj1 calls_lower_both t). lia.
Qed.
Print Assumptions C53_to_bytes_calls.

(** ** Sequences of one sequence of one sequence ... *)
Definition nest (d : N) (t : tag) : tag := N.iter d (fun t => Tag 22 (VSeq [t])) t.
Lemma nest_succ d t : nest (N.succ d) t = Tag 22 (VSeq [nest d t]).
Proof. unfold nest. now rewrite N.iter_succ. Qed.
Lemma nest_nesting d : nesting (nest d (Tag 0 VNull)) = d.
Proof.
  induction d as [|d IH] using N.peano_ind; [reflexivity|]. rewrite nest_succ, nesting_tag.
  cbn [children maximum fold_right]. rewrite IH. change (22 <=? 15) with false. cbv iota. lia.
Qed.
Lemma nest_tags d : tags (nest d (Tag 0 VNull)) = d + 1.
Proof.
  induction d as [|d IH] using N.peano_ind; [reflexivity|]. rewrite nest_succ, tags_tag.
  cbn [children total fold_right]. rewrite IH. lia.
Qed.
Lemma nest_wf d : wf (nest d (Tag 0 VNull)).
Proof.
  induction d as [|d IH] using N.peano_ind; [cbn; repeat split; unfold two64; lia|]. rewrite nest_succ.
  cbn [wf wfv all fold_right]. split; [unfold two64; lia|]. split; [exact IH|exact I].
Qed.
Lemma nest_enc d : enc (nest (N.succ d) (Tag 0 VNull)) = 22 :: ilint (lenN (enc (nest d (Tag 0 VNull)))) ++ enc (nest d (Tag 0 VNull)).
Proof.
  rewrite nest_succ. cbn [enc encv map concat]. rewrite app_nil_r. unfold enc_header. change (22 <=? 15) with false. reflexivity.
Qed.
Lemma nest_len d : 10 * d + 1 < two64 -> lenN (enc (nest d (Tag 0 VNull))) <= 10 * d + 1.
Proof.
  induction d as [|d IH] using N.peano_ind; intros L; [vm_compute; discriminate|]. rewrite nest_enc, lenN_cons, lenN_app.
  specialize (IH ltac:(lia)).
  pose proof (ilint_repr_len _ _ (ilint_repr_ilint (lenN (enc (nest d (Tag 0 VNull)))) ltac:(lia))). lia.
Qed.

Lemma nest_calls d : 2 ^ d <= snd (size_c (nest d (Tag 0 VNull))) /\ 2 ^ d <= snd (to_bytes_c (nest d (Tag 0 VNull))).
Proof.
  pose proof (proj1 (C53_size_calls (nest d (Tag 0 VNull)))) as K. pose proof (C53_to_bytes_calls _ (nest_wf d)).
  rewrite nest_nesting in *. split; [apply K|assumption].
Qed.
(** Exponential in the bytes of the tag. *)
Theorem C53_exponential : forall d, 10 * d + 1 < two64 -> exists t,
  wf t /\ lenN (enc t) <= 10 * d + 1 /\ 2 ^ d <= snd (size_c t) /\ 2 ^ d <= snd (to_bytes_c t).
Proof.
  intros d L. exists (nest d (Tag 0 VNull)). split; [apply nest_wf|]. split; [now apply nest_len|]. apply nest_calls.
Qed.
Print Assumptions C53_exponential.

Lemma pow2_gt n : n < 2 ^ n.
Proof. apply N.pow_gt_lin_r. lia. Qed.
Lemma exp_beats a k : exists n, a + k * n < 2 ^ n.
Proof.
  set (m := a + 2 * k + 1). exists (2 * m).
  replace (2 ^ (2 * m)) with (2 ^ m * 2 ^ m) by (rewrite <- N.pow_add_r; f_equal; lia).
  pose proof (pow2_gt m). assert ((m + 1) * (m + 1) <= 2 ^ m * 2 ^ m) by nia. unfold m in *. nia.
Qed.
(** "The work of size() is polynomial in the number of tags". *)
Theorem C53_polynomial_refuted : forall c k, exists t, c * tags t ^ k < snd (size_c t).
Proof.
  intros c k. destruct (exp_beats (c + k) k) as (n & Hn). set (d := 2 ^ n).
  exists (nest d (Tag 0 VNull)).
  pose proof (proj1 (proj1 (C53_size_calls (nest d (Tag 0 VNull))))) as K. rewrite nest_nesting in K. rewrite nest_tags.
  eapply N.lt_le_trans; [|exact K].
  assert (P : (d + 1) ^ k <= 2 ^ ((n + 1) * k)).
  { rewrite N.pow_mul_r. apply N.pow_le_mono_l. rewrite N.pow_add_r, N.pow_1_r. unfold d.
    pose proof (N.pow_nonzero 2 n). lia. }
  pose proof (pow2_gt c) as Hc.
  assert (E : 2 ^ (c + (n + 1) * k) <= 2 ^ d) by (apply N.pow_le_mono_r; unfold d; lia).
  rewrite N.pow_add_r in E.
  assert (0 < 2 ^ ((n + 1) * k)). { pose proof (N.pow_nonzero 2 ((n + 1) * k)). lia. }
  nia.
Qed.
Print Assumptions C53_polynomial_refuted.

(** 125 bytes that are accepted, and then cost 2^62 calls to serialize. *)
Theorem C53_short_input : exists bs t,
  lenN bs = 125 /\ from_bytes (create_std_engine true) bs = Ok t /\ wf t /\ enc t = bs /\
  2 ^ 62 <= snd (size_c t) /\ 2 ^ 62 <= snd (to_bytes_c t).
Proof.
  exists (enc (nest 62 (Tag 0 VNull))), (nest 62 (Tag 0 VNull)).
  split; [vm_compute; reflexivity|]. split; [vm_compute; reflexivity|]. split; [apply nest_wf|]. split; [reflexivity|].
  exact (nest_calls 62).
Qed.
Print Assumptions C53_short_input.
(** The counter at work: 4, 10, 22 calls for depths 1, 2, 3 around one byte array. *)
Example C53_small : map (fun d => snd (size_c (nest d (Tag 16 (VBytes [1; 2]))))) [0; 1; 2; 3] = [4; 10; 22; 46] /\
  snd (to_bytes_c (nest 2 (Tag 16 (VBytes [1; 2])))) = 40.
Proof. vm_compute. auto. Qed.

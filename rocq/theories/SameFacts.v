(** Tags that hold the same data serialize the same; order of keys. *)
From Coq Require Import Sorted Permutation.
From Verif Require Import Base BaseFacts Types Spec SpecFacts IO ILInt Data Tags SortFacts TagsFacts.

Scheme same_tag_min := Minimality for same_tag Sort Prop
  with same_value_min := Minimality for same_value Sort Prop
  with same_tags_min := Minimality for same_tags Sort Prop.
Combined Scheme same_mutind from same_tag_min, same_value_min, same_tags_min.

Lemma for_each_ext {S E X} (l : list X) (f g : X -> S -> res E unit * S) :
  (forall x s, In x l -> f x s = g x s) -> forall s, for_each l f s = for_each l g s.
Proof.
  induction l as [|x l IH]; intros H s; cbn [for_each fold_right]; [reflexivity|].
  unfold bind. rewrite H by (left; reflexivity). destruct (g x s) as [[[]|e| |] s1]; auto.
  apply IH. intros y s2 Hy. apply H. now right.
Qed.
Lemma sort_unstable_perm (l l' : list (list N)) : NoDup l -> Permutation l l' -> sort_unstable l = sort_unstable l'.
Proof.
  intros ND P.
  assert (H : forall k : list (list N), sort_unstable k = map fst (sort_entries (map (fun x => (x, tt)) k))).
  { intros k. rewrite <- sort_unstable_entries, map_map. cbn [fst]. now rewrite map_id. }
  rewrite !H. f_equal. apply sort_entries_unique.
  - rewrite map_map. cbn [fst]. now rewrite map_id.
  - now apply Permutation_map.
Qed.
Lemma sort_unstable_In k (l : list (list N)) : In k (sort_unstable l) -> In k l.
Proof.
  assert (H : sort_unstable l = map fst (sort_entries (map (fun x => (x, tt)) l))).
  { rewrite <- sort_unstable_entries, map_map. cbn [fst]. now rewrite map_id. }
  rewrite H. intros (x & <- & Hx)%in_map_iff.
  apply (Permutation_in (l' := map (fun x => (x, tt)) l)) in Hx; [|symmetry; apply sort_entries_perm].
  apply in_map_iff in Hx as (y & <- & Hy). exact Hy.
Qed.
Lemma sum_perm {X} (f : X -> N) l l' a :
  Permutation l l' -> fold_left (fun acc x => acc + f x) l a = fold_left (fun acc x => acc + f x) l' a.
Proof.
  intros P. revert a. induction P as [|x l l' P IH|x y l|l l1 l' P1 IH1 P2 IH2]; intros a; cbn [fold_left]; auto.
  - f_equal. lia.
  - now rewrite IH1.
Qed.
Lemma hm_get_perm {A} k (l l' : list (list N * A)) :
  NoDup (map fst l) -> Permutation l l' -> hm_get k l = hm_get k l'.
Proof.
  intros ND P. assert (ND' : NoDup (map fst l')).
  { eapply Permutation_NoDup; [apply Permutation_map; exact P|exact ND]. }
  destruct (hm_get k l) as [x|] eqn:E.
  - symmetry. apply hm_get_in; [exact ND'|]. apply hm_get_some in E. eapply Permutation_in; eauto.
  - destruct (hm_get k l') as [y|] eqn:E'; [|reflexivity].
    apply hm_get_some in E'. apply Permutation_sym in P. eapply Permutation_in in E'; [|exact P].
    rewrite (hm_get_in _ _ _ ND E') in E. discriminate.
Qed.

Definition ser_eq (t t' : tag) : Prop := (forall w, serialize t w = serialize t' w) /\ size t = size t'.
Lemma all_perm (P : list N * tag -> Prop) l l' : all P l -> Permutation l l' -> all P l'.
Proof. rewrite !all_Forall. intros F Q. eapply Permutation_Forall; eauto. Qed.

(** Pairs with equal keys and same-serialization values. *)
Lemma hm_get_pointwise l l' k :
  map fst l = map fst l' -> Forall2 ser_eq (map snd l) (map snd l') ->
  match hm_get k (map (fun e => (fst e, serialize (snd e))) l),
        hm_get k (map (fun e => (fst e, serialize (snd e))) l') with
  | Some f, Some g => forall w, f w = g w
  | None, None => True
  | _, _ => False
  end.
Proof.
  revert l'; induction l as [|[k1 t] l IH]; intros [|[k2 t'] l'] H F; try discriminate H; cbn [map hm_get]; [exact I|].
  cbn [map fst snd] in *. injection H as <- H. assert (F1 : ser_eq t t' /\ Forall2 ser_eq (map snd l) (map snd l')) by now inversion F.
  destruct F1 as [F1 F2].
  destruct (str_eqb k k1); [apply F1|]. now apply IH.
Qed.
Lemma sum_pointwise (g : list N -> N) l l' a :
  map fst l = map fst l' -> Forall2 ser_eq (map snd l) (map snd l') ->
  fold_left (fun acc e => acc + (g (fst e) + size (snd e))) l a
  = fold_left (fun acc e => acc + (g (fst e) + size (snd e))) l' a.
Proof.
  revert l' a; induction l as [|[k1 t] l IH]; intros [|[k2 t'] l'] a H F; try discriminate H; [reflexivity|].
  cbn [map fst snd] in *. injection H as <- H. assert (F1 : ser_eq t t' /\ Forall2 ser_eq (map snd l) (map snd l')) by now inversion F.
  destruct F1 as [[_ F1] F2]. cbn [fold_left fst snd].
  rewrite F1. now apply IH.
Qed.

Lemma Forall2_len {A B} (R : A -> B -> Prop) l l' : Forall2 R l l' -> length l = length l'.
Proof. induction 1; cbn [length]; congruence. Qed.
Lemma same_ser_eq :
  (forall t t', same_tag t t' -> wf t -> ser_eq t t') /\
  (forall v v', same_value v v' -> wfv v ->
     (forall w, serialize_value v w = serialize_value v' w) /\ value_size v = value_size v') /\
  (forall l l', same_tags l l' -> all wf l -> Forall2 ser_eq l l').
Proof.
  apply same_mutind.
  - intros id v v' _ IH [Hid Hv]. destruct (IH Hv) as [Hs Hz]. split.
    + intros w. cbn [serialize]. unfold bind. rewrite Hz.
      destruct (serialize_ilint id w) as [[[]|e| |] w1]; auto.
      destruct ((if is_implicit_tag id then ret tt else serialize_ilint (value_size v')) w1) as [[[]|e| |] w2]; auto.
    + cbn [size]. now rewrite Hz.
  - intros v _. split; reflexivity.
  - intros l l' _ IH H. cbn [wfv] in H. specialize (IH H). split.
    + intros w. cbn [serialize_value]. clear H. revert w. induction IH as [|t t' l l' [E _] F IH]; intros w; [reflexivity|].
      cbn [for_each fold_right]. unfold bind. rewrite E. destruct (serialize t' w) as [[[]|e| |] w1]; try reflexivity. exact (IH w1).
    + cbn [value_size]. clear H. generalize 0. induction IH as [|t t' l l' [_ E] F IH]; intros a; [reflexivity|].
      cbn [fold_left]. rewrite E. apply IH.
  - intros l l' _ IH H. cbn [wfv] in H. specialize (IH H).
    assert (L : lenN l = lenN l') by (unfold lenN; now rewrite (Forall2_len _ _ _ IH)). split.
    + intros w. cbn [serialize_value]. rewrite L. unfold bind. destruct (serialize_ilint (lenN l') w) as [[[]|e| |] w0]; auto.
      clear H L. revert w0. induction IH as [|t t' l l' [E _] F IH]; intros w0; [reflexivity|].
      cbn [for_each fold_right]. unfold bind. rewrite E. destruct (serialize t' w0) as [[[]|e| |] w1]; try reflexivity. exact (IH w1).
    + cbn [value_size]. rewrite L. f_equal. clear H L. generalize 0.
      induction IH as [|t t' l l' [_ E] F IH]; intros a; [reflexivity|]. cbn [fold_left]. rewrite E. apply IH.
  - intros l l1 l' P K _ IH (ND & U & A).
    assert (A1 : all wf (map snd l1)).
    { pose proof (all_perm _ _ _ A P) as F. rewrite all_Forall in F. rewrite all_Forall. apply Forall_map. exact F. }
    specialize (IH A1).
    assert (L : lenN l = lenN l').
    { unfold lenN. rewrite (Permutation_length P). rewrite <- (map_length fst l1), <- (map_length fst l'). now rewrite K. }
    split.
    + intros w. cbn [serialize_value]. rewrite L. unfold bind at 1 3.
      destruct (serialize_ilint (lenN l') w) as [[[]|e| |] w0]; auto. cbv zeta.
      rewrite <- K. rewrite (sort_unstable_perm (map fst l) (map fst l1)); [|exact ND|now apply Permutation_map].
      apply for_each_ext. intros k s _.
      pose proof (hm_get_pointwise l1 l' k K IH) as G.
      rewrite (hm_get_perm k _ (map (fun e => (fst e, serialize (snd e))) l1)).
      2:{ rewrite map_map. cbn [fst]. exact ND. }
      2:{ now apply Permutation_map. }
      destruct (hm_get k (map _ l1)), (hm_get k (map _ l')); try contradiction; [|reflexivity].
      unfold bind. destruct (serialize_string_tag_from_value k s) as [[[]|e| |] s1]; auto.
    + cbn [value_size]. rewrite L. f_equal.
      rewrite (sum_perm (fun e => string_tag_size_from_value (fst e) + size (snd e)) l l1) by assumption.
      now apply sum_pointwise.
  - intros l l' P (ND & U). assert (L : lenN l = lenN l') by (unfold lenN; now rewrite (Permutation_length P)). split.
    + intros w. cbn [serialize_value]. rewrite L. unfold bind at 1 3.
      destruct (serialize_ilint (lenN l') w) as [[[]|e| |] w0]; auto. cbv zeta.
      rewrite (sort_unstable_perm (map fst l) (map fst l')); [|exact ND|now apply Permutation_map].
      apply for_each_ext. intros k s _. now rewrite (hm_get_perm k l l').
    + cbn [value_size]. rewrite L. f_equal.
      now apply (sum_perm (fun e => string_tag_size_from_value (fst e) + string_tag_size_from_value (snd e))).
  - intros _. constructor.
  - intros t t' l l' _ IH1 _ IH2 [H1 H2]. constructor; auto.
Qed.

(** ** Order of UTF-8 strings *)
Lemma lex_app_l p a b : lex_lt a b -> lex_lt (p ++ a) (p ++ b).
Proof.
  unfold lex_lt. intros H. induction p as [|x p IH]; cbn [app lex_ltb]; [exact H|].
  rewrite IH, N.eqb_refl. destruct (x <? x); reflexivity.
Qed.
Lemma lex_cons x y a b : x < y -> lex_lt (x :: a) (y :: b).
Proof. intros H. unfold lex_lt. cbn [lex_ltb]. apply N.ltb_lt in H. now rewrite H. Qed.
Lemma lex_cons_le x y a b : x <= y -> (x = y -> lex_lt a b) -> lex_lt (x :: a) (y :: b).
Proof.
  intros H K. destruct (N.lt_ge_cases x y); [now apply lex_cons|]. assert (x = y) by lia. subst y.
  apply (lex_app_l [x]). now apply K.
Qed.
Lemma utf8_char_lt c d x y : scalar c -> scalar d -> c < d -> lex_lt (utf8_char c ++ x) (utf8_char d ++ y).
Proof.
  intros Hc Hd H. unfold scalar in *. unfold utf8_char.
  destruct (N.ltb_spec c 128); [destruct (N.ltb_spec d 128); [|destruct (N.ltb_spec d 2048); [|destruct (N.ltb_spec d 65536)]];
    cbn [app]; apply lex_cons; lia|].
  destruct (N.ltb_spec c 2048).
  { destruct (N.ltb_spec d 128); [lia|]. destruct (N.ltb_spec d 2048); cbn [app].
    { apply lex_cons_le; [lia|]. intros E. apply lex_cons. lia. }
    destruct (N.ltb_spec d 65536); apply lex_cons; lia. }
  destruct (N.ltb_spec c 65536).
  { destruct (N.ltb_spec d 128); [lia|]. destruct (N.ltb_spec d 2048); [lia|]. destruct (N.ltb_spec d 65536); cbn [app].
    { apply lex_cons_le; [lia|]. intros E. apply lex_cons_le; [lia|]. intros E1. apply lex_cons. lia. }
    apply lex_cons; lia. }
  destruct (N.ltb_spec d 128); [lia|]. destruct (N.ltb_spec d 2048); [lia|]. destruct (N.ltb_spec d 65536); [lia|].
  cbn [app]. apply lex_cons_le; [lia|]. intros E. apply lex_cons_le; [lia|]. intros E1.
  apply lex_cons_le; [lia|]. intros E2. apply lex_cons. lia.
Qed.
Lemma utf8_char_cons c : exists b l, utf8_char c = b :: l.
Proof. unfold utf8_char. destruct (c <? 128); [|destruct (c <? 2048); [|destruct (c <? 65536)]]; eauto. Qed.
Lemma utf8_lex_lt cs ds : Forall scalar cs -> Forall scalar ds -> lex_lt cs ds -> lex_lt (utf8_encode cs) (utf8_encode ds).
Proof.
  revert ds; induction cs as [|c cs IH]; intros [|d ds] Fc Fd H; try discriminate H.
  - change (utf8_encode (d :: ds)) with (utf8_char d ++ utf8_encode ds).
    destruct (utf8_char_cons d) as (b & l & ->). reflexivity.
  - apply Forall_cons_iff in Fc as [Sc Fc]. apply Forall_cons_iff in Fd as [Sd Fd].
    change (utf8_encode (c :: cs)) with (utf8_char c ++ utf8_encode cs).
    change (utf8_encode (d :: ds)) with (utf8_char d ++ utf8_encode ds).
    unfold lex_lt in H. cbn [lex_ltb] in H. destruct (N.ltb_spec c d) as [L|L]; [now apply utf8_char_lt|].
    cbn [orb] in H. apply Bool.andb_true_iff in H as [E H]. apply N.eqb_eq in E. subst d.
    apply lex_app_l. now apply IH.
Qed.
Lemma utf8_lex cs ds : Forall scalar cs -> Forall scalar ds ->
  (lex_lt (utf8_encode cs) (utf8_encode ds) <-> lex_lt cs ds).
Proof.
  intros Fc Fd. split; [|now apply utf8_lex_lt]. intros H.
  destruct (lex_total cs ds) as [K|[K|K]]; [exact K| |].
  - subst ds. now apply lex_irrefl in H.
  - apply utf8_lex_lt in K; auto. now apply lex_asym in H.
Qed.

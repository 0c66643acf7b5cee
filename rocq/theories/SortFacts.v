(** Strings order, sorting and maps. *)
From Coq Require Import Sorted.
From Verif Require Import Base BaseFacts Types Spec SpecFacts Tags.

(** ** Order on byte strings *)
Lemma str_cmp_eq a b : str_cmp a b = Eq <-> a = b.
Proof.
  revert b; induction a as [|x a IH]; destruct b as [|y b]; cbn [str_cmp]; try (split; congruence).
  destruct (N.compare_spec x y) as [->|H|H].
  - rewrite IH. split; congruence.
  - split; [discriminate|]. intros [= -> _]. lia.
  - split; [discriminate|]. intros [= -> _]. lia.
Qed.
Lemma str_cmp_refl a : str_cmp a a = Eq.
Proof. now apply str_cmp_eq. Qed.
Lemma str_cmp_lt a b : str_cmp a b = Lt <-> lex_lt a b.
Proof.
  unfold lex_lt. revert b; induction a as [|x a IH]; destruct b as [|y b]; cbn [str_cmp lex_ltb]; try (split; congruence).
  destruct (N.compare_spec x y) as [->|H|H].
  - rewrite IH. rewrite N.eqb_refl, N.ltb_irrefl. cbn [orb andb]. reflexivity.
  - destruct (N.ltb_spec x y); [|lia]. split; reflexivity.
  - destruct (N.ltb_spec x y); [lia|]. destruct (N.eqb_spec x y); [lia|]. cbn [orb andb]. split; discriminate.
Qed.
Lemma str_cmp_antisym a b : str_cmp b a = CompOpp (str_cmp a b).
Proof.
  revert b; induction a as [|x a IH]; destruct b as [|y b]; cbn [str_cmp]; try reflexivity.
  rewrite N.compare_antisym. destruct (x ?= y); cbn [CompOpp]; auto.
Qed.
Lemma str_cmp_gt a b : str_cmp a b = Gt <-> lex_lt b a.
Proof. rewrite <- str_cmp_lt, (str_cmp_antisym a b). destruct (str_cmp a b); cbn [CompOpp]; split; congruence. Qed.
Lemma str_eqb_eq a b : str_eqb a b = true <-> a = b.
Proof. unfold str_eqb. rewrite <- str_cmp_eq. destruct (str_cmp a b); split; congruence. Qed.
Lemma str_eqb_refl a : str_eqb a a = true.
Proof. now apply str_eqb_eq. Qed.
Lemma bytes_eqb_eq a b : bytes_eqb a b = true <-> a = b.
Proof.
  revert b; induction a as [|x a IH]; destruct b as [|y b]; cbn [bytes_eqb]; try (split; congruence).
  rewrite Bool.andb_true_iff, N.eqb_eq, IH. split; [intros [-> ->]; reflexivity|now intros [= -> ->]].
Qed.
Lemma bytes_eqb_str_eqb a b : bytes_eqb a b = str_eqb a b.
Proof.
  destruct (str_eqb a b) eqn:E.
  - apply bytes_eqb_eq. now apply str_eqb_eq.
  - destruct (bytes_eqb a b) eqn:F; [|reflexivity]. apply bytes_eqb_eq, str_eqb_eq in F. congruence.
Qed.
Lemma bytes_eqb_refl a : bytes_eqb a a = true.
Proof. now apply bytes_eqb_eq. Qed.
Lemma bytes_eqb_neq a b : a <> b -> bytes_eqb a b = false.
Proof. intros H. destruct (bytes_eqb a b) eqn:E; [|reflexivity]. apply bytes_eqb_eq in E. contradiction. Qed.

Lemma lex_irrefl a : ~ lex_lt a a.
Proof. rewrite <- str_cmp_lt, str_cmp_refl. discriminate. Qed.
Lemma lex_trans a b c : lex_lt a b -> lex_lt b c -> lex_lt a c.
Proof.
  unfold lex_lt. revert b c; induction a as [|x a IH]; destruct b as [|y b]; destruct c as [|z c]; cbn [lex_ltb]; try easy.
  rewrite !Bool.orb_true_iff, !Bool.andb_true_iff, !N.ltb_lt, !N.eqb_eq.
  intros [H|[-> H]] [K|[-> K]]; try (left; lia). right. split; [reflexivity|]. eauto.
Qed.
Lemma lex_total a b : lex_lt a b \/ a = b \/ lex_lt b a.
Proof.
  destruct (str_cmp a b) eqn:E.
  - right; left. now apply str_cmp_eq.
  - left. now apply str_cmp_lt.
  - right; right. now apply str_cmp_gt.
Qed.
Lemma lex_asym a b : lex_lt a b -> ~ lex_lt b a.
Proof. intros H K. exact (lex_irrefl a (lex_trans _ _ _ H K)). Qed.

(** ** Sorting *)
Lemma insert_entry_perm {A} (e : list N * A) l : Permutation (e :: l) (insert_entry e l).
Proof.
  induction l as [|e' l IH]; cbn [insert_entry]; [reflexivity|].
  destruct (lex_ltb _ _); [|reflexivity].
  rewrite perm_swap. now apply perm_skip.
Qed.
Lemma sort_entries_perm {A} (l : list (list N * A)) : Permutation l (sort_entries l).
Proof.
  induction l as [|e l IH]; cbn [sort_entries fold_right]; [reflexivity|].
  rewrite <- insert_entry_perm. now apply perm_skip.
Qed.
Lemma insert_entry_map {A B} (f : A -> B) e (l : list (list N * A)) :
  map (fun e => (fst e, f (snd e))) (insert_entry e l)
  = insert_entry (fst e, f (snd e)) (map (fun e => (fst e, f (snd e))) l).
Proof.
  induction l as [|e' l IH]; cbn [insert_entry map fst]; [reflexivity|].
  destruct (lex_ltb (fst e') (fst e)); cbn [map]; [now rewrite IH|reflexivity].
Qed.
Lemma sort_entries_map {A B} (f : A -> B) (l : list (list N * A)) :
  sort_entries (map (fun e => (fst e, f (snd e))) l) = map (fun e => (fst e, f (snd e))) (sort_entries l).
Proof.
  induction l as [|e l IH]; cbn [sort_entries fold_right map]; [reflexivity|].
  fold (sort_entries l). rewrite insert_entry_map. fold (sort_entries (map (fun e => (fst e, f (snd e))) l)).
  now rewrite IH.
Qed.
Lemma sort_unstable_entries {A} (l : list (list N * A)) :
  sort_unstable (map fst l) = map fst (sort_entries l).
Proof.
  induction l as [|e l IH]; cbn [sort_unstable sort_entries fold_right map]; [reflexivity|].
  fold (sort_unstable (map fst l)) (sort_entries l). rewrite IH. generalize (sort_entries l). clear.
  induction l as [|e' l IH]; cbn [map sort_insert insert_entry]; [reflexivity|].
  destruct (lex_ltb (fst e') (fst e)) eqn:E.
  - apply str_cmp_gt in E. rewrite E. cbn [map]. now rewrite IH.
  - destruct (str_cmp (fst e) (fst e')) eqn:F; try reflexivity.
    apply str_cmp_gt in F. unfold lex_lt in F. congruence.
Qed.

Definition key_lt {A} (a b : list N * A) : Prop := lex_lt (fst a) (fst b).
Lemma insert_entry_sorted {A} (e : list N * A) l :
  ~ In (fst e) (map fst l) -> StronglySorted key_lt l -> StronglySorted key_lt (insert_entry e l).
Proof.
  intros Hn Hs. induction Hs as [|e' l Hs IH F]; cbn [insert_entry].
  - constructor; constructor.
  - cbn [map In] in Hn. destruct (lex_ltb (fst e') (fst e)) eqn:E.
    + constructor; [apply IH; tauto|]. rewrite <- insert_entry_perm. now constructor.
    + assert (L : key_lt e e').
      { destruct (lex_total (fst e) (fst e')) as [L|[L|L]]; [exact L|symmetry in L; tauto|].
        unfold lex_lt in L. congruence. }
      constructor; [now constructor|]. constructor; [assumption|].
      eapply Forall_impl; [|exact F]. intros a Ha. eapply lex_trans; eauto.
Qed.
Lemma sort_entries_sorted {A} (l : list (list N * A)) :
  NoDup (map fst l) -> StronglySorted key_lt (sort_entries l).
Proof.
  induction l as [|e l IH]; cbn [map sort_entries fold_right]; [constructor|].
  fold (sort_entries l). intros H. inversion H; subst. apply insert_entry_sorted; [|auto].
  intros K. apply H2. eapply Permutation_in; [|exact K]. apply Permutation_map.
  symmetry. apply sort_entries_perm.
Qed.
Lemma sorted_unique {A} (l l' : list (list N * A)) :
  Permutation l l' -> StronglySorted key_lt l -> StronglySorted key_lt l' -> l = l'.
Proof.
  revert l'; induction l as [|e l IH]; intros l' P S S'.
  - now apply Permutation_nil in P.
  - destruct l' as [|e' l']; [symmetry in P; apply Permutation_nil in P; discriminate|].
    inversion S as [|? ? S1 F1]; inversion S' as [|? ? S2 F2]; subst.
    assert (e = e') as <-.
    { pose proof (Permutation_in e P (or_introl eq_refl)) as [H|H]; [congruence|].
      pose proof (Permutation_in e' (Permutation_sym P) (or_introl eq_refl)) as [K|K]; [congruence|].
      rewrite Forall_forall in F1, F2. exfalso. exact (lex_asym _ _ (F1 _ K) (F2 _ H)). }
    f_equal. apply IH; auto. eapply Permutation_cons_inv; eauto.
Qed.
Lemma sort_entries_unique {A} (l l' : list (list N * A)) :
  NoDup (map fst l) -> Permutation l l' -> sort_entries l = sort_entries l'.
Proof.
  intros H P. apply sorted_unique.
  - rewrite <- !sort_entries_perm. assumption.
  - now apply sort_entries_sorted.
  - apply sort_entries_sorted. eapply Permutation_NoDup; [|exact H]. now apply Permutation_map.
Qed.
Lemma sort_entries_id {A} (l : list (list N * A)) : StronglySorted key_lt l -> sort_entries l = l.
Proof.
  intros S. induction S as [|e l S IH F]; cbn [sort_entries fold_right]; [reflexivity|].
  fold (sort_entries l). rewrite IH. destruct l as [|e' l]; [reflexivity|]. cbn [insert_entry].
  inversion F; subst. destruct (lex_ltb (fst e') (fst e)) eqn:E; [|reflexivity].
  exfalso. exact (lex_asym _ _ H1 E).
Qed.
Lemma sorted_NoDup {A} (l : list (list N * A)) : StronglySorted key_lt l -> NoDup (map fst l).
Proof.
  induction 1 as [|e l S IH F]; cbn [map]; constructor; [|assumption].
  intros H. apply in_map_iff in H as (e' & Hk & He). rewrite Forall_forall in F. apply F in He.
  unfold key_lt in He. rewrite Hk in He. exact (lex_irrefl _ He).
Qed.

(** ** Maps *)
Lemma hm_get_in {A} (k : list N) (x : A) m : NoDup (map fst m) -> In (k, x) m -> hm_get k m = Some x.
Proof.
  induction m as [|[k' x'] m IH]; cbn [map fst hm_get In]; [easy|]. intros D H. inversion D; subst.
  destruct (str_eqb k k') eqn:E.
  - apply str_eqb_eq in E. subst k'. destruct H as [[= <-]|H]; [reflexivity|].
    exfalso. apply H2. now apply (in_map fst) in H.
  - destruct H as [[= <- <-]|H]; [now rewrite str_eqb_refl in E|]. auto.
Qed.
Lemma hm_get_some {A} (k : list N) (x : A) m : hm_get k m = Some x -> In (k, x) m.
Proof.
  induction m as [|[k' x'] m IH]; cbn [hm_get In]; [discriminate|].
  destruct (str_eqb k k') eqn:E; [|auto]. intros [= <-]. apply str_eqb_eq in E. subst. auto.
Qed.
Lemma hm_get_map {A B} (f : A -> B) k (m : list (list N * A)) :
  hm_get k (map (fun e => (fst e, f (snd e))) m) = option_map f (hm_get k m).
Proof.
  induction m as [|[k' x'] m IH]; cbn [hm_get map fst snd option_map]; [reflexivity|].
  destruct (str_eqb k k'); [reflexivity|exact IH].
Qed.
Lemma hm_insert_put {A} k (x : A) m : hm_insert k x m = put k x m.
Proof.
  induction m as [|[k' x'] m IH]; cbn [hm_insert put]; [reflexivity|].
  rewrite bytes_eqb_str_eqb, IH. reflexivity.
Qed.
Lemma put_fst {A} k (x : A) m :
  map fst (put k x m) = if existsb (bytes_eqb k) (map fst m) then map fst m else map fst m ++ [k].
Proof.
  induction m as [|[k' x'] m IH]; cbn [put map fst existsb]; [reflexivity|].
  destruct (bytes_eqb k k') eqn:E; cbn [orb map fst]; [reflexivity|]. rewrite IH.
  destruct (existsb _ _); reflexivity.
Qed.
Lemma existsb_bytes k l : existsb (bytes_eqb k) l = true <-> In k l.
Proof.
  rewrite existsb_exists. split.
  - intros (x & H & E). apply bytes_eqb_eq in E. now subst.
  - intros H. exists k. now rewrite bytes_eqb_refl.
Qed.
Lemma put_NoDup {A} k (x : A) m : NoDup (map fst m) -> NoDup (map fst (put k x m)).
Proof.
  intros H. rewrite put_fst. destruct (existsb _ _) eqn:E; [assumption|].
  apply Permutation_NoDup with (k :: map fst m); [apply Permutation_cons_append|].
  constructor; [|assumption]. intros K. apply existsb_bytes in K. congruence.
Qed.
Lemma dict_of_NoDup {A} (es : list (list N * A)) : NoDup (map fst (dict_of es)).
Proof.
  unfold dict_of. assert (H : NoDup (map fst (@nil (list N * A)))) by constructor.
  revert H. generalize (@nil (list N * A)). induction es as [|e es IH]; cbn [fold_left]; [auto|].
  intros m H. apply IH. now apply put_NoDup.
Qed.
Lemma put_Forall {A} (P : list N * A -> Prop) k x m :
  P (k, x) -> Forall P m -> Forall P (put k x m).
Proof.
  intros H F. induction F as [|[k' x'] m H' F IH]; cbn [put]; [auto|].
  destruct (bytes_eqb k k') eqn:E; [|auto]. apply bytes_eqb_eq in E. subst. auto.
Qed.
Lemma put_new {A} k (x : A) m : ~ In k (map fst m) -> put k x m = m ++ [(k, x)].
Proof.
  induction m as [|[k' x'] m IH]; cbn [put map fst In app]; [reflexivity|]. intros H.
  rewrite bytes_eqb_neq by (intros ->; tauto). rewrite IH by tauto. reflexivity.
Qed.
Lemma fold_put_NoDup {A} (es m : list (list N * A)) :
  NoDup (map fst (m ++ es)) -> fold_left (fun m e => put (fst e) (snd e) m) es m = m ++ es.
Proof.
  revert m; induction es as [|[k x] es IH]; intros m H; cbn [fold_left fst snd]; [now rewrite app_nil_r|].
  rewrite put_new.
  - rewrite IH; rewrite <- app_assoc; [reflexivity|exact H].
  - rewrite map_app in H. cbn [map fst] in H. apply NoDup_remove_2 in H. intros K. apply H.
    apply in_or_app. auto.
Qed.
Lemma dict_of_id {A} (es : list (list N * A)) : NoDup (map fst es) -> dict_of es = es.
Proof. intros H. unfold dict_of. now rewrite (fold_put_NoDup es []). Qed.

(** The counted functions of Cost.v are those of Tags.v, and what they count. *)
From Coq Require Import Permutation.
From Verif Require Import Base BaseFacts Types Spec SpecFacts IO ILInt ILIntFacts Data Tags SortFacts TagsFacts Cost.

Definition total {A} (f : A -> N) (l : list A) : N := fold_right (fun x a => f x + a) 0 l.
Lemma total_app {A} (f : A -> N) l l' : total f (l ++ l') = total f l + total f l'.
Proof. induction l as [|x l IH]; cbn [app total fold_right]; [reflexivity|]. fold (total f l). fold (total f (l ++ l')). lia. Qed.
Lemma total_perm {A} (f : A -> N) l l' : Permutation l l' -> total f l = total f l'.
Proof.
  induction 1 as [|x l l' _ IH|x y l|]; cbn [total fold_right]; [reflexivity| | |congruence].
  - fold (total f l) (total f l'). lia.
  - fold (total f l). lia.
Qed.
Lemma total_map {A B} (f : B -> N) (g : A -> B) l : total f (map g l) = total (fun x => f (g x)) l.
Proof. induction l as [|x l IH]; cbn [map total fold_right]; [reflexivity|]. fold (total f (map g l)). rewrite IH. reflexivity. Qed.
Lemma total_ext {A} (f g : A -> N) l : (forall x, In x l -> f x = g x) -> total f l = total g l.
Proof.
  induction l as [|x l IH]; intros H; [reflexivity|]. cbn [total fold_right].
  fold (total f l) (total g l). rewrite (H x), IH; auto with datatypes.
Qed.
Lemma total_le {A} (f g : A -> N) l : (forall x, In x l -> f x <= g x) -> total f l <= total g l.
Proof.
  induction l as [|x l IH]; intros H; [reflexivity|]. cbn [total fold_right].
  fold (total f l) (total g l). pose proof (H x (or_introl eq_refl)). specialize (IH (fun y Hy => H y (or_intror Hy))). lia.
Qed.
Lemma total_in {A} (f : A -> N) l x : In x l -> f x <= total f l.
Proof.
  induction l as [|y l IH]; intros H; [destruct H|]. cbn [total fold_right]. fold (total f l).
  destruct H as [<-|H]; [lia|specialize (IH H); lia].
Qed.
Lemma total_scale {A} (f : A -> N) k l : total (fun x => k * f x) l = k * total f l.
Proof. induction l as [|x l IH]; cbn [total fold_right]; [lia|]. fold (total f l) (total (fun x => k * f x) l). lia. Qed.

(** ** The numbers
    [own v]: the calls on the struct itself and the struct inside it. *)
Definition own (v : value) : N :=
  match v with VBytes _ | VBigInt _ | VOID _ | VBigDec _ _ | VArr _ => 2 | _ => 1 end.
Definition times (id : N) : N := if id <=? 15 then 1 else 2.
Fixpoint calls (t : tag) : N :=
  match t with
  | Tag id v =>
      times id * (own v + match v with
                          | VSeq l | VArr l => total calls l
                          | VDict l => total (fun e => calls (snd e)) l
                          | _ => 0
                          end)
  end.
Definition calls_value (v : value) : N := own v + total calls (children v).
Lemma calls_tag id v : calls (Tag id v) = times id * calls_value v.
Proof.
  unfold calls_value. cbn [calls]. destruct v; cbn [children]; try reflexivity.
  now rewrite total_map.
Qed.
(** Calls by [serialize]. *)
Fixpoint ser_calls (t : tag) : N :=
  match t with
  | Tag id v =>
      (if id <=? 15 then 0 else calls_value v)
      + match v with
        | VSeq l | VArr l => total ser_calls l
        | VDict l => total (fun e => ser_calls (snd e)) l
        | _ => 0
        end
  end.
Definition ser_calls_value (v : value) : N := total ser_calls (children v).
Lemma ser_calls_tag id v : ser_calls (Tag id v) = (if id <=? 15 then 0 else calls_value v) + ser_calls_value v.
Proof.
  unfold ser_calls_value. cbn [ser_calls]. destruct v; cbn [children]; try reflexivity.
  now rewrite total_map.
Qed.

(** ** [size] *)
Lemma fold_count {A} (f : A -> N * N) (g h : A -> N) l s c : (forall x, In x l -> f x = (g x, h x)) ->
  fold_left (fun '(s, c) x => let '(s1, c1) := f x in (s + s1, c + c1)) l (s, c) =
  (fold_left (fun acc x => acc + g x) l s, c + total h l).
Proof.
  revert s c; induction l as [|x l IH]; intros s c H; cbn [fold_left total fold_right]; [f_equal; lia|].
  rewrite (H x) by (now left). rewrite IH by (intros; apply H; now right). f_equal. fold (total h l). lia.
Qed.
Lemma size_c_both :
  (forall t, size_c t = (size t, calls t)) /\ (forall v, value_size_c v = (value_size v, calls_value v)).
Proof.
  apply value_induction.
  - intros v IH. rewrite Forall_forall in IH. unfold calls_value.
    destruct v; cbn [value_size_c children] in *; try reflexivity; cbn [value_size own].
    + now rewrite (fold_count _ _ _ _ _ _ IH).
    + now rewrite (fold_count _ _ _ _ _ _ IH).
    + pose proof (fold_count (fun e : list N * tag => let '(s1, c1) := size_c (snd e) in (string_tag_size_from_value (fst e) + s1, c1))
        (fun e => string_tag_size_from_value (fst e) + size (snd e)) (fun e => calls (snd e)) l 0 0) as K.
      rewrite total_map.
      match goal with |- (let '(s, c) := ?X in _) = _ => replace X with
        (fold_left (fun acc e => acc + (string_tag_size_from_value (fst e) + size (snd e))) l 0, 0 + total (fun e => calls (snd e)) l) end.
      { reflexivity. }
      rewrite <- K.
      * clear K. generalize (0, 0). induction l as [|e l IHl]; intros [s c]; [reflexivity|]. cbn [fold_left].
        rewrite IHl by (intros x Hx; apply IH; cbn [map]; now right). destruct (size_c (snd e)). reflexivity.
      * intros e He. rewrite (IH (snd e)) by now apply in_map. reflexivity.
  - intros id v IH. cbn [size_c size]. rewrite IH, calls_tag, is_implicit_spec. unfold times.
    destruct (id <=? 15); f_equal; lia.
Qed.

(** ** [serialize] *)
Definition counts (m : counted -> res tag_error unit * counted) (m0 : writer -> res tag_error unit * writer) (k : N) : Prop :=
  forall w c x w' c', m (w, c) = (x, (w', c')) ->
    m0 w = (x, w') /\ c <= c' <= c + k /\ (x = Ok tt -> c' = c + k).
Lemma counts_writer m : counts (on_writer m) m 0.
Proof.
  intros w c x w' c' H. unfold on_writer in H. destruct (m w) as [y w1]. injection H as -> -> ->. repeat split; intros; lia.
Qed.
Lemma counts_ret : counts (ret tt) (ret tt) 0.
Proof. intros w c x w' c' H. unfold ret in *. injection H as <- <- <-. repeat split; intros; lia. Qed.
Lemma counts_bind m m0 k f f0 k' : counts m m0 k -> counts f f0 k' -> counts (m ;;; f) (m0 ;;; f0) (k + k').
Proof.
  intros Hm Hf w c x w' c' H. unfold bind in *.
  destruct (m (w, c)) as [y [w1 c1]] eqn:E. destruct (Hm _ _ _ _ _ E) as (E0 & B & O). rewrite E0.
  destruct y as [[]| | |]; try (injection H as <- <- <-; repeat split; try lia; discriminate).
  destruct (Hf _ _ _ _ _ H) as (F0 & B' & O'). specialize (O eq_refl).
  split; [assumption|]. split; [lia|]. intros Hx. specialize (O' Hx). lia.
Qed.
Lemma counts_for_each {X} (l : list X) f f0 g : (forall x, In x l -> counts (f x) (f0 x) (g x)) ->
  counts (for_each l f) (for_each l f0) (total g l).
Proof.
  induction l as [|x l IH]; intros H; [apply counts_ret|]. apply counts_bind; [apply H; now left|].
  apply IH. intros y Hy. apply H. now right.
Qed.
Lemma counts_value_size v n : n = value_size v ->
  counts (n <- call_value_size v ;; on_writer (serialize_ilint n)) (serialize_ilint n) (calls_value v).
Proof.
  intros -> w c x w' c' H. unfold bind, call_value_size in H. rewrite (proj2 size_c_both) in H.
  destruct (counts_writer _ _ _ _ _ _ H) as (E & B & O). split; [exact E|]. split; [lia|].
  intros Hx. specialize (O Hx). lia.
Qed.

Lemma serialize_c_both :
  (forall t, wf t -> counts (serialize_c t) (serialize t) (ser_calls t)) /\
  (forall v, wfv v -> counts (serialize_value_c v) (serialize_value v) (ser_calls_value v)).
Proof.
  apply value_induction.
  - intros v IH W. unfold ser_calls_value.
    assert (IH' : forall t, In t (children v) -> counts (serialize_c t) (serialize t) (ser_calls t)).
    { rewrite Forall_forall in IH. intros t Ht. apply IH; [assumption|].
      pose proof (wfv_children _ W) as F. rewrite Forall_forall in F. auto. }
    clear IH. destruct v; cbn [serialize_value_c children] in *; try apply counts_writer.
    + now apply counts_for_each.
    + cbn [serialize_value]. change (total ser_calls l) with (0 + total ser_calls l). apply counts_bind; [apply counts_writer|now apply counts_for_each].
    + destruct W as (D & _). cbn [serialize_value].
      set (g := fun key => match hm_get key (map (fun e => (fst e, ser_calls (snd e))) l) with Some k => k | None => 0 end).
      assert (Eg : total ser_calls (map snd l) = total g (sort_unstable (map fst l))).
      { rewrite sort_unstable_entries, total_map, total_map.
        rewrite (total_perm _ _ _ (sort_entries_perm l)). apply total_ext. intros [k t] He. unfold g. cbn [fst snd].
        rewrite hm_get_map, (hm_get_in k t l D); [reflexivity|].
        eapply Permutation_in; [apply Permutation_sym, sort_entries_perm|exact He]. }
      rewrite Eg. rewrite <- (N.add_0_l (total g _)). apply counts_bind; [apply counts_writer|].
      apply counts_for_each. intros k _. unfold g. rewrite !hm_get_map.
      destruct (hm_get k l) as [t|] eqn:Ek; cbn [option_map].
      * change (ser_calls t) with (0 + ser_calls t). apply counts_bind; [apply counts_writer|]. apply IH'.
        apply hm_get_some in Ek. change t with (snd (k, t)). now apply in_map.
      * intros w c x w' c' H. unfold fail in *. injection H as <- <- <-. repeat split; try lia; discriminate.
  - intros id v IH [_ W]. rewrite ser_calls_tag. cbn [serialize_c serialize]. rewrite is_implicit_spec.
    rewrite <- (N.add_0_l (_ + ser_calls_value v)).
    apply counts_bind; [apply counts_writer|]. apply counts_bind; [|now apply IH].
    destruct (id <=? 15); [apply counts_ret|now apply counts_value_size].
Qed.

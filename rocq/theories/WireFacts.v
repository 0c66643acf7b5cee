(** The wire grammar against the encoding. *)
From Coq Require Import Sorted Permutation.
From Verif Require Import Base BaseFacts Types Spec SpecFacts IO ILInt ILIntFacts Data Tags SortFacts TagsFacts SameFacts Factory FactoryFacts
  DecodeFacts DeserFacts EngineFacts.

(** ** Dictionaries in key order, at every depth *)
Fixpoint norm (t : tag) : tag := match t with Tag id v => Tag id (normv v) end
with normv (v : value) : value :=
  match v with
  | VSeq l => VSeq (map norm l)
  | VArr l => VArr (map norm l)
  | VDict l => VDict (sort_entries (map (fun e => (fst e, norm (snd e))) l))
  | VStrDict l => VStrDict (sort_entries l)
  | _ => v
  end.
Definition norm_entry (e : list N * tag) : list N * tag := (fst e, norm (snd e)).

Lemma map_fst_entry l : map fst (map norm_entry l) = map fst l.
Proof. rewrite map_map. reflexivity. Qed.
Lemma map_snd_entry l : map snd (map norm_entry l) = map norm (map snd l).
Proof. now rewrite !map_map. Qed.
Lemma kind_of_norm v : kind_of (normv v) = kind_of v.
Proof. destruct v; reflexivity. Qed.
Lemma id_norm t : tag_id (norm t) = tag_id t.
Proof. destruct t; reflexivity. Qed.
Lemma same_tags_map (f : tag -> tag) l : Forall (fun t => same_tag t (f t)) l -> same_tags l (map f l).
Proof. induction 1; cbn [map]; constructor; auto. Qed.

Lemma same_norm_both : (forall t, same_tag t (norm t)) /\ (forall v, same_value v (normv v)).
Proof.
  apply value_induction; [|intros id v H; now constructor].
  intros v H. destruct v; cbn [normv children] in *; try apply same_refl.
  - apply same_seq. now apply same_tags_map.
  - apply same_arr. now apply same_tags_map.
  - change (fun e => (fst e, norm (snd e))) with norm_entry.
    apply same_dict with (sort_entries l); [apply sort_entries_perm| |];
      change (map norm_entry l) with (map (fun e => (fst e, norm (snd e))) l); rewrite sort_entries_map.
    + rewrite map_map. reflexivity.
    + rewrite map_map. cbn [snd]. rewrite <- (map_map snd norm). apply same_tags_map.
      apply Forall_forall. intros t Ht. rewrite Forall_forall in H. apply H.
      apply in_map_iff in Ht as (x & <- & Hx). apply in_map.
      eapply Permutation_in; [symmetry; apply sort_entries_perm|exact Hx].
  - apply same_strdict. apply sort_entries_perm.
Qed.
Lemma same_norm t : same_tag t (norm t).
Proof. apply same_norm_both. Qed.

Lemma wf_norm_both : (forall t, wf t -> wf (norm t)) /\ (forall v, wfv v -> wfv (normv v)).
Proof.
  apply value_induction; [|intros id v H [Hi W]; split; auto].
  intros v H W. destruct v; cbn [normv children wfv] in *; auto.
  - rewrite all_Forall in W. apply all_Forall. rewrite Forall_map. apply Forall_forall. intros x Hx.
    rewrite Forall_forall in H, W. auto.
  - rewrite all_Forall in W. apply all_Forall. rewrite Forall_map. apply Forall_forall. intros x Hx.
    rewrite Forall_forall in H, W. auto.
  - destruct W as (ND & U & A). rewrite all_Forall in A.
    pose proof (sort_entries_perm (map norm_entry l)) as P.
    repeat split.
    + eapply Permutation_NoDup; [apply Permutation_map; exact P|]. now rewrite map_fst_entry.
    + eapply Permutation_Forall; [exact P|]. rewrite Forall_map. exact U.
    + apply all_Forall. eapply Permutation_Forall; [exact P|]. rewrite Forall_map. cbn [snd norm_entry].
      rewrite Forall_forall in A, H |- *. intros x Hx. apply H; [now apply in_map|now apply A].
  - destruct W as (ND & U). pose proof (sort_entries_perm l) as P. split.
    + eapply Permutation_NoDup; [apply Permutation_map; exact P|exact ND].
    + eapply Permutation_Forall; [exact P|exact U].
Qed.
Lemma wf_norm t : wf t -> wf (norm t).
Proof. apply wf_norm_both. Qed.

Lemma enc_norm_both : (forall t, wf t -> enc (norm t) = enc t) /\ (forall v, wfv v -> encv (normv v) = encv v).
Proof.
  apply value_induction; [|intros id v H [Hi W]; cbn [enc norm]; now rewrite (H W)].
  intros v H W. destruct v; cbn [normv children wfv encv] in *; auto.
  - rewrite all_Forall in W. rewrite map_map. f_equal. apply map_ext_in. intros x Hx.
    rewrite Forall_forall in H, W. auto.
  - rewrite all_Forall in W. rewrite map_map. f_equal; [f_equal; unfold lenN; now rewrite map_length|].
    f_equal. apply map_ext_in. intros x Hx.
    rewrite Forall_forall in H, W. auto.
  - destruct W as (ND & U & A). rewrite all_Forall in A.
    assert (E : map (fun e : list N * tag => (fst e, enc (snd e))) (map norm_entry l)
                = map (fun e => (fst e, enc (snd e))) l).
    { rewrite map_map. apply map_ext_in. intros x Hx. cbn [norm_entry fst snd]. f_equal.
      rewrite Forall_forall in H, A. apply H; [now apply in_map|now apply A]. }
    pose proof (sort_entries_perm (map norm_entry l)) as P. fold norm_entry.
    change (map (fun e => (fst e, norm (snd e))) l) with (map norm_entry l).
    f_equal.
    + f_equal. unfold lenN. rewrite <- (Permutation_length P), map_length. reflexivity.
    + rewrite <- E. do 2 f_equal. symmetry. apply sort_entries_unique.
      * rewrite map_map. cbn [fst norm_entry]. rewrite map_map. exact ND.
      * now apply Permutation_map.
  - destruct W as (ND & U). pose proof (sort_entries_perm l) as P. f_equal.
    + f_equal. unfold lenN. now rewrite (Permutation_length P).
    + do 2 f_equal. apply sort_entries_id. now apply sort_entries_sorted.
Qed.
Lemma enc_norm t : wf t -> enc (norm t) = enc t.
Proof. apply enc_norm_both. Qed.

(** ** Equal normal forms are the same data *)
Lemma same_tags_norm l l' :
  Forall (fun t => forall t', norm t = norm t' -> same_tag t t') l -> map norm l = map norm l' -> same_tags l l'.
Proof.
  intros H. revert l'. induction H as [|t l Ht H IH]; intros [|t' l'] E; cbn [map] in E; try discriminate; constructor.
  - apply Ht. congruence.
  - apply IH. congruence.
Qed.
Lemma same_eq v v' : v = v' -> same_value v v'.
Proof. intros ->. apply same_refl. Qed.
Lemma norm_same_both :
  (forall t, forall t', norm t = norm t' -> same_tag t t') /\ (forall v, forall v', normv v = normv v' -> same_value v v').
Proof.
  apply value_induction.
  2:{ intros id v H [id' v'] E. cbn [norm] in E. injection E as -> E. constructor. auto. }
  intros v H v' E.
  destruct v; destruct v'; cbn [normv children] in *; try discriminate E; try exact (same_eq _ _ E).
  - apply same_seq. apply same_tags_norm; [assumption|congruence].
  - apply same_arr. apply same_tags_norm; [assumption|congruence].
  - fold norm_entry in E.
    assert (P : Permutation (map norm_entry l0) (map norm_entry l)).
    { etransitivity; [apply sort_entries_perm|]. etransitivity; [|symmetry; apply sort_entries_perm].
      change (map (fun e => (fst e, norm (snd e))) l) with (map norm_entry l) in E.
      change (map (fun e => (fst e, norm (snd e))) l0) with (map norm_entry l0) in E.
      injection E as E. now rewrite E. }
    apply Permutation_map_inv in P as (l3 & Em & Pm).
    apply same_dict with l3; [exact Pm| |].
    + rewrite <- (map_fst_entry l3), <- Em. apply map_fst_entry.
    + apply same_tags_norm.
      * eapply Permutation_Forall; [apply Permutation_map; exact Pm|exact H].
      * rewrite <- !map_snd_entry. now rewrite Em.
  - apply same_strdict. injection E as E. etransitivity; [apply sort_entries_perm|]. rewrite E.
    symmetry. apply sort_entries_perm.
Qed.
Lemma norm_same t t' : norm t = norm t' -> same_tag t t'.
Proof. apply norm_same_both. Qed.

(** ** The encoding is in the grammar *)
Lemma wire_enc_string s : lenN s <= 536870912 -> utf8 s -> wire_string (enc_string s) s.
Proof.
  intros L U. unfold enc_string. constructor; auto; apply ilint_repr_ilint; unfold two64; lia.
Qed.
Lemma ilints_enc l : Forall (fun n => n < two64) l -> ilints l (flat_map ilint l).
Proof. induction 1; cbn [flat_map]; constructor; auto. now apply ilint_repr_ilint. Qed.
Lemma wires_enc mk l : Forall (fun t => wire mk (enc t) (norm t)) l -> wires mk (concat (map enc l)) (map norm l).
Proof. induction 1; cbn [map concat]; constructor; auto. Qed.
Lemma wire_entries_enc mk l :
  Forall (fun e => wire_string (enc_string (fst e)) (fst e) /\ wire mk (enc (snd e)) (norm (snd e))) l ->
  wire_entries mk (concat (map (fun e => enc_string (fst e) ++ enc (snd e)) l)) (map norm_entry l).
Proof.
  induction 1 as [|[k t] l [Hk Ht] H IH]; cbn [map concat fst snd]; [constructor|].
  rewrite <- app_assoc. constructor; auto.
Qed.
Lemma wire_strings_enc l :
  Forall (fun e => wire_string (enc_string (fst e)) (fst e) /\ wire_string (enc_string (snd e)) (snd e)) l ->
  wire_strings (concat (map (fun e => enc_string (fst e) ++ enc_string (snd e)) l)) l.
Proof.
  induction 1 as [|[k t] l [Hk Ht] H IH]; cbn [map concat fst snd]; [constructor|].
  rewrite <- app_assoc. constructor; auto.
Qed.
Lemma entries_key_len (l : list (list N * tag)) e B :
  fold_left (fun acc e => acc + (lenN (enc_string (fst e)) + lenN (enc (snd e)))) l 0 <= B -> In e l -> lenN (fst e) <= B.
Proof.
  intros L H. pose proof (fold_left_sum_in (fun e : list N * tag => lenN (enc_string (fst e)) + lenN (enc (snd e))) l e H) as K.
  cbv beta in K. rewrite lenN_enc_string in K. lia.
Qed.

Lemma enc_wire_both mk :
  (forall t, wf t -> conforms mk t -> lenN (encv (tag_val t)) <= 536870912 -> wire mk (enc t) (norm t)) /\
  (forall v, wfv v -> conformsv mk v -> lenN (encv v) <= 536870912 ->
     payload mk (kind_of v) (lenN (encv v)) (encv v) (normv v)).
Proof.
  apply value_induction.
  2:{ intros id v H [Hi W] (Hm & Hf & C) L. cbn [tag_val] in L. specialize (H W C L).
      cbn [enc norm]. unfold enc_header. rewrite <- app_assoc.
      destruct (N.leb_spec id 15) as [Hx|Hx].
      - destruct Hf as [Hf|[Hf|[Hf Hk]]]; [lia| |].
        + apply (wire_intro mk id (ilint id) [] (implicit_size id) (encv v) id (kind_of v)); auto.
          * now apply ilint_repr_ilint.
          * now constructor.
          * lia.
          * now rewrite <- Hf.
        + apply (wire_intro mk id (ilint id) [] (implicit_size id) (encv v) id (kind_of v)); auto.
          * now apply ilint_repr_ilint.
          * now constructor.
          * destruct Hf as [-> | ->]; vm_compute; congruence.
          * assert (E : implicit_size id = 9) by (destruct Hf as [-> | ->]; reflexivity). rewrite E.
            destruct v; destruct Hk as [Hk|Hk]; try discriminate Hk; cbn [kind_of normv encv wfv] in *.
            -- pose proof (ilint_repr_len _ _ (ilint_repr_ilint _ W)). constructor; [now apply ilint_repr_ilint|lia].
            -- assert (Z : zigzag z < two64) by now apply zigzag_bound.
               pose proof (ilint_repr_len _ _ (ilint_repr_ilint _ Z)). constructor; [assumption|now apply ilint_repr_ilint|lia].
          * tauto.
      - apply (wire_intro mk id (ilint id) (ilint (lenN (encv v))) (lenN (encv v)) (encv v) id (kind_of v)); auto.
        + now apply ilint_repr_ilint.
        + constructor; [exact Hx|]. apply ilint_repr_ilint. unfold two64; lia. }
  intros v H W C L.
  assert (CL : Forall (fun t => wf t -> conforms mk t -> wire mk (enc t) (norm t)) (children v)).
  { apply Forall_forall. intros t Ht Wt Ct. rewrite Forall_forall in H. apply H; auto.
    destruct t as [id c]. cbn [tag_val]. pose proof (child_len _ _ Ht). pose proof (enc_payload_len id c). lia. }
  clear H. destruct v; cbn [children kind_of encv normv wfv conformsv] in *.
  - apply P_null.
  - exact (P_bool mk b).
  - assert (E : VUInt w n = VUInt w (be_value (be_bytes (wbytes w) n)))
      by (rewrite be_value_be_bytes by (rewrite <- wmod_pow; exact W); reflexivity).
    rewrite E at 1. apply P_uint. apply be_bytes_length.
  - assert (E : VSInt w z = VSInt w (to_signed w (be_value (be_bytes (wbytes w) (of_signed w z))))).
    { rewrite be_value_be_bytes by (rewrite <- wmod_pow; apply of_signed_bound). now rewrite to_of_signed. }
    rewrite E at 1. apply P_sint. apply be_bytes_length.
  - assert (E : VBin32 bits = VBin32 (be_value (be_bytes 4 bits)))
      by (rewrite be_value_be_bytes by exact W; reflexivity).
    rewrite E at 1. rewrite lenN_be_bytes. apply P_bin32. apply lenN_be_bytes.
  - assert (E : VBin64 bits = VBin64 (be_value (be_bytes 8 bits)))
      by (rewrite be_value_be_bytes by exact W; reflexivity).
    rewrite E at 1. rewrite lenN_be_bytes. apply P_bin64. apply lenN_be_bytes.
  - destruct W as [W _]. rewrite W. now apply P_bin128.
  - constructor; [now apply ilint_repr_ilint|lia].
  - constructor; [assumption| |lia]. now apply ilint_repr_ilint, zigzag_bound.
  - apply P_raw.
  - apply P_bytes.
  - now apply P_string.
  - apply P_bigint.
  - destruct W as [Z B]. rewrite lenN_app, lenN_be_bytes.
    assert (E : scale = to_signed W32 (be_value (be_bytes 4 (of_signed W32 scale)))).
    { rewrite be_value_be_bytes by (apply (of_signed_bound W32)). now rewrite to_of_signed. }
    rewrite E at 2. apply (P_bigdec mk (be_bytes 4 (of_signed W32 scale))). apply lenN_be_bytes.
  - apply P_ilintarray; [|now apply ilints_enc]. apply ilint_repr_ilint.
    assert (K : lenN l <= lenN (flat_map ilint l)).
    { rewrite lenN_flat_map. apply fold_left_sum_len. intros; apply lenN_ilint_pos. }
    rewrite lenN_app in L. unfold two64. lia.
  - apply P_seq. apply wires_enc. apply all_Forall in W. apply all_Forall in C.
    rewrite Forall_forall in *. auto.
  - rewrite <- (map_length norm l) in L at 1 || idtac.
    assert (K : lenN l <= lenN (concat (map enc l))).
    { rewrite lenN_concat. apply fold_left_sum_len. intros; apply lenN_enc_pos. }
    rewrite lenN_app in L.
    apply P_arr; [|apply wires_enc; apply all_Forall in W; apply all_Forall in C; rewrite Forall_forall in *; auto].
    replace (lenN (map norm l)) with (lenN l) by (unfold lenN; now rewrite map_length).
    apply ilint_repr_ilint. unfold two64; lia.
  - destruct W as [W1 W2]. rewrite lenN_app, lenN_be_bytes.
    assert (E : VRange start count = VRange start (be_value (be_bytes 2 count)))
      by (rewrite be_value_be_bytes by exact W2; reflexivity).
    rewrite E at 1. apply P_range; [now apply ilint_repr_ilint|apply lenN_be_bytes].
  - destruct W as (Wa & Wb & Wc & Wd).
    assert (E : forall z, signed_range W32 z -> z = to_signed W32 (be_value (be_bytes 4 (of_signed W32 z)))).
    { intros z Hz. rewrite be_value_be_bytes by (apply (of_signed_bound W32)). now rewrite to_of_signed. }
    rewrite !lenN_app, !lenN_be_bytes.
    rewrite (E _ Wa) at 2. rewrite (E _ Wb) at 2. rewrite (E _ Wc) at 2. rewrite (E _ Wd) at 2.
    apply P_version; apply lenN_be_bytes.
  - apply P_oid; [|now apply ilints_enc]. apply ilint_repr_ilint.
    assert (K : lenN l <= lenN (flat_map ilint l)).
    { rewrite lenN_flat_map. apply fold_left_sum_len. intros; apply lenN_ilint_pos. }
    rewrite lenN_app in L. unfold two64. lia.
  - destruct W as (ND & U & A). rewrite lenN_app, lenN_dict_entries in L.
    assert (K : lenN l <= fold_left (fun acc e => acc + (lenN (enc_string (fst e)) + lenN (enc (snd e)))) l 0).
    { apply (fold_left_sum_len (fun e : list N * tag => lenN (enc_string (fst e)) + lenN (enc (snd e)))).
      intros x _. pose proof (lenN_enc_string_pos (fst x)). lia. }
    pose proof (sort_entries_perm l) as P.
    change (map (fun e => (fst e, norm (snd e))) l) with (map norm_entry l).
    assert (Es : sort_entries (map norm_entry l) = map norm_entry (sort_entries l)) by apply sort_entries_map.
    rewrite Es. rewrite <- (dict_of_id (map norm_entry (sort_entries l))).
    2:{ rewrite map_fst_entry. eapply Permutation_NoDup; [apply Permutation_map; exact P|exact ND]. }
    rewrite sort_entries_map, map_map. cbn [fst snd].
    apply P_dict.
    + replace (lenN (map norm_entry (sort_entries l))) with (lenN l)
        by (unfold lenN; now rewrite map_length, <- (Permutation_length P)).
      apply ilint_repr_ilint. unfold two64; lia.
    + apply wire_entries_enc. eapply Permutation_Forall; [exact P|].
      apply all_Forall in A. apply all_Forall in C. rewrite Forall_forall in *. intros x Hx. split.
      * apply wire_enc_string; [|now apply U]. eapply entries_key_len; [|exact Hx]. lia.
      * apply CL; auto. now apply in_map.
  - destruct W as (ND & U). rewrite lenN_app, lenN_strdict_entries in L.
    assert (K : lenN l <= fold_left (fun acc e => acc + (lenN (enc_string (fst e)) + lenN (enc_string (snd e)))) l 0).
    { apply (fold_left_sum_len (fun e : list N * list N => lenN (enc_string (fst e)) + lenN (enc_string (snd e)))).
      intros x _. pose proof (lenN_enc_string_pos (fst x)). lia. }
    pose proof (sort_entries_perm l) as P.
    rewrite <- (dict_of_id (sort_entries l)) at 3.
    2:{ eapply Permutation_NoDup; [apply Permutation_map; exact P|exact ND]. }
    apply P_strdict.
    + replace (lenN (sort_entries l)) with (lenN l) by (unfold lenN; now rewrite <- (Permutation_length P)).
      apply ilint_repr_ilint. unfold two64; lia.
    + apply wire_strings_enc. eapply Permutation_Forall; [exact P|].
      rewrite Forall_forall in *. intros x Hx.
      pose proof (fold_left_sum_in (fun e : list N * list N => lenN (enc_string (fst e)) + lenN (enc_string (snd e))) l x Hx) as Kx.
      cbv beta in Kx. rewrite !lenN_enc_string in Kx.
      split; apply wire_enc_string; try apply U; auto; lia.
Qed.
Lemma enc_wire mk t :
  wf t -> conforms mk t -> lenN (encv (tag_val t)) <= 536870912 -> wire mk (enc t) (norm t).
Proof. apply enc_wire_both. Qed.

(** Facts about canonical encodings. *)
From Coq Require Import Sorted Permutation.
From Verif Require Import Base BaseFacts Types Spec SpecFacts Canon IO ILInt ILIntFacts Data Tags SortFacts TagsFacts SameFacts
  Factory FactoryFacts DecodeFacts DeserFacts EngineFacts WireFacts StableFacts FromFacts.

(** ** Shortest ILInts *)
Lemma minimal_spec v b : bytes_ok b -> minimal v b <-> (v < two64 /\ b = ilint v).
Proof.
  intros B. split.
  - intros [R M]. pose proof (ilint_repr_bound _ _ R) as Hv. split; [exact Hv|].
    specialize (M (ilint v) (ilint_bytes_ok _ Hv) (ilint_repr_ilint _ Hv)).
    destruct (proj1 (ilint_repr_padding v b Hv B) R) as [E|(h & body & z & _ & E & Hz & _ & ->)]; [exact E|].
    rewrite E in M. rewrite !lenN_cons, lenN_app, lenN_repeatN in M. lia.
  - intros [Hv ->]. split; [now apply ilint_repr_ilint|]. intros b'. apply ilint_minimal.
Qed.
Lemma minimal_len v b : bytes_ok b -> ilint_repr v b -> lenN b <= lenN (ilint v) -> minimal v b.
Proof. intros B R L. split; [exact R|]. intros b' B' R'. pose proof (ilint_minimal _ _ B' R'). lia. Qed.

(** ** Encodings and re-encodings, byte by byte or up to order *)
Definition agree (o : bool) (a b : list N) : Prop := if o then a = b else Permutation a b.
Lemma agree_eq o a b : a = b -> agree o a b.
Proof. intros ->. destruct o; reflexivity. Qed.
Lemma agree_app o a b a' b' : agree o a a' -> agree o b b' -> agree o (a ++ b) (a' ++ b').
Proof. destruct o; cbn; intros; [congruence|now apply Permutation_app]. Qed.
Lemma agree_len o a b : agree o a b -> lenN a = lenN b.
Proof. destruct o; cbn; [congruence|]. intros P. unfold lenN. now rewrite (Permutation_length P). Qed.

(** ** The sub-grammar *)
Lemma minimals_ilints l bs : minimals l bs -> ilints l bs.
Proof. induction 1 as [|v b l bs [R _] _ IH]; now constructor. Qed.
Lemma minimal_string_wire bs s : minimal_string bs s -> wire_string bs s.
Proof. intros [idb szb s' [R _] [R' _] L U]. now constructor. Qed.
Lemma minimal_strings_wire bs es : minimal_strings bs es -> wire_strings bs es.
Proof. induction 1; constructor; auto using minimal_string_wire. Qed.

Lemma tight_wire_all o mk :
  (forall bs t, tight o mk bs t -> wire mk bs t) /\
  (forall k n bs v, tightv o mk k n bs v -> payload mk k n bs v) /\
  (forall bs l, tights o mk bs l -> wires mk bs l) /\
  (forall bs es, tight_entries o mk bs es -> wire_entries mk bs es).
Proof.
  apply tight_mutind.
  - intros wid idb szb n body id k v [R _] Sz Ln E _ IH Hx. econstructor; eauto.
    destruct Sz as [Hw|m szb Hw [Rm _]]; now constructor.
  - constructor.
  - constructor.
  - now constructor.
  - now constructor.
  - now constructor.
  - now constructor.
  - now constructor.
  - intros n v bs [R _] L. now constructor.
  - intros n z bs Z [R _] L. now constructor.
  - constructor.
  - constructor.
  - constructor.
  - now constructor.
  - now constructor.
  - intros cb ib l [R _] I. constructor; auto using minimals_ilints.
  - intros cb ib l [R _] I. constructor; auto using minimals_ilints.
  - now constructor.
  - intros cb body l [R _] _ IH. now constructor.
  - intros s sb cb [R _] L. now constructor.
  - now constructor.
  - intros cb body es [R _] _ IH [Nd _]. rewrite <- (dict_of_id es Nd). now constructor.
  - intros cb body es [R _] Ws [Nd _]. rewrite <- (dict_of_id es Nd). constructor; auto using minimal_strings_wire.
  - constructor.
  - now constructor.
  - constructor.
  - intros kb k b t bs es Ms _ IH1 _ IH2. constructor; auto using minimal_string_wire.
Qed.
Lemma tight_wire o mk bs t : tight o mk bs t -> wire mk bs t.
Proof. apply tight_wire_all. Qed.

(** ** Tight words agree with the encoding *)
Lemma minimals_enc l bs : bytes_ok bs -> minimals l bs -> bs = flat_map ilint l.
Proof.
  intros B H. induction H as [|v b l bs M H IH]; [reflexivity|]. apply bytes_ok_app in B as [B1 B2].
  cbn [flat_map]. rewrite <- (IH B2). apply (minimal_spec _ _ B1) in M as [_ ->]. reflexivity.
Qed.
Lemma minimal_string_enc bs s : bytes_ok bs -> minimal_string bs s -> bs = enc_string s.
Proof.
  intros B H. destruct H as [idb szb s' M M' L U]. rewrite !bytes_ok_app in B. destruct B as (B1 & B2 & B3).
  apply (minimal_spec _ _ B1) in M as [_ ->]. apply (minimal_spec _ _ B2) in M' as [_ ->]. reflexivity.
Qed.
Lemma minimal_strings_enc bs es : bytes_ok bs -> minimal_strings bs es ->
  bs = concat (map (fun e => enc_string (fst e) ++ enc_string (snd e)) es).
Proof.
  intros B H. induction H as [|kb k vb v bs es Mk Mv H IH]; [reflexivity|].
  rewrite !bytes_ok_app in B. destruct B as (B1 & B2 & B3).
  cbn [map concat fst snd]. rewrite <- (IH B3), <- app_assoc.
  now rewrite <- (minimal_string_enc _ _ B1 Mk), <- (minimal_string_enc _ _ B2 Mv).
Qed.
Lemma keys_sorted {A} (es : list (list N * A)) :
  StronglySorted lex_lt (map fst es) -> StronglySorted key_lt es.
Proof.
  induction es as [|e es IH]; cbn [map]; intros H; constructor; apply StronglySorted_inv in H as [H F]; auto.
  apply Forall_forall. intros x Hx. rewrite Forall_forall in F. apply F. now apply in_map.
Qed.
Lemma sorted_keys {A} (es : list (list N * A)) :
  StronglySorted key_lt es -> StronglySorted lex_lt (map fst es).
Proof.
  induction es as [|e es IH]; cbn [map]; intros H; constructor; apply StronglySorted_inv in H as [H F]; auto.
  apply Forall_forall. intros x Hx. apply in_map_iff in Hx as (y & <- & Hy). rewrite Forall_forall in F. now apply F.
Qed.

Lemma tight_enc_all o mk : keeps_ids mk ->
  (forall bs t, tight o mk bs t -> bytes_ok bs -> agree o bs (enc t)) /\
  (forall k n bs v, tightv o mk k n bs v -> bytes_ok bs -> agree o bs (encv v)) /\
  (forall bs l, tights o mk bs l -> bytes_ok bs -> agree o bs (concat (map enc l))) /\
  (forall bs es, tight_entries o mk bs es -> bytes_ok bs ->
     agree o bs (concat (map (fun e => enc_string (fst e) ++ enc (snd e)) es))).
Proof.
  intros Hk. apply tight_mutind.
  - intros wid idb szb n body id k v M Sz Ln E P IH Hx B. rewrite !bytes_ok_app in B. destruct B as (B1 & B2 & B3).
    apply (minimal_spec _ _ B1) in M as [_ ->]. destruct (Hk _ _ _ E) as [-> _]. specialize (IH B3).
    cbn [enc]. unfold enc_header. rewrite <- app_assoc.
    apply agree_app; [now apply agree_eq|]. apply agree_app; [|exact IH].
    assert (Le : lenN (encv v) = lenN body) by (symmetry; exact (agree_len _ _ _ IH)).
    destruct Sz as [Hw|n szb Hw M].
    + destruct (N.leb_spec wid 15); [now apply agree_eq|lia].
    + destruct (N.leb_spec wid 15); [lia|]. apply (minimal_spec _ _ B2) in M as [_ ->]. apply agree_eq.
      f_equal. rewrite Le. destruct Hx as [-> | [-> | ->]]; [lia..|reflexivity].
  - intros _. now apply agree_eq.
  - intros b _. apply agree_eq. reflexivity.
  - intros w bs L B. apply agree_eq. cbn [encv]. rewrite <- L. now rewrite be_bytes_be_value.
  - intros w bs L B. apply agree_eq. cbn [encv]. rewrite of_to_signed by now apply be_value_wmod.
    rewrite <- L. now rewrite be_bytes_be_value.
  - intros bs L B. apply agree_eq. cbn [encv]. replace 4%nat with (length bs) by (unfold lenN in L; lia).
    now rewrite be_bytes_be_value.
  - intros bs L B. apply agree_eq. cbn [encv]. replace 8%nat with (length bs) by (unfold lenN in L; lia).
    now rewrite be_bytes_be_value.
  - intros bs L B. now apply agree_eq.
  - intros n v bs M L B. apply agree_eq. now apply (minimal_spec _ _ B) in M as [_ ->].
  - intros n z bs Z M L B. apply agree_eq. now apply (minimal_spec _ _ B) in M as [_ ->].
  - intros bs B. now apply agree_eq.
  - intros bs B. now apply agree_eq.
  - intros bs B. now apply agree_eq.
  - intros bs U B. now apply agree_eq.
  - intros sb bs L B. apply bytes_ok_app in B as [B1 B2]. apply agree_eq. cbn [encv]. f_equal.
    rewrite of_to_signed by (apply be_value_len; [assumption|now rewrite L]).
    replace 4%nat with (length sb) by (unfold lenN in L; lia). now rewrite be_bytes_be_value.
  - intros cb ib l M I B. apply bytes_ok_app in B as [B1 B2]. apply agree_eq. cbn [encv].
    apply (minimal_spec _ _ B1) in M as [_ ->]. now rewrite <- (minimals_enc _ _ B2 I).
  - intros cb ib l M I B. apply bytes_ok_app in B as [B1 B2]. apply agree_eq. cbn [encv].
    apply (minimal_spec _ _ B1) in M as [_ ->]. now rewrite <- (minimals_enc _ _ B2 I).
  - intros body l Ws IH B. exact (IH B).
  - intros cb body l M Ws IH B. apply bytes_ok_app in B as [B1 B2]. cbn [encv].
    apply (minimal_spec _ _ B1) in M as [_ ->]. apply agree_app; [now apply agree_eq|exact (IH B2)].
  - intros s sb cb M L B. apply bytes_ok_app in B as [B1 B2]. apply agree_eq. cbn [encv].
    apply (minimal_spec _ _ B1) in M as [_ ->]. f_equal.
    replace 2%nat with (length cb) by (unfold lenN in L; lia). now rewrite be_bytes_be_value.
  - intros a b c d La Lb Lc Ld B. rewrite !bytes_ok_app in B. destruct B as (Ba & Bb & Bc & Bd). apply agree_eq. cbn [encv].
    assert (K : forall x, bytes_ok x -> lenN x = 4 -> be_bytes 4 (of_signed W32 (to_signed W32 (be_value x))) = x).
    { intros x Bx Lx. rewrite of_to_signed by (apply be_value_len; [assumption|now rewrite Lx]).
      replace 4%nat with (length x) by (unfold lenN in Lx; lia). now rewrite be_bytes_be_value. }
    now rewrite !K.
  - intros cb body es M Ws IH [Nd So] B. apply bytes_ok_app in B as [B1 B2]. cbn [encv].
    apply (minimal_spec _ _ B1) in M as [_ ->]. apply agree_app; [now apply agree_eq|]. specialize (IH B2).
    destruct o; cbn [agree] in *.
    + rewrite sort_entries_map, map_map, sort_entries_id by (apply keys_sorted; auto). exact IH.
    + rewrite IH, sort_entries_map, map_map, <- !flat_map_concat_map. cbn [fst snd].
      apply Permutation_flat_map. apply sort_entries_perm.
  - intros cb body es M Ws [Nd So] B. apply bytes_ok_app in B as [B1 B2]. cbn [encv].
    apply (minimal_spec _ _ B1) in M as [_ ->]. apply agree_app; [now apply agree_eq|].
    apply (minimal_strings_enc _ _ B2) in Ws.
    destruct o; cbn [agree] in *.
    + rewrite sort_entries_id by (apply keys_sorted; auto). exact Ws.
    + rewrite Ws, <- !flat_map_concat_map. apply Permutation_flat_map. apply sort_entries_perm.
  - intros _. now apply agree_eq.
  - intros b t bs l W1 IH1 W2 IH2 B. apply bytes_ok_app in B as [B1 B2].
    cbn [map concat]. apply agree_app; auto.
  - intros _. now apply agree_eq.
  - intros kb k b t bs es Hs W1 IH1 W2 IH2 B. rewrite !bytes_ok_app in B. destruct B as (B0 & B1 & B2).
    cbn [map concat fst snd]. rewrite <- app_assoc.
    apply agree_app; [apply agree_eq; now apply minimal_string_enc|]. apply agree_app; auto.
Qed.

(** ** Words no longer than their re-encoding are tight *)
Lemma ilints_tight l bs : bytes_ok bs -> ilints l bs -> lenN bs <= lenN (flat_map ilint l) -> minimals l bs.
Proof.
  intros B H. induction H as [|v b l bs R H IH]; [constructor|]. apply bytes_ok_app in B as [B1 B2].
  cbn [flat_map]. rewrite !lenN_app. intros L. pose proof (ilint_minimal _ _ B1 R). pose proof (ilints_len _ _ B2 H).
  constructor; [apply minimal_len; auto; lia|apply IH; auto; lia].
Qed.
Lemma string_tight bs s : bytes_ok bs -> wire_string bs s -> lenN bs <= lenN (enc_string s) -> minimal_string bs s.
Proof.
  intros B H. destruct H as [idb szb s' R R' Ls U]. rewrite !bytes_ok_app in B. destruct B as (B1 & B2 & B3).
  unfold enc_string. rewrite !lenN_app. intros L.
  pose proof (ilint_minimal _ _ B1 R). pose proof (ilint_minimal _ _ B2 R').
  constructor; auto; apply minimal_len; auto; lia.
Qed.
Lemma strings_sum bs es : bytes_ok bs -> wire_strings bs es ->
  fold_left (fun acc e => acc + (lenN (enc_string (fst e)) + lenN (enc_string (snd e)))) es 0 <= lenN bs.
Proof.
  intros B Ws. induction Ws as [|kb k vb v bs es Hk Hv Ws IH]; [cbn; lia|].
  rewrite !bytes_ok_app in B. destruct B as (B1 & B2 & B3). cbn [fold_left fst snd].
  rewrite (fold_left_sum (fun e : list N * list N => lenN (enc_string (fst e)) + lenN (enc_string (snd e)))).
  rewrite !lenN_app. specialize (IH B3). pose proof (wire_string_len _ _ B1 Hk). pose proof (wire_string_len _ _ B2 Hv). lia.
Qed.
Lemma strings_tight bs es : bytes_ok bs -> wire_strings bs es ->
  lenN bs <= fold_left (fun acc e => acc + (lenN (enc_string (fst e)) + lenN (enc_string (snd e)))) es 0 ->
  minimal_strings bs es.
Proof.
  intros B Ws. induction Ws as [|kb k vb v bs es Hk Hv Ws IH]; [constructor|].
  rewrite !bytes_ok_app in B. destruct B as (B1 & B2 & B3). cbn [fold_left fst snd].
  rewrite (fold_left_sum (fun e : list N * list N => lenN (enc_string (fst e)) + lenN (enc_string (snd e)))).
  rewrite !lenN_app. pose proof (wire_string_len _ _ B1 Hk). pose proof (wire_string_len _ _ B2 Hv).
  pose proof (strings_sum _ _ B3 Ws). intros L.
  constructor; [apply string_tight; auto; lia|apply string_tight; auto; lia|apply IH; auto; lia].
Qed.

(** Dropping a repeated key makes the sum of positive sizes smaller. *)
Lemma put_sum_lt {A} (f : list N * A -> N) k x m :
  (forall e, 1 <= f e) -> In k (map fst m) ->
  fold_left (fun acc e => acc + f e) (put k x m) 0 + 1 <= fold_left (fun acc e => acc + f e) m 0 + f (k, x).
Proof.
  intros Hf. induction m as [|[k' x'] m IH]; cbn [put fold_left map In fst]; [easy|].
  intros H. destruct (bytes_eqb k k') eqn:E; cbn [fold_left]; rewrite (fold_left_sum f _ (0 + _)), (fold_left_sum f m (0 + _)).
  - apply bytes_eqb_eq in E. subst k'. pose proof (Hf (k, x')). lia.
  - destruct H as [->|H]; [now rewrite bytes_eqb_refl in E|]. specialize (IH H). lia.
Qed.
Lemma fold_put_sum {A} (f : list N * A -> N) es : forall m,
  fold_left (fun acc e => acc + f e) (fold_left (fun m e => put (fst e) (snd e) m) es m) 0
  <= fold_left (fun acc e => acc + f e) m 0 + fold_left (fun acc e => acc + f e) es 0.
Proof.
  induction es as [|[k x] es IH]; intros m; cbn [fold_left fst snd]; [lia|].
  specialize (IH (put k x m)). pose proof (put_sum f k x m).
  rewrite (fold_left_sum f es (0 + _)). lia.
Qed.
Lemma fold_put_tight {A} (f : list N * A -> N) es : (forall e, 1 <= f e) -> forall m, NoDup (map fst m) ->
  fold_left (fun acc e => acc + f e) m 0 + fold_left (fun acc e => acc + f e) es 0
  <= fold_left (fun acc e => acc + f e) (fold_left (fun m e => put (fst e) (snd e) m) es m) 0 ->
  NoDup (map fst (m ++ es)).
Proof.
  intros Hf. induction es as [|[k x] es IH]; intros m Nd; cbn [fold_left fst snd]; [now rewrite app_nil_r|].
  intros L. pose proof (fold_put_sum f es (put k x m)) as K. rewrite (fold_left_sum f es (0 + _)) in L.
  assert (Hn : ~ In k (map fst m)).
  { intros Hi. pose proof (put_sum_lt f k x m Hf Hi). lia. }
  rewrite (put_new k x m Hn) in *.
  replace (m ++ (k, x) :: es) with ((m ++ [(k, x)]) ++ es) by now rewrite <- app_assoc.
  apply IH.
  - rewrite <- (put_new k x m Hn). now apply put_NoDup.
  - rewrite (fold_left_app _ m [(k, x)] 0). cbn [fold_left]. lia.
Qed.
Lemma dict_of_tight {A} (f : list N * A -> N) es : (forall e, 1 <= f e) ->
  fold_left (fun acc e => acc + f e) es 0 <= fold_left (fun acc e => acc + f e) (dict_of es) 0 ->
  NoDup (map fst es).
Proof. intros Hf L. apply (fold_put_tight f es Hf [] (NoDup_nil _)). cbn [fold_left]. exact L. Qed.

Lemma lenN_enc_string_pos s : 1 <= lenN (enc_string s).
Proof. unfold enc_string. rewrite lenN_app. pose proof (lenN_ilint_pos 17). lia. Qed.

Lemma tight_len_all mk : mk_ok mk -> keeps_ids mk ->
  (forall bs t, wire mk bs t -> bytes_ok bs -> lenN bs <= lenN (enc t) -> tight false mk bs t) /\
  (forall k n bs v, payload mk k n bs v -> bytes_ok bs -> lenN bs <= lenN (encv v) -> tightv false mk k n bs v) /\
  (forall bs l, wires mk bs l -> bytes_ok bs -> lenN bs <= lenN (concat (map enc l)) -> tights false mk bs l) /\
  (forall bs es, wire_entries mk bs es -> bytes_ok bs ->
     lenN bs <= fold_left (fun acc e => acc + (lenN (enc_string (fst e)) + lenN (enc (snd e)))) es 0 ->
     tight_entries false mk bs es).
Proof.
  intros Hm Hk. destruct (stable_all mk Hm Hk) as (St & Sv & Sl & Se).
  apply wire_mutind.
  - intros wid idb szb n body id k v R Sz Ln E P IH Hx B. rewrite !bytes_ok_app in B. destruct B as (B1 & B2 & B3).
    destruct (Sv _ _ _ _ P B3) as [Lv _]. destruct (Hk _ _ _ E) as [-> _]. pose proof (payload_len _ _ _ _ _ P) as Lb.
    cbn [enc]. unfold enc_header. rewrite !lenN_app. intros L. pose proof (ilint_minimal _ _ B1 R) as M.
    destruct Sz as [Hw|n szb Hw Rs].
    + destruct (N.leb_spec wid 15); [|lia]. rewrite lenN_nil in *.
      apply tight_intro with (wid := wid) (n := implicit_size wid) (k := k); auto.
      * apply minimal_len; auto. lia.
      * now constructor.
      * apply IH; auto. lia.
    + destruct (N.leb_spec wid 15); [lia|].
      pose proof (ilint_le (lenN (encv v)) n szb ltac:(lia) B2 Rs) as Ms.
      pose proof (lenN_ilint_mono (lenN (encv v)) n ltac:(lia) (ilint_repr_bound _ _ Rs)).
      apply tight_intro with (wid := wid) (n := n) (k := k); auto.
      * apply minimal_len; auto. lia.
      * constructor; auto. apply minimal_len; auto. lia.
      * apply IH; auto. lia.
  - constructor.
  - constructor.
  - now constructor.
  - now constructor.
  - now constructor.
  - now constructor.
  - now constructor.
  - intros n v bs R Ln B L. constructor; auto. now apply minimal_len.
  - intros n z bs Z R Ln B L. constructor; auto. now apply minimal_len.
  - constructor.
  - constructor.
  - constructor.
  - now constructor.
  - now constructor.
  - intros cb ib l R I B. apply bytes_ok_app in B as [B1 B2]. cbn [encv]. rewrite !lenN_app. intros L.
    pose proof (ilint_minimal _ _ B1 R). pose proof (ilints_len _ _ B2 I). rewrite <- lenN_app.
    constructor; [apply minimal_len; auto; lia|apply ilints_tight; auto; lia].
  - intros cb ib l R I B. apply bytes_ok_app in B as [B1 B2]. cbn [encv]. rewrite !lenN_app. intros L.
    pose proof (ilint_minimal _ _ B1 R). pose proof (ilints_len _ _ B2 I). rewrite <- lenN_app.
    constructor; [apply minimal_len; auto; lia|apply ilints_tight; auto; lia].
  - intros body l Ws IH B L. constructor. now apply IH.
  - intros cb body l R Ws IH B. apply bytes_ok_app in B as [B1 B2]. destruct (Sl _ _ Ws B2) as [Ll _].
    cbn [encv]. rewrite !lenN_app. intros L. pose proof (ilint_minimal _ _ B1 R). rewrite <- lenN_app.
    constructor; [apply minimal_len; auto; lia|apply IH; auto; lia].
  - intros s sb cb R Lc B. apply bytes_ok_app in B as [B1 B2]. cbn [encv].
    rewrite !lenN_app, lenN_be_bytes. intros L. constructor; auto. apply minimal_len; auto. lia.
  - now constructor.
  - intros cb body es R Ws IH B. apply bytes_ok_app in B as [B1 B2]. destruct (Se _ _ Ws B2) as [Le _].
    cbn [encv]. rewrite !lenN_app, lenN_dict_entries. intros L.
    set (f := fun e : list N * tag => lenN (enc_string (fst e)) + lenN (enc (snd e))) in *.
    pose proof (dict_of_sum f es) as S. pose proof (ilint_le _ _ _ (dict_of_len es) B1 R) as Lc.
    assert (Nd : NoDup (map fst es)).
    { apply (dict_of_tight f); [|unfold f; cbv beta; unfold f in S; cbv beta in S; lia].
      intros x. unfold f. pose proof (lenN_enc_string_pos (fst x)). lia. }
    rewrite (dict_of_id es Nd) in *. pose proof (ilint_minimal _ _ B1 R).
    rewrite <- lenN_app. constructor; [apply minimal_len; auto; lia|apply IH; auto; lia|].
    split; [exact Nd|discriminate].
  - intros cb body es R Ws B. apply bytes_ok_app in B as [B1 B2]. pose proof (strings_sum _ _ B2 Ws) as Le.
    cbn [encv]. rewrite !lenN_app, lenN_strdict_entries. intros L.
    set (f := fun e : list N * list N => lenN (enc_string (fst e)) + lenN (enc_string (snd e))) in *.
    pose proof (dict_of_sum f es) as S. pose proof (ilint_le _ _ _ (dict_of_len es) B1 R) as Lc.
    assert (Nd : NoDup (map fst es)).
    { apply (dict_of_tight f); [|unfold f; cbv beta; unfold f in S; cbv beta in S; lia].
      intros x. unfold f. pose proof (lenN_enc_string_pos (fst x)). lia. }
    rewrite (dict_of_id es Nd) in *. pose proof (ilint_minimal _ _ B1 R).
    rewrite <- lenN_app. constructor; [apply minimal_len; auto; lia|apply strings_tight; auto; unfold f in *; lia|].
    split; [exact Nd|discriminate].
  - constructor.
  - intros b t bs l W1 IH1 W2 IH2 B. apply bytes_ok_app in B as [B1 B2].
    destruct (St _ _ W1 B1) as (L1 & _), (Sl _ _ W2 B2) as (L2 & _).
    cbn [map concat]. rewrite !lenN_app. intros L. constructor; [apply IH1|apply IH2]; auto; lia.
  - constructor.
  - intros kb k b t bs es Hs W1 IH1 W2 IH2 B. rewrite !bytes_ok_app in B. destruct B as (B0 & B1 & B2).
    destruct (St _ _ W1 B1) as (L1 & _), (Se _ _ W2 B2) as (L2 & _). pose proof (wire_string_len _ _ B0 Hs).
    cbn [fold_left fst snd].
    rewrite (fold_left_sum (fun e : list N * tag => lenN (enc_string (fst e)) + lenN (enc (snd e)))).
    rewrite !lenN_app. intros L. constructor; [apply string_tight; auto; lia|apply IH1; auto; lia|apply IH2; auto; lia].
Qed.

(** ** Tags that keep their dictionaries in order *)
Lemma map_fix {A} (f : A -> A) l : map f l = l -> Forall (fun x => f x = x) l.
Proof. induction l as [|x l IH]; cbn [map]; intros E; constructor; [|apply IH]; congruence. Qed.

Lemma tight_order_all mk :
  (forall bs t, tight false mk bs t -> norm t = t -> tight true mk bs t) /\
  (forall k n bs v, tightv false mk k n bs v -> normv v = v -> tightv true mk k n bs v) /\
  (forall bs l, tights false mk bs l -> Forall (fun t => norm t = t) l -> tights true mk bs l) /\
  (forall bs es, tight_entries false mk bs es -> Forall (fun e => norm (snd e) = snd e) es -> tight_entries true mk bs es).
Proof.
  apply tight_mutind; try (intros; now constructor).
  - intros wid idb szb n body id k v M Sz Ln E P IH Hx No. cbn [norm] in No. econstructor; eauto. apply IH. congruence.
  - intros body l Ws IH No. cbn [normv] in No. constructor. apply IH. apply map_fix. congruence.
  - intros cb body l M Ws IH No. cbn [normv] in No. constructor; [exact M|]. apply IH. apply map_fix. congruence.
  - intros cb body es M Ws IH [Nd _] No. cbn [normv] in No.
    assert (So : StronglySorted key_lt es).
    { assert (E : sort_entries (map (fun e => (fst e, norm (snd e))) es) = es) by congruence.
      rewrite <- E. apply sort_entries_sorted. rewrite map_map. exact Nd. }
    assert (E : map (fun e => (fst e, norm (snd e))) es = es).
    { assert (E : sort_entries (map (fun e => (fst e, norm (snd e))) es) = es) by congruence.
      rewrite sort_entries_map, sort_entries_id in E by exact So. exact E. }
    constructor; [exact M| |].
    + apply IH. apply map_fix in E. eapply Forall_impl; [|exact E]. intros [k x] Hx. cbn [fst snd] in *. congruence.
    + split; [exact Nd|]. intros _. now apply sorted_keys.
  - intros cb body es M Ws [Nd _] No. cbn [normv] in No.
    assert (So : StronglySorted key_lt es).
    { assert (E : sort_entries es = es) by congruence. rewrite <- E. now apply sort_entries_sorted. }
    constructor; [exact M|exact Ws|]. split; [exact Nd|]. intros _. now apply sorted_keys.
  - intros b t bs l W1 IH1 W2 IH2 F. inversion F; subst. constructor; auto.
  - intros kb k b t bs es Hs W1 IH1 W2 IH2 F. inversion F; subst. constructor; auto.
Qed.

(** ** Together *)
Lemma canonical_iff e bs t : engine_ok e -> keeps_ids (mk_of e) -> bytes_ok bs -> wire (mk_of e) bs t ->
  (canonical (mk_of e) bs t <-> bs = enc t).
Proof.
  intros He Hk B Hw. pose proof (engine_mk_ok e He) as Hm. split.
  - intros C. exact (proj1 (tight_enc_all true (mk_of e) Hk) bs t C B).
  - intros E. apply (proj1 (tight_order_all (mk_of e))).
    + apply (proj1 (tight_len_all (mk_of e) Hm Hk)); auto. rewrite E. lia.
    + destruct (stable_all _ Hm Hk) as (St & _). destruct (St _ _ Hw B) as (_ & C & Lp).
      pose proof (wire_wf _ _ _ Hm Hw B) as Wt. pose proof (enc_wire _ _ Wt C Lp) as H'.
      assert (B' : bytes_ok (bs ++ [])) by now rewrite app_nil_r.
      destruct (wire_det e _ _ _ _ [] [] He B' Hw H') as [_ Et]; [now rewrite <- E|congruence].
Qed.
Lemma tight_iff mk bs t : mk_ok mk -> keeps_ids mk -> bytes_ok bs -> wire mk bs t ->
  (tight false mk bs t <-> lenN bs = lenN (enc t)).
Proof.
  intros Hm Hk B Hw. split.
  - intros C. exact (agree_len _ _ _ (proj1 (tight_enc_all false mk Hk) bs t C B)).
  - intros E. apply (proj1 (tight_len_all mk Hm Hk)); auto. lia.
Qed.

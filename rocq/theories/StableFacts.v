(** Decoded tags: well-formed, no longer than the bytes they came from, and
    readable again. *)
From Coq Require Import Sorted Permutation.
From Verif Require Import Base BaseFacts Types Spec SpecFacts IO ILInt ILIntFacts Data Tags SortFacts TagsFacts SameFacts Factory
  FactoryFacts DecodeFacts DeserFacts EngineFacts WireFacts.

(** The ids a factory gives to tags are u64 values. *)
Definition mk_ok (mk : N -> option (N * kind)) : Prop :=
  forall wid id k, wid < two64 -> mk wid = Some (id, k) -> id < two64.

Lemma engine_mk_ok e : engine_ok e -> mk_ok (mk_of e).
Proof.
  intros He wid id k Hw H. unfold mk_of in H. destruct (create_tag e wid) as [[t|]| | |] eqn:E; try discriminate.
  injection H as <- _. specialize (He _ _ Hw E). destruct t as [i v]. apply He.
Qed.

Lemma dict_of_Forall {A} (P : list N * A -> Prop) es : Forall P es -> Forall P (dict_of es).
Proof.
  intros H. unfold dict_of. assert (K : Forall P []) by constructor. revert K. generalize (@nil (list N * A)).
  induction H as [|[k x] es Hx H IH]; intros m K; cbn [fold_left fst snd]; [exact K|]. apply IH. now apply put_Forall.
Qed.
Lemma put_sum {A} (f : list N * A -> N) k x m :
  fold_left (fun acc e => acc + f e) (put k x m) 0 <= fold_left (fun acc e => acc + f e) m 0 + f (k, x).
Proof.
  induction m as [|[k' x'] m IH]; cbn [put fold_left]; [lia|].
  destruct (bytes_eqb k k') eqn:E; cbn [fold_left]; rewrite (fold_left_sum f _ (0 + _)), (fold_left_sum f m (0 + _)).
  - apply bytes_eqb_eq in E. subst k'. lia.
  - lia.
Qed.
Lemma dict_of_sum {A} (f : list N * A -> N) es :
  fold_left (fun acc e => acc + f e) (dict_of es) 0 <= fold_left (fun acc e => acc + f e) es 0.
Proof.
  unfold dict_of. enough (H : forall m, fold_left (fun acc e => acc + f e) (fold_left (fun m e => put (fst e) (snd e) m) es m) 0
    <= fold_left (fun acc e => acc + f e) m 0 + fold_left (fun acc e => acc + f e) es 0) by (specialize (H []); cbn in H; lia).
  induction es as [|[k x] es IH]; intros m; cbn [fold_left fst snd]; [lia|].
  specialize (IH (put k x m)). pose proof (put_sum f k x m).
  rewrite (fold_left_sum f es (0 + _)). lia.
Qed.
Lemma dict_of_len {A} (es : list (list N * A)) : lenN (dict_of es) <= lenN es.
Proof.
  unfold dict_of. enough (H : forall m, lenN (fold_left (fun m e => put (fst e) (snd e) m) es m) <= lenN m + lenN es)
    by (specialize (H []); rewrite lenN_nil in H; lia).
  induction es as [|[k x] es IH]; intros m; cbn [fold_left fst snd]; [lia|].
  specialize (IH (put k x m)). rewrite lenN_cons.
  assert (K : lenN (put k x m) <= lenN m + 1).
  { clear. induction m as [|[k' x'] m IH]; cbn [put]; [cbn; lia|]. destruct (bytes_eqb k k'); rewrite !lenN_cons; lia. }
  lia.
Qed.

Lemma be_value_wmod w bs : bytes_ok bs -> length bs = wbytes w -> be_value bs < wmod w.
Proof. intros B L. rewrite wmod_pow, <- L. now apply be_value_bound. Qed.
Lemma be_value_len w bs : bytes_ok bs -> lenN bs = N.of_nat (wbytes w) -> be_value bs < wmod w.
Proof. intros B L. apply be_value_wmod; auto. unfold lenN in L. lia. Qed.
Lemma ilints_bound l bs : ilints l bs -> Forall (fun n => n < two64) l.
Proof. induction 1; constructor; auto. eapply ilint_repr_bound; eauto. Qed.
Lemma wire_string_utf8 bs s : wire_string bs s -> utf8 s.
Proof. now destruct 1. Qed.

(** ** Well-formedness *)
Lemma wire_wf_all mk : mk_ok mk ->
  (forall bs t, wire mk bs t -> bytes_ok bs -> wf t) /\
  (forall k n bs v, payload mk k n bs v -> bytes_ok bs -> wfv v /\ kind_of v = k) /\
  (forall bs l, wires mk bs l -> bytes_ok bs -> Forall wf l) /\
  (forall bs es, wire_entries mk bs es -> bytes_ok bs -> Forall (fun e => utf8 (fst e) /\ wf (snd e)) es).
Proof.
  intros Hm. apply wire_mutind.
  - intros wid idb szb n body id k v R Sz Ln E P IH Hx B. rewrite !bytes_ok_app in B. destruct B as (B1 & B2 & B3).
    split; [|now apply IH]. apply (Hm wid id k); [|exact E]. eapply ilint_repr_bound; eauto.
  - intros _. split; [exact I|reflexivity].
  - intros b _. split; [exact I|reflexivity].
  - intros w bs L B. split; [|reflexivity]. now apply be_value_wmod.
  - intros w bs L B. split; [|reflexivity]. apply to_signed_range. now apply be_value_wmod.
  - intros bs L B. split; [|reflexivity]. now apply (be_value_len W32).
  - intros bs L B. split; [|reflexivity]. now apply (be_value_len W64).
  - intros bs L B. split; [|reflexivity]. split; assumption.
  - intros n v bs R L B. split; [|reflexivity]. eapply ilint_repr_bound; eauto.
  - intros n z bs Z R L B. split; [exact Z|reflexivity].
  - intros bs B. split; [exact B|reflexivity].
  - intros bs B. split; [exact B|reflexivity].
  - intros bs B. split; [exact B|reflexivity].
  - intros bs U B. split; [exact U|reflexivity].
  - intros sb bs L B. apply bytes_ok_app in B as [B1 B2]. split; [|reflexivity]. split; [|assumption].
    apply to_signed_range. now apply (be_value_len W32).
  - intros cb ib l R I B. split; [|reflexivity]. eapply ilints_bound; eauto.
  - intros cb ib l R I B. split; [|reflexivity]. eapply ilints_bound; eauto.
  - intros body l Ws IH B. split; [|reflexivity]. apply all_Forall. auto.
  - intros cb body l R Ws IH B. apply bytes_ok_app in B as [B1 B2]. split; [|reflexivity]. apply all_Forall. auto.
  - intros s sb cb R L B. apply bytes_ok_app in B as [B1 B2]. split; [|reflexivity]. split.
    + eapply ilint_repr_bound; eauto.
    + now apply (be_value_len W16).
  - intros a b c d La Lb Lc Ld B. rewrite !bytes_ok_app in B. destruct B as (Ba & Bb & Bc & Bd).
    split; [|reflexivity]. repeat split; apply to_signed_range; now apply (be_value_len W32).
  - intros cb body es R Ws IH B. apply bytes_ok_app in B as [B1 B2]. split; [|reflexivity].
    pose proof (dict_of_Forall _ _ (IH B2)) as F. cbn [wfv]. rewrite all_Forall. repeat split.
    + apply dict_of_NoDup.
    + eapply Forall_impl; [|exact F]. cbn beta. tauto.
    + eapply Forall_impl; [|exact F]. cbn beta. tauto.
  - intros cb body es R Ws B. split; [|reflexivity]. split; [apply dict_of_NoDup|].
    apply dict_of_Forall. clear -Ws. induction Ws as [|kb k vb v bs es Hk Hv Ws IH]; constructor; auto.
    split; eapply wire_string_utf8; eauto.
  - intros _. constructor.
  - intros b t bs l W1 IH1 W2 IH2 B. apply bytes_ok_app in B as [B1 B2]. constructor; auto.
  - intros _. constructor.
  - intros kb k b t bs es Hk W1 IH1 W2 IH2 B. rewrite !bytes_ok_app in B. destruct B as (B0 & B1 & B2).
    constructor; auto. split; [eapply wire_string_utf8; eauto|auto].
Qed.
Lemma wire_wf mk bs t : mk_ok mk -> wire mk bs t -> bytes_ok bs -> wf t.
Proof. intros H. apply (wire_wf_all mk H). Qed.
Lemma payload_kind mk k n bs v : payload mk k n bs v -> kind_of v = k.
Proof. now destruct 1. Qed.

(** ** Standard tags conform *)
Lemma small_ids (P : N -> Prop) : Forall P (map N.of_nat (seq 0 16)) -> forall id, id <= 15 -> P id.
Proof.
  intros H id L. rewrite Forall_forall in H. apply H. apply in_map_iff. exists (N.to_nat id). split; [lia|].
  apply in_seq. lia.
Qed.
Lemma standard_fits id v : wfv v -> standard_kind id = Some (kind_of v) -> fits id v.
Proof.
  intros W E. unfold fits. destruct (N.ltb_spec 15 id) as [H|H]; [now left|]. right. revert E. revert id H.
  apply (small_ids (fun id => standard_kind id = Some (kind_of v) ->
    lenN (encv v) = implicit_size id \/ ((id = 10 \/ id = 14) /\ (kind_of v = KILInt \/ kind_of v = KSILInt)))).
  cbn [seq map]. repeat (apply Forall_cons; [|]); [..|apply Forall_nil].
  all: intros E; vm_compute in E; try discriminate E.
  all: destruct v; try discriminate E; try (injection E as E; subst); cbn [kind_of];
    try (right; split; [tauto|]; tauto); left; cbn [encv]; rewrite ?lenN_be_bytes; try reflexivity.
  destruct W as [W _]. exact W.
Qed.
Lemma standard_conforms_both s :
  (forall t, wf t -> standard s t -> conforms (standard_mk s) t) /\
  (forall v, wfv v -> standardv s v -> conformsv (standard_mk s) v).
Proof.
  apply value_induction.
  - intros v H W S. destruct v; cbn [children wfv standardv conformsv] in *; try exact I.
    + rewrite all_Forall in *. rewrite Forall_forall in *. auto.
    + rewrite all_Forall in *. rewrite Forall_forall in *. auto.
    + destruct W as (_ & _ & W). rewrite all_Forall in *. rewrite Forall_forall in *. intros e He.
      apply H; auto. now apply in_map.
  - intros id v H [Hi W] [K S]. split; [|split; [|auto]].
    + unfold standard_mk. destruct K as [->|(-> & -> & L & ->)]; [reflexivity|].
      destruct (N.ltb_spec 15 id); [reflexivity|lia].
    + destruct K as [K|(_ & _ & L & _)]; [now apply standard_fits|now left].
Qed.
Lemma standard_conforms s t : wf t -> standard s t -> conforms (standard_mk s) t.
Proof. apply standard_conforms_both. Qed.

(** ** Re-encoding is no longer *)
Lemma lenN_ilint_mono a b : a <= b -> b < two64 -> lenN (ilint a) <= lenN (ilint b).
Proof.
  intros H L. rewrite !lenN_ilint by lia.
  destruct (N.ltb_spec a 248), (N.ltb_spec b 248); try lia.
  pose proof (ilint_k_le a b _ H eq_refl). lia.
Qed.
Lemma ilint_le a b bs : a <= b -> bytes_ok bs -> ilint_repr b bs -> lenN (ilint a) <= lenN bs.
Proof.
  intros H B R. etransitivity; [|apply (ilint_minimal _ _ B R)]. apply lenN_ilint_mono; [exact H|].
  eapply ilint_repr_bound; eauto.
Qed.
Lemma ilints_len l bs : bytes_ok bs -> ilints l bs -> lenN (flat_map ilint l) <= lenN bs.
Proof.
  intros B H. induction H as [|v b l bs R H IH]; [cbn; lia|]. apply bytes_ok_app in B as [B1 B2].
  cbn [flat_map]. rewrite !lenN_app. specialize (IH B2). pose proof (ilint_minimal _ _ B1 R). lia.
Qed.
Lemma wire_string_len bs s : bytes_ok bs -> wire_string bs s -> lenN (enc_string s) <= lenN bs.
Proof.
  intros B H. destruct H as [idb szb s Ri Rs L U]. rewrite !bytes_ok_app in B. destruct B as (B1 & B2 & B3).
  rewrite lenN_enc_string, !lenN_app. pose proof (ilint_minimal _ _ B2 Rs). pose proof (ilint_repr_len _ _ Ri). lia.
Qed.

(** A factory that keeps ids and builds standard types for implicit ids. *)
Definition keeps_ids (mk : N -> option (N * kind)) : Prop :=
  forall wid id k, mk wid = Some (id, k) -> id = wid /\ (wid <= 15 -> standard_kind wid = Some k).

Lemma stable_all mk : mk_ok mk -> keeps_ids mk ->
  (forall bs t, wire mk bs t -> bytes_ok bs -> lenN (enc t) <= lenN bs /\ conforms mk t /\ lenN (encv (tag_val t)) <= 536870912) /\
  (forall k n bs v, payload mk k n bs v -> bytes_ok bs -> lenN (encv v) <= lenN bs /\ conformsv mk v) /\
  (forall bs l, wires mk bs l -> bytes_ok bs -> lenN (concat (map enc l)) <= lenN bs /\ Forall (conforms mk) l) /\
  (forall bs es, wire_entries mk bs es -> bytes_ok bs ->
     fold_left (fun acc e => acc + (lenN (enc_string (fst e)) + lenN (enc (snd e)))) es 0 <= lenN bs
     /\ Forall (fun e => conforms mk (snd e)) es).
Proof.
  intros Hm Hk. destruct (wire_wf_all mk Hm) as (_ & Wp & _ & _). apply wire_mutind.
  - intros wid idb szb n body id k v R Sz Ln E P IH Hx B. rewrite !bytes_ok_app in B. destruct B as (B1 & B2 & B3).
    destruct (IH B3) as [L C]. destruct (Wp _ _ _ _ P B3) as [W Kd]. pose proof (payload_len _ _ _ _ _ P) as Lb.
    destruct (Hk _ _ _ E) as [-> St]. cbn [tag_val]. split; [|split; [|lia]].
    + cbn [enc]. unfold enc_header. rewrite !lenN_app. pose proof (ilint_minimal _ _ B1 R) as M.
      destruct Sz as [Hw|n szb Hw Rs].
      * destruct (N.leb_spec wid 15); [|lia]. rewrite lenN_nil. lia.
      * destruct (N.leb_spec wid 15); [lia|].
        pose proof (ilint_le (lenN (encv v)) n szb ltac:(lia) B2 Rs). lia.
    + split; [congruence|]. split; [|exact C].
      destruct (N.ltb_spec 15 wid) as [H|H]; [now left|]. apply standard_fits; [exact W|]. rewrite Kd. auto.
  - intros _. cbn. split; [lia|exact I].
  - intros b _. split; [|exact I]. cbn [encv]. reflexivity.
  - intros w bs L B. split; [|exact I]. cbn [encv]. rewrite lenN_be_bytes, <- L. reflexivity.
  - intros w bs L B. split; [|exact I]. cbn [encv]. rewrite lenN_be_bytes, <- L. reflexivity.
  - intros bs L B. split; [|exact I]. cbn [encv]. rewrite lenN_be_bytes, L. reflexivity.
  - intros bs L B. split; [|exact I]. cbn [encv]. rewrite lenN_be_bytes, L. reflexivity.
  - intros bs L B. split; [|exact I]. reflexivity.
  - intros n v bs R L B. split; [|exact I]. now apply ilint_minimal.
  - intros n z bs Z R L B. split; [|exact I]. now apply ilint_minimal.
  - intros bs B. split; [reflexivity|exact I].
  - intros bs B. split; [reflexivity|exact I].
  - intros bs B. split; [reflexivity|exact I].
  - intros bs U B. split; [reflexivity|exact I].
  - intros sb bs L B. split; [|exact I]. cbn [encv]. rewrite !lenN_app, lenN_be_bytes, L. reflexivity.
  - intros cb ib l R I B. apply bytes_ok_app in B as [B1 B2]. split; [|exact Logic.I]. cbn [encv]. rewrite !lenN_app.
    pose proof (ilint_minimal _ _ B1 R). pose proof (ilints_len _ _ B2 I). lia.
  - intros cb ib l R I B. apply bytes_ok_app in B as [B1 B2]. split; [|exact Logic.I]. cbn [encv]. rewrite !lenN_app.
    pose proof (ilint_minimal _ _ B1 R). pose proof (ilints_len _ _ B2 I). lia.
  - intros body l Ws IH B. destruct (IH B) as [L C]. split; [exact L|]. now apply all_Forall.
  - intros cb body l R Ws IH B. apply bytes_ok_app in B as [B1 B2]. destruct (IH B2) as [L C].
    split; [|now apply all_Forall]. cbn [encv]. rewrite !lenN_app. pose proof (ilint_minimal _ _ B1 R). lia.
  - intros s sb cb R L B. apply bytes_ok_app in B as [B1 B2]. split; [|exact I]. cbn [encv].
    rewrite !lenN_app, lenN_be_bytes, L. pose proof (ilint_minimal _ _ B1 R). lia.
  - intros a b c d La Lb Lc Ld B. split; [|exact I]. cbn [encv]. rewrite !lenN_app, !lenN_be_bytes, La, Lb, Lc, Ld. reflexivity.
  - intros cb body es R Ws IH B. apply bytes_ok_app in B as [B1 B2]. destruct (IH B2) as [L C]. split.
    + cbn [encv]. rewrite !lenN_app, lenN_dict_entries.
      pose proof (dict_of_sum (fun e : list N * tag => lenN (enc_string (fst e)) + lenN (enc (snd e))) es) as S.
      cbv beta in S. pose proof (ilint_le _ _ _ (dict_of_len es) B1 R). lia.
    + apply all_Forall. now apply (dict_of_Forall (fun e => conforms mk (snd e))).
  - intros cb body es R Ws B. apply bytes_ok_app in B as [B1 B2]. split; [|exact I].
    cbn [encv]. rewrite !lenN_app, lenN_strdict_entries.
    pose proof (dict_of_sum (fun e : list N * list N => lenN (enc_string (fst e)) + lenN (enc_string (snd e))) es) as S.
    cbv beta in S. pose proof (ilint_le _ _ _ (dict_of_len es) B1 R).
    assert (K : fold_left (fun acc e => acc + (lenN (enc_string (fst e)) + lenN (enc_string (snd e)))) es 0 <= lenN body).
    { clear -Ws B2. induction Ws as [|kb k vb v bs es Hk Hv Ws IH]; [cbn; lia|].
      rewrite !bytes_ok_app in B2. destruct B2 as (B1 & B2 & B3). cbn [fold_left fst snd].
      rewrite (fold_left_sum (fun e : list N * list N => lenN (enc_string (fst e)) + lenN (enc_string (snd e)))).
      rewrite !lenN_app. specialize (IH B3). pose proof (wire_string_len _ _ B1 Hk). pose proof (wire_string_len _ _ B2 Hv). lia. }
    lia.
  - intros _. cbn. split; [lia|constructor].
  - intros b t bs l W1 IH1 W2 IH2 B. apply bytes_ok_app in B as [B1 B2].
    destruct (IH1 B1) as (L1 & C1 & _), (IH2 B2) as (L2 & C2). split; [|now constructor].
    cbn [map concat]. rewrite !lenN_app. lia.
  - intros _. cbn. split; [lia|constructor].
  - intros kb k b t bs es Hs W1 IH1 W2 IH2 B. rewrite !bytes_ok_app in B. destruct B as (B0 & B1 & B2).
    destruct (IH1 B1) as (L1 & C1 & _), (IH2 B2) as (L2 & C2). split; [|now constructor].
    cbn [fold_left fst snd].
    rewrite (fold_left_sum (fun e : list N * tag => lenN (enc_string (fst e)) + lenN (enc (snd e)))).
    rewrite !lenN_app. pose proof (wire_string_len _ _ B0 Hs). lia.
Qed.

Lemma standard_keeps_ids s : keeps_ids (standard_mk s).
Proof.
  intros wid id k H. unfold standard_mk in H. destruct (standard_kind wid) as [k'|].
  - injection H as <- <-. auto.
  - destruct (negb s && (15 <? wid))%bool eqn:E; [|discriminate]. injection H as <- <-. split; [reflexivity|].
    apply Bool.andb_true_iff in E as [_ E]. apply N.ltb_lt in E. lia.
Qed.
Lemma conforms_ext mk mk' : (forall i, mk i = mk' i) ->
  (forall t, conforms mk t -> conforms mk' t) /\ (forall v, conformsv mk v -> conformsv mk' v).
Proof.
  intros E. apply value_induction.
  - intros v H C. destruct v; cbn [children conformsv] in *; try exact I.
    + rewrite all_Forall in *. rewrite Forall_forall in *. auto.
    + rewrite all_Forall in *. rewrite Forall_forall in *. auto.
    + rewrite all_Forall in *. rewrite Forall_forall in *. intros e He. apply H; auto. now apply in_map.
  - intros id v H (M & F & C). split; [|split]; auto. now rewrite <- E.
Qed.
Lemma wire_ext_all mk mk' : (forall i, mk i = mk' i) ->
  (forall bs t, wire mk bs t -> wire mk' bs t) /\
  (forall k n bs v, payload mk k n bs v -> payload mk' k n bs v) /\
  (forall bs l, wires mk bs l -> wires mk' bs l) /\
  (forall bs es, wire_entries mk bs es -> wire_entries mk' bs es).
Proof.
  intros E. apply wire_mutind; intros; econstructor; eauto. now rewrite <- E.
Qed.
Lemma wire_ext mk mk' bs t : (forall i, mk i = mk' i) -> wire mk bs t -> wire mk' bs t.
Proof. intros E. apply (wire_ext_all mk mk' E). Qed.
Lemma wire_std s bs t : wire (mk_of (create_std_engine s)) bs t <-> wire (standard_mk s) bs t.
Proof. split; apply wire_ext; intros; [|symmetry]; apply mk_of_std. Qed.

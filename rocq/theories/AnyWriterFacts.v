(** Facts about the writing code over any implementation of [Writer]. *)
From Verif Require Import Base BaseFacts Types Spec SpecFacts IO IOSpec IOFacts WriterFacts ILInt ILIntFacts
  WLogic Data DataFacts Tags SortFacts TagsFacts CallFacts AnyWriter.

(** Calls of methods of a writer, and what they write. *)
Inductive wcall := CWrite (b : N) | CWriteAll (bs : list N).
Definition wcall_bytes (c : wcall) : list N := match c with CWrite b => [b] | CWriteAll bs => bs end.
Definition written (l : list wcall) : list N := flat_map wcall_bytes l.

(** The calls that write a tag. *)
Definition ilint_calls (v : N) : list wcall := if v <? 248 then [CWrite v] else [CWriteAll (ilint v)].
Definition fixed_calls (w : width) (v : N) : list wcall :=
  match w with W8 => [CWrite v] | _ => [CWriteAll (be_bytes (wbytes w) v)] end.
Definition string_calls (s : list N) : list wcall := ilint_calls 17 ++ ilint_calls (lenN s) ++ [CWriteAll s].
Fixpoint calls_of (t : tag) : list wcall :=
  match t with
  | Tag id v => ilint_calls id ++ (if id <=? 15 then [] else ilint_calls (lenN (encv v))) ++ value_calls v
  end
with value_calls (v : value) : list wcall :=
  match v with
  | VNull => []
  | VBool b => [CWrite (if b then 1 else 0)]
  | VUInt w n => fixed_calls w n
  | VSInt w z => fixed_calls w (of_signed w z)
  | VBin32 bits => [CWriteAll (be_bytes 4 bits)]
  | VBin64 bits => [CWriteAll (be_bytes 8 bits)]
  | VBin128 bs => [CWriteAll bs]
  | VILInt n => ilint_calls n
  | VSILInt z => ilint_calls (zigzag z)
  | VRaw bs | VBytes bs | VString bs | VBigInt bs => [CWriteAll bs]
  | VBigDec scale bs => [CWriteAll (be_bytes 4 (of_signed W32 scale)); CWriteAll bs]
  | VILIntArray l | VOID l => ilint_calls (lenN l) ++ concat (map ilint_calls l)
  | VSeq l => concat (map calls_of l)
  | VArr l => ilint_calls (lenN l) ++ concat (map calls_of l)
  | VRange start count => ilint_calls start ++ [CWriteAll (be_bytes 2 count)]
  | VVersion a b c d => concat (map (fun z => [CWriteAll (be_bytes 4 (of_signed W32 z))]) [a; b; c; d])
  | VDict l =>
      ilint_calls (lenN l) ++
      concat (map (fun e => string_calls (fst e) ++ snd e)
                  (sort_entries (map (fun e => (fst e, calls_of (snd e))) l)))
  | VStrDict l =>
      ilint_calls (lenN l) ++
      concat (map (fun e => string_calls (fst e) ++ string_calls (snd e)) (sort_entries l))
  end.

(** Making the calls one by one, up to the first that fails; [wrap] makes its
    error the error returned. *)
Section Make.
Context {W : Type} (M : writer_impl W).
Definition make_call (c : wcall) : W -> res io_error unit * W :=
  match c with CWrite b => u_write M b | CWriteAll bs => u_write_all M bs end.
Fixpoint make_calls {E} (wrap : io_error -> E) (l : list wcall) (u : W) : res E unit * W :=
  match l with
  | [] => (Ok tt, u)
  | c :: rest =>
      match make_call c u with
      | (Ok tt, u') => make_calls wrap rest u'
      | (Err e, u') => (Err (wrap e), u')
      | (Panic, u') => (Panic, u')
      | (OutOfFuel, u') => (OutOfFuel, u')
      end
  end.
Definition makes {E} (wrap : io_error -> E) (m : W -> res E unit * W) (l : list wcall) : Prop :=
  forall u, m u = make_calls wrap l u.

Lemma make_calls_app {E} (wrap : io_error -> E) l1 l2 u :
  make_calls wrap (l1 ++ l2) u = bind (make_calls wrap l1) (fun _ => make_calls wrap l2) u.
Proof.
  revert u. induction l1 as [|c l1 IH]; intros u; [reflexivity|]. cbn [app make_calls]. unfold bind in *. cbn [make_calls].
  destruct (make_call c u) as [[[]|e| |] u1]; auto.
Qed.
Lemma makes_ret {E} (wrap : io_error -> E) : makes wrap (ret tt) [].
Proof. intros u. reflexivity. Qed.
Lemma makes_bind {E} (wrap : io_error -> E) m1 m2 l1 l2 :
  makes wrap m1 l1 -> makes wrap m2 l2 -> makes wrap (m1 ;;; m2) (l1 ++ l2).
Proof.
  intros H1 H2 u. rewrite make_calls_app. unfold bind. rewrite H1. destruct (make_calls wrap l1 u) as [[[]|e| |] u1]; auto.
Qed.
Lemma makes_for_each {E A} (wrap : io_error -> E) (l : list A) f (g : A -> list wcall) :
  Forall (fun x => makes wrap (f x) (g x)) l -> makes wrap (for_each l f) (concat (map g l)).
Proof.
  unfold for_each. induction 1 as [|x l Hx H IH]; cbn [map concat fold_right]; [apply makes_ret|].
  now apply makes_bind.
Qed.
Lemma makes_lift {E E'} (wrap : io_error -> E) (f : E -> E') (wrap' : io_error -> E') m l :
  (forall e, f (wrap e) = wrap' e) -> makes wrap m l -> makes wrap' (lift_err f m) l.
Proof.
  intros Hf H u. unfold lift_err. rewrite (H u). clear H. revert u.
  induction l as [|c rest IH]; intros u; cbn [make_calls map_err]; [reflexivity|].
  destruct (make_call c u) as [[[]|e| |] w1]; cbn [map_err]; [apply IH| |reflexivity|reflexivity]. now rewrite Hf.
Qed.
Notation id_io := (fun e : io_error => e).
Lemma makes_write b : makes id_io (u_write M b) [CWrite b].
Proof. intros u. cbn [make_calls make_call]. destruct (u_write M b u) as [[[]|e| |] u1]; reflexivity. Qed.
Lemma makes_write_all bs : makes id_io (u_write_all M bs) [CWriteAll bs].
Proof. intros u. cbn [make_calls make_call]. destruct (u_write_all M bs u) as [[[]|e| |] u1]; reflexivity. Qed.
Lemma makes_io m l : makes id_io m l -> makes TagIO (lift_err TagIO m) l.
Proof. now apply makes_lift. Qed.
Lemma makes_encode v : v < two64 -> makes ILIntIO (a_encode M v) (ilint_calls v).
Proof.
  intros H. unfold a_encode. rewrite encoded_size_spec, lenN_ilint by assumption. unfold ilint_calls, ilint.
  destruct (N.ltb_spec v 248).
  - cbn [N.eqb Pos.eqb]. rewrite land_255, N.mod_small by lia. apply (makes_lift id_io); [reflexivity|apply makes_write].
  - pose proof (ilint_k_bound v H). fold (ilint_k v). destruct (N.eqb_spec (1 + ilint_k v) 1); [lia|].
    rewrite encode_tail_spec, app_nil_r. unfold ILINT_BASE.
    replace (248 + (1 + ilint_k v - 2)) with (247 + ilint_k v) by lia.
    replace (1 + ilint_k v - 1) with (ilint_k v) by lia. apply (makes_lift id_io); [reflexivity|apply makes_write_all].
Qed.
Lemma makes_ilint v : v < two64 -> makes TagIO (a_serialize_ilint M v) (ilint_calls v).
Proof. intros H. apply makes_io. apply (makes_lift ILIntIO); [reflexivity|now apply makes_encode]. Qed.
Lemma makes_silint z : i64_range z -> makes TagIO (a_serialize_signed_ilint M z) (ilint_calls (zigzag z)).
Proof.
  intros H. apply makes_io. apply (makes_lift ILIntIO); [reflexivity|]. unfold a_signed_encode.
  rewrite encode_sign_spec by assumption. apply makes_encode. now apply zigzag_bound.
Qed.
Lemma makes_uint w v : makes TagIO (a_serialize_uint M w v) (fixed_calls w v).
Proof.
  apply makes_io. destruct w; cbn [a_write_uint fixed_calls]; rewrite ?to_be_bytes_spec; try apply makes_write_all. apply makes_write.
Qed.
Lemma makes_sint w z : makes TagIO (a_serialize_sint M w z) (fixed_calls w (of_signed w z)).
Proof.
  apply makes_io. destruct w; cbn [a_write_sint fixed_calls]; rewrite ?to_be_bytes_spec, ?cast_unsigned_spec; try apply makes_write_all.
  apply makes_write.
Qed.
Lemma makes_bytes bs : makes TagIO (a_serialize_bytes M bs) [CWriteAll bs].
Proof. apply makes_io, makes_write_all. Qed.
Lemma makes_string s : lenN s < two64 -> makes TagIO (a_serialize_string_tag M s) (string_calls s).
Proof.
  intros H. apply makes_bind; [now apply makes_ilint|]. apply makes_bind; [now apply makes_ilint|apply makes_bytes].
Qed.
Lemma makes_dict {A} (l : list (list N * A)) (ser : A -> W -> res tag_error unit * W) (code : A -> list wcall) :
  NoDup (map fst l) ->
  Forall (fun e => lenN (fst e) < two64 /\ makes TagIO (ser (snd e)) (code (snd e))) l ->
  makes TagIO (for_each (sort_unstable (map fst l)) (fun key =>
           match hm_get key (map (fun e => (fst e, ser (snd e))) l) with
           | Some value => a_serialize_string_tag M key ;;; value
           | None => fail UnableToSerialize
           end))
        (concat (map (fun e => string_calls (fst e) ++ code (snd e)) (sort_entries l))).
Proof.
  intros D F. rewrite sort_unstable_entries.
  assert (K : Forall (fun e => In e l) (sort_entries l)).
  { apply Forall_forall. intros e He. eapply Permutation_in; [symmetry; apply sort_entries_perm|exact He]. }
  revert K. generalize (sort_entries l). intros l'.
  induction 1 as [|[k x] l' Hx H IH]; cbn [map for_each fold_right concat fst snd]; [apply makes_ret|].
  apply makes_bind; [|exact IH]. rewrite hm_get_map, (hm_get_in k x l D Hx). cbn [option_map].
  rewrite Forall_forall in F. destruct (F _ Hx) as [L Em]. cbn [fst snd] in *.
  apply makes_bind; [now apply makes_string|assumption].
Qed.
Lemma serialize_makes_both :
  (forall t, wf t -> lenN (enc t) < two64 -> makes TagIO (a_serialize M t) (calls_of t)) /\
  (forall v, wfv v -> lenN (encv v) < two64 -> makes TagIO (a_serialize_value M v) (value_calls v)).
Proof.
  apply value_induction.
  - intros v IH Wv L.
    assert (IH' : Forall (fun t => makes TagIO (a_serialize M t) (calls_of t)) (children v)).
    { rewrite Forall_forall in *. intros t Ht. apply IH; [assumption| |].
      - pose proof (wfv_children _ Wv) as F. rewrite Forall_forall in F. auto.
      - pose proof (child_len _ _ Ht). lia. }
    clear IH. pose proof (count_bound _ L) as C.
    destruct v; cbn [a_serialize_value value_calls children wfv] in *.
    + apply makes_ret.
    + apply (makes_uint W8).
    + apply makes_uint.
    + apply makes_sint.
    + apply makes_io. unfold a_write_f32. rewrite to_be_bytes_spec. apply makes_write_all.
    + apply makes_io. unfold a_write_f64. rewrite to_be_bytes_spec. apply makes_write_all.
    + apply makes_io, makes_write_all.
    + now apply makes_ilint.
    + now apply makes_silint.
    + apply makes_bytes.
    + apply makes_bytes.
    + apply makes_bytes.
    + apply makes_bytes.
    + apply (makes_bind _ _ _ [_] [_]); [apply (makes_sint W32)|apply makes_bytes].
    + apply makes_bind; [now apply makes_ilint|].
      apply makes_for_each. eapply Forall_impl; [|exact Wv]. intros x Hx. now apply makes_ilint.
    + now apply makes_for_each.
    + apply makes_bind; [now apply makes_ilint|]. now apply makes_for_each.
    + apply makes_bind; [now apply makes_ilint|]. apply (makes_uint W16).
    + apply makes_for_each. apply Forall_forall. intros z _. apply (makes_sint W32).
    + apply makes_bind; [now apply makes_ilint|].
      apply makes_for_each. eapply Forall_impl; [|exact Wv]. intros x Hx. now apply makes_ilint.
    + destruct Wv as (D & _). apply makes_bind; [now apply makes_ilint|].
      rewrite sort_entries_map, map_map. cbn [fst snd]. apply (makes_dict l (a_serialize M) calls_of D).
      destruct C as [_ C]. rewrite Forall_map in IH'. rewrite Forall_forall in *. auto.
    + destruct Wv as (D & _). apply makes_bind; [now apply makes_ilint|].
      pose proof (makes_dict l (a_serialize_string_tag M) string_calls D) as K.
      match type of K with _ -> ?P => assert (K' : P) end.
      { apply K. destruct C as [_ C]. eapply Forall_impl; [|exact C]. intros e [C1 C2].
        split; [assumption|]. now apply makes_string. }
      revert K'. generalize (concat (map (fun e => string_calls (fst e) ++ string_calls (snd e)) (sort_entries l))).
      clear. intros bs. unfold for_each.
      match goal with |- makes TagIO ?a _ -> makes TagIO ?b _ => replace b with a; [auto|] end.
      generalize (sort_unstable (map fst l)). intros keys.
      induction keys as [|k keys IH]; cbn [fold_right]; [reflexivity|]. rewrite IH, hm_get_map.
      destruct (hm_get k l); reflexivity.
  - intros id v IH [Hid Wv] L. pose proof (enc_payload_len id v) as Lp.
    cbn [a_serialize calls_of].
    apply makes_bind; [now apply makes_ilint|]. rewrite is_implicit_spec.
    apply makes_bind; [|apply IH; [assumption|lia]].
    destruct (id <=? 15); [apply makes_ret|]. rewrite value_size_spec by (assumption || lia).
    apply makes_ilint. lia.
Qed.
End Make.

(** What the calls write. *)
Lemma written_app a b : written (a ++ b) = written a ++ written b.
Proof. apply flat_map_app. Qed.
Lemma written_ilint v : written (ilint_calls v) = ilint v.
Proof. unfold ilint_calls. destruct (v <? 248) eqn:L; cbn; [|apply app_nil_r]. unfold ilint. now rewrite L. Qed.
Lemma written_concat {A} (f : A -> list wcall) (g : A -> list N) l : Forall (fun x => written (f x) = g x) l ->
  written (concat (map f l)) = concat (map g l).
Proof. induction 1 as [|x l H _ IH]; [reflexivity|]. cbn [map concat]. now rewrite written_app, H, IH. Qed.
Lemma written_fixed w v : v < wmod w -> written (fixed_calls w v) = be_bytes (wbytes w) v.
Proof.
  intros H. destruct w; cbn [fixed_calls written flat_map wcall_bytes]; rewrite ?app_nil_r; try reflexivity.
  cbn [wbytes be_bytes app wmod] in *. now rewrite N.mod_small.
Qed.
Lemma written_string s : written (string_calls s) = enc_string s.
Proof. unfold string_calls, enc_string. rewrite !written_app, !written_ilint. cbn. now rewrite app_nil_r. Qed.
Lemma written_both :
  (forall t, wf t -> written (calls_of t) = enc t) /\ (forall v, wfv v -> written (value_calls v) = encv v).
Proof.
  apply value_induction.
  - intros v IH Wv.
    assert (IH' : Forall (fun t => written (calls_of t) = enc t) (children v)).
    { rewrite Forall_forall in *. intros t Ht. apply IH; [assumption|].
      pose proof (wfv_children _ Wv) as F. rewrite Forall_forall in F. auto. }
    clear IH. destruct v; cbn [value_calls encv children wfv] in *;
      rewrite ?written_app, ?written_ilint, ?flat_map_concat_map; try reflexivity; try (cbn; now rewrite ?app_nil_r).
    + now apply written_fixed.
    + apply written_fixed, of_signed_bound.
    + f_equal. apply written_concat. apply Forall_forall. intros; apply written_ilint.
    + now apply written_concat.
    + f_equal. now apply written_concat.
    + f_equal. apply written_concat. apply Forall_forall. intros; apply written_ilint.
    + f_equal. rewrite !sort_entries_map, !map_map. cbn [fst snd]. apply written_concat.
      rewrite Forall_map in IH'. apply Forall_forall. intros e He. rewrite written_app, written_string. f_equal.
      rewrite Forall_forall in IH'. apply IH'. eapply Permutation_in; [symmetry; apply sort_entries_perm|exact He].
    + f_equal. apply written_concat. apply Forall_forall. intros e _. now rewrite written_app, !written_string.
  - intros id v IH [Hid Wv]. cbn [calls_of enc]. unfold enc_header. rewrite !written_app, written_ilint, IH by assumption.
    rewrite <- app_assoc. do 2 f_equal. destruct (id <=? 15); [reflexivity|apply written_ilint].
Qed.

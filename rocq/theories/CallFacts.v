(** The calls a serializer makes on its writer: a fixed list of pieces, one
    [write_all] each, in order, stopping at the first that fails. *)
From Verif Require Import Base BaseFacts Types Spec SpecFacts IO IOSpec IOFacts WriterFacts ILInt ILIntFacts
  WLogic Data DataFacts Tags SortFacts TagsFacts.

(** One [write_all] per piece; the first error is returned, as [wrap] makes
    it, and nothing more is written. *)
Fixpoint put_pieces {E} (wrap : io_error -> E) (pieces : list (list N)) (w : writer) : res E unit * writer :=
  match pieces with
  | [] => (Ok tt, w)
  | p :: rest =>
      match write_all p w with
      | (Ok tt, w') => put_pieces wrap rest w'
      | (Err e, w') => (Err (wrap e), w')
      | (Panic, w') => (Panic, w')
      | (OutOfFuel, w') => (OutOfFuel, w')
      end
  end.

Definition by_pieces {E} (wrap : io_error -> E) (m : writer -> res E unit * writer) (bs : list N) : Prop :=
  exists pieces, concat pieces = bs /\ forall w, wwf w -> m w = put_pieces wrap pieces w.

Lemma put_pieces_wwf {E} (wrap : io_error -> E) pieces w x w' :
  wwf w -> put_pieces wrap pieces w = (x, w') -> wwf w'.
Proof.
  revert w. induction pieces as [|p rest IH]; intros w W; cbn [put_pieces].
  { now intros [= <- <-]. }
  destruct (write_all p w) as [y w1] eqn:E1.
  destruct (write_all_spec _ _ _ _ W E1) as (R & q & _ & Q & _).
  pose proof (puts_wwf _ _ _ W Q) as W1.
  destruct y as [[]|e| |]; [now apply IH|congruence..].
Qed.
Lemma put_pieces_app {E} (wrap : io_error -> E) l1 l2 w :
  put_pieces wrap (l1 ++ l2) w
  = bind (put_pieces wrap l1) (fun _ => put_pieces wrap l2) w.
Proof.
  revert w. induction l1 as [|p rest IH]; intros w; cbn [put_pieces app]; [reflexivity|].
  unfold bind in *. cbn [put_pieces]. destruct (write_all p w) as [[[]|e| |] w1]; auto.
Qed.

Section Rules.
Context {E : Type} (wrap : io_error -> E).
Notation waction := (writer -> res E unit * writer).

Lemma pieces_ret : by_pieces wrap (ret tt) [].
Proof. exists []. split; [reflexivity|]. reflexivity. Qed.
Lemma pieces_bind (m1 m2 : waction) b1 b2 :
  by_pieces wrap m1 b1 -> by_pieces wrap m2 b2 -> by_pieces wrap (m1 ;;; m2) (b1 ++ b2).
Proof.
  intros (l1 & C1 & H1) (l2 & C2 & H2). exists (l1 ++ l2). split; [rewrite concat_app; congruence|].
  intros w W. rewrite put_pieces_app. unfold bind. rewrite (H1 w W).
  destruct (put_pieces wrap l1 w) as [y w1] eqn:Ey. pose proof (put_pieces_wwf _ _ _ _ _ W Ey) as W1.
  destruct y as [[]|e| |]; auto.
Qed.
Lemma pieces_ext (m m' : waction) bs :
  (forall w, wwf w -> m w = m' w) -> by_pieces wrap m' bs -> by_pieces wrap m bs.
Proof. intros H (l & C & K). exists l. split; [exact C|]. intros w W. rewrite H by exact W. auto. Qed.
Lemma pieces_for_each {A} (l : list A) (f : A -> waction) (g : A -> list N) :
  Forall (fun x => by_pieces wrap (f x) (g x)) l -> by_pieces wrap (for_each l f) (concat (map g l)).
Proof.
  unfold for_each. induction 1 as [|x l Hx H IH]; cbn [map concat fold_right]; [apply pieces_ret|].
  now apply pieces_bind.
Qed.
End Rules.

Lemma pieces_lift {E E'} (wrap : io_error -> E) (f : E -> E') (wrap' : io_error -> E') m bs :
  (forall e, f (wrap e) = wrap' e) -> by_pieces wrap m bs -> by_pieces wrap' (lift_err f m) bs.
Proof.
  intros Hf (l & C & H). exists l. split; [exact C|]. intros w W. unfold lift_err. rewrite (H w W).
  clear H C W. revert w. induction l as [|p rest IH]; intros w; cbn [put_pieces map_err]; [reflexivity|].
  destruct (write_all p w) as [[[]|e| |] w1]; cbn [map_err]; [apply IH| |reflexivity|reflexivity].
  now rewrite Hf.
Qed.
Notation id_io := (fun e : io_error => e).
Lemma pieces_write_all bs : by_pieces id_io (write_all bs) bs.
Proof.
  exists [bs]. cbn [concat]. rewrite app_nil_r. split; [reflexivity|]. intros w W. cbn [put_pieces].
  destruct (write_all bs w) as [[[]|e| |] w1]; reflexivity.
Qed.
Lemma pieces_write b : by_pieces id_io (write b) [b].
Proof. eapply pieces_ext; [|apply pieces_write_all]. intros w W. now apply write_is_write_all. Qed.
Lemma pieces_io m bs : by_pieces id_io m bs -> by_pieces TagIO (lift_err TagIO m) bs.
Proof. now apply pieces_lift. Qed.

Lemma pieces_write_uint w v : v < wmod w -> by_pieces id_io (write_uint w v) (be_bytes (wbytes w) v).
Proof.
  intros H. destruct w; cbn [write_uint]; rewrite ?to_be_bytes_spec; try apply pieces_write_all.
  cbn [wbytes be_bytes app]. cbn [wmod] in H. rewrite N.mod_small by assumption. apply pieces_write.
Qed.
Lemma pieces_write_sint w z : by_pieces id_io (write_sint w z) (be_bytes (wbytes w) (of_signed w z)).
Proof.
  pose proof (of_signed_bound w z) as H.
  destruct w; cbn [write_sint]; rewrite ?to_be_bytes_spec, ?cast_unsigned_spec; try apply pieces_write_all.
  cbn [wbytes be_bytes app]. cbn [wmod] in H. rewrite N.mod_small by assumption. apply pieces_write.
Qed.
Lemma pieces_encode v : v < two64 -> by_pieces ILIntIO (encode v) (ilint v).
Proof.
  intros H. eapply pieces_ext; [intros w W; now apply encode_spec|].
  apply (pieces_lift id_io); [reflexivity|apply pieces_write_all].
Qed.
Lemma pieces_write_ilint v : v < two64 -> by_pieces id_io (write_ilint v) (ilint v).
Proof. intros H. apply (pieces_lift ILIntIO); [reflexivity|]. now apply pieces_encode. Qed.
Lemma pieces_write_signed_ilint z : i64_range z -> by_pieces id_io (write_signed_ilint z) (ilint (zigzag z)).
Proof.
  intros H. apply (pieces_lift ILIntIO); [reflexivity|]. unfold signed_encode.
  rewrite encode_sign_spec by assumption. apply pieces_encode. now apply zigzag_bound.
Qed.
Lemma pieces_serialize_uint w v : v < wmod w -> by_pieces TagIO (serialize_uint w v) (be_bytes (wbytes w) v).
Proof. intros. now apply pieces_io, pieces_write_uint. Qed.
Lemma pieces_serialize_sint w z : by_pieces TagIO (serialize_sint w z) (be_bytes (wbytes w) (of_signed w z)).
Proof. apply pieces_io, pieces_write_sint. Qed.
Lemma pieces_serialize_ilint v : v < two64 -> by_pieces TagIO (serialize_ilint v) (ilint v).
Proof. intros. now apply pieces_io, pieces_write_ilint. Qed.
Lemma pieces_serialize_signed_ilint z : i64_range z -> by_pieces TagIO (serialize_signed_ilint z) (ilint (zigzag z)).
Proof. intros. now apply pieces_io, pieces_write_signed_ilint. Qed.
Lemma pieces_serialize_f32 bits : by_pieces TagIO (serialize_f32 bits) (be_bytes 4 bits).
Proof. apply pieces_io. unfold write_f32. rewrite to_be_bytes_spec. apply pieces_write_all. Qed.
Lemma pieces_serialize_f64 bits : by_pieces TagIO (serialize_f64 bits) (be_bytes 8 bits).
Proof. apply pieces_io. unfold write_f64. rewrite to_be_bytes_spec. apply pieces_write_all. Qed.
Lemma pieces_serialize_bytes bs : by_pieces TagIO (serialize_bytes bs) bs.
Proof. apply pieces_io, pieces_write_all. Qed.

Lemma pieces_serialize_string s :
  lenN s < two64 -> by_pieces TagIO (serialize_string_tag_from_value s) (enc_string s).
Proof.
  intros H. unfold serialize_string_tag_from_value, enc_string.
  apply pieces_bind; [now apply pieces_serialize_ilint|].
  apply pieces_bind; [now apply pieces_serialize_ilint|]. apply pieces_serialize_bytes.
Qed.
Lemma pieces_dict {A} (l : list (list N * A)) (ser : A -> writer -> res tag_error unit * writer) (code : A -> list N) :
  NoDup (map fst l) ->
  Forall (fun e => lenN (fst e) < two64 /\ by_pieces TagIO (ser (snd e)) (code (snd e))) l ->
  by_pieces TagIO (for_each (sort_unstable (map fst l)) (fun key =>
           match hm_get key (map (fun e => (fst e, ser (snd e))) l) with
           | Some value => serialize_string_tag_from_value key ;;; value
           | None => fail UnableToSerialize
           end))
        (concat (map (fun e => enc_string (fst e) ++ code (snd e)) (sort_entries l))).
Proof.
  intros D F. rewrite sort_unstable_entries.
  assert (K : Forall (fun e => In e l) (sort_entries l)).
  { apply Forall_forall. intros e He. eapply Permutation_in; [symmetry; apply sort_entries_perm|exact He]. }
  revert K. generalize (sort_entries l). intros l'.
  induction 1 as [|[k x] l' Hx H IH]; cbn [map for_each fold_right concat fst snd]; [apply pieces_ret|].
  apply pieces_bind; [|exact IH]. rewrite hm_get_map, (hm_get_in k x l D Hx). cbn [option_map].
  rewrite Forall_forall in F. destruct (F _ Hx) as [L Em]. cbn [fst snd] in *.
  apply pieces_bind; [now apply pieces_serialize_string|assumption].
Qed.

Lemma serialize_pieces_both :
  (forall t, wf t -> lenN (enc t) < two64 -> by_pieces TagIO (serialize t) (enc t)) /\
  (forall v, wfv v -> lenN (encv v) < two64 -> by_pieces TagIO (serialize_value v) (encv v)).
Proof.
  apply value_induction.
  - intros v IH W L.
    assert (IH' : Forall (fun t => by_pieces TagIO (serialize t) (enc t)) (children v)).
    { rewrite Forall_forall in *. intros t Ht. apply IH; [assumption| |].
      - pose proof (wfv_children _ W) as F. rewrite Forall_forall in F. auto.
      - pose proof (child_len _ _ Ht). lia. }
    clear IH. pose proof (count_bound _ L) as C.
    destruct v; cbn [serialize_value encv children wfv] in *.
    + apply pieces_ret.
    + assert (H : by_pieces TagIO (serialize_uint W8 (if b then 1 else 0)) (be_bytes 1 (if b then 1 else 0))).
      { apply (pieces_serialize_uint W8). destruct b; reflexivity. }
      destruct b; exact H.
    + now apply pieces_serialize_uint.
    + apply pieces_serialize_sint.
    + apply pieces_serialize_f32.
    + apply pieces_serialize_f64.
    + apply pieces_io, pieces_write_all.
    + now apply pieces_serialize_ilint.
    + now apply pieces_serialize_signed_ilint.
    + apply pieces_serialize_bytes.
    + apply pieces_serialize_bytes.
    + apply pieces_serialize_bytes.
    + apply pieces_serialize_bytes.
    + apply pieces_bind; [apply (pieces_serialize_sint W32)|apply pieces_serialize_bytes].
    + apply pieces_bind; [now apply pieces_serialize_ilint|]. rewrite flat_map_concat_map.
      apply pieces_for_each. eapply Forall_impl; [|exact W]. intros x Hx. now apply pieces_serialize_ilint.
    + now apply pieces_for_each.
    + apply pieces_bind; [now apply pieces_serialize_ilint|]. now apply pieces_for_each.
    + apply pieces_bind; [now apply pieces_serialize_ilint|]. now apply (pieces_serialize_uint W16).
    + replace (be_bytes 4 (of_signed W32 major) ++ be_bytes 4 (of_signed W32 minor)
         ++ be_bytes 4 (of_signed W32 revision) ++ be_bytes 4 (of_signed W32 build))
        with (concat (map (fun z => be_bytes 4 (of_signed W32 z)) [major; minor; revision; build])).
      * apply pieces_for_each. apply Forall_forall. intros z _. apply (pieces_serialize_sint W32).
      * cbn [map concat]. now rewrite app_nil_r.
    + apply pieces_bind; [now apply pieces_serialize_ilint|]. rewrite flat_map_concat_map.
      apply pieces_for_each. eapply Forall_impl; [|exact W]. intros x Hx. now apply pieces_serialize_ilint.
    + destruct W as (D & _). apply pieces_bind; [now apply pieces_serialize_ilint|].
      rewrite sort_entries_map, map_map. cbn [fst snd]. apply (pieces_dict l serialize enc D).
      destruct C as [_ C]. rewrite Forall_map in IH'. rewrite Forall_forall in *. auto.
    + destruct W as (D & _). apply pieces_bind; [now apply pieces_serialize_ilint|].
      pose proof (pieces_dict l serialize_string_tag_from_value enc_string D) as K.
      assert (K' : by_pieces TagIO (for_each (sort_unstable (map fst l)) (fun key =>
           match hm_get key (map (fun e => (fst e, serialize_string_tag_from_value (snd e))) l) with
           | Some value => serialize_string_tag_from_value key ;;; value
           | None => fail UnableToSerialize
           end)) (concat (map (fun e => enc_string (fst e) ++ enc_string (snd e)) (sort_entries l)))).
      { apply K. destruct C as [_ C]. eapply Forall_impl; [|exact C]. intros e [C1 C2].
        split; [assumption|]. now apply pieces_serialize_string. }
      revert K'. generalize (concat (map (fun e => enc_string (fst e) ++ enc_string (snd e)) (sort_entries l))).
      clear. intros bs. unfold for_each.
      match goal with |- by_pieces TagIO ?a _ -> by_pieces TagIO ?b _ => replace b with a; [auto|] end.
      generalize (sort_unstable (map fst l)). intros keys.
      induction keys as [|k keys IH]; cbn [fold_right]; [reflexivity|]. rewrite IH, hm_get_map.
      destruct (hm_get k l); reflexivity.
  - intros id v IH [Hid W] L. pose proof (enc_payload_len id v) as Lp.
    cbn [serialize enc]. unfold enc_header. rewrite <- app_assoc.
    apply pieces_bind; [now apply pieces_serialize_ilint|]. rewrite is_implicit_spec.
    apply pieces_bind; [|apply IH; [assumption|lia]].
    destruct (id <=? 15); [apply pieces_ret|]. rewrite value_size_spec by (assumption || lia).
    apply pieces_serialize_ilint. lia.
Qed.
Lemma serialize_pieces t : wf t -> lenN (enc t) < two64 -> by_pieces TagIO (serialize t) (enc t).
Proof. apply serialize_pieces_both. Qed.

(** Machine arithmetic in [size], [value_size], [serialize] and [to_bytes]: C64. *)
From Verif Require Import Base BaseFacts Types Spec SpecFacts IO IOSpec WLogic ILInt ILIntFacts Data Tags SortFacts TagsFacts Scanner Ctors OpenFacts Machine.

(** The memory a tag takes at least, on any platform: 8 bytes for the id, the
    fields, and for everything on the heap a pointer and a length of 4 bytes each
    (a [Box<dyn ILTag>] is two pointers). *)
Fixpoint memory (t : tag) : N :=
  match t with Tag _ v => 8 + contents v end
with contents (v : value) : N :=
  match v with
  | VNull => 0
  | VBool _ => 1
  | VUInt w _ | VSInt w _ => N.of_nat (wbytes w)
  | VBin32 _ => 4
  | VBin64 _ => 8
  | VBin128 _ => 16
  | VILInt _ | VSILInt _ => 8
  | VRaw bs | VBytes bs | VBigInt bs | VString bs => 8 + lenN bs
  | VBigDec _ bs => 4 + (8 + lenN bs)
  | VILIntArray l | VOID l => 8 + 8 * lenN l
  | VSeq l | VArr l => 8 + fold_right (fun t n => 8 + memory t + n) 0 l
  | VRange _ _ => 10
  | VVersion _ _ _ _ => 16
  | VDict l => 8 + fold_right (fun e n => 8 + lenN (fst e) + (8 + memory (snd e)) + n) 0 l
  | VStrDict l => 8 + fold_right (fun (e : list N * list N) n => 8 + lenN (fst e) + (8 + lenN (snd e)) + n) 0 l
  end.

(** ** Sums *)
Definition sum_of {A} (f : A -> N) (l : list A) : N := fold_right (fun x n => f x + n) 0 l.
Lemma fold_left_sum {A} (f : A -> N) l a : fold_left (fun acc x => acc + f x) l a = a + sum_of f l.
Proof.
  revert a. induction l as [|x l IH]; intros a; cbn [fold_left sum_of fold_right]; [lia|].
  fold (sum_of f l). rewrite IH. lia.
Qed.
Lemma sum_of_le {A} (f g : A -> N) l : Forall (fun x => f x <= g x) l -> sum_of f l <= sum_of g l.
Proof.
  induction 1 as [|x l H F IH]; cbn [sum_of fold_right]; [lia|]. fold (sum_of f l) (sum_of g l). lia.
Qed.
Lemma sum_of_scale {A} (f : A -> N) k l : sum_of (fun x => k * f x) l = k * sum_of f l.
Proof. induction l as [|x l IH]; cbn [sum_of fold_right]; [lia|]. fold (sum_of f l) (sum_of (fun x => k * f x) l). lia. Qed.
Lemma sum_of_const {A} k (l : list A) : sum_of (fun _ => k) l = k * lenN l.
Proof.
  induction l as [|x l IH]; cbn [sum_of fold_right]; [cbn; lia|]. fold (sum_of (fun _ : A => k) l).
  rewrite lenN_cons. lia.
Qed.
Lemma sum_of_in {A} (f : A -> N) l x : In x l -> f x <= sum_of f l.
Proof.
  induction l as [|y l IH]; intros H; [destruct H|]. cbn [sum_of fold_right]. fold (sum_of f l).
  destruct H as [<-|H]; [lia|]. specialize (IH H). lia.
Qed.
Lemma sum_of_map {A B} (f : B -> N) (g : A -> B) l : sum_of f (map g l) = sum_of (fun x => f (g x)) l.
Proof. induction l as [|x l IH]; cbn [map sum_of fold_right]; [reflexivity|]. fold (sum_of f (map g l)) (sum_of (fun x => f (g x)) l). now rewrite IH. Qed.

(** ** The size is at most about twice the memory *)
Lemma size_memory t : size t <= 2 * memory t + 2.
Proof.
  induction t as [id v IH] using tag_induction.
  assert (V : value_size v <= 2 * contents v).
  { destruct v; cbn [value_size contents]; try lia.
    - pose proof (encoded_size_bound n). lia.
    - unfold signed_encoded_size. pose proof (encoded_size_bound (encode_sign z)). lia.
    - rewrite (fold_left_sum encoded_size). pose proof (encoded_size_bound (lenN l)).
      assert (H1 : sum_of encoded_size l <= sum_of (fun _ => 9) l).
      { apply sum_of_le, Forall_forall. intros x _. apply encoded_size_bound. }
      rewrite sum_of_const in H1. lia.
    - rewrite (fold_left_sum size). change (fold_right _ 0 l) with (sum_of (fun t => 8 + memory t) l).
      assert (H1 : sum_of size l <= sum_of (fun t => 2 * (8 + memory t)) l).
      { apply sum_of_le. eapply Forall_impl; [|exact IH]. intros t Ht. cbn beta in *. lia. }
      rewrite sum_of_scale in H1. lia.
    - rewrite (fold_left_sum size). change (fold_right _ 0 l) with (sum_of (fun t => 8 + memory t) l).
      assert (H1 : sum_of size l <= sum_of (fun t => 2 * (8 + memory t)) l).
      { apply sum_of_le. eapply Forall_impl; [|exact IH]. intros t Ht. cbn beta in *. lia. }
      rewrite sum_of_scale in H1. pose proof (encoded_size_bound (lenN l)). lia.
    - pose proof (encoded_size_bound start). lia.
    - rewrite (fold_left_sum encoded_size). pose proof (encoded_size_bound (lenN l)).
      assert (H1 : sum_of encoded_size l <= sum_of (fun _ => 9) l).
      { apply sum_of_le, Forall_forall. intros x _. apply encoded_size_bound. }
      rewrite sum_of_const in H1. lia.
    - rewrite (fold_left_sum (fun e : list N * tag => string_tag_size_from_value (fst e) + size (snd e))).
      change (fold_right _ 0 l) with (sum_of (fun e : list N * tag => 8 + lenN (fst e) + (8 + memory (snd e))) l).
      cbn [children] in IH. rewrite Forall_map in IH.
      assert (H1 : sum_of (fun e => string_tag_size_from_value (fst e) + size (snd e)) l
                   <= sum_of (fun e : list N * tag => 2 * (8 + lenN (fst e) + (8 + memory (snd e)))) l).
      { apply sum_of_le. eapply Forall_impl; [|exact IH]. intros e He. cbn beta in *. unfold string_tag_size_from_value.
        pose proof (encoded_size_bound (lenN (fst e))). lia. }
      rewrite sum_of_scale in H1. pose proof (encoded_size_bound (lenN l)). lia.
    - rewrite (fold_left_sum (fun e : list N * list N => string_tag_size_from_value (fst e) + string_tag_size_from_value (snd e))).
      change (fold_right _ 0 l) with (sum_of (fun e : list N * list N => 8 + lenN (fst e) + (8 + lenN (snd e))) l).
      assert (H1 : sum_of (fun e => string_tag_size_from_value (fst e) + string_tag_size_from_value (snd e)) l
                   <= sum_of (fun e : list N * list N => 2 * (8 + lenN (fst e) + (8 + lenN (snd e)))) l).
      { apply sum_of_le, Forall_forall. intros e _. unfold string_tag_size_from_value.
        pose proof (encoded_size_bound (lenN (fst e))). pose proof (encoded_size_bound (lenN (snd e))). lia. }
      rewrite sum_of_scale in H1. pose proof (encoded_size_bound (lenN l)). lia. }
  cbn [size memory]. pose proof (encoded_size_bound id). pose proof (encoded_size_bound (value_size v)).
  destruct (is_implicit_tag id); lia.
Qed.

(** ** No overflow *)
Section Exact.
Variable c : cfg.
Lemma add_exact {E} a b : a + b < two64 -> @add_u64 E c a b = Ok (a + b).
Proof. intros H. unfold add_u64. destruct (N.ltb_spec (a + b) two64); [reflexivity|lia]. Qed.
Lemma sum_exact {A} (f : A -> res tag_error N) (g : A -> N) l a :
  Forall (fun x => g x < two64 -> f x = Ok (g x)) l -> a + sum_of g l < two64 ->
  sum_u c f l a = Ok (a + sum_of g l).
Proof.
  intros F. revert a. induction F as [|x l Hx F IH]; intros a H; unfold sum_u in *; cbn [fold_left sum_of fold_right] in *.
  - f_equal. lia.
  - fold (sum_of g l) in *. rewrite Hx by lia. cbn [and_then]. rewrite add_exact by lia. rewrite IH by lia. f_equal. lia.
Qed.
Lemma string_exact s : string_tag_size_from_value s < two64 -> string_tag_size_u c s = Ok (string_tag_size_from_value s).
Proof. unfold string_tag_size_from_value, string_tag_size_u. intros H. now apply add_exact. Qed.
Lemma value_size_exact v : Forall (fun t => size t < two64 -> size_u c t = Ok (size t)) (children v) ->
  value_size v < two64 -> value_size_u c v = Ok (value_size v).
Proof.
  intros IH H. destruct v;
    [..| change (value_size_u c (VDict l)) with
           (and_then (sum_u c (fun e => and_then (string_tag_size_u c (fst e)) (fun k =>
                               and_then (size_u c (snd e)) (fun x => add_u64 c k x))) l 0)
              (fun s => add_u64 c (encoded_size (lenN l)) s)) |];
    cbn [value_size children] in *; try (cbn [value_size_u]; reflexivity);
    try change (value_size_u c (VArr l)) with
      (and_then (sum_u c (size_u c) l 0) (fun s => add_u64 c (encoded_size (lenN l)) s));
    try change (value_size_u c (VStrDict l)) with
      (and_then (sum_u c (fun e => and_then (string_tag_size_u c (fst e)) (fun k =>
                          and_then (string_tag_size_u c (snd e)) (fun x => add_u64 c k x))) l 0)
         (fun s => add_u64 c (encoded_size (lenN l)) s)).
  - now apply add_exact.
  - rewrite (fold_left_sum encoded_size) in *. apply sum_exact; [apply Forall_forall; reflexivity|exact H].
  - rewrite (fold_left_sum size) in *. now apply sum_exact.
  - rewrite (fold_left_sum size) in *. pose proof (encoded_size_bound (lenN l)). rewrite (sum_exact _ size) by (auto; lia).
    cbn [and_then]. rewrite add_exact by lia. reflexivity.
  - rewrite (fold_left_sum encoded_size) in *. apply sum_exact; [apply Forall_forall; reflexivity|exact H].
  - set (g := fun e : list N * tag => string_tag_size_from_value (fst e) + size (snd e)) in *.
    rewrite (fold_left_sum g) in *. rewrite (sum_exact _ g).
    + cbn [and_then]. rewrite add_exact by lia. reflexivity.
    + rewrite Forall_map in IH. eapply Forall_impl; [|exact IH]. intros e He Hg. cbn beta in *. subst g. cbn beta in *.
      rewrite string_exact by lia. cbn [and_then]. rewrite He by lia. cbn [and_then]. now rewrite add_exact.
    + lia.
  - set (g := fun e : list N * list N => string_tag_size_from_value (fst e) + string_tag_size_from_value (snd e)) in *.
    rewrite (fold_left_sum g) in *. rewrite (sum_exact _ g).
    + cbn [and_then]. rewrite add_exact by lia. reflexivity.
    + apply Forall_forall. intros e _ Hg. subst g. cbn beta in *.
      rewrite !string_exact by lia. cbn [and_then]. now rewrite add_exact.
    + lia.
Qed.
Lemma size_exact t : size t < two64 -> size_u c t = Ok (size t).
Proof.
  induction t as [id v IH] using tag_induction. intros H. cbn [size size_u] in *.
  rewrite value_size_exact by (auto; destruct (is_implicit_tag id); lia).
  destruct (is_implicit_tag id); cbn [and_then]; [now rewrite add_exact|].
  rewrite add_exact by lia. cbn [and_then]. now rewrite add_exact.
Qed.
Lemma children_size v : Forall (fun t => size t <= value_size v) (children v).
Proof.
  apply Forall_forall. intros t H. destruct v; cbn [children] in H; try contradiction; cbn [value_size].
  - rewrite (fold_left_sum size). pose proof (sum_of_in size l t H). lia.
  - rewrite (fold_left_sum size). pose proof (sum_of_in size l t H). lia.
  - set (g := fun e : list N * tag => string_tag_size_from_value (fst e) + size (snd e)).
    rewrite (fold_left_sum g). apply in_map_iff in H as (e & <- & H). pose proof (sum_of_in g l e H). unfold g in *. cbn beta in *. lia.
Qed.
Lemma serialize_exact t : size t < two64 -> forall w, serialize_u c t w = serialize t w.
Proof.
  induction t as [id v IH] using tag_induction. intros H.
  assert (Hv : value_size v < two64) by (cbn [size] in H; destruct (is_implicit_tag id); lia).
  assert (C : Forall (fun t => forall w, serialize_u c t w = serialize t w) (children v)).
  { pose proof (children_size v) as S. rewrite Forall_forall in *. intros t Ht. apply IH; [exact Ht|]. specialize (S t Ht). cbn beta in S. lia. }
  assert (V : forall w, serialize_value_u c v w = serialize_value v w).
  { intros w. destruct v; cbn [serialize_value_u serialize_value children] in *; try reflexivity.
    - rewrite <- (map_id l) at 1. now apply for_each_ext.
    - apply then_ext. intros w1. rewrite <- (map_id l) at 1. now apply for_each_ext.
    - apply then_ext. intros w1. rewrite Forall_map in C.
      set (l1 := map (fun e : list N * tag => (fst e, serialize_u c (snd e))) l).
      set (l2 := map (fun e : list N * tag => (fst e, serialize (snd e))) l).
      set (ff := fun (key : list N) (o : option (writer -> res tag_error unit * writer)) =>
        match o with Some value => serialize_string_tag_from_value key ;;; value | None => fail UnableToSerialize end).
      apply (for_each_get (sort_unstable (map fst l)) l2 l1 ff ff).
      intros k w2. unfold l1, l2. clear -C.
      induction l as [|[k' x] l IHl]; cbn [map hm_get fst snd]; [reflexivity|]. apply Forall_inv in C as H1. apply Forall_inv_tail in C.
      destruct (str_eqb k k'); [|now apply IHl]. unfold ff. apply then_ext. exact H1. }
  intros w. cbn [serialize_u serialize]. apply then_ext. intros w1.
  destruct (is_implicit_tag id); [apply then_ext; exact V|].
  unfold bind at 2. rewrite value_size_exact; [|apply Forall_forall; intros; now apply size_exact|exact Hv].
  apply then_ext. exact V.
Qed.
End Exact.

(** ** C64.  Whatever the build, no tag whose memory stays below 2^63 bytes (half
    the address space of a 64-bit machine, 2^31 times that of a 32-bit one) makes
    an addition in [size], [value_size] or [serialize] overflow: they return and
    write exactly what the model with unbounded numbers does. *)
Theorem C64_no_overflow : forall c t, memory t <= 2 ^ 63 - 2 ->
  size t < two64 /\
  size_u c t = Ok (size t) /\ value_size_u c (tag_val t) = Ok (value_size (tag_val t)) /\
  (forall w, serialize_u c t w = serialize t w).
Proof.
  intros c t M. pose proof (size_memory t) as S. change (2 ^ 63) with 9223372036854775808 in M.
  assert (L : size t < two64) by (unfold two64; lia). split; [exact L|]. split; [now apply size_exact|]. split.
  - destruct t as [id v]. cbn [tag_val size] in *.
    apply value_size_exact; [apply Forall_forall; intros; now apply size_exact|destruct (is_implicit_tag id); lia].
  - now apply serialize_exact.
Qed.
Print Assumptions C64_no_overflow.
(** [to_bytes] asks for a vector of [size()] bytes first: with up to [isize::MAX]
    bytes it is the model without machine arithmetic, with more, up to
    [usize::MAX], it panics. *)
Theorem C64_to_bytes : forall c t, memory t <= 2 ^ 63 - 2 -> size t <= usize_max c ->
  (size t <= usize_max c / 2 -> to_bytes_u c t = to_bytes t) /\
  (usize_max c / 2 < size t -> to_bytes_u c t = Panic).
Proof.
  intros c t M U. destruct (C64_no_overflow c t M) as (L & S & V & E).
  unfold to_bytes_u. rewrite S. cbn [and_then]. rewrite N.mod_small by lia. unfold Vec_with_capacity.
  split; intros H; destruct (N.ltb_spec (usize_max c / 2) (size t)); try lia; cbn [and_then].
  - unfold to_bytes. now rewrite E.
  - reflexivity.
Qed.
Print Assumptions C64_to_bytes.
(** With more than that, which a 32-bit machine can hold as ILInts of 9 bytes, it
    asks for what the low 32 bits say. *)
Theorem C64_to_bytes_32_bits : forall oc t, memory t <= 2 ^ 63 - 2 ->
  to_bytes_u (Cfg oc 4294967295) t = if size t mod 4294967296 <? 2147483648 then to_bytes t else Panic.
Proof.
  intros oc t M. destruct (C64_no_overflow (Cfg oc 4294967295) t M) as (L & S & V & E).
  unfold to_bytes_u. rewrite S. cbn [and_then usize_max]. unfold Vec_with_capacity. cbn [usize_max].
  change (4294967295 + 1) with 4294967296. change (4294967295 / 2) with 2147483647.
  destruct (N.ltb_spec 2147483647 (size t mod 4294967296)), (N.ltb_spec (size t mod 4294967296) 2147483648); try lia; cbn [and_then].
  - reflexivity.
  - unfold to_bytes. now rewrite E.
Qed.
Print Assumptions C64_to_bytes_32_bits.
(** Claim checked: [to_bytes] never panics.  On a 32-bit machine it does for a tag
    of 2 GB, which takes little more than 2 GB of memory. *)
Theorem C64_to_bytes_never_panics_refuted :
  ~ (forall c t, cfg_ok c -> wf t -> memory t <= 2 ^ 31 + 16 -> to_bytes_u c t <> Panic).
Proof.
  intros H.
  assert (E : exists bs, lenN bs = 2147483648 /\ bytes_ok bs).
  { exists (repeatN 0 2147483648). split; [apply lenN_repeatN|]. apply Forall_forall. unfold repeatN.
    intros x I. apply repeat_spec in I. rewrite I. reflexivity. }
  destruct E as (bs & Le & B). set (c := Cfg true 4294967295). set (t := Tag 16 (VBytes bs)).
  assert (M : memory t = 2147483664) by (unfold t; cbn [memory contents]; rewrite Le; reflexivity).
  assert (S : size t = 2147483654) by (unfold t; cbn [size value_size]; rewrite Le; reflexivity).
  change (2 ^ 31) with 2147483648 in H.
  apply (H c t).
  - unfold cfg_ok, c, u64_max. cbn [usize_max]. lia.
  - split; [unfold two64; lia|exact B].
  - rewrite M. lia.
  - apply C64_to_bytes.
    + rewrite M. change (2 ^ 63) with 9223372036854775808. lia.
    + rewrite S. unfold c. cbn [usize_max]. lia.
    + rewrite S. unfold c. cbn [usize_max]. lia.
Qed.
Print Assumptions C64_to_bytes_never_panics_refuted.
(** The size can exceed the memory, so a bound of 2^64 bytes would not do. *)
Example C64_instance :
  let t := Tag (2 ^ 64 - 1) (VDict [([97], Tag 20 (VILIntArray [2 ^ 64 - 1; 2 ^ 64 - 1])); ([98], Tag 22 (VSeq [Tag 0 VNull]))]) in
  memory t <= 2 ^ 63 - 2 /\ size_u (Cfg true 4294967295) t = Ok 41 /\
  (let t := Tag 20 (VILIntArray (repeatN (2 ^ 64 - 1) 100)) in memory t = 816 /\ size_u (Cfg true 4294967295) t = Ok 905).
Proof. split; [vm_compute; discriminate|]. vm_compute. auto. Qed.

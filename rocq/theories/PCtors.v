(** Constructors, accessors, setters and the map interface of dictionaries:
    C57, C59. *)
From Verif Require Import Base BaseFacts Types Spec SpecFacts IO ILInt Data Tags SortFacts TagsFacts SameFacts Ctors PDict.

(** ** C57.  What the caller asked for. *)
(** The id argument of a call, if it has one. *)
Definition given_id (x : ctor) : option N :=
  match x with
  | Cnew _ | Cwith_value _ | Cbytes_with_capacity _ | Cversion_with_slice _ _ _ _ => None
  | Cwith_id _ id | Cwith_id_value id _ | Craw_with_capacity id _ | Cversion_with_id_slice id _ _ _ _ => Some id
  end.
(** The struct the function belongs to. *)
Definition given_kind (x : ctor) : kind :=
  match x with
  | Cnew k | Cwith_id k _ => k
  | Cwith_value a | Cwith_id_value _ a => kind_of a
  | Cbytes_with_capacity _ => KBytes
  | Craw_with_capacity _ _ => KRaw
  | Cversion_with_slice _ _ _ _ | Cversion_with_id_slice _ _ _ _ _ => KVersion
  end.
(** The value argument, if it has one. *)
Definition given_value (x : ctor) : option value :=
  match x with
  | Cnew _ | Cwith_id _ _ | Cbytes_with_capacity _ | Craw_with_capacity _ _ => None
  | Cwith_value a | Cwith_id_value _ a => Some a
  | Cversion_with_slice a b c d | Cversion_with_id_slice _ a b c d => Some (VVersion a b c d)
  end.
(** Zero, false or empty; sixteen zero bytes for [u8; 16], four zeros for [i32; 4]. *)
Definition zero_obs (k : kind) (o : obs) : Prop :=
  match o with
  | ON n => n = 0
  | OZ z => z = 0%Z
  | OB b => b = false
  | OL l => Forall (fun b => b = 0) l /\ length l = match k with KBin128 => 16%nat | _ => 0%nat end
  | OA l => l = [0; 0; 0; 0]%Z
  | OT l => l = []
  | OM m => m = []
  | OS m => m = []
  end.

Ltac widths := repeat match goal with w : width |- _ => destruct w end.
Ltac kinds := repeat match goal with k : kind |- _ => destruct k | w : width |- _ => destruct w end.
(** Ids the two asserting structs accept. *)
Lemma raw_new_ok id : ILRawTag_new id = if id <=? 15 then Panic else Ok (Tag id (VRaw [])).
Proof. reflexivity. Qed.

Theorem C57_constructors : forall c x t, construct c x = Some (Ok t) ->
  kind_of (tag_val t) = given_kind x /\
  (match given_id x with
   | Some id => tag_id t = id
   | None => standard_kind (tag_id t) = Some (given_kind x)
   end) /\
  (match given_value x with
   | Some v => tag_val t = v
   | None => forall f o, get_call f t = Some o -> zero_obs (given_kind x) o
   end).
Proof.
  intros c x t H.
  assert (Z : forall f o v k, kind_of v = k -> v = default_value k -> get_call f (Tag 0 v) = Some o -> zero_obs k o).
  { intros f o v k _ -> G. destruct k; cbn in G; destruct f; try discriminate; injection G as <-; cbn; auto.
    split; [repeat constructor|reflexivity]. }
  assert (D : forall f o id k, get_call f (Tag id (default_value k)) = Some o -> zero_obs k o).
  { intros f o id k G. apply (Z f o (default_value k) k); [now destruct k|reflexivity|exact G]. }
  destruct x as [k|k id|a|id a|cap|id cap|a b d e|id a b d e]; cbn [given_kind given_id given_value].
  - destruct k; cbn in H; try discriminate; injection H as <-;
      (split; [reflexivity|split; [widths; reflexivity|]]); intros f o G; match goal with |- zero_obs ?k _ => apply (D f o _ k G) end.
  - destruct k; cbn [construct] in H; try discriminate;
      try (unfold ILBigDecTag_with_id in H); rewrite ?raw_new_ok in H; try (destruct (id <=? 15); cbn in H; try discriminate);
      injection H as <-; (split; [reflexivity|split; [reflexivity|]]); intros f o G;
      match goal with |- zero_obs ?k _ => apply (D f o id k G) end.
  - destruct a; cbn in H; try discriminate; injection H as <-; (split; [reflexivity|split; [widths; reflexivity|reflexivity]]).
  - destruct a; cbn [construct] in H; try discriminate;
      try (unfold ILBigDecTag_with_id_value, ILRawTag_with_value in H);
      try (unfold ILRawTag_with_value in H);
      try (destruct (is_implicit_tag id); cbn in H; try discriminate);
      injection H as <-; repeat split; reflexivity.
  - cbn [construct] in H. unfold ILByteArrayTag_with_capacity, ILRawTag_with_capacity, Vec_with_capacity in H.
    change (is_implicit_tag IL_BYTES_TAG_ID) with false in H. cbn match in H.
    destruct (_ <? cap); try discriminate. injection H as <-. repeat split. intros f o G. apply (D f o 16 KBytes G).
  - cbn [construct] in H. unfold ILRawTag_with_capacity, Vec_with_capacity in H.
    destruct (is_implicit_tag id); try discriminate. destruct (_ <? cap); try discriminate. injection H as <-.
    repeat split. intros f o G. apply (D f o id KRaw G).
  - injection H as <-. repeat split.
  - injection H as <-. repeat split.
Qed.
Print Assumptions C57_constructors.

(** The only ways for a constructor not to return: an implicit id for a raw or
    big decimal tag, or an impossible capacity. *)
Theorem C57_panics_exactly : forall c x r, construct c x = Some r ->
  (r = Panic <->
   (exists id, given_id x = Some id /\ id <= 15 /\ (given_kind x = KRaw \/ given_kind x = KBigDec)) \/
   (exists cap, (x = Cbytes_with_capacity cap \/ exists id, x = Craw_with_capacity id cap) /\ usize_max c < 2 * cap)) /\
  (r = Panic \/ exists t, r = Ok t).
Proof.
  intros c x r H.
  assert (Lw : forall id, is_implicit_tag id = true <-> id <= 15).
  { intros id. unfold is_implicit_tag, IMPLICIT_ID_MAX. lia. }
  assert (Lc : forall cap, (usize_max c / 2 <? cap) = true <-> usize_max c < 2 * cap) by (intros cap; lia).
  assert (Ok_case : forall t, r = Ok t ->
     (forall id, given_id x = Some id -> (given_kind x = KRaw \/ given_kind x = KBigDec) -> ~ id <= 15) ->
     (forall cap, (x = Cbytes_with_capacity cap \/ exists id, x = Craw_with_capacity id cap) -> ~ usize_max c < 2 * cap) ->
     (r = Panic <->
       (exists id, given_id x = Some id /\ id <= 15 /\ (given_kind x = KRaw \/ given_kind x = KBigDec)) \/
       (exists cap, (x = Cbytes_with_capacity cap \/ exists id, x = Craw_with_capacity id cap) /\ usize_max c < 2 * cap)) /\
     (r = Panic \/ exists t, r = Ok t)).
  { intros t -> N1 N2. split; [|eauto]. split; [discriminate|].
    intros [(id & G & L & K)|(cap & K & L)]; exfalso; [eapply N1; eauto|eapply N2; eauto]. }
  assert (Fin : forall t, r = Ok t -> (given_kind x <> KRaw /\ given_kind x <> KBigDec \/ given_id x = None) ->
     (forall cap, x <> Cbytes_with_capacity cap) -> (forall id cap, x <> Craw_with_capacity id cap) -> _) by
    (intros t E K N1 N2; refine (Ok_case t E _ _);
     [intros id G [K'|K']; destruct K as [[? ?]|K]; congruence
     |intros cap [K'|[id K']]; [destruct (N1 cap K')|destruct (N2 id cap K')]]).
  destruct x as [k|k id|a|id a|cap|id cap|a b d e|id a b d e].
  - destruct k; cbn in H; try discriminate; injection H as <-; (eapply Fin; [reflexivity|now right|discriminate|discriminate]).
  - destruct k; cbn [construct] in H; try discriminate;
      try (injection H as <-; eapply Fin; [reflexivity|left; cbn; split; discriminate|discriminate|discriminate]).
    + unfold ILRawTag_new in H. destruct (is_implicit_tag id) eqn:E; injection H as <-.
      * split; [|auto]. split; [|auto]. intros _. left. exists id. apply Lw in E. cbn. auto.
      * eapply Ok_case; [reflexivity| |intros cap [K|[? K]]; discriminate]. intros i [= <-] _ L. apply Lw in L. congruence.
    + unfold ILBigDecTag_with_id, ILRawTag_new in H. destruct (is_implicit_tag id) eqn:E; injection H as <-.
      * split; [|auto]. split; [|auto]. intros _. left. exists id. apply Lw in E. cbn. auto.
      * eapply Ok_case; [reflexivity| |intros cap [K|[? K]]; discriminate]. intros i [= <-] _ L. apply Lw in L. congruence.
  - destruct a; cbn in H; try discriminate; injection H as <-; (eapply Fin; [reflexivity|now right|discriminate|discriminate]).
  - destruct a; cbn [construct] in H; try discriminate;
      try (injection H as <-; eapply Fin; [reflexivity|left; cbn; split; discriminate|discriminate|discriminate]).
    + unfold ILRawTag_with_value in H. destruct (is_implicit_tag id) eqn:E; injection H as <-.
      * split; [|auto]. split; [|auto]. intros _. left. exists id. apply Lw in E. cbn. auto.
      * eapply Ok_case; [reflexivity| |intros cap [K|[? K]]; discriminate]. intros i [= <-] _ L. apply Lw in L. congruence.
    + unfold ILBigDecTag_with_id_value, ILRawTag_with_value in H. destruct (is_implicit_tag id) eqn:E; injection H as <-.
      * split; [|auto]. split; [|auto]. intros _. left. exists id. apply Lw in E. cbn. auto.
      * eapply Ok_case; [reflexivity| |intros cap [K|[? K]]; discriminate]. intros i [= <-] _ L. apply Lw in L. congruence.
  - cbn [construct] in H. unfold ILByteArrayTag_with_capacity, ILRawTag_with_capacity, Vec_with_capacity in H.
    change (is_implicit_tag IL_BYTES_TAG_ID) with false in H. cbn match in H.
    destruct (usize_max c / 2 <? cap) eqn:E; injection H as <-.
    + apply Lc in E. split; [|auto]. split; [|auto]. intros _. right. eauto.
    + eapply Ok_case; [reflexivity|intros i [=]|]. intros cap' [[= <-]|[? [=]]] L. apply Lc in L. congruence.
  - cbn [construct] in H. unfold ILRawTag_with_capacity, Vec_with_capacity in H.
    destruct (is_implicit_tag id) eqn:E.
    + injection H as <-. apply Lw in E. split; [|auto]. split; [|auto]. intros _. left. exists id. cbn. auto.
    + destruct (usize_max c / 2 <? cap) eqn:E'; injection H as <-.
      * apply Lc in E'. split; [|auto]. split; [|auto]. intros _. right. eauto.
      * eapply Ok_case; [reflexivity| |].
        -- intros i [= <-] _ L. apply Lw in L. congruence.
        -- intros cap' [[=]|[? [= _ <-]]] L. apply Lc in L. congruence.
  - injection H as <-. eapply Fin; [reflexivity|now right|discriminate|discriminate].
  - injection H as <-. eapply Fin; [reflexivity|left; cbn; split; discriminate|discriminate|discriminate].
Qed.
Print Assumptions C57_panics_exactly.

(** Which structs have which constructors. *)
Theorem C57_constructors_offered : forall c,
  (forall k, construct c (Cnew k) = None <-> k = KRaw) /\
  (forall k id, construct c (Cwith_id k id) = None <-> k = KBytes \/ k = KBigInt) /\
  (forall a, construct c (Cwith_value a) = None <-> In (kind_of a) [KNull; KRaw; KSeq; KArr; KDict; KStrDict]) /\
  (forall id a, construct c (Cwith_id_value id a) = None <->
     In (kind_of a) [KNull; KBytes; KBigInt; KSeq; KArr; KDict; KStrDict]).
Proof.
  intros c. split; [|split; [|split]].
  - intros k. destruct k; cbn [construct]; (split; [try discriminate; auto|try discriminate; auto]).
  - intros k id. destruct k; cbn [construct]; (split; [try discriminate; auto|intros [|]; try discriminate; auto]).
  - intros a. destruct a; cbn [construct kind_of In]; (split; [try discriminate; auto 10|intuition (try discriminate; auto)]).
  - intros id a. destruct a; cbn [construct kind_of In]; (split; [try discriminate; auto 10|intuition (try discriminate; auto)]).
Qed.
Print Assumptions C57_constructors_offered.

(** [Default] and [DefaultWithId], which the factories use, are these constructors. *)
Theorem C57_defaults : forall c k,
  construct c (Cnew k) = option_map Ok (tag_default k) /\
  forall id, construct c (Cwith_id k id) = tag_default_with_id k id.
Proof.
  intros c k. split.
  - destruct k; try reflexivity; widths; reflexivity.
  - intros id. destruct k; try reflexivity. cbn [construct tag_default_with_id]. unfold ILBigDecTag_with_id, ILRawTag_new.
    destruct (is_implicit_tag id); reflexivity.
Qed.
Print Assumptions C57_defaults.

(** ** Setters *)
(** What a call means for each field: the new contents in terms of the old.
    A field a call does not name is [None]. *)
Definition named (s : setter) (f : field) : option (obs -> obs) :=
  match s, f with
  | Sset_value (VBool b), Fvalue => Some (fun _ => OB b)
  | Sset_value (VUInt _ n), Fvalue => Some (fun _ => ON n)
  | Sset_value (VSInt _ z), Fvalue => Some (fun _ => OZ z)
  | Sset_value (VBin32 n), Fvalue => Some (fun _ => ON n)
  | Sset_value (VBin64 n), Fvalue => Some (fun _ => ON n)
  | Sset_value (VBin128 bs), Fvalue => Some (fun _ => OL bs)
  | Sset_value (VILInt n), Fvalue => Some (fun _ => ON n)
  | Sset_value (VSILInt z), Fvalue => Some (fun _ => OZ z)
  | Sset_value (VRaw bs), Fvalue => Some (fun _ => OL bs)
  | Sset_value (VString s), Fvalue => Some (fun _ => OL s)
  | Sset_value (VILIntArray l), Fvalue => Some (fun _ => OL l)
  | Sset_value (VOID l), Fvalue => Some (fun _ => OL l)
  | Sset_value (VRange n _), Fstart => Some (fun _ => ON n)
  | Sset_value (VRange _ n), Fcount => Some (fun _ => ON n)
  | Sset_value (VVersion a _ _ _), Fmajor => Some (fun _ => OZ a)
  | Sset_value (VVersion _ b _ _), Fminor => Some (fun _ => OZ b)
  | Sset_value (VVersion _ _ c _), Frevision => Some (fun _ => OZ c)
  | Sset_value (VVersion _ _ _ d), Fbuild => Some (fun _ => OZ d)
  | Sset_scale z, Fscale => Some (fun _ => OZ z)
  | Sset_start n, Fstart => Some (fun _ => ON n)
  | Sset_count n, Fcount => Some (fun _ => ON n)
  | Sset_major z, Fmajor => Some (fun _ => OZ z)
  | Sset_minor z, Fminor => Some (fun _ => OZ z)
  | Sset_revision z, Frevision => Some (fun _ => OZ z)
  | Sset_build z, Fbuild => Some (fun _ => OZ z)
  | Sset_value_from_slice a _ _ _, Fmajor => Some (fun _ => OZ a)
  | Sset_value_from_slice _ b _ _, Fminor => Some (fun _ => OZ b)
  | Sset_value_from_slice _ _ c _, Frevision => Some (fun _ => OZ c)
  | Sset_value_from_slice _ _ _ d, Fbuild => Some (fun _ => OZ d)
  | Smut_bytes g, Fvalue => Some (fun o => match o with OL l => OL (g l) | o => o end)
  | Smut_numbers g, Fvalue => Some (fun o => match o with OL l => OL (g l) | o => o end)
  | Smut_tags g, Fvalue => Some (fun o => match o with OT l => OT (g l) | o => o end)
  | Smut_map g, Fvalue => Some (fun o => match o with OM m => OM (g m) | o => o end)
  | Smut_strmap g, Fvalue => Some (fun o => match o with OS m => OS (g m) | o => o end)
  | Sinsert k v, Fvalue => Some (fun o => match o with OM m => OM (put k v m) | o => o end)
  | Sinsert_str k v, Fvalue => Some (fun o => match o with OS m => OS (put k v m) | o => o end)
  | _, _ => None
  end.
Definition after (s : setter) (f : field) (o : option obs) : option obs :=
  match named s f with Some g => option_map g o | None => o end.
(** A sequence of calls. *)
Fixpoint set_calls (h : list setter) (t : tag) : option tag :=
  match h with
  | [] => Some t
  | s :: h => match set_call s t with Some t' => set_calls h t' | None => None end
  end.

Lemma Some_inv {A} (x y : A) : Some x = Some y -> x = y.
Proof. now intros [= ->]. Qed.
Lemma set_call_id_kind s t t' : set_call s t = Some t' ->
  tag_id t' = tag_id t /\ kind_of (tag_val t') = kind_of (tag_val t).
Proof.
  destruct t as [id v]. intros H.
  destruct s as [a| | | | | | | | | | | | | | |]; [destruct a; destruct v; try discriminate H|destruct v; try discriminate H..];
    try (injection H as <-; split; reflexivity).
  all: cbn [set_call tag_val] in H; match type of H with context [width_eqb ?a ?b] => destruct a, b; try discriminate H end;
    injection H as <-; split; reflexivity.
Qed.
(** The four numbers of a version tag also show through [value()]. *)
Theorem C57_version_value : forall t, kind_of (tag_val t) = KVersion ->
  exists a b c d, get_call Fmajor t = Some (OZ a) /\ get_call Fminor t = Some (OZ b) /\
    get_call Frevision t = Some (OZ c) /\ get_call Fbuild t = Some (OZ d) /\ get_call Fvalue t = Some (OA [a; b; c; d]).
Proof. intros [id v] H. destruct v; try discriminate. repeat eexists. Qed.
Print Assumptions C57_version_value.

Lemma set_call_field s t t' f : set_call s t = Some t' ->
  (kind_of (tag_val t) = KVersion -> f <> Fvalue) -> get_call f t' = after s f (get_call f t).
Proof.
  destruct t as [id v]. intros H Hf.
  destruct s as [a| | | | | | | | | | | | | | |]; [destruct a; destruct v; try discriminate H|destruct v; try discriminate H..];
    cbn [set_call tag_val tag_id] in H;
    try match type of H with context [width_eqb ?a ?b] => destruct a, b; try discriminate H end;
    cbn [option_map ILDictTag_insert ILStrDictTag_insert snd] in H; rewrite ?hm_insert_put in H; apply Some_inv in H; subst t';
    destruct f; try reflexivity; exfalso; now apply Hf.
Qed.
Theorem C57_setters : forall s t t', set_call s t = Some t' ->
  tag_id t' = tag_id t /\ kind_of (tag_val t') = kind_of (tag_val t) /\
  forall f, (kind_of (tag_val t) = KVersion -> f <> Fvalue) -> get_call f t' = after s f (get_call f t).
Proof.
  intros s t t' H. destruct (set_call_id_kind s t t' H) as [I K]. split; [exact I|split; [exact K|]].
  intros f Hf. now apply set_call_field.
Qed.
Print Assumptions C57_setters.
(** Any sequence of calls, in any order. *)
Theorem C57_histories : forall h t t', set_calls h t = Some t' ->
  tag_id t' = tag_id t /\ kind_of (tag_val t') = kind_of (tag_val t) /\
  forall f, (kind_of (tag_val t) = KVersion -> f <> Fvalue) ->
    get_call f t' = fold_left (fun o s => after s f o) h (get_call f t).
Proof.
  induction h as [|s h IH]; intros t t' H; cbn [set_calls fold_left] in *; [injection H as <-; auto|].
  destruct (set_call s t) as [u|] eqn:E; [|discriminate]. destruct (C57_setters s t u E) as (I & K & F).
  destruct (IH u t' H) as (I' & K' & F'). rewrite K in *. split; [congruence|]. split; [congruence|].
  intros f Hf. rewrite (F' f Hf). now rewrite (F f Hf).
Qed.
Print Assumptions C57_histories.
(** In particular the last [set_value] wins, whatever happened before. *)
Corollary C57_last_value_set : forall h t t' a, set_calls (h ++ [Sset_value a]) t = Some t' ->
  tag_id t' = tag_id t /\ tag_val t' = a.
Proof.
  intros h t t' a H.
  assert (E : exists u, set_calls h t = Some u /\ set_call (Sset_value a) u = Some t').
  { revert t H. induction h as [|s h IH]; intros t H; cbn [set_calls app] in *.
    - exists t. split; [reflexivity|]. destruct (set_call _ t); exact H.
    - destruct (set_call s t) as [u|]; [|discriminate]. now apply IH. }
  destruct E as (u & Hu & Hs). destruct (C57_histories h t u Hu) as (I & _ & _). destruct u as [i v]. cbn [tag_id] in I. subst i.
  destruct a; destruct v; try discriminate Hs; cbn [set_call tag_val] in Hs;
    try match type of Hs with context [width_eqb ?a ?b] => destruct a, b; try discriminate Hs end;
    injection Hs as <-; split; reflexivity.
Qed.
Print Assumptions C57_last_value_set.

(** ** The interface only builds well-formed tags *)
(** The arguments respect their Rust types. *)
Definition ctor_args_ok (x : ctor) : Prop :=
  match given_id x with Some id => id < two64 | None => True end /\
  match given_value x with Some v => wfv v | None => True end.
Definition setter_args_ok (s : setter) : Prop :=
  match s with
  | Sset_value a => wfv a
  | Sset_scale z | Sset_major z | Sset_minor z | Sset_revision z | Sset_build z => signed_range W32 z
  | Sset_start n => n < two64
  | Sset_count n => n < 65536
  | Sset_value_from_slice a b c d => signed_range W32 a /\ signed_range W32 b /\ signed_range W32 c /\ signed_range W32 d
  | Smut_bytes f => (forall l, bytes_ok l -> bytes_ok (f l)) /\ (forall l, utf8 l -> utf8 (f l))
  | Smut_numbers f => forall l, Forall (fun n => n < two64) l -> Forall (fun n => n < two64) (f l)
  | Smut_tags f => forall l, all wf l -> all wf (f l)
  | Smut_map f => forall m, wfv (VDict m) -> wfv (VDict (f m))
  | Smut_strmap f => forall m, wfv (VStrDict m) -> wfv (VStrDict (f m))
  | Sinsert k v => utf8 k /\ wf v
  | Sinsert_str k v => utf8 k /\ utf8 v
  end.
Lemma all_Forall {A} (P : A -> Prop) l : all P l <-> Forall P l.
Proof.
  induction l as [|x l IH]; cbn [all fold_right]; [split; constructor|]. fold (all P l). rewrite IH.
  split; [intros [? ?]; now constructor|intros H; inversion H; auto].
Qed.
Theorem C57_well_formed : forall c x t h t',
  construct c x = Some (Ok t) -> ctor_args_ok x -> Forall setter_args_ok h -> set_calls h t = Some t' -> wf t'.
Proof.
  intros c x t h t' H [Ai Av] Fh Hs.
  assert (W : wf t).
  { destruct (C57_constructors c x t H) as (K & I & V). destruct t as [id v]. cbn [tag_id tag_val] in *. split.
    - destruct (given_id x); [now subst|]. destruct (N.lt_ge_cases id two64) as [L|L]; [exact L|].
      exfalso. assert (E : standard_kind id = None); [|congruence].
      unfold two64 in L. unfold standard_kind.
      repeat match goal with |- context [match ?p with _ => _ end] => destruct p end; try reflexivity; lia.
    - destruct (given_value x) eqn:Gx; [now subst|].
      assert (E : v = default_value (given_kind x)).
      { clear I V. destruct x as [k|k id'|a|id' a|cap|id' cap|a b d e|id' a b d e]; cbn in Gx |- *; try discriminate.
        - destruct k; cbn in H; try discriminate; injection H as _ <-; reflexivity.
        - destruct k; cbn [construct] in H; try discriminate;
            try (unfold ILBigDecTag_with_id in H); rewrite ?raw_new_ok in H; try (destruct (id' <=? 15); cbn in H; try discriminate);
            injection H as _ <-; reflexivity.
        - cbn [construct] in H. unfold ILByteArrayTag_with_capacity, ILRawTag_with_capacity, Vec_with_capacity in H.
          change (is_implicit_tag IL_BYTES_TAG_ID) with false in H. cbn match in H.
          destruct (_ <? cap); try discriminate. injection H as _ <-. reflexivity.
        - cbn [construct] in H. unfold ILRawTag_with_capacity, Vec_with_capacity in H.
          destruct (is_implicit_tag _); try discriminate. destruct (_ <? cap); try discriminate. injection H as _ <-. reflexivity. }
      rewrite E. destruct (given_kind x); cbn [default_value wfv all fold_right map]; widths; repeat split; try constructor;
        try (unfold signed_range, i64_range, wmod, two64; cbn; lia); try (exists []; split; [constructor|reflexivity]).
      all: try (vm_compute; repeat constructor); repeat constructor. }
  clear H Ai Av. revert t W Hs. induction Fh as [|s h Hs' Fh IH]; intros t W Hs; cbn [set_calls] in Hs; [now injection Hs as <-|].
  destruct (set_call s t) as [u|] eqn:E; [|discriminate]. apply (IH u); [|exact Hs]. clear Hs IH Fh.
  destruct t as [id v]. destruct W as [Wi Wv].
  destruct s as [a| | | | | | | | | | | | | | |]; [destruct a; destruct v; try discriminate E|destruct v; try discriminate E..];
    cbn [set_call tag_val tag_id] in E;
    try match type of E with context [width_eqb ?a ?b] => destruct a, b; try discriminate E end;
    cbn [option_map ILDictTag_insert ILStrDictTag_insert snd] in E; rewrite ?hm_insert_put in E;
    apply Some_inv in E; subst u;
    (split; [exact Wi|]); cbn [setter_args_ok wfv] in *; try tauto; try (cbn; tauto).
  - destruct Hs' as [Hb _]; auto.
  - destruct Hs' as [Hb _]; auto.
  - destruct Hs' as [_ Hu]; auto.
  - destruct Hs' as [Hb _]; auto.
  - destruct Hs' as [Hb _]. destruct Wv. auto.
  - auto.
  - auto.
  - auto.
  - auto.
  - apply Hs'; exact Wv.
  - apply Hs'; exact Wv.
  - destruct Wv as (Nd & Fk & Wl). destruct Hs' as [Hk Hv]. split; [now apply put_NoDup|]. split; [now apply put_Forall|].
    apply all_Forall. apply put_Forall; [exact Hv|]. now apply all_Forall.
  - destruct Wv as (Nd & Fk). split; [now apply put_NoDup|now apply put_Forall].
Qed.
Print Assumptions C57_well_formed.
(** Concrete calls. *)
Definition cfg64 : cfg := Cfg true u64_max.
Example C57_example_constructors :
  construct cfg64 (Cwith_value (VUInt W16 7)) = Some (Ok (Tag 5 (VUInt W16 7))) /\
  construct cfg64 (Cwith_id_value 40 (VBigDec (-2) [1; 2])) = Some (Ok (Tag 40 (VBigDec (-2) [1; 2]))) /\
  construct cfg64 (Cwith_id_value 15 (VBigDec (-2) [1; 2])) = Some Panic /\
  construct cfg64 (Cwith_id KRaw 16) = Some (Ok (Tag 16 (VRaw []))) /\
  construct cfg64 (Cwith_id KString 3) = Some (Ok (Tag 3 (VString []))) /\
  construct cfg64 (Craw_with_capacity 16 (2 ^ 63 - 1)) = Some (Ok (Tag 16 (VRaw []))) /\
  construct cfg64 (Craw_with_capacity 16 (2 ^ 63)) = Some Panic /\
  construct cfg64 (Cversion_with_slice 1 2 3 4) = Some (Ok (Tag 24 (VVersion 1 2 3 4))).
Proof. repeat split. Qed.
Example C57_example_history :
  set_calls [Sset_minor 9; Sset_value (VVersion 1 2 3 4); Sset_build (-1); Sset_major 7] (Tag 24 (VVersion 0 0 0 0))
  = Some (Tag 24 (VVersion 7 2 3 (-1))) /\
  set_calls [Sset_scale 3; Smut_bytes (fun l => l ++ [9])] (Tag 19 (VBigDec 0 [1])) = Some (Tag 19 (VBigDec 3 [1; 9])) /\
  set_calls [Sset_start 3; Sset_count 4; Sset_start 5] (Tag 23 (VRange 0 0)) = Some (Tag 23 (VRange 5 4)) /\
  set_calls [Sset_scale 3] (Tag 23 (VRange 0 0)) = None.
Proof. repeat split. Qed.
Example C57_example_well_formed : exists t,
  construct cfg64 (Cnew KDict) = Some (Ok t) /\ ctor_args_ok (Cnew KDict) /\
  Forall setter_args_ok [Sinsert [97] (Tag 0 VNull); Sinsert [97] (Tag 1 (VBool true))] /\
  set_calls [Sinsert [97] (Tag 0 VNull); Sinsert [97] (Tag 1 (VBool true))] t = Some (Tag 30 (VDict [([97], Tag 1 (VBool true))])).
Proof.
  assert (U : utf8 [97]) by (exists [97]; split; [repeat constructor; left; lia|reflexivity]).
  exists (Tag 30 (VDict [])). split; [reflexivity|]. split; [split; exact I|]. split; [|reflexivity].
  repeat constructor; exact U || (unfold two64; lia).
Qed.

(** ** C59.  Dictionaries as maps. *)
(** A history of [insert] calls: what each returned, and the tag at the end. *)
Fixpoint inserts (es : list (list N * tag)) (t : tag) : option (list (option tag) * tag) :=
  match es with
  | [] => Some ([], t)
  | (k, v) :: es =>
      match ILDictTag_insert k v t with
      | Some (r, t') => match inserts es t' with Some (rs, t'') => Some (r :: rs, t'') | None => None end
      | None => None
      end
  end.
Fixpoint inserts_str (es : list (list N * list N)) (t : tag) : option (list (option (list N)) * tag) :=
  match es with
  | [] => Some ([], t)
  | (k, v) :: es =>
      match ILStrDictTag_insert k v t with
      | Some (r, t') => match inserts_str es t' with Some (rs, t'') => Some (r :: rs, t'') | None => None end
      | None => None
      end
  end.
(** The number of distinct keys among the entries. *)
Definition distinct {A} (es : list (list N * A)) : N := lenN (nodup (list_eq_dec N.eq_dec) (map fst es)).

Fixpoint g_inserts {A} (es m : list (list N * A)) : list (option A) * list (list N * A) :=
  match es with
  | [] => ([], m)
  | (k, x) :: es => let '(rs, m') := g_inserts es (hm_insert k x m) in (hm_get k m :: rs, m')
  end.
Lemma inserts_g es id m : inserts es (Tag id (VDict m)) = let '(rs, m') := g_inserts es m in Some (rs, Tag id (VDict m')).
Proof.
  revert m; induction es as [|[k x] es IH]; intros m; cbn [inserts g_inserts ILDictTag_insert]; [reflexivity|].
  rewrite IH. destruct (g_inserts es (hm_insert k x m)). reflexivity.
Qed.
Lemma inserts_str_g es id m :
  inserts_str es (Tag id (VStrDict m)) = let '(rs, m') := g_inserts es m in Some (rs, Tag id (VStrDict m')).
Proof.
  revert m; induction es as [|[k x] es IH]; intros m; cbn [inserts_str g_inserts ILStrDictTag_insert]; [reflexivity|].
  rewrite IH. destruct (g_inserts es (hm_insert k x m)). reflexivity.
Qed.
Lemma last_value_app {A} k (a b : list (list N * A)) :
  last_value k (a ++ b) = match last_value k b with Some x => Some x | None => last_value k a end.
Proof.
  unfold last_value. rewrite fold_left_app. generalize (fold_left (fun acc e => if bytes_eqb k (fst e) then Some (snd e) else acc) a None).
  induction b as [|e b IH] using rev_ind; intros o; [reflexivity|]. rewrite !fold_left_app. cbn [fold_left].
  destruct (bytes_eqb k (fst e)); [reflexivity|apply IH].
Qed.
Lemma last_value_NoDup {A} k (m : list (list N * A)) : NoDup (map fst m) -> last_value k m = hm_get k m.
Proof. intros H. rewrite <- hm_get_dict_of. now rewrite dict_of_id. Qed.
Lemma dict_of_snoc {A} (es : list (list N * A)) e : dict_of (es ++ [e]) = put (fst e) (snd e) (dict_of es).
Proof. unfold dict_of. now rewrite fold_left_app. Qed.
Lemma g_inserts_dict {A} (es m : list (list N * A)) : snd (g_inserts es m) = fold_left (fun m e => put (fst e) (snd e) m) es m.
Proof.
  revert m; induction es as [|[k x] es IH]; intros m; cbn [g_inserts fold_left fst snd]; [reflexivity|].
  rewrite <- IH, hm_insert_put. now destruct (g_inserts es (put k x m)).
Qed.
Lemma g_inserts_dict_of {A} (es m : list (list N * A)) : NoDup (map fst m) -> snd (g_inserts es m) = dict_of (m ++ es).
Proof. intros H. rewrite g_inserts_dict. unfold dict_of. rewrite fold_left_app. f_equal. symmetry. now apply (dict_of_id m). Qed.
Lemma dict_of_keys {A} (es : list (list N * A)) k : In k (map fst (dict_of es)) <-> In k (map fst es).
Proof.
  revert k. induction es as [|e es IH] using rev_ind; intros k; [reflexivity|]. rewrite dict_of_snoc, map_app, in_app_iff, put_fst. cbn [map In].
  destruct (existsb (bytes_eqb (fst e)) (map fst (dict_of es))) eqn:E.
  - apply existsb_bytes in E. rewrite IH in E |- *. intuition congruence.
  - rewrite in_app_iff, IH. cbn [In]. tauto.
Qed.
Lemma dict_of_distinct {A} (es : list (list N * A)) : lenN (dict_of es) = distinct es.
Proof.
  unfold distinct, lenN. f_equal. rewrite <- (map_length fst). apply Permutation_length, NoDup_Permutation.
  - apply dict_of_NoDup.
  - apply NoDup_nodup.
  - intros k. now rewrite nodup_In, dict_of_keys.
Qed.
Lemma g_inserts_results {A} (es m : list (list N * A)) n k x : NoDup (map fst m) -> nth_error es n = Some (k, x) ->
  nth_error (fst (g_inserts es m)) n = Some (last_value k (m ++ firstn n es)).
Proof.
  intros Nd. revert m n Nd. induction es as [|[j y] es IH]; intros m n Nd H; [destruct n; discriminate|].
  cbn [g_inserts]. destruct (g_inserts es (hm_insert j y m)) as [rs m'] eqn:E. cbn [fst]. destruct n as [|n].
  - cbn in H. apply Some_inv in H. apply pair_inv in H as [-> ->]. cbn [nth_error firstn]. rewrite app_nil_r, last_value_NoDup by exact Nd. reflexivity.
  - cbn [nth_error firstn] in *. specialize (IH (hm_insert j y m) n). rewrite E in IH. cbn [fst] in IH.
    rewrite hm_insert_put in *. rewrite IH by (auto using put_NoDup). f_equal.
    replace (m ++ (j, y) :: firstn n es) with ((m ++ [(j, y)]) ++ firstn n es) by now rewrite <- app_assoc.
    rewrite !last_value_app. destruct (last_value k (firstn n es)); [reflexivity|].
    rewrite (last_value_NoDup k (put j y m)) by now apply put_NoDup.
    rewrite hm_get_put. unfold last_value at 1. cbn [fold_left fst snd]. destruct (bytes_eqb k j); [reflexivity|].
    symmetry. now apply last_value_NoDup.
Qed.
Lemma g_inserts_length {A} (es m : list (list N * A)) : length (fst (g_inserts es m)) = length es.
Proof.
  revert m; induction es as [|[k x] es IH]; intros m; cbn [g_inserts]; [reflexivity|]. specialize (IH (hm_insert k x m)).
  destruct (g_inserts es _). cbn [fst length] in *. now rewrite IH.
Qed.

(** Any history of insertions into any dictionary: nothing but the entries
    changes; [get] finds the last value inserted under the key; each [insert]
    returned the value its key had; [len] counts distinct keys. *)
Theorem C59_insert_get : forall id m es, NoDup (map fst m) -> exists rs m',
  inserts es (Tag id (VDict m)) = Some (rs, Tag id (VDict m')) /\ length rs = length es /\
  (forall k, ILDictTag_get k (Tag id (VDict m')) = Some (last_value k (m ++ es))) /\
  (forall n k x, nth_error es n = Some (k, x) -> nth_error rs n = Some (last_value k (m ++ firstn n es))) /\
  dict_len (Tag id (VDict m')) = Some (distinct (m ++ es)) /\
  (dict_is_empty (Tag id (VDict m')) = Some true <-> m = [] /\ es = []) /\ NoDup (map fst m').
Proof.
  intros id m es Nd. exists (fst (g_inserts es m)), (snd (g_inserts es m)). rewrite inserts_g.
  split; [now destruct (g_inserts es m)|]. split; [apply g_inserts_length|]. rewrite (g_inserts_dict_of es m Nd).
  split; [|split; [|split; [|split]]].
  - intros k. unfold ILDictTag_get. cbn [tag_val]. rewrite hm_get_dict_of. now destruct (last_value k (m ++ es)).
  - intros n k x H. now apply g_inserts_results with x.
  - unfold dict_len. cbn [tag_val]. now rewrite dict_of_distinct.
  - unfold dict_is_empty. cbn [tag_val]. split.
    + intros H. assert (E : dict_of (m ++ es) = []) by (destruct (dict_of (m ++ es)); [reflexivity|discriminate]).
      destruct (m ++ es) as [|[k x] l] eqn:El; [now apply app_eq_nil in El|].
      exfalso. apply (f_equal (map fst)) in E. cbn [map] in E.
      assert (K : In k (map fst (dict_of ((k, x) :: l)))) by (apply dict_of_keys; now left). now rewrite E in K.
    + intros [-> ->]. reflexivity.
  - apply dict_of_NoDup.
Qed.
Print Assumptions C59_insert_get.
Theorem C59_insert_get_string : forall id m es, NoDup (map fst m) -> exists rs m',
  inserts_str es (Tag id (VStrDict m)) = Some (rs, Tag id (VStrDict m')) /\ length rs = length es /\
  (forall k, ILStrDictTag_get k (Tag id (VStrDict m')) = Some (last_value k (m ++ es))) /\
  (forall n k x, nth_error es n = Some (k, x) -> nth_error rs n = Some (last_value k (m ++ firstn n es))) /\
  dict_len (Tag id (VStrDict m')) = Some (distinct (m ++ es)) /\
  (dict_is_empty (Tag id (VStrDict m')) = Some true <-> m = [] /\ es = []) /\ NoDup (map fst m').
Proof.
  intros id m es Nd. exists (fst (g_inserts es m)), (snd (g_inserts es m)). rewrite inserts_str_g.
  split; [now destruct (g_inserts es m)|]. split; [apply g_inserts_length|]. rewrite (g_inserts_dict_of es m Nd).
  split; [|split; [|split; [|split]]].
  - intros k. unfold ILStrDictTag_get. cbn [tag_val]. rewrite hm_get_dict_of. now destruct (last_value k (m ++ es)).
  - intros n k x H. now apply g_inserts_results with x.
  - unfold dict_len. cbn [tag_val]. now rewrite dict_of_distinct.
  - unfold dict_is_empty. cbn [tag_val]. split.
    + intros H. assert (E : dict_of (m ++ es) = []) by (destruct (dict_of (m ++ es)); [reflexivity|discriminate]).
      destruct (m ++ es) as [|[k x] l] eqn:El; [now apply app_eq_nil in El|].
      exfalso. apply (f_equal (map fst)) in E. cbn [map] in E.
      assert (K : In k (map fst (dict_of ((k, x) :: l)))) by (apply dict_of_keys; now left). now rewrite E in K.
    + intros [-> ->]. reflexivity.
  - apply dict_of_NoDup.
Qed.
Print Assumptions C59_insert_get_string.

(** Entries with the same contents are permutations of each other. *)
Lemma same_contents {A} (m m' : list (list N * A)) : NoDup (map fst m) -> NoDup (map fst m') ->
  (forall k, hm_get k m = hm_get k m') -> Permutation m m'.
Proof.
  intros N1 N2 H. apply NoDup_Permutation.
  - now apply NoDup_map_inv in N1.
  - now apply NoDup_map_inv in N2.
  - intros [k x]. split; intros K.
    + apply hm_get_some. rewrite <- H. now apply hm_get_in.
    + apply hm_get_some. rewrite H. now apply hm_get_in.
Qed.
(** How a dictionary was filled does not show in what is written: two
    histories that leave the same value under every key give the same bytes, to
    any writer, and the same size. *)
Theorem C59_history_does_not_show :
  (forall id es es' rs rs' t t', id < two64 ->
    Forall (fun e => utf8 (fst e) /\ wf (snd e)) es -> Forall (fun e => utf8 (fst e) /\ wf (snd e)) es' ->
    (forall k, last_value k es = last_value k es') ->
    inserts es (ILDictTag_with_id id) = Some (rs, t) -> inserts es' (ILDictTag_with_id id) = Some (rs', t') ->
    (forall w, serialize t w = serialize t' w) /\ size t = size t') /\
  (forall id es es' rs rs' t t', id < two64 ->
    Forall (fun e => utf8 (fst e) /\ utf8 (snd e)) es -> Forall (fun e => utf8 (fst e) /\ utf8 (snd e)) es' ->
    (forall k, last_value k es = last_value k es') ->
    inserts_str es (ILStrDictTag_with_id id) = Some (rs, t) -> inserts_str es' (ILStrDictTag_with_id id) = Some (rs', t') ->
    (forall w, serialize t w = serialize t' w) /\ size t = size t').
Proof.
  assert (Fp : forall A (P : list N * A -> Prop) es, Forall P es -> Forall P (dict_of es)).
  { intros A P es F. unfold dict_of. assert (F0 : Forall P []) by constructor. revert F0. generalize (@nil (list N * A)).
    induction F as [|[k x] es H F IH]; intros m F0; cbn [fold_left]; [exact F0|]. apply IH. now apply put_Forall. }
  split.
  - intros id es es' rs rs' t t' Hid F F' Hl E E'. unfold ILDictTag_with_id in *. rewrite inserts_g in E, E'.
    pose proof (g_inserts_dict_of es [] (NoDup_nil _)) as D. pose proof (g_inserts_dict_of es' [] (NoDup_nil _)) as D'.
    destruct (g_inserts es []) as [r m], (g_inserts es' []) as [r' m']. cbn [snd app] in D, D'. subst m m'.
    injection E as _ <-. injection E' as _ <-. destruct same_ser_eq as [S _].
    assert (W : wf (Tag id (VDict (dict_of es)))).
    { split; [exact Hid|]. pose proof (Fp _ _ es F) as Fd. cbn [wfv]. split; [apply dict_of_NoDup|]. split.
      - revert Fd. apply Forall_impl. tauto.
      - apply all_Forall. revert Fd. apply Forall_impl. tauto. }
    assert (Hs : same_tags (map snd (dict_of es')) (map snd (dict_of es'))).
    { generalize (map snd (dict_of es')). intros l. induction l as [|[i v] l IH]; constructor; auto. constructor. constructor. }
    destruct (S (Tag id (VDict (dict_of es))) (Tag id (VDict (dict_of es')))) as [H1 H2]; [|exact W|split; assumption].
    constructor. apply same_dict with (dict_of es'); auto.
    apply same_contents; [apply dict_of_NoDup|apply dict_of_NoDup|]. intros k. now rewrite !hm_get_dict_of.
  - intros id es es' rs rs' t t' Hid F F' Hl E E'. unfold ILStrDictTag_with_id in *. rewrite inserts_str_g in E, E'.
    pose proof (g_inserts_dict_of es [] (NoDup_nil _)) as D. pose proof (g_inserts_dict_of es' [] (NoDup_nil _)) as D'.
    destruct (g_inserts es []) as [r m], (g_inserts es' []) as [r' m']. cbn [snd app] in D, D'. subst m m'.
    injection E as _ <-. injection E' as _ <-. destruct same_ser_eq as [S _].
    assert (W : wf (Tag id (VStrDict (dict_of es)))).
    { split; [exact Hid|]. pose proof (Fp _ _ es F) as Fd. cbn [wfv]. split; [apply dict_of_NoDup|exact Fd]. }
    destruct (S (Tag id (VStrDict (dict_of es))) (Tag id (VStrDict (dict_of es')))) as [H1 H2]; [|exact W|split; assumption].
    constructor. apply same_strdict.
    apply same_contents; [apply dict_of_NoDup|apply dict_of_NoDup|]. intros k. now rewrite !hm_get_dict_of.
Qed.
Print Assumptions C59_history_does_not_show.
Example C59_example :
  inserts [([98], Tag 0 VNull); ([97], Tag 3 (VUInt W8 1)); ([98], Tag 3 (VUInt W8 2))] ILDictTag_new
  = Some ([None; None; Some (Tag 0 VNull)], Tag 30 (VDict [([98], Tag 3 (VUInt W8 2)); ([97], Tag 3 (VUInt W8 1))])) /\
  (forall k, last_value k [([98], Tag 0 VNull); ([97], Tag 3 (VUInt W8 1)); ([98], Tag 3 (VUInt W8 2))]
           = last_value k [([97], Tag 3 (VUInt W8 1)); ([98], Tag 3 (VUInt W8 2))]) /\
  Forall (fun e => utf8 (fst e) /\ wf (snd e)) [([98], Tag 0 VNull); ([97], Tag 3 (VUInt W8 1)); ([98], Tag 3 (VUInt W8 2))].
Proof.
  split; [reflexivity|]. split.
  - intros k. unfold last_value. cbn [fold_left fst snd]. destruct (bytes_eqb k [98]); [reflexivity|]. reflexivity.
  - assert (U : forall c, c < 128 -> utf8 [c]).
    { intros c Hc. exists [c]. split; [constructor; [left; lia|constructor]|]. unfold utf8_encode, flat_map, utf8_char.
      destruct (c <? 128) eqn:E; [reflexivity|lia]. }
    repeat constructor; cbn; try (apply U; lia); unfold two64; lia.
Qed.

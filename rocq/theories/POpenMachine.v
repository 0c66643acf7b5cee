(** Sizes said by user tags in machine arithmetic: C78. *)
From Verif Require Import Base BaseFacts Types Spec SpecFacts IO IOSpec IOFacts WriterFacts Logic WLogic ILInt ILIntFacts Data DataFacts Tags
  SortFacts TagsFacts Factory FactoryFacts Scanner Ctors Machine PMachine Payload Open OpenFacts POpen OpenMachine.

(** ** Specification *)
Section Wrapped.
Context {T : Type} (dsz : T -> N) (wr : T -> list N).
(** What a tree says and writes if the sum in every container is reduced modulo
    2^64; [declared] and [laid] are without the reduction. *)
Fixpoint wrapped (t : otag T) : N :=
  match t with
  | OStd id v => lenN (enc (Tag id v))
  | OUser x => dsz x
  | OSeq id l => let n := nsum (map wrapped l) mod two64 in (lenN (enc_header id n) + n) mod two64
  | OArr id l =>
      let n := (lenN (ilint (lenN l)) + nsum (map wrapped l)) mod two64 in (lenN (enc_header id n) + n) mod two64
  | ODict id l =>
      let n := (lenN (ilint (lenN l)) + nsum (map (fun e => lenN (enc_string (fst e)) + wrapped (snd e)) l)) mod two64 in
      (lenN (enc_header id n) + n) mod two64
  end.
Fixpoint wlaid (t : otag T) : list N :=
  match t with
  | OStd id v => enc (Tag id v)
  | OUser x => wr x
  | OSeq id l => enc_header id (nsum (map wrapped l) mod two64) ++ concat (map wlaid l)
  | OArr id l =>
      enc_header id ((lenN (ilint (lenN l)) + nsum (map wrapped l)) mod two64) ++ ilint (lenN l) ++ concat (map wlaid l)
  | ODict id l =>
      enc_header id ((lenN (ilint (lenN l)) + nsum (map (fun e => lenN (enc_string (fst e)) + wrapped (snd e)) l)) mod two64)
      ++ ilint (lenN l)
      ++ concat (map (fun e => enc_string (fst e) ++ snd e) (sort_entries (map (fun e => (fst e, wlaid (snd e))) l)))
  end.
(** The tags of the library are well-formed and each string and list fits in 64
    bits, the user tags say a 64-bit number: nothing about the sums. *)
Fixpoint plain (t : otag T) : Prop :=
  match t with
  | OStd id v => wf (Tag id v) /\ lenN (enc (Tag id v)) < two64
  | OUser x => dsz x < two64
  | OSeq id l => id < two64 /\ all plain l
  | OArr id l => id < two64 /\ lenN l < two64 /\ all plain l
  | ODict id l =>
      id < two64 /\ lenN l < two64 /\ NoDup (map fst l) /\ Forall (fun e => lenN (enc_string (fst e)) < two64) l /\
      all (fun e => plain (snd e)) l
  end.
(** The size of the value of a container, exactly. *)
Definition declared_value (t : otag T) : option N :=
  match t with
  | OStd _ _ | OUser _ => None
  | OSeq _ l => Some (nsum (map (declared dsz) l))
  | OArr _ l => Some (lenN (ilint (lenN l)) + nsum (map (declared dsz) l))
  | ODict _ l =>
      Some (lenN (ilint (lenN l)) + nsum (map (fun e => lenN (enc_string (fst e)) + declared dsz (snd e)) l))
  end.
End Wrapped.

Lemma two64_pos : 0 < two64.
Proof. reflexivity. Qed.
Lemma mod_lt n : n mod two64 < two64.
Proof. apply N.mod_lt. discriminate. Qed.
Lemma enc_string_len s : lenN (enc_string s) < two64 -> lenN s < two64.
Proof. unfold enc_string. rewrite !lenN_app. lia. Qed.
Lemma nsum_cons a l : nsum (a :: l) = a + nsum l.
Proof. reflexivity. Qed.
Lemma nsum_in l x : In x l -> x <= nsum l.
Proof. induction l as [|a l IH]; intros []; rewrite nsum_cons; [lia|]. specialize (IH H). lia. Qed.

(** ** With overflow checks *)
Section Checked.
Context {T : Type} (U : user_impl T) (c : cfg).
Notation decl := (declared (u_size U)).
Hypothesis Hc : overflow_checks c = true.
Definition chk (n : N) : res tag_error N := if n <? two64 then Ok n else Panic.
Lemma chk_add a b : add_u64 c a b = chk (a + b).
Proof. unfold add_u64, chk. now rewrite Hc. Qed.
Lemma chk_then a f g : (two64 <= a -> two64 <= g) -> (a < two64 -> f a = chk g) -> and_then (chk a) f = chk g.
Proof.
  intros H1 H2. unfold chk at 1. destruct (N.ltb_spec a two64) as [L|L]; cbn [and_then]; [now apply H2|].
  unfold chk. destruct (N.ltb_spec g two64); [|reflexivity]. specialize (H1 L). lia.
Qed.
Lemma chk_sum {A} (f : A -> res tag_error N) (g : A -> N) l a :
  Forall (fun x => f x = chk (g x)) l -> a < two64 -> sum_u c f l a = chk (a + nsum (map g l)).
Proof.
  intros F La. unfold sum_u. assert (E : @Ok tag_error N a = chk a) by (unfold chk; destruct (N.ltb_spec a two64); [reflexivity|lia]).
  rewrite E. clear E La. revert a. induction F as [|x l Hx F IH]; intros a; cbn [fold_left map].
  - f_equal. cbn. lia.
  - rewrite (chk_then a _ (a + g x)); [|lia|].
    + rewrite IH. f_equal. rewrite nsum_cons. lia.
    + intros La. rewrite Hx. apply chk_then; [lia|]. intros _. apply chk_add.
Qed.
Lemma size_with_chk id n : id < two64 -> size_with_u c id (chk n) = chk (lenN (enc_header id n) + n).
Proof.
  intros Hi. unfold size_with_u. destruct (N.ltb_spec n two64) as [L|L].
  - rewrite <- size_with_header by assumption. unfold size_with, size_over.
    pose proof (encoded_size_bound id). pose proof (encoded_size_bound n).
    assert (E : chk n = Ok n) by (unfold chk; destruct (N.ltb_spec n two64); [reflexivity|lia]). rewrite E.
    destruct (is_implicit_tag id); cbn [and_then]; [apply chk_add|].
    rewrite (add_exact c) by (unfold two64; lia). cbn [and_then]. apply chk_add.
  - assert (E : chk n = Panic) by (unfold chk; destruct (N.ltb_spec n two64); [lia|reflexivity]). rewrite E.
    unfold chk. destruct (N.ltb_spec (lenN (enc_header id n) + n) two64); [lia|]. destruct (is_implicit_tag id); reflexivity.
Qed.
Lemma counted_chk (l n : N) : l < two64 -> counted_size_u c l (chk n) = chk (lenN (ilint l) + n).
Proof. intros L. unfold counted_size_u. rewrite lenN_ilint_lt by exact L. apply chk_then; [lia|]. intros _. apply chk_add. Qed.
Lemma entry_chk (k : list N) (m : res tag_error N) n : lenN (enc_string k) < two64 -> m = chk n ->
  and_then (string_tag_size_u c k) (fun k => and_then m (fun x => add_u64 c k x)) = chk (lenN (enc_string k) + n).
Proof.
  intros L ->. pose proof (string_size_spec k (enc_string_len k L)) as E. rewrite string_exact by lia. cbn [and_then]. rewrite E.
  apply chk_then; [lia|]. intros _. apply chk_add.
Qed.
Lemma o_size_checked t : plain (u_size U) t -> o_size_u U c t = chk (decl t).
Proof.
  induction t as [id v|x|id l IH|id l IH|id l IH] using otag_induction; cbn [plain].
  - intros [W L]. cbn [o_size_u declared]. rewrite size_exact by (rewrite size_spec; assumption).
    rewrite size_spec by assumption. unfold chk. destruct (N.ltb_spec (lenN (enc (Tag id v))) two64); [reflexivity|lia].
  - intros L. cbn [o_size_u declared]. unfold chk. destruct (N.ltb_spec (u_size U x) two64); [reflexivity|lia].
  - intros (Hi & A). cbn [o_size_u declared]. cbv zeta. rewrite (chk_sum _ decl); [now apply size_with_chk| |reflexivity].
    apply all_Forall in A. rewrite Forall_forall in *. auto.
  - intros (Hi & Hl & A). cbn [o_size_u declared]. cbv zeta. rewrite (chk_sum _ decl); [| |reflexivity].
    + change (0 + nsum (map decl l)) with (nsum (map decl l)). fold (counted_size_u c (lenN l) (chk (nsum (map decl l)))).
      rewrite counted_chk by exact Hl. now apply size_with_chk.
    + apply all_Forall in A. rewrite Forall_forall in *. auto.
  - intros (Hi & Hl & D & Hk & A). cbn [o_size_u declared]. cbv zeta.
    rewrite (chk_sum _ (fun e => lenN (enc_string (fst e)) + decl (snd e))); [| |reflexivity].
    + rewrite N.add_0_l. set (n := nsum _). fold (counted_size_u c (lenN l) (chk n)).
      rewrite counted_chk by exact Hl. now apply size_with_chk.
    + apply all_Forall in A. rewrite Forall_forall in *. intros e He. apply entry_chk; auto.
Qed.
End Checked.

(** ** Without overflow checks *)
Section Unchecked.
Context {T : Type} (U : user_impl T) (c : cfg).
Notation wrap := (wrapped (u_size U)).
Hypothesis Hc : overflow_checks c = false.
Lemma wrap_add {E} a b : a < two64 -> b < two64 -> @add_u64 E c a b = Ok ((a + b) mod two64).
Proof.
  intros La Lb. unfold add_u64. rewrite Hc. destruct (N.ltb_spec (a + b) two64) as [L|L]; f_equal.
  - symmetry. now apply N.mod_small.
  - replace (a + b) with (a + b - two64 + 1 * two64) at 2 by lia. rewrite N.mod_add by discriminate.
    symmetry. apply N.mod_small. lia.
Qed.
Lemma mod_add_l a b : (a mod two64 + b) mod two64 = (a + b) mod two64.
Proof. now rewrite N.add_mod_idemp_l by discriminate. Qed.
Lemma wrap_sum {A} (f : A -> res tag_error N) (g : A -> N) l a :
  Forall (fun x => f x = Ok (g x mod two64)) l -> sum_u c f l (a mod two64) = Ok ((a + nsum (map g l)) mod two64).
Proof.
  intros F. unfold sum_u. revert a. induction F as [|x l Hx F IH]; intros a; cbn [fold_left map].
  - do 2 f_equal. cbn. lia.
  - cbn [and_then]. rewrite Hx. cbn [and_then]. rewrite wrap_add by apply mod_lt.
    rewrite <- N.add_mod by discriminate. rewrite IH. do 2 f_equal. rewrite nsum_cons. lia.
Qed.
Lemma size_with_wrap id n : id < two64 -> size_with_u c id (Ok (n mod two64)) =
  Ok ((lenN (enc_header id (n mod two64)) + n mod two64) mod two64).
Proof.
  intros Hi. pose proof (mod_lt n) as L. revert L. generalize (n mod two64) as m. intros m L.
  rewrite <- size_with_header by assumption. unfold size_with_u, size_with, size_over.
  pose proof (encoded_size_bound id). pose proof (encoded_size_bound m).
  destruct (is_implicit_tag id); cbn [and_then]; [apply wrap_add; unfold two64 in *; lia|].
  rewrite (add_exact c) by (unfold two64; lia). cbn [and_then]. apply wrap_add; unfold two64 in *; lia.
Qed.
Lemma counted_wrap l n : l < two64 -> counted_size_u c l (Ok (n mod two64)) = Ok ((lenN (ilint l) + n) mod two64).
Proof.
  intros L. unfold counted_size_u. cbn [and_then]. rewrite lenN_ilint_lt by exact L. pose proof (encoded_size_bound l).
  rewrite wrap_add; [|unfold two64; lia|apply mod_lt]. now rewrite N.add_mod_idemp_r by discriminate.
Qed.
Lemma entry_wrap (k : list N) (m : res tag_error N) n : lenN (enc_string k) < two64 -> n < two64 -> m = Ok n ->
  and_then (string_tag_size_u c k) (fun k => and_then m (fun x => add_u64 c k x)) = Ok ((lenN (enc_string k) + n) mod two64).
Proof.
  intros L Ln ->. pose proof (string_size_spec k (enc_string_len k L)) as E. rewrite string_exact by lia. cbn [and_then]. rewrite E.
  now apply wrap_add.
Qed.
Lemma wrapped_lt t : plain (u_size U) t -> wrap t < two64.
Proof. destruct t; cbn [plain wrapped]; cbv zeta; intros H; try apply mod_lt; [apply H|exact H]. Qed.
Lemma o_size_unchecked t : plain (u_size U) t -> o_size_u U c t = Ok (wrap t).
Proof.
  induction t as [id v|x|id l IH|id l IH|id l IH] using otag_induction; intros P; pose proof P as P0; cbn [plain] in P.
  - destruct P as [W L]. cbn [o_size_u wrapped]. rewrite size_exact by (rewrite size_spec; assumption).
    now rewrite size_spec by assumption.
  - reflexivity.
  - destruct P as (Hi & A). cbn [o_size_u wrapped]. cbv zeta. change 0 with (0 mod two64). rewrite (wrap_sum _ wrap); [now apply size_with_wrap|].
    apply all_Forall in A. rewrite Forall_forall in *. intros t Ht. rewrite N.mod_small by (apply wrapped_lt; auto). auto.
  - destruct P as (Hi & Hl & A). cbn [o_size_u wrapped]. cbv zeta. change 0 with (0 mod two64). rewrite (wrap_sum _ wrap).
    + change (0 + nsum (map wrap l)) with (nsum (map wrap l)).
      fold (counted_size_u c (lenN l) (Ok (nsum (map wrap l) mod two64))). rewrite counted_wrap by exact Hl. now apply size_with_wrap.
    + apply all_Forall in A. rewrite Forall_forall in *. intros t Ht. rewrite N.mod_small by (apply wrapped_lt; auto). auto.
  - destruct P as (Hi & Hl & D & Hk & A). cbn [o_size_u wrapped]. cbv zeta. change 0 with (0 mod two64).
    rewrite (wrap_sum _ (fun e => lenN (enc_string (fst e)) + wrap (snd e))).
    + rewrite N.add_0_l. set (n := nsum _). fold (counted_size_u c (lenN l) (Ok (n mod two64))).
      rewrite counted_wrap by exact Hl. now apply size_with_wrap.
    + apply all_Forall in A. rewrite Forall_forall in *. intros e He. apply entry_wrap; auto. now apply wrapped_lt, A.
Qed.
Lemma items_wrap l : all (plain (u_size U)) l -> items_size_u U c l = Ok (nsum (map wrap l) mod two64).
Proof.
  intros A. unfold items_size_u. change 0 with (0 mod two64) at 1. rewrite (wrap_sum _ wrap); [reflexivity|].
  apply all_Forall in A. eapply Forall_impl; [|exact A]. cbn beta. intros t Ht.
  rewrite N.mod_small by now apply wrapped_lt. now apply o_size_unchecked.
Qed.
Lemma entries_wrap l : Forall (fun e => lenN (enc_string (fst e)) < two64) l -> all (fun e => plain (u_size U) (snd e)) l ->
  entries_size_u U c l = Ok (nsum (map (fun e => lenN (enc_string (fst e)) + wrap (snd e)) l) mod two64).
Proof.
  intros K A. unfold entries_size_u. change 0 with (0 mod two64) at 1.
  rewrite (wrap_sum _ (fun e => lenN (enc_string (fst e)) + wrap (snd e))); [reflexivity|].
  apply all_Forall in A. rewrite Forall_forall in *. intros e He. apply entry_wrap; auto; [apply wrapped_lt|apply o_size_unchecked]; auto.
Qed.
Lemma serialize_with_wrap id n sv bs : id < two64 -> n < two64 -> emits sv bs ->
  emits (serialize_with_u id (Ok n) sv) (enc_header id n ++ bs).
Proof.
  intros Hi Hn Em. unfold serialize_with_u, enc_header. rewrite <- app_assoc.
  apply emits_bind; [now apply emits_serialize_ilint|]. rewrite is_implicit_spec.
  apply emits_bind; [|exact Em]. destruct (id <=? 15); [apply emits_ret|]. exact (emits_serialize_ilint n Hn).
Qed.
Context (ok : T -> Prop) (wr : T -> list N).
Hypothesis Hwr : forall x, ok x -> emits (u_serialize U x) (wr x).
Lemma o_serialize_unchecked t : plain (u_size U) t -> users ok t -> emits (o_serialize_u U c t) (wlaid (u_size U) wr t).
Proof.
  induction t as [id v|x|id l IH|id l IH|id l IH] using otag_induction; cbn [plain users].
  - intros [W L] _. cbn [o_serialize_u wlaid]. intros w y w' Ww. rewrite serialize_exact by (rewrite size_spec; assumption).
    exact (serialize_emits (Tag id v) W L w y w' Ww).
  - intros _. apply Hwr.
  - intros (Hi & A) B. cbn [o_serialize_u wlaid]. rewrite items_wrap by exact A.
    apply serialize_with_wrap; [assumption|apply mod_lt|]. apply emits_for_each. apply all_Forall in A, B. rewrite Forall_forall in *. auto.
  - intros (Hi & Hl & A) B. cbn [o_serialize_u wlaid]. rewrite items_wrap, counted_wrap by assumption.
    apply serialize_with_wrap; [assumption|apply mod_lt|]. apply emits_bind; [now apply emits_serialize_ilint|].
    apply emits_for_each. apply all_Forall in A, B. rewrite Forall_forall in *. auto.
  - intros (Hi & Hl & D & K & A) B. cbn [o_serialize_u wlaid]. cbv zeta.
    rewrite entries_wrap, counted_wrap by assumption.
    apply serialize_with_wrap; [assumption|apply mod_lt|]. apply emits_bind; [now apply emits_serialize_ilint|].
    rewrite (sort_entries_map (wlaid (u_size U) wr) l), map_map. cbn [fst snd].
    apply (emits_dict l (o_serialize_u U c) (wlaid (u_size U) wr)); [exact D|].
    apply all_Forall in A, B. rewrite Forall_forall in *. intros e He. split; [apply enc_string_len; auto|auto].
Qed.
End Unchecked.

(** ** Sums that fit *)
Lemma wrapped_declared {T} (dsz : T -> N) (t : otag T) : declared dsz t < two64 -> wrapped dsz t = declared dsz t.
Proof.
  assert (K : forall {X} (f : X -> otag T) (p : X -> N) (l : list X),
    Forall (fun e => declared dsz (f e) < two64 -> wrapped dsz (f e) = declared dsz (f e)) l ->
    nsum (map (fun e => p e + declared dsz (f e)) l) < two64 ->
    nsum (map (fun e => p e + wrapped dsz (f e)) l) = nsum (map (fun e => p e + declared dsz (f e)) l)).
  { intros X f p l. induction 1 as [|e l He F IH]; cbn [map]; [reflexivity|]. rewrite !nsum_cons. intros L.
    rewrite He, IH by lia. reflexivity. }
  induction t as [id v|x|id l IH|id l IH|id l IH] using otag_induction; cbn [declared wrapped]; cbv zeta; try reflexivity; intros L.
  - pose proof (K _ (fun t => t) (fun _ => 0) l IH) as E. cbn beta in E.
    change (map (fun e => 0 + declared dsz e) l) with (map (declared dsz) l) in E.
    change (map (fun e => 0 + wrapped dsz e) l) with (map (wrapped dsz) l) in E. rewrite E by lia.
    rewrite (N.mod_small (nsum _)) by lia. now apply N.mod_small.
  - pose proof (K _ (fun t => t) (fun _ => 0) l IH) as E. cbn beta in E.
    change (map (fun e => 0 + declared dsz e) l) with (map (declared dsz) l) in E.
    change (map (fun e => 0 + wrapped dsz e) l) with (map (wrapped dsz) l) in E. rewrite E by lia.
    rewrite (N.mod_small (_ + nsum _)) by lia. now apply N.mod_small.
  - rewrite (K _ snd (fun e => lenN (enc_string (fst e))) l IH) by lia.
    rewrite (N.mod_small (_ + nsum _)) by lia. now apply N.mod_small.
Qed.
Lemma fits_plain {T} (dsz : T -> N) (t : otag T) : fits dsz t -> declared dsz t < two64 -> plain dsz t.
Proof.
  induction t as [id v|x|id l IH|id l IH|id l IH] using otag_induction; cbn [fits plain declared]; cbv zeta.
  - auto.
  - auto.
  - intros (Hi & Hn & A) L. split; [exact Hi|]. apply all_Forall. apply all_Forall in A. rewrite Forall_forall in *.
    intros t Ht. apply IH; auto. pose proof (nsum_in _ _ (in_map (declared dsz) _ _ Ht)). lia.
  - intros (Hi & Hc & Hn & A) L. split; [exact Hi|]. split; [exact Hc|]. apply all_Forall. apply all_Forall in A. rewrite Forall_forall in *.
    intros t Ht. apply IH; auto. pose proof (nsum_in _ _ (in_map (declared dsz) _ _ Ht)). lia.
  - intros (Hi & Hc & D & K & Hn & A) L. split; [exact Hi|]. split; [exact Hc|]. split; [exact D|].
    apply all_Forall in A. split; [|apply all_Forall]; rewrite Forall_forall in *;
      intros e He; pose proof (nsum_in _ _ (in_map (fun e => lenN (enc_string (fst e)) + declared dsz (snd e)) _ _ He)).
    + lia.
    + apply IH; auto. lia.
Qed.
Section Exact.
Context {T : Type} (U : user_impl T) (c : cfg).
Notation decl := (declared (u_size U)).
Lemma o_size_exact t : plain (u_size U) t -> decl t < two64 -> o_size_u U c t = Ok (decl t).
Proof.
  intros P L. destruct (overflow_checks c) eqn:E.
  - rewrite (o_size_checked U c E t P). unfold chk. destruct (N.ltb_spec (decl t) two64); [reflexivity|lia].
  - rewrite (o_size_unchecked U c E t P). f_equal. now apply wrapped_declared.
Qed.
Lemma items_exact l : all (fits (u_size U)) l -> nsum (map decl l) < two64 -> items_size_u U c l = Ok (nsum (map decl l)).
Proof.
  intros A L. unfold items_size_u. assert (P : Forall (fun t => o_size_u U c t = Ok (decl t)) l).
  { apply all_Forall in A. rewrite Forall_forall in *. intros t Ht.
    pose proof (nsum_in _ _ (in_map decl _ _ Ht)). apply o_size_exact; [apply fits_plain; auto|]; lia. }
  clear A. unfold sum_u. rewrite <- (N.add_0_l (nsum (map decl l))) in L |- *. revert L P. generalize 0 as a.
  induction l as [|t l IH]; intros a; cbn [map fold_left].
  - intros _ _. f_equal. cbn. lia.
  - rewrite nsum_cons. intros L P. inversion P as [|? ? P1 P2]; subst. cbn [and_then]. rewrite P1. cbn [and_then].
    rewrite (add_exact c) by lia. rewrite IH by (auto; lia). f_equal. lia.
Qed.
Lemma entries_exact l : Forall (fun e => lenN (fst e) < two64) l -> all (fun e => fits (u_size U) (snd e)) l ->
  nsum (map (fun e => lenN (enc_string (fst e)) + decl (snd e)) l) < two64 ->
  entries_size_u U c l = Ok (nsum (map (fun e => lenN (enc_string (fst e)) + decl (snd e)) l)).
Proof.
  intros K A L. unfold entries_size_u.
  assert (P : Forall (fun e => and_then (string_tag_size_u c (fst e)) (fun k => and_then (o_size_u U c (snd e)) (fun x => add_u64 c k x))
                               = Ok (lenN (enc_string (fst e)) + decl (snd e))) l).
  { apply all_Forall in A. rewrite Forall_forall in *. intros e He.
    pose proof (nsum_in _ _ (in_map (fun e => lenN (enc_string (fst e)) + decl (snd e)) _ _ He)) as Le. cbn beta in Le.
    pose proof (string_size_spec (fst e) (K e He)) as E. rewrite string_exact by lia. cbn [and_then]. rewrite E.
    rewrite o_size_exact; [|apply fits_plain; auto; lia|lia]. cbn [and_then]. apply add_exact. lia. }
  clear A K. unfold sum_u. set (g := fun e : list N * otag T => lenN (enc_string (fst e)) + decl (snd e)) in *.
  rewrite <- (N.add_0_l (nsum (map g l))) in L |- *. revert L P. generalize 0 as a.
  induction l as [|t l IH]; intros a; cbn [map fold_left].
  - intros _ _. f_equal. cbn. lia.
  - rewrite nsum_cons. intros L P. inversion P as [|? ? P1 P2]; subst. cbn [and_then]. rewrite P1. cbn [and_then].
    fold (g t). rewrite (add_exact c) by lia. rewrite IH by (auto; lia). f_equal. lia.
Qed.
Lemma serialize_with_exact id n sv sv' w : (forall w, sv w = sv' w) -> serialize_with_u id (Ok n) sv w = serialize_with id n sv' w.
Proof.
  intros E. unfold serialize_with_u, serialize_with, serialize_over. apply then_ext. intros w1.
  destruct (is_implicit_tag id); [apply then_ext; exact E|]. unfold bind at 2. apply then_ext. exact E.
Qed.
Lemma counted_exact l n : l < two64 -> lenN (ilint l) + n < two64 -> counted_size_u c l (Ok n) = Ok (encoded_size l + n).
Proof. intros L H. unfold counted_size_u. cbn [and_then]. rewrite lenN_ilint_lt in H by exact L. now apply add_exact. Qed.
Lemma o_serialize_exact t : fits (u_size U) t -> forall w, o_serialize_u U c t w = o_serialize U t w.
Proof.
  induction t as [id v|x|id l IH|id l IH|id l IH] using otag_induction; cbn [fits].
  - intros [W L] w. cbn [o_serialize_u]. rewrite serialize_exact by (rewrite size_spec; assumption). reflexivity.
  - reflexivity.
  - intros (Hi & Hn & A) w. cbn [o_serialize_u o_serialize]. rewrite items_exact, items_size_declared by assumption.
    apply serialize_with_exact. intros w1. rewrite <- (map_id l) at 1. apply for_each_ext.
    apply all_Forall in A. rewrite Forall_forall in *. auto.
  - intros (Hi & Hc & Hn & A) w. cbn [o_serialize_u o_serialize]. rewrite items_exact, counted_exact, items_size_declared by (assumption || lia).
    apply serialize_with_exact. intros w1. apply then_ext. intros w2. rewrite <- (map_id l) at 1. apply for_each_ext.
    apply all_Forall in A. rewrite Forall_forall in *. auto.
  - intros (Hi & Hc & D & K & Hn & A) w. cbn [o_serialize_u o_serialize]. cbv zeta.
    rewrite entries_exact, counted_exact, entries_size_declared by (assumption || lia).
    apply serialize_with_exact. intros w1. apply then_ext. intros w2.
    assert (C : Forall (fun e => forall w, o_serialize_u U c (snd e) w = o_serialize U (snd e) w) l).
    { apply all_Forall in A. rewrite Forall_forall in *. auto. }
    set (l1 := map (fun e : list N * otag T => (fst e, o_serialize_u U c (snd e))) l).
    set (l2 := map (fun e : list N * otag T => (fst e, o_serialize U (snd e))) l).
    set (ff := fun (key : list N) (o : option (writer -> res tag_error unit * writer)) =>
      match o with Some value => serialize_string_tag_from_value key ;;; value | None => fail UnableToSerialize end).
    apply (for_each_get (sort_unstable (map fst l)) l2 l1 ff ff).
    intros k w3. unfold l1, l2. clear -C.
    induction l as [|[k' x] l IHl]; cbn [map hm_get fst snd]; [reflexivity|]. apply Forall_inv in C as H1. apply Forall_inv_tail in C.
    destruct (str_eqb k k'); [|now apply IHl]. unfold ff. apply then_ext. exact H1.
Qed.
End Exact.

(** ** C78 *)
(** [size()]: exact if the exact size fits in 64 bits; if not it panics with
    overflow checks, and without them every container reduces its sum. *)
Theorem C78_size : forall T (U : user_impl T) c t, plain (u_size U) t ->
  o_size_u U c t =
    if declared (u_size U) t <? two64 then Ok (declared (u_size U) t)
    else if overflow_checks c then Panic else Ok (wrapped (u_size U) t).
Proof.
  intros T U c t P. destruct (N.ltb_spec (declared (u_size U) t) two64) as [L|L].
  - now apply o_size_exact.
  - destruct (overflow_checks c) eqn:E; [|now apply o_size_unchecked].
    rewrite (o_size_checked U c E t P). unfold chk. destruct (N.ltb_spec (declared (u_size U) t) two64); [lia|reflexivity].
Qed.
Print Assumptions C78_size.

(** [serialize()] where the sums fit: as in the model with unbounded numbers
    (C76), on every writer and in every build. *)
Theorem C78_serialize : forall T (U : user_impl T) c t w, fits (u_size U) t -> o_serialize_u U c t w = o_serialize U t w.
Proof. intros T U c t w F. now apply o_serialize_exact. Qed.
Print Assumptions C78_serialize.
(** A container with a larger sum: with overflow checks [serialize] panics with
    the id written. *)
Theorem C78_serialize_panics : forall T (U : user_impl T) c t n w,
  overflow_checks c = true -> plain (u_size U) t -> declared_value (u_size U) t = Some n -> two64 <= n ->
  15 < o_id U t -> accepts 9 w ->
  exists w', puts w (ilint (o_id U t)) w' /\ o_serialize_u U c t w = (Panic, w').
Proof.
  intros T U c t n w Hc P En L Hi A.
  assert (K : forall id vs sv, 15 < id -> id < two64 -> vs = Panic ->
    exists w', puts w (ilint id) w' /\ serialize_with_u id vs sv w = (Panic, w')).
  { intros id vs sv H15 Hid ->.
    destruct (emits_step (serialize_ilint id) (ilint id) 9 w (emits_serialize_ilint id Hid) A) as (w1 & P1 & _ & E1).
    { rewrite lenN_ilint_lt by exact Hid. pose proof (encoded_size_bound id). lia. }
    exists w1. split; [exact P1|]. unfold serialize_with_u. rewrite E1. rewrite is_implicit_spec.
    destruct (N.leb_spec id 15); [lia|]. reflexivity. }
  assert (Q : forall m, two64 <= m -> chk m = Panic).
  { intros m Lm. unfold chk. destruct (N.ltb_spec m two64); [lia|reflexivity]. }
  destruct t as [id v|x|id l|id l|id l]; cbn [declared_value] in En; try discriminate; apply (f_equal (fun o => match o with Some n => n | None => 0 end)) in En; subst n;
    cbn [plain o_id] in *; cbn [o_serialize_u].
  - destruct P as (Hd & A1). apply K; [assumption..|]. unfold items_size_u. rewrite (chk_sum c Hc _ (declared (u_size U))); [now apply Q| |reflexivity].
    apply all_Forall in A1. eapply Forall_impl; [|exact A1]. intros t. now apply o_size_checked.
  - destruct P as (Hd & Hl & A1). apply K; [assumption..|]. unfold items_size_u. rewrite (chk_sum c Hc _ (declared (u_size U))); [| |reflexivity].
    + rewrite N.add_0_l, (counted_chk c Hc) by exact Hl. now apply Q.
    + apply all_Forall in A1. eapply Forall_impl; [|exact A1]. intros t. now apply o_size_checked.
  - destruct P as (Hd & Hl & D & Hk & A1). cbv zeta. apply K; [assumption..|]. unfold entries_size_u.
    rewrite (chk_sum c Hc _ (fun e => lenN (enc_string (fst e)) + declared (u_size U) (snd e))); [| |reflexivity].
    + rewrite N.add_0_l, (counted_chk c Hc) by exact Hl. now apply Q.
    + apply all_Forall in A1. rewrite Forall_forall in *. intros e He. apply (entry_chk c Hc); auto. apply o_size_checked; auto.
Qed.
Print Assumptions C78_serialize_panics.
(** Without overflow checks it succeeds, and the headers carry the reduced
    sums. *)
Theorem C78_serialize_wraps : forall T (U : user_impl T) c (ok : T -> Prop) wr t,
  overflow_checks c = false -> (forall x, ok x -> emits (u_serialize U x) (wr x)) -> plain (u_size U) t -> users ok t ->
  emits (o_serialize_u U c t) (wlaid (u_size U) wr t).
Proof. intros T U c ok wr t Hc Hw P B. now apply o_serialize_unchecked with ok. Qed.
Print Assumptions C78_serialize_wraps.
(** [to_bytes()] of a container allocates what [size()] says before it writes. *)
Lemma o_to_bytes_library {T} (U : user_impl T) c t : of_library t ->
  o_to_bytes_u U c t = and_then (o_size_u U c t) (fun n =>
    and_then (Vec_with_capacity c (as_usize c n)) (fun _ => to_bytes_over (o_serialize_u U c t))).
Proof. destruct t; [reflexivity|contradiction|reflexivity..]. Qed.
Theorem C78_to_bytes : forall T (U : user_impl T) c (ok : T -> Prop) wr t,
  (forall x, ok x -> emits (u_serialize U x) (wr x)) -> fits (u_size U) t -> users ok t -> of_library t ->
  declared (u_size U) t < two64 ->
  o_to_bytes_u U c t =
    if usize_max c / 2 <? declared (u_size U) t mod (usize_max c + 1) then Panic else Ok (laid (u_size U) wr t).
Proof.
  intros T U c ok wr t Hw F B Hl L. rewrite (o_to_bytes_library U c t Hl).
  rewrite o_size_exact by (apply fits_plain || idtac; auto; lia). cbn [and_then]. unfold as_usize.
  unfold Vec_with_capacity. destruct (_ <? _); [reflexivity|]. cbn [and_then].
  assert (Em : emits (o_serialize_u U c t) (laid (u_size U) wr t)).
  { intros w y w' Ww. rewrite o_serialize_exact by exact F. exact (o_serialize_laid U ok wr Hw t F B w y w' Ww). }
  now apply to_bytes_over_spec.
Qed.
Print Assumptions C78_to_bytes.
(** Sums above 64 bits: no result with overflow checks; without them the
    reduced sum decides what is requested. *)
Theorem C78_to_bytes_large : forall T (U : user_impl T) c t,
  plain (u_size U) t -> of_library t -> two64 <= declared (u_size U) t ->
  (overflow_checks c = true -> o_to_bytes_u U c t = Panic) /\
  (overflow_checks c = false -> forall (ok : T -> Prop) wr,
     (forall x, ok x -> emits (u_serialize U x) (wr x)) -> users ok t ->
     o_to_bytes_u U c t =
       if usize_max c / 2 <? wrapped (u_size U) t mod (usize_max c + 1) then Panic else Ok (wlaid (u_size U) wr t)).
Proof.
  intros T U c t Pl Hl L. rewrite (o_to_bytes_library U c t Hl), (C78_size T U c t Pl).
  destruct (N.ltb_spec (declared (u_size U) t) two64); [lia|]. split; intros O; rewrite O; [reflexivity|].
  intros ok wr Hw B. cbn [and_then]. unfold as_usize, Vec_with_capacity. destruct (_ <? _); [reflexivity|]. cbn [and_then].
  apply to_bytes_over_spec. exact (C78_serialize_wraps T U c ok wr t O Hw Pl B).
Qed.
Print Assumptions C78_to_bytes_large.
(** Where usize has 32 bits a size of four gigabytes and more is requested
    modulo 2^32. *)
Example C78_truncated_instance :
  let t := OSeq 22 [OUser (2 ^ 32)] in
  of_library t /\ declared (u_size liar) t < two64 /\ declared (u_size liar) t mod 2 ^ 32 = 6 /\
  o_to_bytes_u liar (Cfg true (2 ^ 32 - 1)) t
  = Ok [22; 251; 255; 255; 255; 8; 249; 10; 192; 3; 1; 2; 3] /\
  o_to_bytes_u liar (Cfg true (2 ^ 32 - 1)) (OSeq 22 [OUser (2 ^ 31)]) = Panic.
Proof. vm_compute. repeat split; reflexivity. Qed.
(** Where no user tag says less than it writes and the sums fit, no tree does. *)
Theorem C78_no_less : forall T (U : user_impl T) c (ok : T -> Prop) wr t n w w',
  (forall x, ok x -> emits (u_serialize U x) (wr x) /\ lenN (wr x) <= u_size U x) -> fits (u_size U) t -> users ok t ->
  o_size_u U c t = Ok n -> declared (u_size U) t < two64 -> wwf w -> o_serialize_u U c t w = (Ok tt, w') ->
  exists bs, puts w bs w' /\ lenN bs <= n.
Proof.
  intros T U c ok wr t n w w' Hw F B En L W E. rewrite o_serialize_exact in E by exact F.
  rewrite o_size_exact in En by (auto using fits_plain). apply Ok_inv in En. subst n.
  destruct (o_serialize_laid U ok wr (fun x H => proj1 (Hw x H)) t F B w _ _ W E) as (_ & (p & _ & P & Ep) & _).
  exists p. split; [exact P|]. rewrite (Ep eq_refl).
  pose proof (laid_declared (u_size U) wr t) as Q.
  assert (S : nsum (map (fun x => lenN (wr x)) (user_tags t)) <= nsum (map (u_size U) (user_tags t))); [|lia].
  assert (A : Forall ok (user_tags t)).
  { clear - B. induction t as [id v|x|id l IH|id l IH|id l IH] using otag_induction; cbn [users user_tags] in *.
    - constructor.
    - constructor; [exact B|constructor].
    - apply all_Forall in B. apply Forall_flat_map. rewrite Forall_forall in *. auto.
    - apply all_Forall in B. apply Forall_flat_map. rewrite Forall_forall in *. auto.
    - apply all_Forall in B. apply Forall_flat_map. rewrite Forall_forall in *. auto. }
  clear - Hw A. induction A as [|x l Hx A IH]; cbn [map]; [reflexivity|]. rewrite !nsum_cons. destruct (Hw x Hx). lia.
Qed.
Print Assumptions C78_no_less.
(** Claim checked: the same without the condition on the sums.  It is false in a
    build without overflow checks: two items of 7 bytes that say 2^63 each are
    written as a sequence of no bytes, which is read back as an empty one. *)
Theorem C78_no_less_refuted :
  ~ (forall T (U : user_impl T) c (ok : T -> Prop) wr t n w w',
       (forall x, ok x -> emits (u_serialize U x) (wr x) /\ lenN (wr x) <= u_size U x) ->
       plain (u_size U) t -> users ok t -> cfg_ok c ->
       o_size_u U c t = Ok n -> wwf w -> o_serialize_u U c t w = (Ok tt, w') ->
       exists bs, puts w bs w' /\ lenN bs <= n).
Proof.
  intros H.
  assert (P : plain (u_size liar) (OSeq 22 [OUser (2 ^ 63); OUser (2 ^ 63)])) by (cbn; repeat split).
  destruct (o_serialize_u liar (Cfg false 4294967295) (OSeq 22 [OUser (2 ^ 63); OUser (2 ^ 63)]) VecWriter_new) as [y w'] eqn:E.
  assert (Ey : y = Ok tt /\ match w' with WVec v o ro => lenN v = 16 | _ => False end).
  { revert E. vm_compute. intros [= <- <-]. split; reflexivity. }
  destruct Ey as [-> Ew].
  destruct (H N liar (Cfg false 4294967295) (fun x => 7 <= x) (fun _ => enc (Tag 3000 (VRaw [1; 2; 3]))) _ 2 VecWriter_new w'
    ltac:(intros x Hx; cbn beta in Hx; split; [apply (proj1 C76_instance); lia|exact Hx]) P) as (bs & Pb & Lb); try exact E.
  - cbn. repeat split; discriminate.
  - unfold cfg_ok, u64_max. cbn [usize_max]. lia.
  - rewrite C78_size by exact P. vm_compute. reflexivity.
  - apply N.le_refl.
  - destruct w' as [v o ro| | | | |]; try contradiction. cbn [puts VecWriter_new] in Pb. destruct Pb as (-> & _).
    unfold overwrite in Ew. rewrite takeN_0, dropN_all, app_nil_r in Ew by (rewrite lenN_nil; lia). cbn [app] in Ew. lia.
Qed.
Print Assumptions C78_no_less_refuted.

Example C78_instance :
  let t := OArr 21 [OUser (2 ^ 63); ODict 30 [([97], OUser (2 ^ 63 + 7))]; OStd 3 (VUInt W8 7)] in
  let ok := Cfg true (2 ^ 64 - 1) in let off := Cfg false (2 ^ 64 - 1) in
  plain (u_size liar) t /\ two64 <= declared (u_size liar) t /\
  o_size_u liar ok t = Panic /\ o_size_u liar off t = Ok 26 /\ wrapped (u_size liar) t = 26 /\
  (exists o, o_serialize_u liar ok t VecWriter_new = (Panic, WVec [21] o false)) /\
  o_to_bytes_u liar ok t = Panic /\
  o_to_bytes_u liar off t = Ok ([21; 24; 3; 249; 10; 192; 3; 1; 2; 3] ++ [30; 255; 127; 255; 255; 255; 255; 255; 255; 19; 1; 17; 1; 97; 249; 10; 192; 3; 1; 2; 3; 3; 7]) /\
  (* a sum that fits and an allocation that does not *)
  (let t := OSeq 22 [OUser (2 ^ 63)] in
   fits (u_size liar) t /\ o_size_u liar ok t = Ok (2 ^ 63 + 10) /\ o_to_bytes_u liar ok t = Panic /\
   fst (o_serialize_u liar ok t VecWriter_new) = Ok tt) /\
  (* data is lost *)
  (let t := OSeq 22 [OUser (2 ^ 63); OUser (2 ^ 63)] in
   o_to_bytes_u liar off t = Ok [22; 0; 249; 10; 192; 3; 1; 2; 3; 249; 10; 192; 3; 1; 2; 3] /\
   o_deserialize liar (create_std_engine false) (ByteArrayReader_new [22; 0; 249; 10; 192; 3; 1; 2; 3; 249; 10; 192; 3; 1; 2; 3])
   = (Ok (OSeq 22 []), RByteArray [22; 0; 249; 10; 192; 3; 1; 2; 3; 249; 10; 192; 3; 1; 2; 3] 2)).
Proof.
  cbv zeta. split; [cbn; repeat split; repeat constructor; intros []|].
  vm_compute. repeat split; eauto; discriminate.
Qed.

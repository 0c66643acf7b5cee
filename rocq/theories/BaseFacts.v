(** Facts about the helpers of [Base]. *)
From Verif Require Import Base.

Lemma lenN_nil {A} : lenN (@nil A) = 0. Proof. reflexivity. Qed.
Lemma lenN_cons {A} (x : A) l : lenN (x :: l) = 1 + lenN l.
Proof. unfold lenN. cbn [length]. lia. Qed.
Lemma lenN_app {A} (l k : list A) : lenN (l ++ k) = lenN l + lenN k.
Proof. unfold lenN. rewrite app_length. lia. Qed.
Lemma lenN_map {A B} (f : A -> B) l : lenN (map f l) = lenN l.
Proof. unfold lenN. rewrite map_length. reflexivity. Qed.
Lemma lenN_0 {A} (l : list A) : lenN l = 0 -> l = [].
Proof. destruct l; [reflexivity|rewrite lenN_cons; lia]. Qed.
Lemma lenN_rev {A} (l : list A) : lenN (rev l) = lenN l.
Proof. unfold lenN. rewrite rev_length. reflexivity. Qed.
Lemma lenN_repeatN {A} (x : A) n : lenN (repeatN x n) = n.
Proof. unfold lenN, repeatN. rewrite repeat_length. lia. Qed.
Lemma lenN_perm {A} (l k : list A) : Permutation l k -> lenN l = lenN k.
Proof. intros H. unfold lenN. now rewrite (Permutation_length H). Qed.

Lemma takeN_firstn {A} n (l : list A) : takeN n l = firstn (N.to_nat n) l.
Proof.
  revert n; induction l as [|x l IH]; intros n; cbn [takeN].
  - now rewrite firstn_nil.
  - destruct (N.eqb_spec n 0) as [->|Hn]; [reflexivity|].
    rewrite IH. replace (N.to_nat n) with (S (N.to_nat (N.pred n))) by lia. reflexivity.
Qed.
Lemma dropN_skipn {A} n (l : list A) : dropN n l = skipn (N.to_nat n) l.
Proof.
  revert n; induction l as [|x l IH]; intros n; cbn [dropN].
  - now rewrite skipn_nil.
  - destruct (N.eqb_spec n 0) as [->|Hn]; [reflexivity|].
    rewrite IH. replace (N.to_nat n) with (S (N.to_nat (N.pred n))) by lia. reflexivity.
Qed.
Lemma takeN_dropN {A} n (l : list A) : takeN n l ++ dropN n l = l.
Proof. rewrite takeN_firstn, dropN_skipn. apply firstn_skipn. Qed.
Lemma takeN_0 {A} (l : list A) : takeN 0 l = [].
Proof. destruct l; reflexivity. Qed.
Lemma dropN_0 {A} (l : list A) : dropN 0 l = l.
Proof. destruct l; reflexivity. Qed.
Lemma lenN_takeN {A} n (l : list A) : lenN (takeN n l) = N.min n (lenN l).
Proof. rewrite takeN_firstn. unfold lenN. rewrite firstn_length. lia. Qed.
Lemma lenN_dropN {A} n (l : list A) : lenN (dropN n l) = lenN l - n.
Proof. rewrite dropN_skipn. unfold lenN. rewrite skipn_length. lia. Qed.
Lemma takeN_all {A} n (l : list A) : lenN l <= n -> takeN n l = l.
Proof. intros H. rewrite takeN_firstn. apply firstn_all2. unfold lenN in H. lia. Qed.
Lemma dropN_all {A} n (l : list A) : lenN l <= n -> dropN n l = [].
Proof. intros H. rewrite dropN_skipn. apply skipn_all2. unfold lenN in H. lia. Qed.
Lemma takeN_app {A} n (l k : list A) : takeN n (l ++ k) = takeN n l ++ takeN (n - lenN l) k.
Proof. rewrite !takeN_firstn, firstn_app. unfold lenN. do 2 f_equal. lia. Qed.
Lemma dropN_app {A} n (l k : list A) : dropN n (l ++ k) = dropN n l ++ dropN (n - lenN l) k.
Proof. rewrite !dropN_skipn, skipn_app. unfold lenN. do 2 f_equal. lia. Qed.
Lemma takeN_app_exact {A} n (l k : list A) : n = lenN l -> takeN n (l ++ k) = l.
Proof. intros ->. rewrite takeN_app, N.sub_diag, takeN_0, app_nil_r. apply takeN_all. lia. Qed.
Lemma dropN_app_exact {A} n (l k : list A) : n = lenN l -> dropN n (l ++ k) = k.
Proof. intros ->. rewrite dropN_app, N.sub_diag, dropN_0, dropN_all by lia. reflexivity. Qed.
Lemma skipn_skipn' {A} (n m : nat) (l : list A) : skipn n (skipn m l) = skipn (m + n) l.
Proof.
  revert l; induction m as [|m IH]; intros l; [reflexivity|].
  destruct l; [now rewrite !skipn_nil|]. cbn. apply IH.
Qed.
Lemma dropN_dropN {A} n m (l : list A) : dropN n (dropN m l) = dropN (m + n) l.
Proof. rewrite !dropN_skipn, skipn_skipn'. f_equal. lia. Qed.
Lemma takeN_takeN {A} n m (l : list A) : takeN n (takeN m l) = takeN (N.min n m) l.
Proof. rewrite !takeN_firstn, firstn_firstn. f_equal. lia. Qed.
Lemma takeN_dropN_comm {A} n m (l : list A) : takeN n (dropN m l) = dropN m (takeN (m + n) l).
Proof. rewrite !takeN_firstn, !dropN_skipn, firstn_skipn_comm. do 2 f_equal. lia. Qed.
Lemma takeN_split {A} n m (l : list A) : takeN (n + m) l = takeN n l ++ takeN m (dropN n l).
Proof.
  rewrite <- (takeN_dropN n l) at 1. rewrite takeN_app.
  rewrite takeN_takeN. replace (N.min (n + m) n) with n by lia.
  destruct (N.le_gt_cases n (lenN l)) as [H|H].
  - f_equal. f_equal. rewrite lenN_takeN. lia.
  - rewrite (dropN_all n) by lia. destruct (n + m - _); destruct m; reflexivity.
Qed.
Lemma Forall_takeN {A} (P : A -> Prop) n l : Forall P l -> Forall P (takeN n l).
Proof.
  intros H. rewrite <- (takeN_dropN n l) in H. apply Forall_app in H. tauto.
Qed.
Lemma Forall_dropN {A} (P : A -> Prop) n l : Forall P l -> Forall P (dropN n l).
Proof.
  intros H. rewrite <- (takeN_dropN n l) in H. apply Forall_app in H. tauto.
Qed.
Lemma nthN_nth_error {A} (l : list A) i : nthN l i = nth_error l (N.to_nat i).
Proof.
  revert i; induction l as [|x l IH]; intros i; cbn [nthN].
  - destruct (N.to_nat i); reflexivity.
  - destruct (N.eqb_spec i 0) as [->|Hn]; [reflexivity|].
    rewrite IH. replace (N.to_nat i) with (S (N.to_nat (N.pred i))) by lia. reflexivity.
Qed.
Lemma nthN_lt {A} (l : list A) i : i < lenN l -> exists x, nthN l i = Some x.
Proof.
  intros H. rewrite nthN_nth_error. destruct (nth_error l (N.to_nat i)) eqn:E; [eauto|].
  apply nth_error_None in E. unfold lenN in H. lia.
Qed.
Lemma nthN_dropN {A} (l : list A) i x : nthN l i = Some x -> dropN i l = x :: dropN (i + 1) l.
Proof.
  revert i; induction l as [|y l IH]; intros i; cbn [nthN dropN]; [discriminate|].
  destruct (N.eqb_spec i 0) as [->|Hn].
  - intros [= ->]. cbn. destruct l; reflexivity.
  - intros H. apply IH in H. rewrite H. destruct (N.eqb_spec (i + 1) 0); [lia|].
    do 2 f_equal. lia.
Qed.
Lemma dropN_cons_nthN {A} (l : list A) i x k : dropN i l = x :: k -> nthN l i = Some x /\ k = dropN (i + 1) l.
Proof.
  intros H. destruct (N.lt_ge_cases i (lenN l)) as [Hl|Hl].
  - destruct (nthN_lt l i Hl) as [y Hy]. pose proof (nthN_dropN _ _ _ Hy) as E.
    rewrite H in E. injection E as -> ->. auto.
  - rewrite dropN_all in H by assumption. discriminate.
Qed.

Lemma slice_ok {E A} (l : list A) lo hi :
  lo <= hi -> hi <= lenN l -> @slice E A l lo hi = Ok (takeN (hi - lo) (dropN lo l)).
Proof.
  intros H1 H2. unfold slice.
  destruct (N.leb_spec lo hi), (N.leb_spec hi (lenN l)); try lia. reflexivity.
Qed.
Lemma copy_into_ok {E A} (l : list A) lo hi src :
  lo <= hi -> hi <= lenN l -> hi - lo = lenN src ->
  @copy_into E A l lo hi src = Ok (takeN lo l ++ src ++ dropN hi l).
Proof.
  intros H1 H2 H3. unfold copy_into.
  destruct (N.leb_spec lo hi), (N.leb_spec hi (lenN l)); try lia.
  rewrite H3, N.eqb_refl. reflexivity.
Qed.
Lemma lenN_resizeN {A} n (x : A) l : lenN (resizeN n x l) = n.
Proof.
  unfold resizeN. destruct (N.leb_spec n (lenN l)).
  - rewrite lenN_takeN. lia.
  - rewrite lenN_app, lenN_repeatN. lia.
Qed.

Lemma prefix_refl {A} (l : list A) : prefix l l.
Proof. exists []. now rewrite app_nil_r. Qed.
Lemma prefix_nil {A} (l : list A) : prefix [] l.
Proof. exists l. reflexivity. Qed.
Lemma prefix_app {A} (p l : list A) q : prefix p l -> prefix (q ++ p) (q ++ l).
Proof. intros [r ->]. exists r. now rewrite app_assoc. Qed.
Lemma prefix_app_l {A} (p l k : list A) : prefix p l -> prefix p (l ++ k).
Proof. intros [r ->]. exists (r ++ k). now rewrite app_assoc. Qed.
Lemma prefix_lenN {A} (p l : list A) : prefix p l -> lenN p <= lenN l.
Proof. intros [r ->]. rewrite lenN_app. lia. Qed.
Lemma app_eq_app_len {A} (a b c d : list A) : a ++ b = c ++ d -> lenN a = lenN c -> a = c /\ b = d.
Proof.
  intros H Hl. revert c H Hl; induction a as [|x a IH]; intros [|y c] H Hl;
    rewrite ?lenN_nil, ?lenN_cons in Hl; try lia.
  - auto.
  - cbn in H. injection H as -> H. destruct (IH c H) as [-> ->]; [lia|]. auto.
Qed.
Lemma app_eq_split {A} (a b c d : list A) :
  a ++ b = c ++ d -> lenN a <= lenN c -> exists k, c = a ++ k /\ b = k ++ d.
Proof.
  revert c; induction a as [|x a IH]; intros c H Hl.
  - exists c. auto.
  - destruct c as [|y c]; rewrite ?lenN_nil, ?lenN_cons in Hl; [lia|].
    cbn in H. injection H as -> H. destruct (IH c H) as (k & -> & ->); [lia|].
    exists k. auto.
Qed.

Lemma bytes_ok_app l k : bytes_ok (l ++ k) <-> bytes_ok l /\ bytes_ok k.
Proof. apply Forall_app. Qed.
Lemma bytes_ok_cons b l : bytes_ok (b :: l) <-> b < 256 /\ bytes_ok l.
Proof. apply Forall_cons_iff. Qed.
Lemma bytes_ok_nil : bytes_ok []. Proof. constructor. Qed.

Lemma bind_ok {S E A B} (m : S -> res E A * S) (f : A -> S -> res E B * S) s a s' :
  m s = (Ok a, s') -> bind m f s = f a s'.
Proof. unfold bind. now intros ->. Qed.
Lemma bind_inv_ok {S E A B} (m : S -> res E A * S) (f : A -> S -> res E B * S) s b s2 :
  bind m f s = (Ok b, s2) -> exists a s1, m s = (Ok a, s1) /\ f a s1 = (Ok b, s2).
Proof.
  unfold bind. destruct (m s) as [[a|e| |] s1]; try discriminate. eauto.
Qed.
Lemma cons_inv {A} (x y : A) l k : x :: l = y :: k -> x = y /\ l = k.
Proof. intros H. injection H. auto. Qed.
Lemma Ok_inv {E A} (x y : A) : @Ok E A x = Ok y -> x = y.
Proof. intros H. now injection H. Qed.
Lemma Ok_pair_inv {E A B} (x y : A) (a b : B) : @Ok E (A * B) (x, a) = Ok (y, b) -> x = y /\ a = b.
Proof. intros H. injection H. auto. Qed.
Lemma pair_inv {A B} (x y : A) (a b : B) : (x, a) = (y, b) -> x = y /\ a = b.
Proof. intros H. injection H. auto. Qed.

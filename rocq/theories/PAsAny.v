(** C91: downcasts of any objects.

    Each helper is described by the calls it makes on the object and their answers:
    which calls, in which order, and what each answer leads to.  The types of the
    library answer for themselves, those of the user with any code. *)
From Verif Require Import Base BaseFacts Types Tags PTags AsAny.

(** The calls on an object with their answers, [None]: the call panicked. *)
Inductive call := CId (n : option N) | CAny (a : option dyn) | CMut (a : option dyn).
(** The types whose methods are written by the library. *)
Definition own (t : ty) : Prop := match t with TLib _ | TPayload _ => True | _ => False end.
Inductive replied {W} (Q : object_impl W) (d : dyn) : call -> W -> W -> Prop :=
| own_id u : own (d_ty d) -> replied Q d (CId (Some (q_field Q (d_at d) u))) u u
| own_any u : own (d_ty d) -> replied Q d (CAny (Some d)) u u
| own_mut u : own (d_ty d) -> replied Q d (CMut (Some d)) u u
| user_id u n u' : ~ own (d_ty d) -> q_id Q d u = (n, u') -> replied Q d (CId n) u u'
| user_any u a u' : ~ own (d_ty d) -> q_any Q d u = (a, u') -> replied Q d (CAny a) u u'
| user_mut u a u' : ~ own (d_ty d) -> q_mut Q d u = (a, u') -> replied Q d (CMut a) u u'.
Inductive asked {W} (Q : object_impl W) (d : dyn) : list call -> W -> W -> Prop :=
| asked_nil u : asked Q d [] u u
| asked_cons e l u u1 u2 : replied Q d e u u1 -> asked Q d l u1 u2 -> asked Q d (e :: l) u u2.

(** What the answer [a] to [as_any] or [as_mut_any] leads to: [hit] with the place if
    it is an object of the type [k], else [miss]. *)
Inductive cast (k : ty) {A} (hit : N -> res tag_error A) (miss : res tag_error A) : option dyn -> res tag_error A -> Prop :=
| cast_panic : cast k hit miss None Panic
| cast_hit a : d_ty a = k -> cast k hit miss (Some a) (hit (d_at a))
| cast_miss a : d_ty a <> k -> cast k hit miss (Some a) miss.
(** The same when the id is asked for first: the object is looked at only if its id
    is the one wanted. *)
Inductive checked (via : option dyn -> call) (k : ty) (id : N) {A} (hit : N -> res tag_error A) (miss : res tag_error A)
  : list call -> res tag_error A -> Prop :=
| id_panic : checked via k id hit miss [CId None] Panic
| id_other n : n <> id -> checked via k id hit miss [CId (Some n)] miss
| id_same a x : cast k hit miss a x -> checked via k id hit miss [CId (Some id); via a] x.

Lemma ty_eqb_eq a b : ty_eqb a b = true <-> a = b.
Proof.
  destruct a, b; cbn [ty_eqb]; try rewrite kind_eqb_eq; try rewrite N.eqb_eq; split; congruence.
Qed.
Lemma ty_dec (a b : ty) : {a = b} + {a <> b}.
Proof.
  destruct (ty_eqb a b) eqn:E; [left; apply ty_eqb_eq, E|right]. intros H. apply ty_eqb_eq in H. congruence.
Qed.
Lemma ty_eqb_neq a b : a <> b -> ty_eqb a b = false.
Proof. intros H. destruct (ty_eqb a b) eqn:E; [apply ty_eqb_eq in E; contradiction|reflexivity]. Qed.

Section Facts.
Context {W : Type} (Q : object_impl W).
Lemma id_replied d u : exists n u', obj_id Q d u = answer (n, u') /\ replied Q d (CId n) u u' /\
  forall m v, replied Q d (CId m) u v -> m = n /\ v = u'.
Proof.
  unfold obj_id. destruct (d_ty d) eqn:E.
  - exists (Some (q_field Q (d_at d) u)), u. split; [reflexivity|]. split; [constructor; rewrite E; exact I|].
    intros m v H. inversion H; subst; [auto|]. rewrite E in *. cbn in *. tauto.
  - exists (Some (q_field Q (d_at d) u)), u. split; [reflexivity|]. split; [constructor; rewrite E; exact I|].
    intros m v H. inversion H; subst; [auto|]. rewrite E in *. cbn in *. tauto.
  - destruct (q_id Q d u) as [n u'] eqn:K. exists n, u'. split; [reflexivity|]. split; [constructor; [rewrite E; exact (fun f => f)|exact K]|].
    intros m v H. inversion H; subst; [rewrite E in *; contradiction|]. split; congruence.
  - destruct (q_id Q d u) as [n u'] eqn:K. exists n, u'. split; [reflexivity|]. split; [constructor; [rewrite E; exact (fun f => f)|exact K]|].
    intros m v H. inversion H; subst; [rewrite E in *; contradiction|]. split; congruence.
Qed.
Lemma any_replied d u : exists n u', obj_any Q d u = answer (n, u') /\ replied Q d (CAny n) u u' /\
  forall m v, replied Q d (CAny m) u v -> m = n /\ v = u'.
Proof.
  unfold obj_any. destruct (d_ty d) eqn:E.
  - exists (Some d), u. split; [reflexivity|]. split; [constructor; rewrite E; exact I|].
    intros m v H. inversion H; subst; [auto|]. rewrite E in *. cbn in *. tauto.
  - exists (Some d), u. split; [reflexivity|]. split; [constructor; rewrite E; exact I|].
    intros m v H. inversion H; subst; [auto|]. rewrite E in *. cbn in *. tauto.
  - destruct (q_any Q d u) as [n u'] eqn:K. exists n, u'. split; [reflexivity|]. split; [constructor; [rewrite E; exact (fun f => f)|exact K]|].
    intros m v H. inversion H; subst; [rewrite E in *; contradiction|]. split; congruence.
  - destruct (q_any Q d u) as [n u'] eqn:K. exists n, u'. split; [reflexivity|]. split; [constructor; [rewrite E; exact (fun f => f)|exact K]|].
    intros m v H. inversion H; subst; [rewrite E in *; contradiction|]. split; congruence.
Qed.
Lemma mut_replied d u : exists n u', obj_mut Q d u = answer (n, u') /\ replied Q d (CMut n) u u' /\
  forall m v, replied Q d (CMut m) u v -> m = n /\ v = u'.
Proof.
  unfold obj_mut. destruct (d_ty d) eqn:E.
  - exists (Some d), u. split; [reflexivity|]. split; [constructor; rewrite E; exact I|].
    intros m v H. inversion H; subst; [auto|]. rewrite E in *. cbn in *. tauto.
  - exists (Some d), u. split; [reflexivity|]. split; [constructor; rewrite E; exact I|].
    intros m v H. inversion H; subst; [auto|]. rewrite E in *. cbn in *. tauto.
  - destruct (q_mut Q d u) as [n u'] eqn:K. exists n, u'. split; [reflexivity|]. split; [constructor; [rewrite E; exact (fun f => f)|exact K]|].
    intros m v H. inversion H; subst; [rewrite E in *; contradiction|]. split; congruence.
  - destruct (q_mut Q d u) as [n u'] eqn:K. exists n, u'. split; [reflexivity|]. split; [constructor; [rewrite E; exact (fun f => f)|exact K]|].
    intros m v H. inversion H; subst; [rewrite E in *; contradiction|]. split; congruence.
Qed.
End Facts.

(** Everything about one helper follows from what it does with the answers. *)
Lemma cast_total k {A} (hit : N -> res tag_error A) miss a : exists x, cast k hit miss a x.
Proof.
  destruct a as [a|]; [|eexists; constructor].
  destruct (ty_dec (d_ty a) k); eexists; [apply cast_hit|apply cast_miss]; assumption.
Qed.
Lemma cast_fun k {A} (hit : N -> res tag_error A) miss a x y : cast k hit miss a x -> cast k hit miss a y -> x = y.
Proof. intros H1 H2. inversion H1; subst; inversion H2; subst; try reflexivity; contradiction. Qed.
Lemma asked_cons_inv {W} (Q : object_impl W) d e l u u' : asked Q d (e :: l) u u' -> exists u1, replied Q d e u u1 /\ asked Q d l u1 u'.
Proof. intros H. inversion H; subst. eauto. Qed.
Lemma asked_nil_inv {W} (Q : object_impl W) d u u' : asked Q d [] u u' -> u' = u.
Proof. intros H. inversion H. reflexivity. Qed.
Lemma asked_one {W} (Q : object_impl W) d e u u' : asked Q d [e] u u' -> replied Q d e u u'.
Proof. intros H. apply asked_cons_inv in H as (v & Hr & H). apply asked_nil_inv in H as ->. exact Hr. Qed.

Section Helpers.
Context {W : Type} (Q : object_impl W).
(** [m] asks for the object with the call [via] and gives what [cast] says. *)
Definition casts {A} (via : option dyn -> call) (k : ty) hit miss (d : dyn) (m : W -> res tag_error A * W) : Prop :=
  forall u x u', m u = (x, u') <-> exists a, asked Q d [via a] u u' /\ cast k hit miss a x.
Definition checks {A} (via : option dyn -> call) (k : ty) (id : N) hit miss (d : dyn) (m : W -> res tag_error A * W) : Prop :=
  forall u x u', m u = (x, u') <-> exists l, asked Q d l u u' /\ checked via k id hit miss l x.

Lemma casts_intro {A} via k hit miss d (m : W -> res tag_error A * W) :
  (forall u, exists a u', replied Q d (via a) u u' /\ (forall b v, replied Q d (via b) u v -> b = a /\ v = u') /\
     exists x, m u = (x, u') /\ cast k hit miss a x) ->
  casts via k hit miss d m.
Proof.
  intros H u x u'. destruct (H u) as (a & v & Hr & Hf & y & E & Hc). rewrite E. split.
  - intros [= <- <-]. exists a. split; [econstructor; [exact Hr|constructor]|exact Hc].
  - intros (b & Ha & Hb). apply asked_one in Ha. destruct (Hf _ _ Ha) as [-> ->].
    rewrite (cast_fun _ _ _ _ _ _ Hb Hc). reflexivity.
Qed.
Lemma checks_intro {A} via k id hit miss d (m : W -> res tag_error A * W) n :
  (forall u, exists a u', replied Q d (via a) u u' /\ (forall b v, replied Q d (via b) u v -> b = a /\ v = u') /\
     exists x, n u = (x, u') /\ cast k hit miss a x) ->
  (forall u, m u = (i <- obj_id Q d ;; if i =? id then n else (fun u => (miss, u))) u) ->
  checks via k id hit miss d m.
Proof.
  intros H Hm u x u'. rewrite Hm. clear Hm. destruct (id_replied Q d u) as (i & v & E & Hr & Hf). unfold bind. rewrite E.
  destruct i as [i|]; cbn [answer].
  - destruct (N.eqb_spec i id) as [->|Hi].
    + destruct (H v) as (a & v' & Hr' & Hf' & y & E' & Hc). rewrite E'. split.
      * intros [= <- <-]. exists [CId (Some id); via a]. split; [econstructor; [exact Hr|]; econstructor; [exact Hr'|constructor]|constructor; exact Hc].
      * intros (l & Ha & Hl). destruct Hl as [|n0 Hn|b y' Hb].
        -- apply asked_one, Hf in Ha as [K _]. discriminate K.
        -- apply asked_one, Hf in Ha as [K _]. congruence.
        -- apply asked_cons_inv in Ha as (w & Ha & Hb'). apply Hf in Ha as [_ ->]. apply asked_one, Hf' in Hb' as [-> ->].
           rewrite (cast_fun _ _ _ _ _ _ Hb Hc). reflexivity.
    + split.
      * intros [= <- <-]. exists [CId (Some i)]. split; [econstructor; [exact Hr|constructor]|constructor; exact Hi].
      * intros (l & Ha & Hl). destruct Hl as [|n0 Hn|b y' Hb].
        -- apply asked_one, Hf in Ha as [K _]. discriminate K.
        -- apply asked_one, Hf in Ha as [_ ->]. reflexivity.
        -- apply asked_cons_inv in Ha as (w & Ha & _). apply Hf in Ha as [K _]. congruence.
  - split.
    + intros [= <- <-]. exists [CId None]. split; [econstructor; [exact Hr|constructor]|constructor].
    + intros (l & Ha & Hl). destruct Hl as [|n0 Hn|b y' Hb].
      * apply asked_one, Hf in Ha as [_ ->]. reflexivity.
      * apply asked_one, Hf in Ha as [K _]. discriminate K.
      * apply asked_cons_inv in Ha as (w & Ha & _). apply Hf in Ha as [K _]. discriminate K.
Qed.
(** A call [g] followed by a decision on its answer. *)
Lemma step_intro {A} via k hit miss d g (f : dyn -> W -> res tag_error A * W) :
  (forall u, exists n u', g u = answer (n, u') /\ replied Q d (via n) u u' /\ forall m v, replied Q d (via m) u v -> m = n /\ v = u') ->
  (forall a v, f a v = (if ty_eqb (d_ty a) k then hit (d_at a) else miss, v)) ->
  forall u, exists a u', replied Q d (via a) u u' /\ (forall b v, replied Q d (via b) u v -> b = a /\ v = u') /\
     exists x, (a <- g ;; f a) u = (x, u') /\ cast k hit miss a x.
Proof.
  intros Hg Hf u. destruct (Hg u) as (n & u' & E & Hr & Hu). exists n, u'. do 2 (split; [assumption|]).
  unfold bind. rewrite E. destruct n as [a|]; cbn [answer].
  - rewrite Hf. eexists. split; [reflexivity|]. destruct (ty_dec (d_ty a) k) as [e|e].
    + rewrite (proj2 (ty_eqb_eq _ _) e). constructor. exact e.
    + rewrite (ty_eqb_neq _ _ e). constructor. exact e.
  - eexists. split; [reflexivity|constructor].
Qed.
End Helpers.

(** ** C91 *)
(** The two helpers without an id make one call; the others ask for the id first and
    make the second call only if it is the one wanted.  Nothing else is called, and
    these answers decide the result. *)
Theorem C91_downcasts : forall W (Q : object_impl W) k id d e,
  casts Q CAny k (fun p => Ok (Some p)) (Ok None) d (q_downcast_ref Q k d) /\
  casts Q CMut k (fun p => Ok (Some p)) (Ok None) d (q_downcast_mut Q k d) /\
  checks Q CAny k id (fun p => Ok (Some p)) (Ok None) d (q_downcast_ref_with_id Q k id d) /\
  checks Q CMut k id (fun p => Ok (Some p)) (Ok None) d (q_downcast_mut_with_id Q k id d) /\
  checks Q CAny k id (fun p => Ok p) (Err UnexpectedTagType) d (q_id_downcast_ref Q k id d) /\
  checks Q CMut k id (fun p => Ok p) (Err UnexpectedTagType) d (q_id_downcast_mut Q k id d) /\
  checks Q CAny k id (fun _ => Ok tt) (Err e) d (q_assert_or_error Q k id d e) /\
  checks Q CAny k id (fun _ => Ok tt) (Err UnexpectedTagType) d (q_assert Q k id d).
Proof.
  intros W Q k id d e.
  assert (HA : forall u, exists n u', obj_any Q d u = answer (n, u') /\ replied Q d (CAny n) u u' /\ forall m v, replied Q d (CAny m) u v -> m = n /\ v = u')
    by (intros u; apply any_replied).
  assert (HM : forall u, exists n u', obj_mut Q d u = answer (n, u') /\ replied Q d (CMut n) u u' /\ forall m v, replied Q d (CMut m) u v -> m = n /\ v = u')
    by (intros u; apply mut_replied).
  assert (D : forall a (v : W), ret (downcast k a) v = (if ty_eqb (d_ty a) k then Ok (Some (d_at a)) else (Ok None : res tag_error _), v))
    by (intros a v; unfold downcast; destruct (ty_eqb _ _); reflexivity).
  assert (R : forall g, (forall u, (x <- (a <- g ;; ret (downcast k a)) ;; match x with Some v => ret v | None => fail UnexpectedTagType end) u
                        = (a <- g ;; (fun v : W => (if ty_eqb (d_ty a) k then Ok (d_at a) else Err UnexpectedTagType, v))) u)).
  { intros g u. unfold bind. destruct (g u) as [[a|e'| |] v]; try reflexivity. cbn. unfold downcast. destruct (ty_eqb _ _); reflexivity. }
  split; [|split; [|split; [|split; [|split; [|split; [|split]]]]]].
  - eapply casts_intro, step_intro; [exact HA|exact D].
  - eapply casts_intro, step_intro; [exact HM|exact D].
  - eapply checks_intro; [eapply step_intro; [exact HA|exact D]|]. intros u. reflexivity.
  - eapply checks_intro; [eapply step_intro; [exact HM|exact D]|]. intros u. reflexivity.
  - eapply checks_intro; [eapply step_intro; [exact HA|intros a v; reflexivity]|]. intros u. unfold q_id_downcast_ref. unfold bind at 1 3.
    destruct (obj_id Q d u) as [[i|e'| |] v]; try reflexivity. destruct (i =? id); cbn [negb]; [apply R|reflexivity].
  - eapply checks_intro; [eapply step_intro; [exact HM|intros a v; reflexivity]|]. intros u. unfold q_id_downcast_mut. unfold bind at 1 3.
    destruct (obj_id Q d u) as [[i|e'| |] v]; try reflexivity. destruct (i =? id); cbn [negb]; [apply R|reflexivity].
  - eapply checks_intro; [eapply step_intro; [exact HA|intros a v; reflexivity]|]. intros u. unfold q_assert_or_error, bind.
    destruct (obj_id Q d u) as [[i|e'| |] v]; try reflexivity. destruct (i =? id); [|reflexivity].
    destruct (obj_any Q d v) as [[a|e'| |] v']; try reflexivity. destruct (ty_eqb _ _); reflexivity.
  - eapply checks_intro; [eapply step_intro; [exact HA|intros a v; reflexivity]|]. intros u. unfold q_assert, q_assert_or_error, bind.
    destruct (obj_id Q d u) as [[i|e'| |] v]; try reflexivity. destruct (i =? id); [|reflexivity].
    destruct (obj_any Q d v) as [[a|e'| |] v']; try reflexivity. destruct (ty_eqb _ _); reflexivity.
Qed.
Print Assumptions C91_downcasts.
(** The user has a type (number 7) that wraps a string tag, at the next place, with
    an id of its own, 1000, and whose [as_any] hands out the string tag (id 17);
    [as_mut_any] hands out the wrapper.  The state counts the calls. *)
Definition wrapper : object_impl N := {|
  q_id := fun _ u => (Some 1000, u + 1);
  q_any := fun d u => (Some (Dyn (d_at d + 1) (TLib KString)), u + 1);
  q_mut := fun d u => (Some d, u + 1);
  q_field := fun _ _ => 17 |}.
Example C91_downcasts_instance :
  q_id_downcast_ref wrapper (TLib KString) 1000 (Dyn 50 (TUser 7)) 0 = (Ok 51, 2) /\
  asked wrapper (Dyn 50 (TUser 7)) [CId (Some 1000); CAny (Some (Dyn 51 (TLib KString)))] 0 2 /\
  q_id_downcast_ref wrapper (TLib KString) 17 (Dyn 50 (TUser 7)) 0 = (Err UnexpectedTagType, 1) /\
  asked wrapper (Dyn 50 (TUser 7)) [CId (Some 1000)] 0 1 /\
  q_downcast_mut wrapper (TUser 7) (Dyn 50 (TUser 7)) 0 = (Ok (Some 50), 1).
Proof.
  repeat split; try (repeat (econstructor; [apply user_id; [exact (fun f => f)|reflexivity]|])).
  - econstructor; [apply user_any; [exact (fun f => f)|reflexivity]|constructor].
  - constructor.
Qed.

(** The types of the library answer for themselves: a downcast succeeds if and only if
    the type (and the id, where one is given) is that of the object, gives the object
    itself, and nothing changes. *)
Theorem C91_library : forall W (Q : object_impl W) k id d u e, own (d_ty d) ->
  let same := d_ty d = k in
  let fits := d_ty d = k /\ q_field Q (d_at d) u = id in
  (same -> q_downcast_ref Q k d u = (Ok (Some (d_at d)), u) /\ q_downcast_mut Q k d u = (Ok (Some (d_at d)), u)) /\
  (~ same -> q_downcast_ref Q k d u = (Ok None, u) /\ q_downcast_mut Q k d u = (Ok None, u)) /\
  (fits -> q_downcast_ref_with_id Q k id d u = (Ok (Some (d_at d)), u) /\ q_downcast_mut_with_id Q k id d u = (Ok (Some (d_at d)), u) /\
     q_id_downcast_ref Q k id d u = (Ok (d_at d), u) /\ q_id_downcast_mut Q k id d u = (Ok (d_at d), u) /\
     q_assert_or_error Q k id d e u = (Ok tt, u) /\ q_assert Q k id d u = (Ok tt, u)) /\
  (~ fits -> q_downcast_ref_with_id Q k id d u = (Ok None, u) /\ q_downcast_mut_with_id Q k id d u = (Ok None, u) /\
     q_id_downcast_ref Q k id d u = (Err UnexpectedTagType, u) /\ q_id_downcast_mut Q k id d u = (Err UnexpectedTagType, u) /\
     q_assert_or_error Q k id d e u = (Err e, u) /\ q_assert Q k id d u = (Err UnexpectedTagType, u)).
Proof.
  intros W Q k id d u e Ho same fits. destruct (C91_downcasts W Q k id d e) as (H1 & H2 & H3 & H4 & H5 & H6 & H7 & H8).
  assert (A1 : asked Q d [CAny (Some d)] u u) by (econstructor; [apply own_any, Ho|constructor]).
  assert (A2 : asked Q d [CMut (Some d)] u u) by (econstructor; [apply own_mut, Ho|constructor]).
  set (i := q_field Q (d_at d) u) in *.
  assert (I0 : asked Q d [CId (Some i)] u u) by (econstructor; [apply own_id, Ho|constructor]).
  assert (I1 : asked Q d [CId (Some i); CAny (Some d)] u u) by (econstructor; [apply own_id, Ho|exact A1]).
  assert (I2 : asked Q d [CId (Some i); CMut (Some d)] u u) by (econstructor; [apply own_id, Ho|exact A2]).
  split; [|split; [|split]].
  - intros Hs. split; [apply H1|apply H2]; eexists; (split; [eassumption|]); exact (cast_hit k (fun p => Ok (Some p)) (Ok None) d Hs).
  - intros Hs. split; [apply H1|apply H2]; eexists; (split; [eassumption|]); exact (cast_miss k (fun p => Ok (Some p)) (Ok None) d Hs).
  - intros [Hs Hi]. rewrite Hi in *.
    split; [apply H3|split; [apply H4|split; [apply H5|split; [apply H6|split; [apply H7|apply H8]]]]];
      match goal with |- exists l, _ /\ checked _ _ _ ?h ?m l _ =>
        first [exact (ex_intro _ _ (conj I1 (id_same CAny k id h m _ _ (cast_hit k h m d Hs))))
              |exact (ex_intro _ _ (conj I2 (id_same CMut k id h m _ _ (cast_hit k h m d Hs))))] end.
  - intros Hn. destruct (N.eq_dec i id) as [Hi|Hi].
    + assert (Hs : d_ty d <> k) by (intros Hs; apply Hn; split; assumption). rewrite Hi in *.
      split; [apply H3|split; [apply H4|split; [apply H5|split; [apply H6|split; [apply H7|apply H8]]]]];
        match goal with |- exists l, _ /\ checked _ _ _ ?h ?m l _ =>
          first [exact (ex_intro _ _ (conj I1 (id_same CAny k id h m _ _ (cast_miss k h m d Hs))))
                |exact (ex_intro _ _ (conj I2 (id_same CMut k id h m _ _ (cast_miss k h m d Hs))))] end.
    + split; [apply H3|split; [apply H4|split; [apply H5|split; [apply H6|split; [apply H7|apply H8]]]]];
        exists [CId (Some i)]; (split; [exact I0|]); apply id_other, Hi.
Qed.
Print Assumptions C91_library.
Example C91_library_instance :
  own (TPayload 3) /\
  q_id_downcast_mut wrapper (TPayload 3) 17 (Dyn 8 (TPayload 3)) 5 = (Ok 8, 5) /\
  q_id_downcast_mut wrapper (TPayload 4) 17 (Dyn 8 (TPayload 3)) 5 = (Err UnexpectedTagType, 5) /\
  q_downcast_ref wrapper (TLib KRaw) (Dyn 8 (TLib KBytes)) 5 = (Ok None, 5).
Proof. vm_compute. auto. Qed.

(** Whatever the code of the user answers, a place is handed out as an object of type
    [k] only if a call of this very helper has answered with an object of type [k] at
    that place; and no helper panics unless a call that it made did. *)
Theorem C91_sound : forall W (Q : object_impl W) k id d u,
  (forall p u', q_downcast_ref Q k d u = (Ok (Some p), u') -> asked Q d [CAny (Some (Dyn p k))] u u') /\
  (forall p u', q_downcast_mut Q k d u = (Ok (Some p), u') -> asked Q d [CMut (Some (Dyn p k))] u u') /\
  (forall p u', q_downcast_ref_with_id Q k id d u = (Ok (Some p), u') \/ q_id_downcast_ref Q k id d u = (Ok p, u') ->
     asked Q d [CId (Some id); CAny (Some (Dyn p k))] u u') /\
  (forall p u', q_downcast_mut_with_id Q k id d u = (Ok (Some p), u') \/ q_id_downcast_mut Q k id d u = (Ok p, u') ->
     asked Q d [CId (Some id); CMut (Some (Dyn p k))] u u').
Proof.
  intros W Q k id d u. destruct (C91_downcasts W Q k id d UnknownTag) as (H1 & H2 & H3 & H4 & H5 & H6 & _ & _).
  assert (D : forall a, Dyn (d_at a) (d_ty a) = a) by (intros []; reflexivity).
  split; [|split; [|split]].
  - intros p u' E. apply H1 in E as (a & Ha & Hc). inversion Hc; subst. rewrite D. exact Ha.
  - intros p u' E. apply H2 in E as (a & Ha & Hc). inversion Hc; subst. rewrite D. exact Ha.
  - intros p u' [E|E]; [apply H3 in E as (l & Ha & Hl)|apply H5 in E as (l & Ha & Hl)]; inversion Hl as [|n Hn El Ex|a x Hc El Ex]; subst; inversion Hc; subst; rewrite D; exact Ha.
  - intros p u' [E|E]; [apply H4 in E as (l & Ha & Hl)|apply H6 in E as (l & Ha & Hl)]; inversion Hl as [|n Hn El Ex|a x Hc El Ex]; subst; inversion Hc; subst; rewrite D; exact Ha.
Qed.
Print Assumptions C91_sound.
Example C91_sound_instance : asked wrapper (Dyn 50 (TUser 7)) [CId (Some 1000); CAny (Some (Dyn 51 (TLib KString)))] 0 2.
Proof. apply (C91_sound _ wrapper (TLib KString) 1000 (Dyn 50 (TUser 7)) 0). right. vm_compute. reflexivity. Qed.

(** Methods that answer the same whenever they are called, and change nothing: the
    assertion holds if and only if each of the downcasts with the id succeeds. *)
Theorem C91_agree : forall W (Q : object_impl W) k id d u e n a, e <> UnexpectedTagType ->
  (forall v, replied Q d (CId n) v v) -> (forall v, replied Q d (CAny a) v v) ->
  (q_assert Q k id d u = (Ok tt, u) <-> exists p, q_id_downcast_ref Q k id d u = (Ok p, u)) /\
  (q_assert Q k id d u = (Ok tt, u) <-> exists p, q_downcast_ref_with_id Q k id d u = (Ok (Some p), u)) /\
  (q_assert Q k id d u = (Ok tt, u) <-> q_assert_or_error Q k id d e u = (Ok tt, u)).
Proof.
  intros W Q k id d u e n a He Hn Ha. destruct (C91_downcasts W Q k id d e) as (_ & _ & H3 & _ & H5 & _ & H7 & H8).
  assert (F : forall A (hit : N -> res tag_error A) miss m, checks Q CAny k id hit miss d m ->
              (exists b, a = Some b /\ n = Some id /\ d_ty b = k /\ m u = (hit (d_at b), u)) \/
              ((m u = (miss, u) \/ m u = (Panic, u)) /\ ~ (exists b, a = Some b /\ n = Some id /\ d_ty b = k))).
  { intros A hit miss m Hm. destruct n as [n|].
    - destruct (N.eq_dec n id) as [->|Hi].
      + assert (L : asked Q d [CId (Some id); CAny a] u u) by (econstructor; [apply Hn|econstructor; [apply Ha|constructor]]).
        destruct a as [b|].
        * destruct (ty_dec (d_ty b) k) as [Hb|Hb].
          -- left. exists b. do 3 (split; [auto|]). apply Hm. eexists. split; [exact L|]. apply id_same, cast_hit, Hb.
          -- right. split; [left|intros (b' & [= <-] & _ & K); contradiction]. apply Hm. eexists. split; [exact L|]. apply id_same, cast_miss, Hb.
        * right. split; [right|intros (b' & [=] & _)]. apply Hm. eexists. split; [exact L|]. apply id_same, cast_panic.
      + right. split; [left|intros (b' & _ & K & _); congruence]. apply Hm. exists [CId (Some n)]. split; [econstructor; [apply Hn|constructor]|apply id_other, Hi].
    - right. split; [right|intros (b' & _ & K & _); congruence]. apply Hm. exists [CId None]. split; [econstructor; [apply Hn|constructor]|apply id_panic]. }
  destruct (F _ _ _ _ H3) as [(b3 & E3 & N3 & K3 & M3)|[M3 X3]], (F _ _ _ _ H5) as [(b5 & E5 & N5 & K5 & M5)|[M5 X5]],
    (F _ _ _ _ H7) as [(b7 & E7 & N7 & K7 & M7)|[M7 X7]], (F _ _ _ _ H8) as [(b8 & E8 & N8 & K8 & M8)|[M8 X8]];
    try (exfalso; eauto 6; fail).
  - split; [|split]; (split; intros _; eauto).
  - split; [|split]; split.
    + intros K. destruct M8; congruence.
    + intros [p K]. destruct M5; congruence.
    + intros K. destruct M8; congruence.
    + intros [p K]. destruct M3; congruence.
    + intros K. destruct M8; congruence.
    + intros K. destruct M7; congruence.
Qed.
Print Assumptions C91_agree.
(** The wrapper without the counter. *)
Definition still : object_impl unit := {|
  q_id := fun _ u => (Some 1000, u);
  q_any := fun d u => (Some (Dyn (d_at d + 1) (TLib KString)), u);
  q_mut := fun d u => (Some d, u);
  q_field := fun _ _ => 17 |}.
Example C91_agree_instance : q_assert still (TLib KString) 1000 (Dyn 50 (TUser 7)) tt = (Ok tt, tt) /\
  (q_assert still (TLib KString) 1000 (Dyn 50 (TUser 7)) tt = (Ok tt, tt) <->
   exists p, q_id_downcast_ref still (TLib KString) 1000 (Dyn 50 (TUser 7)) tt = (Ok p, tt)).
Proof.
  split; [vm_compute; reflexivity|].
  apply (C91_agree _ still (TLib KString) 1000 (Dyn 50 (TUser 7)) tt UnknownTag (Some 1000) (Some (Dyn 51 (TLib KString))));
    [discriminate|intros []; apply user_id; [exact (fun f => f)|reflexivity]|intros []; apply user_any; [exact (fun f => f)|reflexivity]].
Qed.

(** Objects that answer with themselves, as the types of the library do, and as the
    code of the user should: what is handed out is the object that was given. *)
Theorem C91_itself : forall W (Q : object_impl W) k id d u p u',
  (forall v a v', replied Q d (CAny (Some a)) v v' \/ replied Q d (CMut (Some a)) v v' -> a = d) ->
  q_downcast_ref Q k d u = (Ok (Some p), u') \/ q_downcast_mut Q k d u = (Ok (Some p), u') \/
  q_downcast_ref_with_id Q k id d u = (Ok (Some p), u') \/ q_id_downcast_ref Q k id d u = (Ok p, u') \/
  q_downcast_mut_with_id Q k id d u = (Ok (Some p), u') \/ q_id_downcast_mut Q k id d u = (Ok p, u') ->
  p = d_at d /\ k = d_ty d.
Proof.
  intros W Q k id d u p u' Hd H. destruct (C91_sound W Q k id d u) as (S1 & S2 & S3 & S4).
  assert (K : forall v v', replied Q d (CAny (Some (Dyn p k))) v v' \/ replied Q d (CMut (Some (Dyn p k))) v v' -> p = d_at d /\ k = d_ty d)
    by (intros v v' K; apply Hd in K; subst d; auto).
  destruct H as [H|[H|[H|[H|[H|H]]]]].
  - apply S1, asked_one in H. eauto.
  - apply S2, asked_one in H. eauto.
  - pose proof (S3 _ _ (or_introl H)) as H'. apply asked_cons_inv in H' as (v & _ & H'). apply asked_one in H'. eauto.
  - pose proof (S3 _ _ (or_intror H)) as H'. apply asked_cons_inv in H' as (v & _ & H'). apply asked_one in H'. eauto.
  - pose proof (S4 _ _ (or_introl H)) as H'. apply asked_cons_inv in H' as (v & _ & H'). apply asked_one in H'. eauto.
  - pose proof (S4 _ _ (or_intror H)) as H'. apply asked_cons_inv in H' as (v & _ & H'). apply asked_one in H'. eauto.
Qed.
Print Assumptions C91_itself.
Example C91_itself_instance :
  (forall v a v', replied wrapper (Dyn 8 (TLib KRaw)) (CAny (Some a)) v v' \/ replied wrapper (Dyn 8 (TLib KRaw)) (CMut (Some a)) v v' -> a = Dyn 8 (TLib KRaw)) /\
  q_id_downcast_ref wrapper (TLib KRaw) 17 (Dyn 8 (TLib KRaw)) 0 = (Ok 8, 0).
Proof.
  split; [|vm_compute; reflexivity]. intros v a v' [H|H]; inversion H; subst; try reflexivity; exfalso; match goal with K : ~ own _ |- _ => apply K; exact I end.
Qed.

(** For any other code these fail.  The object handed out need not have the id that
    was asked for; the helpers for shared and for mutable references may disagree;
    and an assertion that holds says nothing about the downcast after it. *)
Theorem C91_id_refuted : exists W (Q : object_impl W) k id d u p u',
  q_id_downcast_ref Q (TLib k) id d u = (Ok p, u') /\ fst (obj_id Q (Dyn p (TLib k)) u') <> Ok id.
Proof. exists N, wrapper, KString, 1000, (Dyn 50 (TUser 7)), 0, 51, 2. split; [reflexivity|discriminate]. Qed.
Print Assumptions C91_id_refuted.
Theorem C91_mut_refuted : exists W (Q : object_impl W) k d u p u' v',
  q_downcast_ref Q k d u = (Ok (Some p), u') /\ q_downcast_mut Q k d u = (Ok None, v').
Proof. exists N, wrapper, (TLib KString), (Dyn 50 (TUser 7)), 0, 51, 1, 1. split; reflexivity. Qed.
Print Assumptions C91_mut_refuted.
(** A type that hands out its string tag once. *)
Definition once : object_impl bool := {|
  q_id := fun _ u => (Some 1000, u);
  q_any := fun d (u : bool) => (Some (if u then d else Dyn (d_at d + 1) (TLib KString)), true);
  q_mut := fun d u => (Some d, u);
  q_field := fun _ _ => 17 |}.
Theorem C91_assert_refuted : exists W (Q : object_impl W) k id d (u u1 u2 : W),
  q_assert Q k id d u = (Ok tt, u1) /\ q_id_downcast_ref Q k id d u1 = (Err UnexpectedTagType, u2).
Proof. exists bool, once, (TLib KString), 1000, (Dyn 50 (TUser 7)), false, true, true. split; reflexivity. Qed.
Print Assumptions C91_assert_refuted.

(** Properties C08 and C09: fixed-width values and strings. *)
From Verif Require Import Base BaseFacts Types Spec SpecFacts IO IOSpec IOFacts WriterFacts Logic WLogic ILInt ILIntFacts Data DataFacts.

(** [codec rng n code wr rd]: for the values in [rng], [wr] writes and [rd]
    reads the [n] bytes [code a]. *)
Definition codec {A} (rng : A -> Prop) (n : N) (code : A -> list N)
  (wr : A -> writer -> res io_error unit * writer) (rd : reader -> res io_error A * reader) : Prop :=
  (forall a, rng a -> lenN (code a) = n /\ bytes_ok (code a)) /\
  (** what a successful write leaves; success when there is room *)
  (forall a w w', rng a -> wwf w -> wr a w = (Ok tt, w') -> puts w (code a) w') /\
  (forall a w, rng a -> wwf w -> accepts n w -> exists w', wr a w = (Ok tt, w')) /\
  (** reading it back, whatever follows *)
  (forall a r rest, rng a -> rwf r -> good r -> pending r = code a ++ rest ->
     exists r', rd r = (Ok a, r') /\ delivers r (code a) r') /\
  (** every byte string of the width is the code of the value read *)
  (forall r, rwf r -> good r -> n <= lenN (pending r) ->
     exists a r', rd r = (Ok a, r') /\ rng a /\ code a = takeN n (pending r) /\ delivers r (code a) r') /\
  (** a shorter one is an error *)
  (forall r, rwf r -> good r -> lenN (pending r) < n -> exists e r', rd r = (Err e, r')) /\
  (** on any reader, whenever a read succeeds *)
  (forall r a r', rwf r -> rd r = (Ok a, r') -> rng a /\ delivers r (code a) r').

Lemma codec_intro {A} (rng : A -> Prop) n code wr (rd : reader -> res io_error A * reader) (dec : list N -> A) :
  (forall a, rng a -> lenN (code a) = n /\ bytes_ok (code a) /\ dec (code a) = a) ->
  (forall bs, bytes_ok bs -> lenN bs = n -> rng (dec bs) /\ code (dec bs) = bs) ->
  (forall a, rng a -> emits (wr a) (code a)) ->
  safe rd -> sound rd (fun a bs => a = dec bs /\ lenN bs = n) ->
  (forall bs, bytes_ok bs -> lenN bs = n -> complete rd (dec bs) bs) ->
  codec rng n code wr rd.
Proof.
  intros Hc Hd He Sf Sd Cp. repeat split.
  1,2: now apply Hc.
  - intros a w w' Ra W E. destruct (He a Ra w _ _ W E) as (_ & (p & _ & Q & O) & _).
    now rewrite <- (O eq_refl).
  - intros a w Ra W Ac. destruct (wr a w) as [x w'] eqn:E.
    destruct (He a Ra w _ _ W E) as (_ & _ & K). exists w'. f_equal. apply K.
    destruct (Hc a Ra) as (-> & _). assumption.
  - intros a r rest Ra W G P. destruct (Hc a Ra) as (L & B & D).
    destruct (Cp _ B L r rest W G P) as (r' & E & Dl). rewrite D in E. eauto.
  - intros r W G L. assert (B : bytes_ok (takeN n (pending r))).
    { apply Forall_takeN. now apply bytes_ok_pending. }
    assert (L' : lenN (takeN n (pending r)) = n) by (rewrite lenN_takeN; lia).
    destruct (Cp _ B L' r (dropN n (pending r)) W G) as (r' & E & D); [now rewrite takeN_dropN|].
    destruct (Hd _ B L') as [R C]. exists (dec (takeN n (pending r))), r'. rewrite C. auto.
  - intros r W G L. destruct (rd r) as [x r'] eqn:E. destruct (Sf _ _ _ W E) as (R & _).
    destruct x as [a|e| |]; try contradiction; [|eauto].
    destruct (Sd _ _ _ W E) as (bs & (_ & Lb) & D). destruct (pending_delivers _ _ _ G D) as [P _].
    rewrite P, lenN_app in L. lia.
  - destruct (Sd _ _ _ H H0) as (bs & (-> & Lb) & D).
    destruct (delivers_rwf _ _ _ H D) as [_ B]. now apply Hd.
  - destruct (Sd _ _ _ H H0) as (bs & (-> & Lb) & D).
    destruct (delivers_rwf _ _ _ H D) as [_ B]. destruct (Hd _ B Lb) as [_ ->]. assumption.
Qed.

Lemma wbytes_N w : lenN (be_bytes (wbytes w) 0) = N.of_nat (wbytes w).
Proof. apply lenN_be_bytes. Qed.
Lemma uint_code w v : v < wmod w ->
  lenN (be_bytes (wbytes w) v) = N.of_nat (wbytes w) /\ bytes_ok (be_bytes (wbytes w) v)
  /\ be_value (be_bytes (wbytes w) v) = v.
Proof.
  intros H. split; [apply lenN_be_bytes|]. split; [apply be_bytes_ok|].
  apply be_value_be_bytes. now rewrite <- wmod_pow.
Qed.
Lemma uint_decode w bs : bytes_ok bs -> lenN bs = N.of_nat (wbytes w) ->
  be_value bs < wmod w /\ be_bytes (wbytes w) (be_value bs) = bs.
Proof.
  intros B L. apply length_wbytes in L. split; [now apply be_value_width|].
  rewrite <- L. now apply be_bytes_be_value.
Qed.

(** ** C08.  The ten fixed-width types. *)
Theorem C08_fixed_width_values :
  (forall w, codec (fun v => v < wmod w) (N.of_nat (wbytes w)) (be_bytes (wbytes w))
                   (write_uint w) (read_uint w)) /\
  (forall w, codec (signed_range w) (N.of_nat (wbytes w)) (fun z => be_bytes (wbytes w) (of_signed w z))
                   (write_sint w) (read_sint w)) /\
  codec (fun bits => bits < 2 ^ 32) 4 (be_bytes 4) write_f32 read_f32 /\
  codec (fun bits => bits < 2 ^ 64) 8 (be_bytes 8) write_f64 read_f64.
Proof.
  assert (U : forall w, codec (fun v => v < wmod w) (N.of_nat (wbytes w)) (be_bytes (wbytes w))
                   (write_uint w) (read_uint w)).
  { intros w. apply codec_intro with be_value.
    - intros v H. now apply uint_code.
    - intros bs B L. now apply uint_decode.
    - intros v H. now apply emits_write_uint.
    - apply safe_read_uint.
    - eapply sound_weaken; [|apply sound_read_uint]. intros v bs [-> L]. now rewrite <- length_wbytes.
    - intros bs B L. apply complete_read_uint; [assumption|now apply length_wbytes]. }
  split; [exact U|]. split; [|split].
  - intros w. apply codec_intro with (fun bs => to_signed w (be_value bs)).
    + intros z H. pose proof (of_signed_bound w z) as Hb.
      destruct (uint_code w _ Hb) as (L & B & D). repeat split; auto. rewrite D. now apply to_of_signed.
    + intros bs B L. destruct (uint_decode w bs B L) as [Hb C].
      split; [now apply to_signed_range|]. rewrite of_to_signed by assumption. assumption.
    + intros z _. apply emits_write_sint.
    + apply safe_read_sint.
    + eapply sound_weaken; [|apply sound_read_sint]. intros v bs [-> L]. now rewrite <- length_wbytes.
    + intros bs B L. apply complete_read_sint; [assumption|now apply length_wbytes].
  - apply codec_intro with be_value.
    + intros v H. now apply (uint_code W32).
    + intros bs B L. now apply (uint_decode W32).
    + intros v H. unfold write_f32. rewrite to_be_bytes_spec. apply emits_write_all.
    + intros r x r' W. rewrite read_f32_eq. apply (safe_read_uint W32); assumption.
    + intros r x r' W. rewrite read_f32_eq. intros E. destruct (sound_read_uint W32 _ _ _ W E) as (bs & (-> & L) & D).
      exists bs. repeat split; auto. now apply length_wbytes in L.
    + intros bs B L r rest W G P. rewrite read_f32_eq.
      apply (complete_read_uint W32 bs B ltac:(now apply length_wbytes) r rest W G P).
  - apply codec_intro with be_value.
    + intros v H. now apply (uint_code W64).
    + intros bs B L. now apply (uint_decode W64).
    + intros v H. unfold write_f64. rewrite to_be_bytes_spec. apply emits_write_all.
    + intros r x r' W. rewrite read_f64_eq. apply (safe_read_uint W64); assumption.
    + intros r x r' W. rewrite read_f64_eq. intros E. destruct (sound_read_uint W64 _ _ _ W E) as (bs & (-> & L) & D).
      exists bs. repeat split; auto. now apply length_wbytes in L.
    + intros bs B L r rest W G P. rewrite read_f64_eq.
      apply (complete_read_uint W64 bs B ltac:(now apply length_wbytes) r rest W G P).
Qed.
Print Assumptions C08_fixed_width_values.
Example C08_instance :
  write_sint W32 (-2)%Z (WArray [1;1;1;1;1;1] 1) = (Ok tt, WArray [1;255;255;255;254;1] 5)
  /\ read_sint W32 (RRead [255;255;255;254;9] [Chunk 1; Interrupt; Chunk 1]) = (Ok (-2)%Z, RRead [9] [])
  /\ write_uint W16 258 (WVec [] 0 false) = (Ok tt, WVec [1;2] 2 false)
  /\ write_f32 1065353216 (WWrite [] []) = (Ok tt, WWrite [63;128;0;0] [])
  /\ read_f64 (RByteArray [192;0;0;0;0;0;0;0] 0) = (Ok 13835058055282163712, RByteArray [192;0;0;0;0;0;0;0] 8).
Proof. vm_compute. auto. Qed.

(** ** C09.  Strings. *)
Theorem C09_strings :
  (** on a well-behaved reader: the three outcomes *)
  (forall r n, rwf r -> good r ->
     (n <= lenN (pending r) -> utf8 (takeN n (pending r)) ->
        exists r', read_string n r = (Ok (takeN n (pending r)), r') /\ delivers r (takeN n (pending r)) r') /\
     (n <= lenN (pending r) -> ~ utf8 (takeN n (pending r)) ->
        exists r', read_string n r = (Err IoCorruptedData, r') /\ delivers r (takeN n (pending r)) r') /\
     (lenN (pending r) < n -> exists e r', read_string n r = (Err e, r'))) /\
  (** on any reader: only valid UTF-8 is returned, and it is what was consumed *)
  (forall r n s r', rwf r -> read_string n r = (Ok s, r') -> utf8 s /\ lenN s = n /\ delivers r s r') /\
  (** writing then reading *)
  (forall s w w', wwf w -> write_string s w = (Ok tt, w') -> puts w s w') /\
  (forall s w, wwf w -> accepts (lenN s) w -> exists w', write_string s w = (Ok tt, w')) /\
  (forall s r rest, utf8 s -> rwf r -> good r -> pending r = s ++ rest ->
     exists r', read_string (lenN s) r = (Ok s, r') /\ delivers r s r').
Proof.
  split; [|split; [|split; [|split]]].
  - intros r n W G. split; [|split].
    + intros L U. assert (L' : lenN (takeN n (pending r)) = n) by (rewrite lenN_takeN; lia).
      apply (complete_read_string n _ L' U r (dropN n (pending r)) W G). now rewrite takeN_dropN.
    + intros L U. assert (L' : lenN (takeN n (pending r)) = n) by (rewrite lenN_takeN; lia).
      destruct (complete_fetch n _ L' r (dropN n (pending r)) W G) as (r' & E & D); [now rewrite takeN_dropN|].
      exists r'. split; [|assumption]. unfold read_string. rewrite (bind_ok _ _ _ _ _ E).
      destruct (from_utf8 (takeN n (pending r))) eqn:F; [|reflexivity]. apply from_utf8_spec in F. contradiction.
    + intros L. destruct (read_all_short n r G L) as (e & got & r' & E). exists e, r'.
      unfold read_string, fetch, bind. rewrite E. reflexivity.
  - intros r n s r' W E. destruct (sound_read_string n _ _ _ W E) as (bs & (-> & L & U) & D). auto.
  - intros s w w' W E. destruct (emits_write_all s w _ _ W E) as (_ & (p & _ & Q & O) & _).
    now rewrite <- (O eq_refl).
  - intros s w W A. destruct (write_string s w) as [x w'] eqn:E.
    destruct (emits_write_all s w _ _ W E) as (_ & _ & K). exists w'. f_equal. now apply K.
  - intros s r rest U W G P. now apply (complete_read_string (lenN s) s eq_refl U r rest W G P).
Qed.
Print Assumptions C09_strings.
(** Two, three and four byte characters; a surrogate and an overlong form. *)
Example C09_instance :
  fst (read_string 9 (RVec [195;169;226;130;172;240;159;152;128;1] 0)) = Ok [195;169;226;130;172;240;159;152;128]
  /\ utf8 [195;169;226;130;172;240;159;152;128]
  /\ fst (read_string 3 (RVec [237;160;128] 0)) = Err IoCorruptedData
  /\ fst (read_string 2 (RVec [192;128] 0)) = Err IoCorruptedData.
Proof.
  split; [vm_compute; reflexivity|]. split; [|split; vm_compute; reflexivity].
  exists [233; 8364; 128512]. split; [|vm_compute; reflexivity].
  repeat constructor; unfold scalar; lia.
Qed.

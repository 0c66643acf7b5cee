(** Programs that make every call are programs that share state: C92. *)
From Verif Require Import Base BaseFacts Types Spec SpecFacts IO IOSpec IOFacts Logic HistFacts ILInt ILIntFacts Data DataFacts Tags TagsFacts
  Factory FactoryFacts DecodeFacts DeserFacts IntoFacts EngineFacts ClosedFacts Open KinFacts OpenFacts POpen Prog ProgFacts ProgWire
  IntoProg IntoProgFacts IntoCallFacts OtherProg FullProg Any AnyFacts PAny AnyScan AnyProg AnyProgFacts PProg PAnyProg PFull
  AnyFull AnyFullFacts AnyFullRuns WorldRead WorldReadFacts WorldReadSim WorldReadRuns WorldLog.
From Verif Require Import PFull AnyFull PAnyFull WorldStack PWorldRead.

(** The programs of C85 and C87 make readers of the library and call deserialize and
    deserialize_into on them.  The same programs, with these readers in a stack that is
    part of the shared state: with any reader, whose state is beside the stack, the
    calls give the answers and the objects of C87, the reader is left as there, and the
    stack as it was.  So what C87 says of user types holds of these functions. *)
Theorem C92_full : forall T W (M : reader_impl W) c (D : user_impl T) (Y : yscript T) e f w st,
  impl_ok M -> cfg_ok c -> (forall n x, ycalm (Y n x)) -> (forall n x, yaims (Y n x)) ->
  (forall id, u_create D id <> Some None) -> engine_total e -> engine_bytes e ->
  (forall y r', w_deserialize c (stacked D Y) e f (beside M) (ABase (w, st)) = (y, r') -> returns y ->
     exists w', r' = ABase (w', st) /\ ay_deserialize M c D Y e f (ABase w) = (y, ABase w')) /\
  (forall t y t' r', target t -> w_deserialize_into c (stacked D Y) e f (beside M) (ABase (w, st)) t = (y, t', r') -> returns y ->
     exists w', r' = ABase (w', st) /\ ay_deserialize_into M c D Y e f (ABase w) t = (y, t', ABase w')).
Proof.
  intros T W M c D Y e f w st HM Hc Hp Ha Hn Ht He.
  destruct (stacked_sim c D Y e Hc Hp Ha Hn Ht He f W M (beside M) (fun v => (v, st)) HM (beside_same M st)) as [G1 G2].
  assert (K : forall (r1 : areader W) r', asim (fun v u => u = (v, st)) r1 r' -> (exists w', r1 = ABase w' /\ r' = ABase (w', st)) \/ (exists s n, r1 = ALimited s n)).
  { intros [v|s n] r' H; [left|right; eauto]. destruct r' as [u|]; cbn [asim] in H; [|contradiction]. subst u. eauto. }
  split.
  - intros y r' E Ry. destruct (G1 (ABase w) (ABase (w, st)) y r' eq_refl E Ry) as (r1 & E1 & H).
    destruct (K _ _ H) as [(w' & -> & ->)|(s & n & ->)]; [eauto|].
    destruct (C87_answers W M T c D Y e f w y _ HM Hc Hp Ha Hn Ht He E1 Ry) as (u' & tr & E2 & _). discriminate.
  - intros t y t' r' Tt E Ry. destruct (G2 t Tt (ABase w) (ABase (w, st)) y t' r' eq_refl E Ry) as (r1 & E1 & H).
    destruct (K _ _ H) as [(w' & -> & ->)|(s & n & ->)]; [eauto|].
    destruct (C87_answers_into W M T c D Y e f w t y t' _ HM Hc Hp Ha Hn Ht He Tt E1 Ry) as (u' & tr & E2 & _). discriminate.
Qed.
Print Assumptions C92_full.

(** The vaults of C85: a reader made by a vault is used twice, for a new object and
    for one the factory gave it, and vaults inside make their own while it is on the
    stack. *)
Example C92_full_instance : forall st,
  w_deserialize c64 (stacked vault_user vault_program) std 9 (beside queue) (ABase (vault_bytes ++ [1; 2], st)) = (Ok vault_tree, ABase ([1; 2], st)) /\
  ay_deserialize queue c64 vault_user vault_program std 9 (ABase (vault_bytes ++ [1; 2])) = (Ok vault_tree, ABase [1; 2]) /\
  w_deserialize_into c64 (stacked vault_user vault_program) std 9 (beside queue) (ABase (vault_bytes ++ [1; 2], st)) (OSeq 22 []) = (Ok tt, vault_tree, ABase ([1; 2], st)).
Proof.
  intros st. split; [vm_compute; reflexivity|]. split; [|vm_compute; reflexivity].
  destruct (C92_full _ _ queue c64 vault_user vault_program std 9 (vault_bytes ++ [1; 2]) []) as [K _].
  - exact queue_ok.
  - exact c64_ok.
  - apply vault_calm.
  - apply vault_aims.
  - apply vault_made.
  - apply std_engine_total.
  - apply engine_ok_bytes, std_engine_ok.
  - destruct (K (Ok vault_tree) (ABase ([1; 2], []))) as (w' & E & ->); [vm_compute; reflexivity|exact Logic.I|]. congruence.
Qed.

(** Vocabulary for stating what readers and writers do, independent of how
    they do it. *)
From Verif Require Import Base Types IO.

Definition suffix {A} (s l : list A) : Prop := exists p, l = p ++ s.

(** States reachable through the API: contents are bytes and the cursor of a
    memory reader is inside its buffer. *)
Fixpoint rwf (r : reader) : Prop :=
  match r with
  | RByteArray a o => bytes_ok a /\ o <= lenN a
  | RVec v o => bytes_ok v /\ o <= lenN v
  | RLimited src _ => rwf src
  | RRead data _ => bytes_ok data
  | RSeek s => bytes_ok (sk_data s)
  | RCustom script => Forall (fun x => match x with inr b => byte_ok b | inl _ => True end) script
  end.

(** The bytes a reader has still to deliver. *)
Fixpoint script_bytes (script : list (io_error + N)) : list N :=
  match script with
  | inr b :: s => b :: script_bytes s
  | _ => []
  end.
Fixpoint pending (r : reader) : list N :=
  match r with
  | RByteArray a o => dropN o a
  | RVec v o => dropN o v
  | RLimited src n => takeN n (pending src)
  | RRead data _ => data
  | RSeek s => dropN (sk_pos s) (sk_data s)
  | RCustom script => script_bytes script
  end.

(** A schedule that may split and interrupt but always makes progress. *)
Definition fair (e : event) : Prop :=
  match e with Chunk c => 0 < c | Interrupt | Whole => True | Fail _ => False end.
(** ... and that reads piecewise, as std's [read_exact] does by default. *)
Definition piecewise (e : event) : Prop := fair e /\ e <> Whole.
(** A source that fails only when it has no more data. *)
Fixpoint good (r : reader) : Prop :=
  match r with
  | RByteArray a o => o <= lenN a
  | RVec v o => o <= lenN v
  | RLimited src _ => good src
  | RRead _ sched => Forall fair sched
  | RSeek s => Forall fair (sk_sched s) /\ Forall (fun x => x = None) (sk_seeks s)
  | RCustom script => Forall (fun x => match x with inr _ => True | inl _ => False end) script
  end.

(** [delivers r bs r']: [r'] is what [r] becomes by handing over exactly the
    bytes [bs] of its contents, in order. *)
Fixpoint delivers (r : reader) (bs : list N) (r' : reader) : Prop :=
  match r, r' with
  | RByteArray a o, RByteArray a' o' => a' = a /\ o' = o + lenN bs /\ prefix bs (dropN o a)
  | RVec v o, RVec v' o' => v' = v /\ o' = o + lenN bs /\ prefix bs (dropN o v)
  | RLimited s n, RLimited s' n' => lenN bs <= n /\ n' = n - lenN bs /\ delivers s bs s'
  | RRead data sched, RRead data' sched' => data = bs ++ data' /\ suffix sched' sched
  | RSeek s, RSeek s' =>
      sk_data s' = sk_data s /\ sk_pos s' = sk_pos s + lenN bs
      /\ prefix bs (dropN (sk_pos s) (sk_data s)) /\ suffix (sk_sched s') (sk_sched s)
      /\ suffix (sk_seeks s') (sk_seeks s)
  | RCustom script, RCustom script' => script = map inr bs ++ script'
  | _, _ => False
  end.

(** ** Writers *)
(** Storing [bs] at [o] inside (or at the end of) [v], growing it if needed. *)
Definition overwrite (v : list N) (o : N) (bs : list N) : list N :=
  takeN o v ++ bs ++ dropN (o + lenN bs) v.

Definition wwf (w : writer) : Prop :=
  match w with
  | WVec v o _ => o <= lenN v
  | WBorrowed v i o _ => o <= lenN v
  | WArray a o => o <= lenN a
  | WWrite _ _ | WSeek _ _ _ | WCustom _ _ => True
  end.

(** [puts w bs w']: [w'] is what [w] becomes by receiving exactly [bs] at its
    cursor. *)
Definition puts (w : writer) (bs : list N) (w' : writer) : Prop :=
  match w, w' with
  | WVec v o ro, WVec v' o' ro' =>
      v' = overwrite v o bs /\ o' = o + lenN bs /\ ro' = ro /\ (ro = true -> bs = [])
  | WBorrowed v i o ro, WBorrowed v' i' o' ro' =>
      v' = overwrite v o bs /\ i' = i /\ o' = o + lenN bs /\ ro' = ro /\ (ro = true -> bs = [])
  | WArray a o, WArray a' o' => a' = overwrite a o bs /\ o' = o + lenN bs /\ o' <= lenN a
  | WWrite out sched, WWrite out' sched' => out' = out ++ bs /\ suffix sched' sched
  | WSeek data pos sched, WSeek data' pos' sched' =>
      data' = store data pos bs /\ pos' = pos + lenN bs /\ suffix sched' sched
  | WCustom out script, WCustom out' script' => out' = out ++ bs /\ suffix script' script
  | _, _ => False
  end.

(** A writer with room for [n] more bytes that will not fail: not read-only,
    enough space in an array, a sink that takes everything it is given
    ([Write + Seek] sinks may split and interrupt, they are retried). *)
Definition accepts (n : N) (w : writer) : Prop :=
  match w with
  | WVec v o ro => o <= lenN v /\ ro = false
  | WBorrowed v _ o ro => o <= lenN v /\ ro = false
  | WArray a o => o + n <= lenN a
  | WWrite _ sched => sched = []
  | WSeek _ _ sched => Forall fair sched
  | WCustom _ script => Forall (fun x => x = None) script
  end.

(** Histories of calls on readers and writers, and the abstract machines they
    are compared with. *)
From Verif Require Import Base Types IO IOSpec.

(** ** Readers *)
(** One call of the [Reader] or [MemoryReader] API. *)
Inductive rop := OpRead | OpReadAll (n : N) | OpSkip (n : N) | OpSkipU64 (n : N) | OpSetOffset (n : N).
(** What the caller sees. *)
Inductive outcome := Bytes (bs : list N) | Done | Failed (e : io_error) | Panicked | NoFuel.

Definition outcome_of {A} (f : A -> outcome) (x : res io_error A) : outcome :=
  match x with Ok a => f a | Err e => Failed e | Panic => Panicked | OutOfFuel => NoFuel end.

Definition run_rop (c : cfg) (op : rop) (r : reader) : outcome * reader :=
  match op with
  | OpRead => let '(x, r') := read r in (outcome_of (fun b => Bytes [b]) x, r')
  | OpReadAll n => let '(x, got, r') := read_all n r in (outcome_of (fun _ => Bytes got) x, r')
  | OpSkip n => let '(x, r') := skip c n r in (outcome_of (fun _ => Done) x, r')
  | OpSkipU64 n => let '(x, r') := skip_u64 c n r in (outcome_of (fun _ => Done) x, r')
  | OpSetOffset n =>
      (Done, match r with
             | RByteArray a _ => RByteArray a (mem_set_offset (lenN a) n)
             | RVec v _ => RVec v (vecr_set_offset v n)
             | _ => r
             end)
  end.
Fixpoint run_rops (c : cfg) (ops : list rop) (r : reader) : list outcome * reader :=
  match ops with
  | [] => ([], r)
  | op :: ops' =>
      let '(o, r1) := run_rop c op r in
      let '(os, r2) := run_rops c ops' r1 in
      (o :: os, r2)
  end.

(** The abstract machine: a byte string and a position in it. *)
Definition stream_take (data : list N) (pos n : N) (show : list N -> outcome) : outcome * N :=
  if n =? 0 then (show [], pos)
  else if pos =? lenN data then (Failed EndOfData, pos)
  else if lenN data <? pos + n then (Failed UnableToReadData, pos)
  else (show (takeN n (dropN pos data)), pos + n).
Definition stream_op (data : list N) (op : rop) (pos : N) : outcome * N :=
  match op with
  | OpRead => stream_take data pos 1 Bytes
  | OpReadAll n => stream_take data pos n Bytes
  | OpSkip n | OpSkipU64 n => stream_take data pos n (fun _ => Done)
  | OpSetOffset n => (Done, N.min n (lenN data))
  end.
Fixpoint stream_ops (data : list N) (ops : list rop) (pos : N) : list outcome * N :=
  match ops with
  | [] => ([], pos)
  | op :: ops' =>
      let '(o, p1) := stream_op data op pos in
      let '(os, p2) := stream_ops data ops' p1 in
      (o :: os, p2)
  end.

(** Number of bytes a call asks for. *)
Definition asked (op : rop) : N :=
  match op with OpRead => 1 | OpReadAll n | OpSkip n | OpSkipU64 n => n | OpSetOffset _ => 0 end.
Definition is_skip (op : rop) : bool :=
  match op with OpSkip _ | OpSkipU64 _ => true | _ => false end.
Definition is_take (op : rop) : bool :=
  match op with OpSetOffset _ => false | _ => true end.

(** ** Writers *)
Inductive wop := OpWrite (b : N) | OpWriteAll (bs : list N) | OpWSetOffset (n : N) | OpReadOnly (ro : bool).
Definition run_wop (op : wop) (w : writer) : outcome * writer :=
  match op with
  | OpWrite b => let '(x, w') := write b w in (outcome_of (fun _ => Done) x, w')
  | OpWriteAll bs => let '(x, w') := write_all bs w in (outcome_of (fun _ => Done) x, w')
  | OpWSetOffset n => (Done, set_offset n w)
  | OpReadOnly ro => (Done, set_read_only ro w)
  end.
Fixpoint run_wops (ops : list wop) (w : writer) : list outcome * writer :=
  match ops with
  | [] => ([], w)
  | op :: ops' =>
      let '(o, w1) := run_wop op w in
      let '(os, w2) := run_wops ops' w1 in
      (o :: os, w2)
  end.

(** Abstract vector writer: contents, cursor, read-only flag. *)
Definition vecm_put (bs : list N) (s : list N * N * bool) : outcome * (list N * N * bool) :=
  let '(v, o, ro) := s in
  if (ro : bool) then (Failed UnableToWriteData, s)
  else (Done, (takeN o v ++ bs ++ dropN (o + lenN bs) v, o + lenN bs, ro)).
Definition vecm_op (op : wop) (s : list N * N * bool) : outcome * (list N * N * bool) :=
  match op with
  | OpWrite b => vecm_put [b] s
  | OpWriteAll bs => vecm_put bs s
  | OpWSetOffset n => let '(v, o, ro) := s in (Done, (v, N.min n (lenN v), ro))
  | OpReadOnly ro' => let '(v, o, _) := s in (Done, (v, o, ro'))
  end.
Fixpoint vecm_ops (ops : list wop) (s : list N * N * bool) : list outcome * (list N * N * bool) :=
  match ops with
  | [] => ([], s)
  | op :: ops' =>
      let '(o, s1) := vecm_op op s in
      let '(os, s2) := vecm_ops ops' s1 in
      (o :: os, s2)
  end.

(** Abstract slice writer: contents of fixed length and cursor. *)
Definition arrm_put (bs : list N) (s : list N * N) : outcome * (list N * N) :=
  let '(a, o) := s in
  if lenN a <? o + lenN bs then (Failed UnableToWriteData, s)
  else (Done, (takeN o a ++ bs ++ dropN (o + lenN bs) a, o + lenN bs)).
Definition arrm_op (op : wop) (s : list N * N) : outcome * (list N * N) :=
  match op with
  | OpWrite b => arrm_put [b] s
  | OpWriteAll bs => arrm_put bs s
  | OpWSetOffset n => let '(a, o) := s in (Done, (a, N.min n (lenN a)))
  | OpReadOnly _ => (Done, s)
  end.
Fixpoint arrm_ops (ops : list wop) (s : list N * N) : list outcome * (list N * N) :=
  match ops with
  | [] => ([], s)
  | op :: ops' =>
      let '(o, s1) := arrm_op op s in
      let '(os, s2) := arrm_ops ops' s1 in
      (o :: os, s2)
  end.

(** ** What a history through a limit may do
    [lim_hist avail ops outs bs]: with [avail] bytes allowed, the calls [ops]
    had the outcomes [outs] and took exactly the bytes [bs] from the source. *)
Definition lim_step (avail : N) (op : rop) (out : outcome) (seg : list N) : Prop :=
  lenN seg <= avail /\
  match out with
  | Bytes l => is_skip op = false /\ seg = l /\ lenN seg = asked op
  | Done => is_skip op = true /\ lenN seg = asked op
  | Failed e => e = UnableToReadData /\ avail < asked op /\ (is_skip op = false -> seg = [])
  | Panicked | NoFuel => False
  end.
Fixpoint lim_hist (avail : N) (ops : list rop) (outs : list outcome) (bs : list N) : Prop :=
  match ops, outs with
  | [], [] => bs = []
  | op :: ops', out :: outs' =>
      exists seg rest, bs = seg ++ rest /\ lim_step avail op out seg
                       /\ lim_hist (avail - lenN seg) ops' outs' rest
  | _, _ => False
  end.

(** ** A source that is drained: requests are served in full or not at all, a
    request for more than is left uses up what is left. *)
Definition drain_op (op : rop) (data : list N) : outcome * list N :=
  if asked op <=? lenN data
  then (match op with
        | OpRead | OpReadAll _ => Bytes (takeN (asked op) data)
        | _ => Done
        end, dropN (asked op) data)
  else (Failed (IOErrorStd UnexpectedEof), []).
Fixpoint drain_ops (ops : list rop) (data : list N) : list outcome * list N :=
  match ops with
  | [] => ([], data)
  | op :: ops' =>
      let '(o, d1) := drain_op op data in
      let '(os, d2) := drain_ops ops' d1 in
      (o :: os, d2)
  end.

(** Bytes that the calls reported as written. *)
Fixpoint written (ops : list wop) (outs : list outcome) : list N :=
  match ops, outs with
  | OpWrite b :: ops', Done :: outs' => b :: written ops' outs'
  | OpWriteAll bs :: ops', Done :: outs' => bs ++ written ops' outs'
  | _ :: ops', _ :: outs' => written ops' outs'
  | _, _ => []
  end.
Definition moves (op : wop) : bool := match op with OpWSetOffset _ => true | _ => false end.

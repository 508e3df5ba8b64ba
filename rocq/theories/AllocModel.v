(** * Allocation of object identifiers in file-based pools.

    Source: /repo/src/drivers/bigpool.c:1715-1738 (kpool.c:1684-1705 and
    filepool.c:599-618 are the same up to names), the part of a commit that touches the
    load: bigpool.c:1066-1172, 1371-1389, 1486-1510, /repo/src/storage/pools.c:959-985,
    /repo/src/storage/streams.c:945-965. *)
From Verif Require Import BytesModel.
Local Open Scope N_scope.

(** ** Threads of one process

    What a thread is doing.  Allocation, bigpool.c:1715-1738:
    [AWant n] has entered bigpool_alloc (line 1721 is next: kno_lock_pool_struct),
    [AIn n] holds the lock and is before the capacity check (1726),
    [AStart n] has passed it (1730 [start=bp->pool_load]),
    [ABump n s] is before [bp->pool_load+=n],
    [ADone n s] is before the unlock (1731),
    [ARefuse n l] is before the unlock of line 1727 ([l]: ghost, the load it saw).
    Commit (bigpool_storen):
    [CRead l] has read [load=bp->pool_load] (line 1080, no lock on the pool struct) and is
    writing values, [CUpd l] holds the pool struct lock (1152) and is before
    write_bigpool_load. *)
Inductive tstate :=
| Idle
| AWant (n : N) | AIn (n : N) | AStart (n : N) | ABump (n s : N) | ADone (n s : N) | ARefuse (n l : N)
| CRead (l : N) | CUpd (l : N).

(** Ghost log: what alloc returned to which request. *)
Inductive event := EGrant (start n : N) | ERefuse (n load : N).

(** [load]: bp->pool_load; [fload]: the load in the file header; [lock]: the holder of
    pool_struct_lock; [clock]: the holder of pool_commit_lock (pools.c:1169).  The file
    is already locked by this process, so lock_bigpool_file does nothing. *)
Record pstate := { load : N; fload : N; lock : option nat; clock : option nat;
                   th : nat -> tstate; log : list event }.
Definition upd (f : nat -> tstate) (t : nat) (s : tstate) : nat -> tstate :=
  fun u => if Nat.eqb u t then s else f u.

(** How often the loop of lines 1732-1736 runs, [i < n] with [int n]. *)
Definition loop_count (n : N) : N := if n <? 2^31 then n else 0.

(** One atomic step of thread [t].  Loads and stores of pool_load are separate steps;
    [unsigned int] sums wrap.  [maxn]: a bound on the requests ([allocate_oids],
    prims/dbprims.c:3292-3302, passes any unsigned 32-bit number as an [int], so a
    request is the unsigned reading of that [int]). *)
Inductive step (cap maxn : N) (s : pstate) : pstate -> Prop :=
| S_call t n : th s t = Idle -> n <= maxn ->
    step cap maxn s {| load := load s; fload := fload s; lock := lock s; clock := clock s;
                  th := upd (th s) t (AWant n); log := log s |}
| S_lock t n : th s t = AWant n -> lock s = None ->
    step cap maxn s {| load := load s; fload := fload s; lock := Some t; clock := clock s;
                  th := upd (th s) t (AIn n); log := log s |}
| S_check_ok t n : th s t = AIn n -> (u32 (load s + n) <=? cap) = true ->
    step cap maxn s {| load := load s; fload := fload s; lock := lock s; clock := clock s;
                  th := upd (th s) t (AStart n); log := log s |}
| S_check_fail t n : th s t = AIn n -> (u32 (load s + n) <=? cap) = false ->
    step cap maxn s {| load := load s; fload := fload s; lock := lock s; clock := clock s;
                  th := upd (th s) t (ARefuse n (load s)); log := log s |}
| S_start t n : th s t = AStart n ->
    step cap maxn s {| load := load s; fload := fload s; lock := lock s; clock := clock s;
                  th := upd (th s) t (ABump n (load s)); log := log s |}
| S_bump t n st : th s t = ABump n st ->
    step cap maxn s {| load := u32 (load s + n); fload := fload s; lock := lock s; clock := clock s;
                  th := upd (th s) t (ADone n st); log := log s |}
| S_done t n st : th s t = ADone n st ->
    step cap maxn s {| load := load s; fload := fload s; lock := None; clock := clock s;
                  th := upd (th s) t Idle; log := EGrant st (loop_count n) :: log s |}
| S_refuse t n l : th s t = ARefuse n l ->
    step cap maxn s {| load := load s; fload := fload s; lock := None; clock := clock s;
                  th := upd (th s) t Idle; log := ERefuse n l :: log s |}
| S_commit t : th s t = Idle -> clock s = None ->
    step cap maxn s {| load := load s; fload := fload s; lock := lock s; clock := Some t;
                  th := upd (th s) t (CRead (load s)); log := log s |}
| S_commit_lock t l : th s t = CRead l -> lock s = None ->
    step cap maxn s {| load := load s; fload := fload s; lock := Some t; clock := clock s;
                  th := upd (th s) t (CUpd l); log := log s |}
| S_commit_upd t l : th s t = CUpd l ->
    (* write_bigpool_load: only when the file's load differs *)
    step cap maxn s {| load := if negb (l =? fload s) then l else load s;
                  fload := if negb (l =? fload s) then l else fload s;
                  lock := None; clock := None; th := upd (th s) t Idle; log := log s |}.

Definition start_state (l : N) : pstate :=
  {| load := l; fload := l; lock := None; clock := None; th := fun _ => Idle; log := [] |}.

Inductive reach (cap maxn l0 : N) : pstate -> Prop :=
| R_init : reach cap maxn l0 (start_state l0)
| R_step s s' : reach cap maxn l0 s -> step cap maxn s s' -> reach cap maxn l0 s'.

(** Executions in which every commit, when it updates the load, finds it as it has read
    it: no allocation has come between. *)
Definition quiet (s s' : pstate) : Prop := forall t l, th s t = CUpd l -> th s' t = Idle -> load s = l.
Inductive reach_quiet (cap maxn l0 : N) : pstate -> Prop :=
| Q_init : reach_quiet cap maxn l0 (start_state l0)
| Q_step s s' : reach_quiet cap maxn l0 s -> step cap maxn s s' -> quiet s s' -> reach_quiet cap maxn l0 s'.

(** ** Several processes on one file

    Each process has its own copy of the load and of the flag KNO_STREAM_FILE_LOCKED. *)
Record proc := { p_load : N; p_flag : bool }.
(** [os]: the process that holds the operating system's lock on the file. *)
Record world := { w_file : N; w_os : option nat; w_procs : nat -> proc }.
Definition updp (f : nat -> proc) (p : nat) (x : proc) : nat -> proc :=
  fun q => if Nat.eqb q p then x else f q.
(** lock_filestream, streams.c:945-954, with a lock call that waits (F_SETLKW): [None]
    means that the process is blocked. *)
Definition lock_filestream (w : world) (p : nat) : option world :=
  if p_flag (w_procs w p) then Some w
  else match w_os w with
       | Some q => if Nat.eqb q p then Some w else None
       | None => Some {| w_file := w_file w; w_os := Some p;
                         w_procs := updp (w_procs w) p {| p_load := p_load (w_procs w p); p_flag := true |} |}
       end.
(** unlock_filestream, streams.c:956-965: line 961 sets the flag again instead of
    clearing it. *)
Definition unlock_filestream (w : world) (p : nat) : world :=
  if negb (p_flag (w_procs w p)) then w
  else {| w_file := w_file w; w_os := None;
          w_procs := updp (w_procs w) p {| p_load := p_load (w_procs w p); p_flag := true |} |}.
(** bigpool_alloc of one identifier: lock_bigpool_file (bigpool.c:500-527) only if the
    flag is clear, and then reload_bigpool, which takes the load from the file. *)
Definition w_alloc (cap : N) (w : world) (p : nat) : option (N * world) :=
  let w1 := if p_flag (w_procs w p) then Some w
            else match lock_filestream w p with
                 | None => None
                 | Some w' => Some {| w_file := w_file w'; w_os := w_os w';
                                      w_procs := updp (w_procs w') p {| p_load := w_file w'; p_flag := true |} |}
                 end in
  match w1 with
  | None => None
  | Some w1 =>
    let l := p_load (w_procs w1 p) in
    if u32 (l + 1) <=? cap
    then Some (l, {| w_file := w_file w1; w_os := w_os w1;
                     w_procs := updp (w_procs w1) p {| p_load := u32 (l + 1); p_flag := p_flag (w_procs w1 p) |} |})
    else None
  end.
(** A commit writes the load; afterwards the pool is unlocked (kno_pool_unlock). *)
Definition w_commit_unlock (w : world) (p : nat) : world :=
  unlock_filestream {| w_file := p_load (w_procs w p); w_os := w_os w; w_procs := w_procs w |} p.

(** ** kno_pool_alloc, pools.c:959-985: what the caller gets

    A driver's result: the empty choice, one OID, a choice, an accumulator, an error. *)
Inductive dresult := DEmpty | DOid | DChoice | DPrechoice | DError.
(** The accumulation loop yields the empty choice (0), an OID (1) or an accumulator;
    bigpool.c:1737 and kpool.c simplify it, filepool.c:617 does not. *)
Definition driver_alloc (simplify : bool) (cap load n : N) : dresult * N :=
  if u32 (load + n) <=? cap
  then ((if loop_count n =? 0 then DEmpty else if loop_count n =? 1 then DOid
         else if simplify then DChoice else DPrechoice), u32 (load + n))
  else (DError, load).
(** Some: the number of identifiers returned; None: an error (BadDriverResult for the
    empty choice and for an accumulator). *)
Definition pool_alloc (simplify : bool) (cap load n : N) : option N * N :=
  let (r, l) := driver_alloc simplify cap load n in
  match r with DOid | DChoice => (Some (loop_count n), l) | DEmpty | DPrechoice | DError => (None, l) end.

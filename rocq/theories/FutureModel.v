(* Promises made by DELAY and forced by any number of threads:
   src/eval/promises.c and src/apply/futures.c.

   The model is of the single steps in which threads read and write the
   fields of one promise, interleaved in any way; reads and writes of a field
   are taken to be atomic and seen by all threads in one order.

   Not modelled: reference counts, callbacks (a promise has none when it is
   made and the library has no way of adding one), futures with other handlers,
   the time of the update, values which are prechoices. *)

From Coq Require Import List Arith Bool.
Import ListNotations.

(* What future_value may hold: a value, or the exception object of a failed
   evaluation (promises.c 57-59, kno_simple_exception). *)
Inductive val := V (n : nat) | Exn.

(* What FORCE returns: the value; KNO_ERROR; the default; a null pointer. *)
Inductive res := RVal (v : val) | RErr | RDflt | RNull.

(* The outcome of kno_eval of the delayed expression; None: aborted. *)
Definition outcome := option nat.
Definition rep (o : outcome) : val := match o with Some n => V n | None => Exn end.

(* include/kno/futures.h 20-30, struct KNO_FUTURE: future_value (None for
   KNO_NULL), the FINALIZED and EXCEPTION bits, the owner of future_lock; and
   as records of what happened, how many evaluations of the expression were
   begun and the outcomes of those which ended. *)
Record shared := {
  value : option val; fin : bool; exc : bool; lock : option nat;
  evals : nat; outs : list outcome }.

Definition set_value (h : shared) (v : val) : shared :=
  {| value := Some v; fin := fin h; exc := exc h; lock := lock h;
     evals := evals h; outs := outs h |}.
Definition set_fin (h : shared) : shared :=
  {| value := value h; fin := true; exc := exc h; lock := lock h;
     evals := evals h; outs := outs h |}.
Definition set_exc (h : shared) : shared :=
  {| value := value h; fin := fin h; exc := true; lock := lock h;
     evals := evals h; outs := outs h |}.
Definition set_lock (h : shared) (l : option nat) : shared :=
  {| value := value h; fin := fin h; exc := exc h; lock := l;
     evals := evals h; outs := outs h |}.
Definition begin_eval (h : shared) : shared :=
  {| value := value h; fin := fin h; exc := exc h; lock := lock h;
     evals := S (evals h); outs := outs h |}.
Definition end_eval (h : shared) (o : outcome) : shared :=
  {| value := value h; fin := fin h; exc := exc h; lock := lock h;
     evals := evals h; outs := outs h ++ [o] |}.

(* Where a thread is in kno_force_future (futures.c 87-113), in
   kno_change_future (50-85) called from it, and in force_eval_promise
   (promises.c 45-67) called from there. *)
Inductive pc :=
| Check1                  (* futures.c 89: reads future_value *)
| Check1b                 (* 89: it was set; reads the FINALIZED bit *)
| Check2                  (* 91: reads future_value again; 98 *)
| LockRead | InRead       (* 92; 93-97 *)
| Ch1                     (* 53: reads the FINALIZED bit without the lock *)
| Ch2                     (* 55: u8_lock_mutex *)
| Ch3                     (* 56: reads the bit with the lock *)
| Ch3e                    (* 57-59: the error, the lock is released *)
| H0                      (* promises.c 48-53: the evaluation begins *)
| H1                      (* 54: evaluating *)
| H2 (o : outcome)        (* 57-59, 64: future_value is set *)
| H3                      (* 60: the EXCEPTION bit is set *)
| H4 (ok : bool)          (* 61, 65: the FINALIZED bit is set *)
| Ch5 (ok : bool)         (* futures.c 62-64, 80: the lock is released *)
| A1 | A1b                (* 102: as Check1, Check1b *)
| A2                      (* 104: reads future_value again; 111 *)
| ALock | AIn.            (* 105; 106-110 *)

Inductive action := Next (p : pc) | Ret (r : res).

(* kno_incref(f->future_value) *)
Definition rd (h : shared) : res :=
  match value h with Some v => RVal v | None => RNull end.

(* One step of thread [t] at [p]; None while it has to wait for the lock.
   [o] is the outcome if this is the step which ends the evaluation.
   futures.c 50-113, promises.c 45-67; the lines are given with [pc]. *)
Definition act (t : nat) (o : outcome) (p : pc) (h : shared) : option (shared * action) :=
  match p with
  | Check1 => Some (h, Next (match value h with Some _ => Check1b | None => Check2 end))
  | Check1b => Some (h, if fin h then Ret (rd h) else Next Check2)
  | Check2 => Some (h, Next (match value h with Some _ => LockRead | None => Ch1 end))
  | LockRead =>
      match lock h with None => Some (set_lock h (Some t), Next InRead) | Some _ => None end
  | InRead => Some (set_lock h None, Ret (rd h))
  | Ch1 => Some (h, if fin h then Ret RErr else Next Ch2)
  | Ch2 =>
      match lock h with None => Some (set_lock h (Some t), Next Ch3) | Some _ => None end
  | Ch3 => Some (h, Next (if fin h then Ch3e else H0))
  | Ch3e => Some (set_lock h None, Ret RErr)
  | H0 => Some (begin_eval h, Next H1)
  | H1 => Some (end_eval h o, Next (H2 o))
  | H2 r => Some (set_value h (rep r), Next (match r with None => H3 | Some _ => H4 true end))
  | H3 => Some (set_exc h, Next (H4 false))
  | H4 ok => Some (set_fin h, Next (Ch5 ok))
  | Ch5 ok => Some (set_lock h None, if ok then Next A1 else Ret RErr)
  | A1 => Some (h, Next (match value h with Some _ => A1b | None => A2 end))
  | A1b => Some (h, if fin h then Ret (rd h) else Next A2)
  | A2 => Some (h, match value h with Some _ => Next ALock | None => Ret RDflt end)
  | ALock =>
      match lock h with None => Some (set_lock h (Some t), Next AIn) | Some _ => None end
  | AIn => Some (set_lock h None, Ret (rd h))
  end.

(* The promise, the calls of FORCE each thread is in (innermost first; empty
   when it is in none) and the results returned so far. *)
Record state := { sh : shared; th : nat -> list pc; log : list (nat * res) }.

Definition upd (f : nat -> list pc) (t : nat) (l : list pc) : nat -> list pc :=
  fun x => if x =? t then l else f x.

(* promises.c 30-39: a promise as DELAY makes it *)
Definition init : state :=
  {| sh := {| value := None; fin := false; exc := false; lock := None; evals := 0; outs := [] |};
     th := fun _ => []; log := [] |}.

(* A thread which is in no FORCE, or is evaluating the delayed expression, may
   call FORCE (promises.c 76-82); a thread in FORCE makes its next step. *)
Inductive step : state -> state -> Prop :=
| step_force : forall s t,
    (th s t = [] \/ exists b, th s t = H1 :: b) ->
    step s {| sh := sh s; th := upd (th s) t (Check1 :: th s t); log := log s |}
| step_next : forall s t o p b h' p',
    th s t = p :: b -> act t o p (sh s) = Some (h', Next p') ->
    step s {| sh := h'; th := upd (th s) t (p' :: b); log := log s |}
| step_ret : forall s t o p b h' r,
    th s t = p :: b -> act t o p (sh s) = Some (h', Ret r) ->
    step s {| sh := h'; th := upd (th s) t b; log := log s ++ [(t, r)] |}.

Inductive steps : state -> state -> Prop :=
| steps_refl : forall s, steps s s
| steps_more : forall s s1 s2, steps s s1 -> step s1 s2 -> steps s s2.

Definition reachable (s : state) : Prop := steps init s.

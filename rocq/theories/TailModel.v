(** * Tail calls: evaluating with reused lambda frames

    The evaluator of src/eval/eval.c and src/eval/lambda.c does not
    grow its stack for a call in tail position: [lambda_call] looks up
    the chain of stack frames for a lambda frame it may take over,
    overwrites that frame's function and arguments, and returns the
    constant KNO_TAIL, which every evaluator below that frame passes
    up until the loop in that frame's own [lambda_call] sees it.  Which
    frames are in tail position is kept in one bit of each frame,
    set and cleared by the evaluators as they go.

    Modelled: the bit, the search, the take-over, the loop, and for
    each evaluator the order in which it sets the bit, evaluates, and
    pops.  Frames are a list whose head is the C variable [stack] (or
    [_stack]); its tail is the chain of [stack_caller]s.

    Not modelled: optional and rest parameters, argument types,
    variables being assigned, choices as arguments (which switch tail
    calls off and go through [kno_call]), profiling other than its
    effect on tail calls, tracing, the VM's opcodes, and memory
    management.  An environment is the list of the values of the
    variables in scope. *)

From Coq Require Import ZArith List Bool Arith.
Import ListNotations.

(** ** Expressions and values *)

(** Expressions, already told apart by what their head evaluates to
    (eval.c:531-552): a constant or quoted datum (doeval,
    eval_internals.h:168-200), a variable reference, a LAMBDA
    expression (lambda.c, [k] parameters and [l] locals, [nt] for a
    lambda which may not use tail calls in its body, i.e. a
    synchronized one or one with KNO_CALL_NOTAIL, and [pr] for one with
    a profile), IF (conditionals.c:23-42), WHEN (conditionals.c:143-159),
    AND (conditionals.c:182-195), BEGIN (iterators.c:451-456), LET
    (binders.c:244-271), a macro call with the expansion it gets
    (eval.c:395-413) and an application (eval.c:559-638).  The values a
    program can handle: numbers and such, #f, #t, void, the empty
    choice, the mark of an unbound local (lambda.c:193), lambdas with
    their environment, and primitives. *)
Inductive expr : Type :=
| EQ (v : value)
| EVar (i : nat)
| ELam (k l : nat) (nt pr : bool) (body : list expr)
| EIf (a b : expr) (c : option expr)
| EWhen (a : expr) (body : list expr)
| EAnd (es : list expr)
| EBegin (body : list expr)
| ELet (vals body : list expr)
| EMac (e : expr)
| EApp (f : expr) (args : list expr)
with value : Type :=
| VInt (z : Z)
| VFalse
| VTrue
| VVoid
| VEmpty
| VUnbound
| VClo (k l : nat) (nt pr : bool) (body : list expr) (env : list value)
| VPrim (p : nat).

(** What a primitive written in C does next: return a value, fail, or
    apply a function to arguments (kno_apply, kno_dcall) and go on, as
    the primitive [p], with the result in front of what it had. *)
Inductive pstep : Type :=
| PDone (v : value)
| PFail
| PCall (f : value) (args : list value) (p : nat).

(** ** Frames *)

(** struct KNO_STACK (stacks.h): [stack_bits] & KNO_STACK_TAIL_POS,
    KNO_STACK_LAMBDA_CALL and KNO_STACK_TAIL_LOOP, [stack_width], and
    for a lambda frame [stack_op] and the arguments. *)
Record frame : Type := MkFrame {
  f_bit : bool;
  f_lam : bool;
  f_loop : bool;
  f_width : nat;
  f_fn : value;
  f_args : list value }.

(** KNO_SETUP_STACK (stacks.h:303-310): no bits set. *)
Definition fresh : frame := MkFrame false false false 0 VVoid [].

(** KNO_STACK_SET_BIT(stack,KNO_STACK_TAIL_POS,b) (stacks.h:244-245). *)
Definition setbit (b : bool) (f : frame) : frame :=
  MkFrame b (f_lam f) (f_loop f) (f_width f) (f_fn f) (f_args f).

Definition settop (b : bool) (st : list frame) : list frame :=
  match st with
  | [] => []
  | f :: t => setbit b f :: t
  end.

(** KNO_STACK_BITP(_stack,KNO_STACK_TAIL_POS), as in conditionals.c:153. *)
Definition topbit (st : list frame) : bool :=
  match st with
  | [] => false
  | f :: _ => f_bit f
  end.

(** KNO_STACK_SET_BIT(lambda_stack,KNO_STACK_TAIL_LOOP,0) (lambda.c:310). *)
Definition noloop (f : frame) : frame :=
  MkFrame (f_bit f) (f_lam f) false (f_width f) (f_fn f) (f_args f).

(** What lambda_setup and lambda_call do to a frame taken over
    (lambda.c:56-203 and 247-251): function and arguments replaced,
    TAIL_POS and TAIL_LOOP set, the width left as it was. *)
Definition takeover (fn : value) (vs : list value) (f : frame) : frame :=
  MkFrame true true true (f_width f) fn vs.

Fixpoint put (i : nat) (fn : value) (vs : list value) (st : list frame) : list frame :=
  match st, i with
  | [], _ => []
  | f :: t, O => takeover fn vs f :: t
  | f :: t, S j => f :: put j fn vs t
  end.

(** The frame [lambda_call] pushes, after [lambda_setup] (lambda.c:253-275). *)
Definition lamframe (w : nat) (fn : value) (vs : list value) (tail : bool) : frame :=
  MkFrame tail true false w fn vs.

(** The search for a frame to take over (lambda.c:227-244): from
    [stack] up the callers while the tail bit is set; every lambda
    frame with room for [w] variables becomes the one found, so that
    the last one counts; at most [tmax] of them are looked at when
    [tmax] is not 0 (kno_tail_max, lambda.c:38, is -1 by default; all
    numbers below 1 mean the same). *)
Fixpoint scan (tmax w span : nat) (st : list frame) : option nat :=
  match st with
  | [] => None
  | f :: t =>
      if negb (f_bit f) then None
      else if negb (f_lam f) then option_map S (scan tmax w span t)
      else if w <=? f_width f then
        if (0 <? tmax) && (tmax <=? S span) then Some 0
        else match scan tmax w (S span) t with
             | Some i => Some (S i)
             | None => Some 0
             end
      else option_map S (scan tmax w span t)
  end.

(** ** Evaluation *)

(** What an evaluator returns: a value, an error, KNO_TAIL; [OOver]
    stands for arguments being written behind the end of a frame's
    argument vector, which C leaves undefined, and [ODeep] for there
    being more frames than were allowed (see [room]). *)
Inductive out : Type :=
| OVal (v : value)
| OErr
| OTail
| OOver
| ODeep.

(** check_fcn_arity (eval.c:415-428) for lambdas, whose parameters are
    all required here, and being applicable at all (eval.c:531-552);
    primitives check their arguments themselves. *)
Definition callable (fn : value) (n : nat) : bool :=
  match fn with
  | VClo k _ _ _ _ _ => n =? k
  | VPrim _ => true
  | _ => false
  end.

Section Machine.
(** What the primitives do, and kno_tail_max: arbitrary. *)
Variable prim : nat -> list value -> pstep.
Variable tmax : nat.
(** For counting frames: a limit on them, if any.  This is no part of
    the code, which has a limit on the C stack (stackcheck,
    apply.c:61-71, looked at by kno_dcall and its like only); it is there to be able
    to say how many frames an evaluation takes. *)
Variable lim : option nat.

Definition room (st : list frame) : bool :=
  match lim with
  | None => true
  | Some m => length st <? m
  end.

(** doeval (eval_internals.h:168-200) [ev]; what lisp_eval does once its
    frame is pushed (eval.c:526-556) [evpair]; eval_body
    (eval_internals.h:276-303) [evbody]; the clauses of AND
    (conditionals.c:182-195) [evand]; the values bound by LET
    (binders.c:256-265) [evlets]; eval_args (vm.c:71-122) [evargs];
    lambda_call (lambda.c:215-320) [call] and the loop in it
    (lambda.c:280-317) [loop]; a primitive written in C [run], calling
    back through kno_dcall (apply.c:301-375), which pushes a frame of
    its own and calls lambdas with tail=1 (lambda.c:349-360).

    The number is only there to make these functions total: no result
    means that it was too small.

    The frame which lisp_eval pushes is the head of the list given to
    [evpair]; KNO_TAIL as the value of an argument or of a clause of
    AND, which the C code would take for a value, is handed on. *)
Fixpoint ev (n : nat) (e : expr) (env : list value) (st : list frame) (tail : bool)
  {struct n} : option (out * list frame) :=
  match n with
  | O => None
  | S n =>
      match e with
      | EQ v => Some (OVal v, st)
      | EVar i =>
          Some (match nth_error env i with
                | None | Some VUnbound => OErr
                | Some v => OVal v
                end, st)
      | _ =>
          if room st then
            match evpair n e env (fresh :: settop tail st) tail with
            | Some (o, st1) => Some (o, tl st1)
            | None => None
            end
          else Some (ODeep, st)
      end
  end
with evpair (n : nat) (e : expr) (env : list value) (st : list frame) (tail : bool)
  {struct n} : option (out * list frame) :=
  match n with
  | O => None
  | S n =>
      match e with
      | EQ _ | EVar _ => Some (OErr, st)
      | ELam k l nt pr body =>
          Some (OVal (VClo k l nt pr body env), settop tail st)
      | EIf a b c =>
          match ev n a env (settop tail st) false with
          | None => None
          | Some (OErr, st1) => Some (OErr, st1)
          | Some (OOver, st1) => Some (OOver, st1)
          | Some (ODeep, st1) => Some (ODeep, st1)
          | Some (OVal VEmpty, st1) => Some (OVal VEmpty, st1)
          | Some (OVal VFalse, st1) =>
              match c with
              | None => Some (OVal VVoid, st1)
              | Some c => ev n c env st1 true
              end
          | Some (_, st1) => ev n b env st1 true
          end
      | EWhen a body =>
          match ev n a env (settop tail st) false with
          | None => None
          | Some (OErr, st1) => Some (OErr, st1)
          | Some (OOver, st1) => Some (OOver, st1)
          | Some (ODeep, st1) => Some (ODeep, st1)
          | Some (OVal VEmpty, st1) => Some (OVal VVoid, st1)
          | Some (OVal VFalse, st1) => Some (OVal VVoid, st1)
          | Some (_, st1) => evbody n body env st1 (topbit st1)
          end
      | EAnd es => evand n es env (settop tail st) VTrue
      | EBegin body => evbody n body env (settop tail st) tail
      | ELet vals body =>
          match evlets n vals env (fresh :: settop tail st) with
          | None => None
          | Some (inr o, st1) => Some (o, tl st1)
          | Some (inl vs, st1) =>
              match evbody n body (vs ++ env) st1 tail with
              | None => None
              | Some (o, st2) => Some (o, tl st2)
              end
          end
      | EMac e =>
          match ev n e env (fresh :: st) false with
          | None => None
          | Some (o, st1) => Some (o, tl st1)
          end
      | EApp f args =>
          match ev n f env st false with
          | None => None
          | Some (OErr, st1) => Some (OErr, st1)
          | Some (OOver, st1) => Some (OOver, st1)
          | Some (ODeep, st1) => Some (ODeep, st1)
          | Some (OTail, st1) => Some (OErr, st1)
          | Some (OVal VEmpty, st1) => Some (OVal VEmpty, st1)
          | Some (OVal fn, st1) =>
              if callable fn (length args) then
                match evargs n args env st1 with
                | None => None
                | Some (inr o, st2) => Some (o, st2)
                | Some (inl vs, st2) =>
                    match fn with
                    | VPrim p =>
                        match run n p vs (fresh :: settop tail st2) with
                        | None => None
                        | Some (o, st3) => Some (o, tl st3)
                        end
                    | _ => call n fn vs (settop tail st2) tail
                    end
                end
              else Some (OErr, st1)
          end
      end
  end
with evbody (n : nat) (es : list expr) (env : list value) (st : list frame) (tail : bool)
  {struct n} : option (out * list frame) :=
  match n with
  | O => None
  | S n =>
      match es with
      | [] => Some (OVal VVoid, st)
      | [e] => ev n e env (settop tail st) tail
      | e :: es =>
          match ev n e env (settop false st) false with
          | None => None
          | Some (OVal _, st1) => evbody n es env st1 tail
          | Some (OTail, st1) => Some (OErr, st1)
          | Some (o, st1) => Some (o, st1)
          end
      end
  end
with evand (n : nat) (es : list expr) (env : list value) (st : list frame) (v : value)
  {struct n} : option (out * list frame) :=
  match n with
  | O => None
  | S n =>
      match es with
      | [] => Some (OVal v, st)
      | e :: es =>
          match ev n e env st false with
          | None => None
          | Some (OVal VFalse, st1) => Some (OVal VFalse, st1)
          | Some (OVal VEmpty, st1) => Some (OVal VEmpty, st1)
          | Some (OVal v1, st1) => evand n es env st1 v1
          | Some (o, st1) => Some (o, st1)
          end
      end
  end
with evlets (n : nat) (es : list expr) (env : list value) (st : list frame)
  {struct n} : option ((list value + out) * list frame) :=
  match n with
  | O => None
  | S n =>
      match es with
      | [] => Some (inl [], st)
      | e :: es =>
          match ev n e env st false with
          | None => None
          | Some (OVal VVoid, st1) => Some (inr OErr, st1)
          | Some (OVal v, st1) =>
              match evlets n es env st1 with
              | None => None
              | Some (inl vs, st2) => Some (inl (v :: vs), st2)
              | Some (inr o, st2) => Some (inr o, st2)
              end
          | Some (OTail, st1) => Some (inr OErr, st1)
          | Some (o, st1) => Some (inr o, st1)
          end
      end
  end
with evargs (n : nat) (es : list expr) (env : list value) (st : list frame)
  {struct n} : option ((list value + out) * list frame) :=
  match n with
  | O => None
  | S n =>
      match es with
      | [] => Some (inl [], st)
      | e :: es =>
          match ev n e env st false with
          | None => None
          | Some (OVal VVoid, st1) => Some (inr OErr, st1)
          | Some (OVal VEmpty, st1) => Some (inr (OVal VEmpty), st1)
          | Some (OVal v, st1) =>
              match evargs n es env st1 with
              | None => None
              | Some (inl vs, st2) => Some (inl (v :: vs), st2)
              | Some (inr o, st2) => Some (inr o, st2)
              end
          | Some (o, st1) => Some (inr o, st1)
          end
      end
  end
with call (n : nat) (fn : value) (vs : list value) (st : list frame) (tail : bool)
  {struct n} : option (out * list frame) :=
  match n with
  | O => None
  | S n =>
      match fn with
      | VClo k l nt pr body env =>
          match (if tail && negb pr then scan tmax (k + l) 0 st else None) with
          | Some i =>
              match nth_error st i with
              | Some f =>
                  if k + l <=? f_width f then Some (OTail, put i fn vs st)
                  else Some (OOver, st)
              | None => Some (OOver, st)
              end
          | None =>
              if room st then
                match loop n (lamframe (k + l) fn vs tail :: st) with
                | None => None
                | Some (o, st1) => Some (o, tl st1)
                end
              else Some (ODeep, st)
          end
      | _ => Some (OErr, st)
      end
  end
with loop (n : nat) (st : list frame) {struct n} : option (out * list frame) :=
  match n with
  | O => None
  | S n =>
      match st with
      | [] => Some (OErr, st)
      | f :: t =>
          match f_fn f with
          | VClo k l nt pr body env =>
              match evbody n body (f_args f ++ repeat VUnbound l ++ env) st (negb nt) with
              | None => None
              | Some (OTail, f1 :: t1) =>
                  if f_loop f1 then loop n (noloop f1 :: t1)
                  else Some (OTail, f1 :: t1)
              | Some (o, st1) => Some (o, st1)
              end
          | _ => Some (OErr, st)
          end
      end
  end
with run (n : nat) (p : nat) (vs : list value) (st : list frame)
  {struct n} : option (out * list frame) :=
  match n with
  | O => None
  | S n =>
      match prim p vs with
      | PDone v => Some (OVal v, st)
      | PFail => Some (OErr, st)
      | PCall fn args p1 =>
          if callable fn (length args) then
            match (match fn with
                   | VPrim q => run n q args (fresh :: st)
                   | _ => call n fn args (fresh :: st) true
                   end) with
            | None => None
            | Some (OVal r, st1) => run n p1 (r :: vs) (tl st1)
            | Some (o, st1) => Some (o, tl st1)
            end
          else Some (OErr, st)
      end
  end.
End Machine.

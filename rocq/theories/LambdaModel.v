(* How a lambda is made from its argument list and body and how a call binds
   its variables: src/eval/lambda.c, src/eval/eval_internals.h, src/eval/eval.c.

   Not modelled here: reference counts, tracing, profiling, the documentation
   string itself, ndcall/choiceop flags, consblocks, the call frames and tail
   calls (TailModel.v), how environments are searched and copied
   (EnvModel.v). *)

From Coq Require Import List Arith Bool ZArith.
Import ListNotations.

(* include/kno/ptr.h 740-800 (constants), include/kno/cons.h.  The lisp values
   the code distinguishes.  [Map b] is a schemap or slotmap at the head of a
   body; [b] says whether it has a `synchronized' or `sync' key.  [Abort] is
   any of the error and tail markers (KNO_TAIL, KNO_ERROR ...).  [QCh v] is a
   quoted choice around [v]. *)
Inductive lisp :=
| Sym (n : nat) | Str (n : nat) | Num (z : Z) | Nil | Pair (a d : lisp)
| Void | QVoid | Dflt | Req | Fals | Empty | Unbound
| QCh (v : lisp) | Map (sync : bool) | Abort.

(* src/eval/lambda.c 419, DEF_KNOSYM: the three symbols scan_body knows. *)
Definition s_local := Sym 0.
Definition s_locals := Sym 1.
Definition s_define := Sym 2.

(* Ok; an error reported to the caller; a read through a pointer which is
   none (KNO_CAR or KNO_CDR of something which is not a pair). *)
Inductive res (A : Type) := Ok (a : A) | Err | Crash.
Arguments Ok {A}. Arguments Err {A}. Arguments Crash {A}.

Definition bind {A B} (r : res A) (f : A -> res B) : res B :=
  match r with Ok a => f a | Err => Err | Crash => Crash end.

(* src/eval/eval_internals.h 256-268, _pop_arg *)
Definition pop_arg (x : lisp) : lisp * lisp :=
  match x with Pair a d => (a, d) | _ => (Void, x) end.

(* src/eval/lambda.c 527-529: the three stackvecs args, inits and types *)
Record vars := { v_args : list lisp; v_inits : list lisp; v_types : list lisp }.
Definition push (vs : vars) (a i t : lisp) : vars :=
  {| v_args := v_args vs ++ [a];
     v_inits := v_inits vs ++ [i];
     v_types := v_types vs ++ [t] |}.
Definition novars := {| v_args := []; v_inits := []; v_types := [] |}.

Definition is_req (x : lisp) := match x with Req => true | _ => false end.
Definition is_nil (x : lisp) := match x with Nil => true | _ => false end.
Definition is_fals (x : lisp) := match x with Fals => true | _ => false end.
(* KNO_VOIDP *)
Definition is_void (x : lisp) := match x with Void => true | _ => false end.
(* lambda.c 549-550: VOIDP, FALSEP or EMPTYP *)
Definition no_type (x : lisp) :=
  match x with Void | Fals | Empty => true | _ => false end.
(* lambda.c 386: VOIDP or KNO_QVOID *)
Definition no_init (x : lisp) :=
  match x with Void | QVoid => true | _ => false end.

Section Lambda.
  (* [tev x]: kno_eval of a type expression where the lambda is made; None for
     an aborted evaluation.  [dev x]: doeval of a default expression in the
     lambda's own environment (proc_env).  [check v t]: KNO_CHECKTYPE. *)
  Variable tev : lisp -> option lisp.
  Variable dev : lisp -> option lisp.
  Variable check : lisp -> lisp -> bool.

  (* src/eval/lambda.c 530-567, the loop over the argument list in
     _make_lambda.  Gives what is left when the list stops being a pair, the
     number of positional parameters, first_optional and the three stacks. *)
  Fixpoint scan_args (scan : lisp) (i : nat) (fo : option nat) (vs : vars)
    : res (lisp * nat * option nat * vars) :=
    match scan with
    | Pair elt rest =>
        match elt with
        | Sym _ => scan_args rest (S i) fo (push vs elt Void Fals)
        | Pair _ _ =>
            let (argname, e1) := pop_arg elt in
            let (init, e2) := pop_arg e1 in
            let (ty, e3) := pop_arg e2 in
            if negb (is_nil e3) then Err
            else
              let put := if is_req init then Void else init in
              let fo' := if is_req init then fo
                         else match fo with None => Some i | _ => fo end in
              if no_type ty then scan_args rest (S i) fo' (push vs argname put Fals)
              else match tev ty with
                   | None => Err
                   | Some t => scan_args rest (S i) fo' (push vs argname put t)
                   end
        | _ => Err
        end
    | _ => Ok (scan, i, fo, vs)
    end.

  (* src/eval/eval.c 1278-1281, kno_get_arg: the n-th element of an expression, or VOID *)
  Fixpoint get_arg (x : lisp) (n : nat) : lisp :=
    match x with
    | Pair a d => match n with 0 => a | S n' => get_arg d n' end
    | _ => Void
    end.

  (* src/eval/lambda.c 432-438: the loop over leading strings of a body *)
  Fixpoint skip_docs (x : lisp) : lisp :=
    match x with
    | Pair (Str _) ((Pair _ _) as rest) => skip_docs rest
    | _ => x
    end.

  (* src/eval/lambda.c 456-477: the variables of a (local ...) form.  The test
     on line 462 is of [scan], the body, which is always a pair. *)
  Fixpoint local_vars (l : lisp) (vs : vars) : res vars :=
    match l with
    | Pair head rest =>
        match head with
        | Sym _ =>
            match rest with
            | Pair _ rest2 => local_vars rest2 (push vs head Void Fals)
            | _ => Crash
            end
        | Pair (Sym n) _ =>
            let t := get_arg head 2 in
            local_vars rest (push vs (Sym n) Void (if is_void t then Fals else t))
        | _ => Err
        end
    | _ => Ok vs
    end.

  (* src/eval/lambda.c 478-498: a (define ...) form.  [type] is always FALSE
     there, the branch evaluating it is never taken. *)
  Definition define_var (def : lisp) (vs : vars) : res vars :=
    match get_arg def 1 with
    | Sym n => Ok (push vs (Sym n) Void Fals)
    | Pair (Sym n) _ => Ok (push vs (Sym n) Void Fals)
    | _ => Err
    end.

  Definition form_vars (def : lisp) (vs : vars) : res vars :=
    match def with
    | Pair (Sym 0) l | Pair (Sym 1) l => local_vars l vs
    | Pair (Sym 2) _ => define_var def vs
    | _ => Ok vs
    end.

  (* src/eval/lambda.c 452-504: the loop over the forms of a body; it goes on
     while they are pairs *)
  Fixpoint scan_defs (scan : lisp) (vs : vars) : res vars :=
    match scan with
    | Pair def rest =>
        match def with
        | Pair _ _ =>
            bind (form_vars def vs) (fun vs' =>
              match rest with
              | Nil => Ok vs'
              | _ => scan_defs rest vs'
              end)
        | _ => Ok vs
        end
    | _ => Crash
    end.

  (* src/eval/lambda.c 423-505, scan_body: the entry point into the body, the
     variables with the body's locals, and whether an attribute table asks for
     synchronization (598-602).  Evaluating a schemap's expressions is taken
     to succeed. *)
  Definition scan_body (body : lisp) (vs : vars) : res (lisp * vars * bool) :=
    let scan := skip_docs body in
    match body with
    | Nil => Ok (body, vs, false)
    | Pair _ _ =>
        match scan with
        | Pair head rest =>
            if is_nil rest then Ok (scan, vs, false)
            else
              let sync := match head with Map b => b | _ => false end in
              bind (scan_defs scan vs) (fun vs' => Ok (scan, vs', sync))
        | _ => Crash
        end
    | _ => Err
    end.

  (* include/kno/eval.h, struct KNO_LAMBDA: what a call uses.  [l_arity] is
     None for -1. *)
  Record lam := {
    l_vars : list lisp;
    l_inits : option (list lisp);
    l_types : option (list lisp);
    l_arity : option nat;
    l_min : nat;
    l_arginfo : nat;
    l_nvars : nat;
    l_nlocals : nat;
    l_entry : lisp;
    l_sync : bool }.

  (* src/eval/lambda.c 374-417, kno_set_lambda_schema *)
  Definition use_inits (l : list lisp) : option (list lisp) :=
    if forallb no_init l then None
    else Some (map (fun x => match x with QVoid => Void | _ => x end) l).
  Definition use_types (l : list lisp) : option (list lisp) :=
    if forallb (fun x => is_void x || is_fals x) l then None
    else Some (map (fun x => match x with Void => Fals | _ => x end) l).

  (* src/eval/lambda.c 507-665, _make_lambda *)
  Definition make_lambda (arglist body : lisp) (sync : bool) : res lam :=
    bind (scan_args arglist 0 None novars) (fun r =>
      let '(scan, i, fo, vs) := r in
      let min := match fo with Some f => f | None => i end in
      let finish (arity : option nat) (info : nat) (vs : vars) :=
        bind (scan_body body vs) (fun b =>
          let '(entry, vs', bsync) := b in
          let n := length (v_args vs') in
          Ok {| l_vars := v_args vs';
                l_inits := use_inits (v_inits vs');
                l_types := use_types (v_types vs');
                l_arity := arity;
                l_min := min;
                l_arginfo := info;
                l_nvars := n;
                l_nlocals := n - info;
                l_entry := entry;
                l_sync := sync || bsync |}) in
      match scan with
      | Nil => finish (Some i) i vs
      | Sym _ => finish None (S i) (push vs scan Nil Fals)
      | _ => Err
      end).

  (* src/eval/eval.c 416-428, check_fcn_arity *)
  Definition arity_ok (L : lam) (n : nat) : bool :=
    if n <? l_min L then false
    else match l_arity L with
         | Some a => negb (a <? n)
         | None => true
         end.

  (* src/eval/eval_internals.h 220-228, eval_arg: a VOID value is an error *)
  Definition eval_arg (x : lisp) : option lisp :=
    match dev x with
    | Some Void => None
    | r => r
    end.

  (* src/eval/lambda.c 136-168: the value of the i-th positional parameter
     before its type is checked *)
  Definition arg_value (L : lam) (given : list lisp) (i : nat) : res lisp :=
    let arg := nth i given Void in
    let init := match l_inits L with Some l => nth i l Void | None => Void end in
    match arg with
    | Void | Dflt =>
        if is_void init then Ok arg
        else match eval_arg init with
             | None => Err
             | Some Abort => Err
             | Some v => Ok v
             end
    | Abort => Err
    | QCh v => Ok v
    | _ => Ok arg
    end.

  (* src/eval/lambda.c 169-181: the type check *)
  Definition type_ok (L : lam) (i : nat) (v : lisp) : bool :=
    match v with
    | Empty | Void | Dflt => true
    | _ =>
        match l_types L with
        | None => true
        | Some l =>
            if i <? l_arginfo L then
              let t := nth i l Fals in
              if is_fals t then true else check v t
            else true
        end
    end.

  (* src/eval/lambda.c 134-183: the loop over the positional parameters, [n]
     of them from the i-th *)
  Fixpoint positional (L : lam) (given : list lisp) (n i : nat) : res (list lisp) :=
    match n with
    | 0 => Ok []
    | S n' =>
        bind (arg_value L given i) (fun v =>
          if type_ok L i v
          then bind (positional L given n' (S i)) (fun l => Ok (v :: l))
          else Err)
    end.

  (* src/eval/lambda.c 44-53, get_rest_arg *)
  Definition rest_arg (l : list lisp) : lisp := fold_right Pair Nil l.

  (* src/eval/lambda.c 126-193, lambda_setup from max_positional on: the
     values in the order of the variables *)
  Definition setup (L : lam) (given : list lisp) : res (list lisp) :=
    let m := match l_arity L with
             | None => l_nvars L - 1 - l_nlocals L
             | Some a => a
             end in
    bind (positional L given m 0) (fun l =>
      let l2 := match l_arity L with
                | None => l ++ [rest_arg (skipn m given)]
                | Some _ => l
                end in
      Ok (l2 ++ repeat Unbound (l_nvars L - length l2))).

  (* What a call does: it is refused or fails; it waits for a lock which is
     held; or the body is evaluated with these bindings. *)
  Inductive out := Fail | Wait | Runs (env : list (lisp * lisp)).

  (* The arity check (src/eval/eval.c 416-428, or the one in apply.c for
     lambda_docall), then src/eval/lambda.c 124 (the lock is taken),
     196-208 and 271-318: the lock is released after the body has been
     evaluated.  [held] is the state of the lambda's mutex before the call;
     the second part of the result its state once the call is over. *)
  Definition call (L : lam) (given : list lisp) (held : bool) : out * bool :=
    if negb (arity_ok L (length given)) then (Fail, held)
    else if l_sync L && held then (Wait, held)
    else
      let held1 := if l_sync L then true else held in
      match setup L given with
      | Ok vals => (Runs (combine (l_vars L) vals), if l_sync L then false else held1)
      | _ => (Fail, held1)
      end.
End Lambda.

Arguments make_lambda tev : clear implicits.

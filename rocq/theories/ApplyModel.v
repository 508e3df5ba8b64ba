(** * Applying functions to choices.

    Source: /repo/src/apply/apply.c:73-616, /repo/src/apply/apply_internals.h:18-60 and
    203-245, /repo/include/kno/choices.h:437-449, /repo/include/kno/lisp.h:140,
    /repo/include/kno/cons.h:375-384.

    A function is what its C body does: a value for every argument vector, which may
    depend on the calls made before (side effects).  Stack overflow, profiling,
    exceptions (the body just returns KNO_ERROR), pointer checks, type methods for
    non-function applicables and reference counting of arguments are left out. *)
From Verif Require Import BytesModel ValueModel SortModel ChoicesModel.
Local Open Scope N_scope.

(** Argument values: a simple value (choices included), a quoted choice, an accumulator. *)
Inductive arg := AS (s : simple) | AQ (s : simple) | AP (p : pre).
(** What a C primitive finds in its argument array: an argument, a raw machine word, or
    uninitialised stack. *)
Inductive slot := SArg (a : arg) | SWord (w : N) | SUninit.

(** KNO_ABORTP, ptr.h:815-818 (constants are 1|(i<<2)). *)
Definition abort_val (v : val) : bool :=
  match v with VAtom w => (w mod 4 =? 1) && (8 <? w / 4) && (w / 4 <=? 18) | _ => false end.
Definition abortp (s : simple) : bool := match s with SVal v => abort_val v | _ => false end.
Definition KNO_ERROR : simple := SVal (VAtom 61).
Definition arg_empty (a : arg) : bool := match a with AS s => is_empty s | _ => false end.

Record fn := {
  fn_id : nat;
  fn_arity : Z; fn_min_arity : Z; fn_call_width : Z;
  fn_xiter : bool; fn_xprune : bool;           (* KNO_CALL_XITER, KNO_CALL_XPRUNE *)
  fn_trace : bool;
  fn_cprim : bool;
  fn_types : option (list (option (arg -> bool)));  (* fcn_typeinfo; None inside is VOID *)
  fn_defaults : option (list arg);             (* fcn_defaults, fcn_arginfo_len long *)
  fn_body : list (nat * list slot) -> list slot -> lv }.
(** The calls made so far, oldest first. *)
Definition log := list (nat * list slot).

(** f->fcn_call & KNO_CALL_NDCALL, where KNO_CALL_NDCALL is XITER|XPRUNE (apply.h:149):
    true when either bit is set. *)
Definition ndcall_bits (f : fn) : bool := fn_xiter f || fn_xprune f.

(** check_args, apply_internals.h:18-32 and check_argtypes, 34-60. *)
Definition bad_arg (a : arg) : bool := match a with AS (SVal v) => voidp v || abort_val v | _ => false end.
Fixpoint check_argtypes (types : list (option (arg -> bool))) (args : list arg) : bool :=
  match args with
  | [] => true
  | a :: r =>
    let ty := match types with [] => None | t :: _ => t end in
    if bad_arg a then false
    else if arg_empty a || match ty with None => true | Some p => p a end then check_argtypes (tl types) r
    else false
  end.
Definition check (f : fn) (args : list arg) : bool :=
  match fn_types f with Some t => check_argtypes t args | None => forallb (fun a => negb (bad_arg a)) args end.

(** The argument array of cprim_call, apply_internals.h:203-222.  The macro lspset is
    (dest,val,n) and is called with (dest,n,val): one element is written, with the number of
    missing arguments as its value; kno_init_elts calls kno_incref on it if it looks
    like a pointer to an object (None: the process crashes). *)
Definition fill (f : fn) (given : list arg) : option (list slot) :=
  let n := length given in
  let width := if (fn_call_width f <? 0)%Z then n else Z.to_nat (fn_call_width f) in
  if (n <? width)%nat then
    let d := match fn_defaults f with Some d => skipn n d | None => [] end in
    let got := (n + length d)%nat in
    if (width <? got)%nat then None
    else
      let m := (width - got)%nat in
      if (m =? 0)%nat then Some (map SArg (given ++ d))
      else if (m mod 4 =? 0)%nat then None
      else Some (map SArg (given ++ d) ++ SWord (N.of_nat m) :: repeat SUninit (m - 1))
  else Some (map SArg given).

(** cprim_call, function_call (apply.c:76-114), traced_function_call (119-165): the value
    and the log. *)
Definition invoke (f : fn) (l : log) (args : list arg) : option (log * lv) :=
  if check f args then
    do slots <- (if fn_cprim f then fill f args else Some (map SArg args));
    Some (l ++ [(fn_id f, slots)], fn_body f l slots)
  else Some (l, Simple KNO_ERROR).
(** core_call, apply.c:167-196: after the traced call there is no else. *)
Definition core_call (f : fn) (l : log) (args : list arg) : option (log * lv) :=
  do l <- (if fn_trace f then do r <- invoke f l args; Some (fst r) else Some l);
  invoke f l args.

(** setup_call_stack, apply.c:222-249. *)
Definition arity_ok (f : fn) (n : nat) : bool :=
  negb ((0 <? fn_min_arity f)%Z && (Z.of_nat n <? fn_min_arity f)%Z) &&
  negb ((0 <=? fn_arity f)%Z && (fn_arity f <? Z.of_nat n)%Z).

Section Apply.
Variable cf : config.

(** kno_dcall, apply.c:251-373 (the three variants differ in bookkeeping only). *)
Definition dcall (f : fn) (l : log) (args : list arg) : option (log * simple) :=
  if arity_ok f (length args) then
    do r <- core_call f l args;
    do s <- simplify cf (snd r);
    Some (fst r, s)
  else Some (l, KNO_ERROR).

(** KNO_ITER_CHOICES, choices.h:437-449: what the loop variable takes. *)
Definition iter_choices (a : arg) : list arg :=
  match a with
  | AS (SVal v) => if emptyp v then [] else [AS (SVal v)]
  | AS (SChoice _ l) => map (fun v => AS (SVal v)) l
  | AQ s => [AS s]
  | AP p => [AP p]
  end.

(** KNO_ADD_RESULT, apply.c:382-384. *)
Definition add_result (to : lv) (result : simple) : option lv :=
  match to with
  | Simple s => if is_empty s then Some (Simple result) else add_to_choice cf false to (Simple result)
  | Pre _ => add_to_choice cf false to (Simple result)
  end.

(** The nested loops of ndapply1..ndapply4, apply.c:425-510: [pre] holds the arguments
    chosen so far.  Left: the results so far; right: an aborted call. *)
Fixpoint ndapply (f : fn) (l : log) (results : lv) (chosen : list arg) (rest : list (list arg)) : option (log * (lv + simple)) :=
  match rest with
  | [] =>
    do r <- dcall f l (rev chosen);
    if abortp (snd r) then Some (fst r, inr (snd r))
    else do res <- add_result results (snd r); Some (fst r, inl res)
  | choices :: rest' =>
    (fix loop (cs : list arg) (l : log) (results : lv) : option (log * (lv + simple)) :=
       match cs with
       | [] => Some (l, inl results)
       | c :: cs' =>
         do r <- ndapply f l results (c :: chosen) rest';
         match snd r with
         | inl res => loop cs' (fst r) res
         | inr a => Some (fst r, inr a)
         end
       end) choices l results
  end.

(** ndcall_loop, apply.c:386-423.  Right: an aborted call. *)
Fixpoint ndcall_loop (f : fn) (l : log) (results : lv) (d_args : list arg) (nd_args : list arg) : option (log * (lv + simple)) :=
  match nd_args with
  | [] =>
    do r <- dcall f l (rev d_args);
    if abortp (snd r) then Some (fst r, inr (snd r))
    else do res <- add_to_choice cf false results (Simple (snd r)); Some (fst r, inl res)
  | nd_arg :: rest =>
    let once a := ndcall_loop f l results (a :: d_args) rest in
    let many cs :=
      (fix loop (cs : list arg) (l : log) (results : lv) : option (log * (lv + simple)) :=
         match cs with
         | [] => Some (l, inl results)
         | c :: cs' =>
           do r <- ndcall_loop f l results (c :: d_args) rest;
           match snd r with
           | inl res => loop cs' (fst r) res
           | inr a => Some (fst r, inr a)
           end
         end) cs l results in
    match nd_arg with
    | AS (SVal v) => once (AS (SVal v))
    | AS (SChoice a v) => many (iter_choices nd_arg)
    | AQ s => once (AS s)
    | AP p =>
      do s <- simplify cf (Pre p);
      match s with
      | SChoice _ _ => many (iter_choices (AP p))     (* nd_args[i], not nd_arg, is scanned *)
      | SVal v => once (AS (SVal v))
      end
    end
  end.

(** ndcall, apply.c:512-555, for functions. *)
Definition choice_arg (a : arg) : bool := match a with AS (SChoice _ _) => true | AP _ => true | _ => false end.
Fixpoint scan_args (args : list arg) : option bool :=   (* None: an empty argument; Some no_choices *)
  match args with
  | [] => Some true
  | a :: r => if arg_empty a then None else if choice_arg a then Some false else scan_args r
  end.
Definition ndcall (f : fn) (l : log) (args : list arg) : option (log * simple) :=
  let n := Z.of_nat (length args) in
  if (fn_arity f =? 0)%Z || ndcall_bits f then dcall f l args
  else if (if (fn_arity f <? 0)%Z then (fn_min_arity f <=? n)%Z else (n <=? fn_arity f)%Z && (fn_min_arity f <=? n)%Z) then
    match scan_args args with
    | None => Some (l, SVal KEMPTY)
    | Some true => dcall f l args
    | Some false =>
      do r <- (if (length args <=? 4)%nat then ndapply f l (Simple (SVal KEMPTY)) [] (map iter_choices args)
               else ndcall_loop f l (Simple (SVal KEMPTY)) [] args);
      match snd r with
      | inl res => do s <- simplify cf res; Some (fst r, s)
      | inr a => Some (fst r, a)
      end
    end
  else Some (l, KNO_ERROR).

(** What can be called: a function, a choice of functions, an accumulated choice (no method
    for it), the empty choice. *)
Inductive handler := HFun (f : fn) | HChoice (l : list fn) | HPre | HEmpty.
Fixpoint call_each (fs : list fn) (l : log) (args : list arg) (results : lv) : option (log * simple) :=
  match fs with
  | [] => do s <- simplify cf results; Some (l, s)
  | f :: fs' =>
    do r <- ndcall f l args;
    if abortp (snd r) then Some (fst r, snd r)
    else do res <- add_to_choice cf false results (Simple (snd r)); call_each fs' (fst r) args res
  end.
Definition unwrap (a : arg) : arg := match a with AQ s => AS s | _ => a end.
(** kno_call, apply.c:557-616. *)
Definition kno_call (h : handler) (l : log) (args : list arg) : option (log * simple) :=
  match h with
  | HEmpty => Some (l, SVal KEMPTY)
  | _ =>
    let iter := match h with HFun f => negb (ndcall_bits f) | _ => true end in
    let prune := match h with HFun f => negb (fn_xprune f) | _ => true end in
    let ambig := match h with HFun _ => false | _ => true end
                 || existsb (fun a => match a with AS (SChoice _ _) => true | _ => false end) args in
    let qchoices := existsb (fun a => match a with AQ _ => true | _ => false end) args in
    if prune && existsb arg_empty args then Some (l, SVal KEMPTY)
    else if iter && ambig then
      match h with
      | HFun f => if arity_ok f (length args) then ndcall f l args else Some (l, KNO_ERROR)
      | HChoice fs => call_each fs l args (Simple (SVal KEMPTY))
      | HPre | HEmpty => Some (l, KNO_ERROR)
      end
    else
      match h with
      | HFun f => dcall f l (if qchoices then map unwrap args else args)
      | _ => Some (l, KNO_ERROR)
      end
  end.
End Apply.

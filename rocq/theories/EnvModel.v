(* Lexical environments: frames kept on the C stack, their lazily made heap
   copies, module environments with exports, lookup, assignment, definition,
   and the binding forms built from them.

   Sources: src/apply/lexenv.c (kno_dynamic_lexenv, copy_lexenv, kno_copy_env),
   src/eval/eval_internals.h (fastget, eval_lexref, symeval, eval_symbol,
   init_static_env, reset_env), src/eval/eval.c (bound_in_envp,
   kno_bind_value, kno_assign_value), src/eval/binders.c (set!, locals, let,
   let*, letrec, do), src/eval/modules.c (kno_make_env, kno_make_export_env,
   kno_get_exports, module-export!, use-module), include/kno/tables.h and
   src/lisp/tables.c (schemaps and hashtables used as bindings).

   Not modelled: reference counts and freeing (a frame that was popped is
   gone, anything else stays), locks, the qonsts update in kno_bind_value
   (eval.c:280-288), slotmaps used as modules, prechoices (values are opaque
   here), and the MODULEID entry put into a fresh exports table
   (modules.c:474-476). *)

From Coq Require Import List Arith Bool.
Import ListNotations.

Definition sym := nat.

(* The constants KNO_UNBOUND and KNO_VOID (include/kno/ptr.h) and any other
   value. *)
Inductive val := VUnbound | VVoid | VObj (n : nat).

(* env_bindings (include/kno/lexenv.h): a schemap -- variables and values side
   by side, in order, repeated variables possible -- or a hashtable, which is
   shared by reference and so lives in a separate list of tables. *)
Inductive binds := BSchema (l : list (sym * val)) | BHash (t : nat).

(* struct KNO_LEXENV (include/kno/lexenv.h).  env_vals and env_bits only cache
   the value array of a schemap with fewer than 256 slots; they are left
   out. *)
Record cframe := mkframe
  { fbind : binds;
    fexp  : option nat;      (* env_exports: a table, or VOID *)
    fpar  : option nat;      (* env_parent *)
    fcopy : option nat }.    (* env_copy *)

(* The memory: frames by address (None once popped from the C stack), the
   hashtables, the stack frames (as handle numbers, innermost first) and the
   environment pointers the evaluator holds, in the order it got them. *)
Record cstate := mkc
  { heap : list (option cframe);
    tabs : list (list (sym * val));
    stk  : list nat;
    hs   : list nat }.

Definition cinit : cstate := mkc [] [] [] [].

Fixpoint upd {A} (l : list A) (i : nat) (a : A) : list A :=
  match l, i with
  | [], _ => []
  | _ :: l', 0 => a :: l'
  | x :: l', S i' => x :: upd l' i' a
  end.

Definition frame (st : cstate) (x : nat) : option cframe :=
  match nth_error (heap st) x with Some o => o | None => None end.

Definition set_frame (st : cstate) (x : nat) (f : option cframe) : cstate :=
  mkc (upd (heap st) x f) (tabs st) (stk st) (hs st).

Definition new_frame (st : cstate) (f : cframe) : cstate :=
  mkc (heap st ++ [Some f]) (tabs st) (stk st) (hs st).

Definition set_tab (st : cstate) (t : nat) (l : list (sym * val)) : cstate :=
  mkc (heap st) (upd (tabs st) t l) (stk st) (hs st).

Definition table (ts : list (list (sym * val))) (t : nat) : list (sym * val) :=
  match nth_error ts t with Some l => l | None => [] end.

(* __kno_get_slotno on an unsorted schema (tables.h): the first slot whose key
   is the symbol; and the entry of a key in a hashtable. *)
Fixpoint assoc (s : sym) (l : list (sym * val)) : option val :=
  match l with
  | [] => None
  | (s', v) :: l' => if s =? s' then Some v else assoc s l'
  end.

Fixpoint assoc_set (s : sym) (v : val) (l : list (sym * val))
  : list (sym * val) :=
  match l with
  | [] => []
  | (s', v') :: l' =>
      if s =? s' then (s', v) :: l' else (s', v') :: assoc_set s v l'
  end.

(* fastget (eval_internals.h:57-66): __kno_schemap_get (tables.h:481-506) and
   kno_hashtable_get (tables.c:2055-2105) with KNO_UNBOUND as the default; a
   hashtable treats a stored VOID as no value (tables.c:2080). *)
Definition bget (ts : list (list (sym * val))) (b : binds) (s : sym) : val :=
  match b with
  | BSchema l => match assoc s l with Some v => v | None => VUnbound end
  | BHash t =>
      match assoc s (table ts t) with
      | Some VVoid => VUnbound
      | Some v => v
      | None => VUnbound
      end
  end.

(* bound_in_envp (eval.c:129-137): kno_schemap_test with VOID and
   kno_hashtable_probe only ask whether there is a slot. *)
Definition bprobe (ts : list (list (sym * val))) (b : binds) (s : sym) : bool :=
  match b with
  | BSchema l => match assoc s l with Some _ => true | None => false end
  | BHash t => match assoc s (table ts t) with Some _ => true | None => false end
  end.

(* kno_schemap_store (tables.c:1259-1291): a key outside the schema is an
   error; kno_hashtable_store (tables.c:2318-2370): a new key is added. *)
Definition schema_store (l : list (sym * val)) (s : sym) (v : val)
  : option (list (sym * val)) :=
  match assoc s l with
  | Some _ => Some (assoc_set s v l)
  | None => None
  end.

Definition hash_store (l : list (sym * val)) (s : sym) (v : val)
  : list (sym * val) :=
  match assoc s l with
  | Some _ => assoc_set s v l
  | None => l ++ [(s, v)]
  end.

(* "if (env->env_copy) env = env->env_copy", at the head of every function
   that reads or writes an environment. *)
Definition canon (st : cstate) (x : nat) : nat :=
  match frame st x with
  | Some f => match fcopy f with Some c => c | None => x end
  | None => x
  end.

(* The loop of symeval and of eval_symbol (eval_internals.h:101-130), on an
   env already replaced by its copy; [fuel] bounds the number of frames
   visited.  The result VVoid stands for symeval's KNO_VOID and for
   eval_symbol's error kno_UnboundIdentifier. *)
Fixpoint symeval (fuel : nat) (st : cstate) (x : nat) (s : sym) : val :=
  match fuel with
  | 0 => VVoid
  | S k =>
      match frame st x with
      | None => VVoid
      | Some f =>
          match bget (tabs st) (fbind f) s with
          | VUnbound =>
              match fpar f with
              | None => VVoid
              | Some p => symeval k st (canon st p) s
              end
          | v => v
          end
      end
  end.

(* eval_lexref (eval_internals.h:67-100): climb [up] parents, then take the
   value at position [across]; None is KNO_ERROR. *)
Fixpoint lexref (st : cstate) (x : nat) (up across : nat) : option val :=
  let x := canon st x in
  match frame st x with
  | None => None
  | Some f =>
      match up with
      | 0 =>
          match fbind f with
          | BSchema l => option_map snd (nth_error l across)
          | BHash _ => None
          end
      | S up' =>
          match fpar f with
          | None => None
          | Some p => lexref st p up' across
          end
      end
  end.

(* What kno_bind_value and kno_assign_value return: -1, 0, 1. *)
Inductive ret := RError | RNone | RDone.

(* kno_bind_value (eval.c:268-294): store in the frame itself, and replace the
   entry in the exports table if it has one. *)
Definition bind_value (st : cstate) (x : nat) (s : sym) (v : val)
  : cstate * ret :=
  let x := canon st x in
  match frame st x with
  | None => (st, RNone)
  | Some f =>
      let st1 :=
        match fbind f with
        | BSchema l =>
            match schema_store l s v with
            | Some l' =>
                Some (set_frame st x
                        (Some (mkframe (BSchema l') (fexp f) (fpar f) (fcopy f))))
            | None => None
            end
        | BHash t => Some (set_tab st t (hash_store (table (tabs st) t) s v))
        end in
      match st1 with
      | None => (st, RError)
      | Some st1 =>
          match fexp f with
          | None => (st1, RDone)
          | Some t => (set_tab st1 t (assoc_set s v (table (tabs st1) t)), RDone)
          end
      end
  end.

(* "(env->env_bindings) == (env->env_exports)" (eval.c:317): the kind of frame
   kno_make_export_env makes. *)
Definition read_only (f : cframe) : bool :=
  match fbind f, fexp f with
  | BHash t, Some t' => t =? t'
  | _, _ => false
  end.

(* The loop of kno_assign_value (eval.c:310-323), on an env already replaced
   by its copy. *)
Fixpoint assign_value (fuel : nat) (st : cstate) (x : nat) (s : sym) (v : val)
  : cstate * ret :=
  match fuel with
  | 0 => (st, RNone)
  | S k =>
      match frame st x with
      | None => (st, RNone)
      | Some f =>
          if bprobe (tabs st) (fbind f) s
          then if read_only f then (st, RError) else bind_value st x s v
          else match fpar f with
               | None => (st, RNone)
               | Some p => assign_value k st (canon st p) s v
               end
      end
  end.

(* assign_evalfn (binders.c:46-58): try to assign; when no frame has the
   symbol, bind it in the environment itself. *)
Definition set_bang (st : cstate) (x : nat) (s : sym) (v : val)
  : cstate * ret :=
  match assign_value (length (heap st)) st (canon st x) s v with
  | (st1, RNone) => bind_value st1 x s v
  | r => r
  end.

(* kno_dynamic_lexenv and copy_lexenv (lexenv.c:35-81): the existing copy, or
   a new heap frame whose parent is the copy of the parent.  A stack schemap
   is copied slot by slot (copy_schemap, tables.c:1158-1191); anything else is
   shared. *)
Fixpoint dynamic_lexenv (fuel : nat) (st : cstate) (x : nat) : cstate * nat :=
  match fuel with
  | 0 => (st, x)
  | S k =>
      match frame st x with
      | None => (st, x)
      | Some f =>
          match fcopy f with
          | Some c => (st, c)
          | None =>
              let '(st1, par) :=
                match fpar f with
                | None => (st, None)
                | Some p =>
                    let '(st1, c) := dynamic_lexenv k st p in (st1, Some c)
                end in
              let c := length (heap st1) in
              let st2 := new_frame st1 (mkframe (fbind f) (fexp f) par (Some c)) in
              (set_frame st2 x
                 (Some (mkframe (fbind f) (fexp f) (fpar f) (Some c))), c)
          end
      end
  end.

(* kno_copy_env (lexenv.c:88-100). *)
Definition copy_env (st : cstate) (x : nat) : cstate * nat :=
  dynamic_lexenv (length (heap st)) st x.

Definition copy_opt (st : cstate) (o : option nat) : cstate * option nat :=
  match o with
  | None => (st, None)
  | Some x => let '(st1, c) := copy_env st x in (st1, Some c)
  end.

(* kno_make_env with a new hashtable (modules.c:55-82, kno_new_lexenv). *)
Definition make_module (st : cstate) (par : option nat) : cstate * nat :=
  let '(st1, p) := copy_opt st par in
  let x := length (heap st1) in
  let t := length (tabs st1) in
  (mkc (heap st1 ++ [Some (mkframe (BHash t) None p (Some x))])
       (tabs st1 ++ [[]]) (stk st1) (hs st1), x).

(* kno_get_exports (modules.c:466-480). *)
Definition get_exports (st : cstate) (x : nat) : cstate * nat :=
  match frame st x with
  | None => (st, 0)
  | Some f =>
      match fexp f with
      | Some t => (st, t)
      | None =>
          let t := length (tabs st) in
          (mkc (upd (heap st) x
                  (Some (mkframe (fbind f) (Some t) (fpar f) (fcopy f))))
               (tabs st ++ [[]]) (stk st) (hs st), t)
      end
  end.

(* kno_make_export_env (modules.c:85-110): bindings and exports are the same
   table. *)
Definition make_export_env (st : cstate) (t : nat) (par : option nat)
  : cstate * nat :=
  let '(st1, p) := copy_opt st par in
  let x := length (heap st1) in
  (new_frame st1 (mkframe (BHash t) (Some t) p (Some x)), x).

(* module-export! of one symbol (modules.c:497-504): the current value of the
   frame's own binding, VOID when it has none yet. *)
Definition own_value (ts : list (list (sym * val))) (b : binds) (s : sym) : val :=
  match b with
  | BSchema l => match assoc s l with Some v => v | None => VVoid end
  | BHash t => match assoc s (table ts t) with Some v => v | None => VVoid end
  end.

Definition module_export (st : cstate) (x : nat) (s : sym) : cstate :=
  let '(st1, t) := get_exports st x in
  match frame st1 x with
  | None => st1
  | Some f =>
      set_tab st1 t
        (hash_store (table (tabs st1) t) s (own_value (tabs st1) (fbind f) s))
  end.

(* uses_bindings (modules.c:528-535); note that it does not look at
   env_copy. *)
Fixpoint uses_bindings (fuel : nat) (st : cstate) (x : nat) (t : nat) : bool :=
  match fuel with
  | 0 => false
  | S k =>
      match frame st x with
      | None => false
      | Some f =>
          match fbind f with
          | BHash t' => if t' =? t then true
                        else match fpar f with
                             | None => false
                             | Some p => uses_bindings k st p t
                             end
          | BSchema _ => match fpar f with
                         | None => false
                         | Some p => uses_bindings k st p t
                         end
          end
      end
  end.

(* use_module_helper on one module given as an environment
   (modules.c:569-578). *)
Definition use_helper (st : cstate) (x m : nat) : cstate :=
  let '(st1, t) := get_exports st m in
  if uses_bindings (length (heap st1)) st1 x t then st1
  else match frame st1 x with
       | None => st1
       | Some f =>
           let '(st2, e) := make_export_env st1 t (fpar f) in
           match frame st2 x with
           | None => st2
           | Some f2 =>
               set_frame st2 x
                 (Some (mkframe (fbind f2) (fexp f2) (Some e) (fcopy f2)))
           end
       end.

(* use_module_evalfn (modules.c:587-600).  For an environment on the stack the
   import goes to its copy, and then the copy is dropped. *)
Definition use_module (st : cstate) (x m : nat) : cstate :=
  match frame st x with
  | None => st
  | Some f =>
      if match fcopy f with Some c => c =? x | None => false end
      then use_helper st x m
      else
        let '(st1, c) := copy_env st x in
        let st2 := use_helper st1 c m in
        match frame st2 x with
        | None => st2
        | Some f2 =>
            set_frame st2 x (Some (mkframe (fbind f2) (fexp f2) (fpar f2) None))
        end
  end.

(* locals_evalfn with one symbol and value, the value expression not capturing
   the environment (binders.c:121-149, do_bind 86-97): the slot written is
   always the one of the environment passed in; [vals] is switched to the copy
   only when the copy is made by the value expression itself. *)
Definition locals (st : cstate) (x : nat) (s : sym) (v : val) : cstate * ret :=
  match frame st x with
  | None => (st, RNone)
  | Some f =>
      match fbind f with
      | BHash _ => (st, RError)
      | BSchema l =>
          match schema_store l s v with
          | Some l' =>
              (set_frame st x
                 (Some (mkframe (BSchema l') (fexp f) (fpar f) (fcopy f))), RDone)
          | None => (st, RError)
          end
      end
  end.

(* let* and letrec storing the value of the i-th variable
   (binders.c:297-302, 337-342): through kno_bind_value by name when the
   environment has been copied, by position otherwise. *)
Definition init_slot (st : cstate) (x i : nat) (v : val) : cstate * ret :=
  match frame st x with
  | None => (st, RNone)
  | Some f =>
      match fbind f with
      | BHash _ => (st, RError)
      | BSchema l =>
          match nth_error l i with
          | None => (st, RError)
          | Some (s, _) =>
              match fcopy f with
              | Some c => bind_value st c s v
              | None =>
                  (set_frame st x
                     (Some (mkframe (BSchema (upd l i (s, v))) (fexp f) (fpar f)
                              (fcopy f))), RDone)
              end
          end
      end
  end.

(* The end of one turn of a do loop (binders.c:411-430): new values for the
   variables -- the given one for a variable with an updating expression, the
   one in the stack array for a variable without -- and reset_env
   (eval_internals.h:408-414). *)
Fixpoint do_values (l : list (sym * val)) (us : list (option nat))
  : list (sym * val) :=
  match l, us with
  | (s, v) :: l', u :: us' =>
      (s, match u with Some n => VObj n | None => v end) :: do_values l' us'
  | _, _ => []
  end.

Definition do_step (st : cstate) (x : nat) (us : list (option nat))
  : cstate * ret :=
  match frame st x with
  | None => (st, RNone)
  | Some f =>
      match fbind f with
      | BHash _ => (st, RError)
      | BSchema l =>
          if length us =? length l
          then (set_frame st x
                  (Some (mkframe (BSchema (do_values l us)) (fexp f) (fpar f)
                           None)), RDone)
          else (st, RError)
      end
  end.

(* What the evaluator does with environments.  Environments are named by the
   order in which pointers to them were obtained. *)
(* OUse is use-module in a module, OUseStatic in a form's environment on the
   stack; a captured environment given to use-module through eval is left
   out. *)
Inductive op :=
| OPush (h : option nat) (vars : list sym) (vals : list val)
| OPop
| OCopy (h : nat)
| OModule (h : option nat)
| OImport (h : option nat) (m : nat)
| OExport (m : nat) (s : sym)
| OUse (h m : nat)
| OUseStatic (h m : nat)
| OSet (h : nat) (s : sym) (n : nat)
| ODefine (h : nat) (s : sym) (n : nat)
| OLocal (h : nat) (s : sym) (n : nat)
| OInit (h i : nat) (n : nat)
| ODo (h : nat) (us : list (option nat))
| OLook (h : nat) (s : sym)
| OLexref (h up across : nat).

Inductive obs :=
| Bad                (* no such environment, or not one the form accepts *)
| Env (h : nat)      (* a pointer to an environment, by its number *)
| Done | Error
| Value (v : val).

Definition oret (r : ret) : obs :=
  match r with RError => Error | RNone => Error | RDone => Done end.

(* A pointer the evaluator holds, as long as the frame is there. *)
Definition handle (st : cstate) (h : nat) : option nat :=
  match nth_error (hs st) h with
  | Some x => match frame st x with Some _ => Some x | None => None end
  | None => None
  end.

Definition handle_opt (st : cstate) (h : option nat) : option (option nat) :=
  match h with
  | None => Some None
  | Some h => match handle st h with Some x => Some (Some x) | None => None end
  end.

Definition is_dynamic (st : cstate) (x : nat) : bool :=
  match frame st x with
  | Some f => match fcopy f with Some c => c =? x | None => false end
  | None => false
  end.

Definition is_module (st : cstate) (x : nat) : bool :=
  match frame st x with
  | Some f =>
      match fbind f with BHash _ => negb (read_only f) | BSchema _ => false end
  | None => false
  end.

Definition give (st : cstate) (x : nat) : cstate * obs :=
  (mkc (heap st) (tabs st) (stk st) (hs st ++ [x]), Env (length (hs st))).

Definition step (st : cstate) (o : op) : cstate * obs :=
  match o with
  | OPush h vars vals =>
      (* init_static_env (eval_internals.h:305-329), PUSH_STACK_ENV, and
         lambda_call (lambda.c:249-271).  A tail call that takes over the
         frame of its caller (lambda.c:69-122) sets every field again and is
         read as OPop and then OPush. *)
      match handle_opt st h with
      | None => (st, Bad)
      | Some p =>
          let x := length (heap st) in
          let st1 := new_frame st
                       (mkframe (BSchema (combine vars vals)) None p None) in
          (mkc (heap st1) (tabs st1) (length (hs st1) :: stk st1)
             (hs st1 ++ [x]), Env (length (hs st1)))
      end
  | OPop =>
      match stk st with
      | [] => (st, Bad)
      | h :: r =>
          match nth_error (hs st) h with
          | None => (st, Bad)
          | Some x =>
              (mkc (upd (heap st) x None) (tabs st) r (hs st), Done)
          end
      end
  | OCopy h =>
      match handle st h with
      | None => (st, Bad)
      | Some x => let '(st1, c) := copy_env st x in give st1 c
      end
  | OModule h =>
      match handle_opt st h with
      | None => (st, Bad)
      | Some p => let '(st1, x) := make_module st p in give st1 x
      end
  | OImport h m =>
      match handle_opt st h, handle st m with
      | Some p, Some y =>
          if is_module st y
          then let '(st1, t) := get_exports st y in
               let '(st2, x) := make_export_env st1 t p in give st2 x
          else (st, Bad)
      | _, _ => (st, Bad)
      end
  | OExport m s =>
      match handle st m with
      | Some y => if is_module st y then (module_export st y s, Done)
                  else (st, Bad)
      | None => (st, Bad)
      end
  | OUse h m =>
      match handle st h, handle st m with
      | Some x, Some y =>
          if andb (is_module st x) (is_module st y)
          then (use_module st x y, Done) else (st, Bad)
      | _, _ => (st, Bad)
      end
  | OUseStatic h m =>
      match handle st h, handle st m with
      | Some x, Some y =>
          if andb (negb (is_dynamic st x)) (is_module st y)
          then (use_module st x y, Done) else (st, Bad)
      | _, _ => (st, Bad)
      end
  | OSet h s n =>
      match handle st h with
      | Some x => let '(st1, r) := set_bang st x s (VObj n) in (st1, oret r)
      | None => (st, Bad)
      end
  | ODefine h s n =>
      match handle st h with
      | Some x => let '(st1, r) := bind_value st x s (VObj n) in (st1, oret r)
      | None => (st, Bad)
      end
  | OLocal h s n =>
      match handle st h with
      | Some x => let '(st1, r) := locals st x s (VObj n) in (st1, oret r)
      | None => (st, Bad)
      end
  | OInit h i n =>
      match handle st h with
      | Some x =>
          if is_dynamic st x then (st, Bad)
          else let '(st1, r) := init_slot st x i (VObj n) in (st1, oret r)
      | None => (st, Bad)
      end
  | ODo h us =>
      match stk st with
      | h' :: _ =>
          if h' =? h
          then match handle st h with
               | Some x => let '(st1, r) := do_step st x us in (st1, oret r)
               | None => (st, Bad)
               end
          else (st, Bad)
      | [] => (st, Bad)
      end
  | OLook h s =>
      match handle st h with
      | Some x =>
          (st, match symeval (length (heap st)) st (canon st x) s with
               | VVoid => Error
               | v => Value v
               end)
      | None => (st, Bad)
      end
  | OLexref h up across =>
      match handle st h with
      | Some x => (st, match lexref st x up across with
                       | Some v => Value v
                       | None => Error
                       end)
      | None => (st, Bad)
      end
  end.

(* A program: what to do next given everything seen so far. *)
Fixpoint run (k : nat) (st : cstate) (seen : list obs)
  (prog : list obs -> op) : list obs :=
  match k with
  | 0 => seen
  | S k' => let '(st1, o) := step st (prog seen) in
            run k' st1 (seen ++ [o]) prog
  end.

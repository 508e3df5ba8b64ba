(* Loops over choices, and EXISTS and FORALL: src/eval/choiceops.c.

   As in ControlModel, forms are evaluated by an arbitrary function [ev] and
   functions applied by an arbitrary [ap], with any effects.

   Simplifications: as in ControlModel; the elements of a choice are a list
   ([members]), and what a loop collects is the list of what was added, not yet
   sorted (that is Choices); the in-process evaluation of TRY (ipeval) is not
   modelled; reference counts. *)

From Coq Require Import List ZArith Bool.
Import ListNotations.
From Verif Require Import ControlModel.
Open Scope Z_scope.

(* What a loop returns: a value or the elements of a choice. *)
Inductive outcome := One (v : val) | Collected (l : list val).

Section Eval.

Variables form W : Type.
Variable ev : form -> binds -> W -> val * W.
Variable members : val -> list val.

(* choiceops.c 83-98, from element [i] on; [result] is the last value *)
Fixpoint dochoices_loop (es : list val) (i : Z) (bd : val -> Z -> binds) (fs : list form)
  (result : val) (w : W) : val * W :=
  match es with
  | [] => (result, w)
  | e :: rest =>
      let (v, w1) := eval_body ev fs (bd e i) w in
      if aborted v then (if is_brk v then Void else v, w1)
      else dochoices_loop rest (i + 1) bd fs v w1
  end.

(* choiceops.c 65-101; [cs] is the value of the expression *)
Definition dochoices_evalfn (var : sym) (cv wv : option sym) (cs : val) (fs : list form) (w : W) : val * W :=
  if aborted cs then (cs, w)
  else if is_empty cs then (Void, w)
  else dochoices_loop (members cs) 0 (iter_binds var cv wv cs) fs Void w.

(* choiceops.c 121-144, from element [i] on *)
Fixpoint trychoices_loop (es : list val) (i : Z) (bd : val -> Z -> binds) (fs : list form) (w : W) : val * W :=
  match es with
  | [] => (Empty, w)
  | e :: rest =>
      let (v, w1) := eval_body ev fs (bd e i) w in
      if aborted v then (if is_brk v then Empty else v, w1)
      else if negb (is_empty v) then (v, w1)
      else trychoices_loop rest (i + 1) bd fs w1
  end.

(* choiceops.c 105-147 *)
Definition trychoices_evalfn (var : sym) (cv wv : option sym) (cs : val) (fs : list form) (w : W) : val * W :=
  if aborted cs then (cs, w)
  else if is_empty cs then (Empty, w)
  else trychoices_loop (members cs) 0 (iter_binds var cv wv cs) fs w.

(* include/kno/choices.h 343-372: {} adds nothing *)
Definition choice_add (l : list val) (v : val) : list val := if is_empty v then l else l ++ members v.

(* choiceops.c 172-192, from element [i] on *)
Fixpoint forchoices_loop (es : list val) (i : Z) (bd : val -> Z -> binds) (fs : list form)
  (results : list val) (w : W) : outcome * W :=
  match es with
  | [] => (Collected results, w)
  | e :: rest =>
      let (v, w1) := eval_body ev fs (bd e i) w in
      if aborted v then (if is_brk v then Collected results else One v, w1)
      else forchoices_loop rest (i + 1) bd fs (choice_add results v) w1
  end.

(* choiceops.c 154-195 *)
Definition forchoices_evalfn (var : sym) (cv wv : option sym) (cs : val) (fs : list form) (w : W) : outcome * W :=
  if aborted cs then (One cs, w)
  else if is_empty cs then (Collected [], w)
  else forchoices_loop (members cs) 0 (iter_binds var cv wv cs) fs [] w.

(* choiceops.c 220-241, from element [i] on *)
Fixpoint filterchoices_loop (es : list val) (i : Z) (bd : val -> Z -> binds) (fs : list form)
  (results : list val) (w : W) : outcome * W :=
  match es with
  | [] => (Collected results, w)
  | e :: rest =>
      let (v, w1) := eval_body ev fs (bd e i) w in
      if aborted v then (if is_brk v then Collected results else One v, w1)
      else filterchoices_loop rest (i + 1) bd fs
             (if is_empty v || is_fals v then results else results ++ [e]) w1
  end.

(* choiceops.c 202-243 *)
Definition filterchoices_evalfn (var : sym) (cv wv : option sym) (cs : val) (fs : list form) (w : W) : outcome * W :=
  if aborted cs then (One cs, w)
  else if is_empty cs then (Collected [], w)
  else filterchoices_loop (members cs) 0 (iter_binds var cv wv cs) fs [] w.

(* choiceops.c 301-319, from [value] on *)
Fixpoint try_loop (fs : list form) (value : val) (b : binds) (w : W) : val * W :=
  match fs with
  | [] => (value, w)
  | f :: rest =>
      let (v, w1) := ev f b w in
      if aborted v then (v, w1)
      else match v with
           | Void => (Err, w1)
           | Empty => try_loop rest v b w1
           | _ => (v, w1)
           end
  end.
Definition try_evalfn (fs : list form) (b : binds) (w : W) : val * W := try_loop fs Empty b w.

(* choiceops.c 741-815: [mk] makes a choice of elements; the block [i] of
   [bs] elements *)
Variable mk : list val -> val.
Definition block (es : list val) (bs : nat) (i : nat) : list val := firstn bs (skipn (i * bs) es).

(* choiceops.c 771-774 *)
Definition n_blocks (n bs : nat) : nat :=
  (let k := 1 + n / bs in if n mod bs =? 0 then k - 1 else k)%nat.

(* choiceops.c 741-763: the variables of a round *)
Definition subset_binds (var : sym) (cv : option sym) (b : val) (i : nat) : binds :=
  (var, b) :: match cv with Some c => [(c, Int (Z.of_nat i))] | None => [] end.

(* choiceops.c 775-815, at most [k] rounds: block [i] is next; a round which
   aborts does not end the loop, it only keeps [i] from moving on *)
Fixpoint dosubsets_loop (k : nat) (es : list val) (bs nb i : nat) (finished : bool) (result : val)
  (var : sym) (cv : option sym) (fs : list form) (w : W) : option (val * W) :=
  match k with
  | O => None
  | S k' =>
      if (i <? nb)%nat then
        let (o, w1) := run_all ev fs (subset_binds var cv (mk (block es bs i)) i) w in
        let finished := match o with Some _ => true | None => finished end in
        let result := match o with Some v => if is_brk v then result else v | None => result end in
        dosubsets_loop k' es bs nb (if finished then i else S i) finished result var cv fs w1
      else Some (result, w)
  end.

(* choiceops.c 741-815, for block sizes above 0 *)
Definition dosubsets_evalfn (k : nat) (var : sym) (cv : option sym) (es : list val) (bs : nat)
  (fs : list form) (w : W) : option (val * W) :=
  match es with
  | [] => Some (Void, w)
  | _ => dosubsets_loop k es bs (n_blocks (length es) bs) 0 false Void var cv fs w
  end.

End Eval.

(* An argument of EXISTS and FORALL: a value, a choice or {}. *)
Inductive arg := Only (v : val) | Any (vs : list val) | Nothing.
Inductive code := No | Yes | Bad.

Section Quant.

Variable W : Type.
Variable applicable : val -> bool.
Variable ap : val -> list val -> W -> val * W.

(* choiceops.c 471-500; [d] are the arguments chosen so far *)
Fixpoint test_exists (skip : bool) (fn : val) (args : list arg) (d : list val) (w : W) : code * W :=
  match args with
  | [] =>
      let (v, w1) := ap fn d w in
      (if is_fals v || is_empty v then No else if aborted v then Bad else Yes, w1)
  | Any vs :: rest =>
      (fix loop (vs : list val) (w : W) : code * W :=
         match vs with
         | [] => (No, w)
         | v :: t =>
             let (r, w1) := test_exists skip fn rest (d ++ [v]) w in
             match r with
             | Yes => (Yes, w1)
             | Bad => if skip then loop t w1 else (Bad, w1)
             | No => loop t w1
             end
         end) vs w
  | Only v :: rest => test_exists skip fn rest (d ++ [v]) w
  | Nothing :: rest => test_exists skip fn rest (d ++ [Empty]) w
  end.

Definition is_nothing (a : arg) : bool := match a with Nothing => true | _ => false end.

(* choiceops.c 514-520 *)
Fixpoint exists_fns (skip : bool) (fns : list val) (args : list arg) (w : W) : val * W :=
  match fns with
  | [] => (Fals, w)
  | f :: rest =>
      let (r, w1) := test_exists skip f args [] w in
      match r with
      | No => exists_fns skip rest args w1
      | Bad => (Err, w1)
      | Yes => (Tru, w1)
      end
  end.

(* choiceops.c 502-522; [fns] are the elements of the first argument *)
Definition exists_helper (skip : bool) (fns : list val) (args : list arg) (w : W) : val * W :=
  if match fns with [] => true | _ => false end || existsb is_nothing args then (Fals, w)
  else if forallb applicable fns then exists_fns skip fns args w
  else (Err, w).

(* choiceops.c 568-599 *)
Fixpoint test_forall (skip : bool) (fn : val) (args : list arg) (d : list val) (w : W) : code * W :=
  match args with
  | [] =>
      let (v, w1) := ap fn d w in
      (if is_fals v then No else if is_empty v then No else if aborted v then Bad else Yes, w1)
  | Any vs :: rest =>
      (fix loop (vs : list val) (w : W) : code * W :=
         match vs with
         | [] => (Yes, w)
         | v :: t =>
             let (r, w1) := test_forall skip fn rest (d ++ [v]) w in
             match r with
             | Yes => loop t w1
             | Bad => if skip then loop t w1 else (Bad, w1)
             | No => (No, w1)
             end
         end) vs w
  | Only v :: rest => test_forall skip fn rest (d ++ [v]) w
  | Nothing :: rest => test_forall skip fn rest (d ++ [Empty]) w
  end.

(* choiceops.c 626-635 *)
Fixpoint forall_fns (skip : bool) (fns : list val) (args : list arg) (w : W) : val * W :=
  match fns with
  | [] => (Tru, w)
  | f :: rest =>
      let (r, w1) := test_forall skip f args [] w in
      match r with
      | Bad => if skip then forall_fns skip rest args w1 else (Err, w1)
      | No => (Fals, w1)
      | Yes => forall_fns skip rest args w1
      end
  end.

(* choiceops.c 615-636 *)
Definition forall_helper (skip : bool) (fns : list val) (args : list arg) (w : W) : val * W :=
  if match fns with [] => true | _ => false end || existsb is_nothing args then (Tru, w)
  else if forallb applicable fns then forall_fns skip fns args w
  else (Err, w).

End Quant.

(* choiceops.c 897-947, PICK-N of a choice of [n] elements with a count and an
   offset (None: a random one, u8_random(m) being [rnd] with 0 <= rnd < m):
   the elements from a start on, so many; [Fault]: memcpy of a negative size *)
Inductive picked := PAll | PNone | PType | PFrom (start howmany : Z) | Fault.
Definition pickn (n howmany : Z) (offset : option Z) (rnd : Z) : picked :=
  if howmany =? 0 then PNone
  else if howmany <? 0 then PType
  else if n <=? howmany then PAll
  else
    match offset with
    | Some o =>
        if uintp o then
          let start := to_int o in
          let h := if n - start <? howmany then n - start else howmany in
          if h <? 0 then Fault else PFrom start h
        else PType
    | None => PFrom rnd howmany
    end.

Arguments dochoices_loop {form W}. Arguments dochoices_evalfn {form W}.
Arguments trychoices_loop {form W}. Arguments trychoices_evalfn {form W}.
Arguments forchoices_loop {form W}. Arguments forchoices_evalfn {form W}.
Arguments filterchoices_loop {form W}. Arguments filterchoices_evalfn {form W}.
Arguments try_loop {form W}. Arguments try_evalfn {form W}.
Arguments dosubsets_loop {form W}. Arguments dosubsets_evalfn {form W}.
Arguments test_exists {W}. Arguments exists_fns {W}. Arguments exists_helper {W}.
Arguments test_forall {W}. Arguments forall_fns {W}. Arguments forall_helper {W}.

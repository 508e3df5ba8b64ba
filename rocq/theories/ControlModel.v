(* Conditionals, sequencing and loops: src/eval/conditionals.c and
   src/eval/iterators.c, with the parts of src/eval/eval_internals.h they use.

   Forms are evaluated by an arbitrary function [ev] of the form, the
   variables the loop binds and the state of everything else, which gives the
   value and the new state; so forms may have any effects.

   Simplifications: the parts of an expression are taken as given
   (kno_get_arg, kno_get_body, and the errors for missing parts and for names
   which are no symbols are not modelled); bodies are proper lists without
   opcodes; no tail calls (Tail); bodies do not assign the loop's variables;
   all aborted values but #break are one error; reference counts. *)

From Coq Require Import List ZArith Bool.
Import ListNotations.
Open Scope Z_scope.

(* include/kno/ptr.h 760-830. [Imm]: any other immediate; [Obj]: any other
   object. *)
Inductive val :=
| Fals | Tru | Empty | Void | Eod | Brk | Err
| Int (z : Z) | Chr (c : Z) | Imm (n : nat)
| Nil | Pair (a d : val) | Vec (l : list val) | Str (l : list Z)
| Packet (l : list Z) | Secret (l : list Z) | Obj (n : nat).

(* ptr.h 815-818: the constants 9 to 18, #break among them *)
Definition aborted (v : val) : bool := match v with Brk | Err => true | _ => false end.
Definition is_brk (v : val) : bool := match v with Brk => true | _ => false end.
Definition is_fals (v : val) : bool := match v with Fals => true | _ => false end.
Definition is_empty (v : val) : bool := match v with Empty => true | _ => false end.

Definition sym := nat.
(* KNOSYM_HASHMARK, the default name of the counter *)
Definition hashmark : sym := 0%nat.

(* The sequences modelled: sequences.h 51-62, sequences.c 58-86 (length) and
   104-157 (elements; those of a secret are errors, 114-115). *)
Fixpoint cars (v : val) : list val := match v with Pair a d => a :: cars d | _ => [] end.

Definition seq_elts (v : val) : option (list val) :=
  match v with
  | Nil => Some []
  | Pair _ _ => Some (cars v)
  | Vec l => Some l
  | Str l => Some (map Chr l)
  | Packet l => Some (map Int l)
  | Secret l => Some (map (fun _ => Err) l)
  | _ => None
  end.

(* ptr.h 721-722 *)
Definition uintp (z : Z) : bool := (0 <=? z) && (z <=? 4294967295).

(* A fixnum kept in an int. *)
Definition to_int (z : Z) : Z := if z <? 2147483648 then z else z - 4294967296.

(* sequences.c 697-745: one element of a string or a packet *)
Definition str_elt (v : val) : option Z :=
  match v with Chr c => Some c | Int z => if uintp z then Some z else None | _ => None end.
Definition byte_elt (v : val) : option Z :=
  match v with Chr c => Some (c mod 256) | Int z => if uintp z then Some (z mod 256) else None | _ => None end.

Fixpoint map_opt {A B} (f : A -> option B) (l : list A) : option (list B) :=
  match l with
  | [] => Some []
  | x :: r => match f x, map_opt f r with Some y, Some s => Some (y :: s) | _, _ => None end
  end.

(* sequences.c 697-745, kno_makeseq with the type of [like] *)
Definition makeseq (like : val) (l : list val) : val :=
  match like with
  | Str _ => match map_opt str_elt l with Some s => Str s | None => Err end
  | Packet _ => match map_opt byte_elt l with Some s => Packet s | None => Err end
  | Secret _ => match map_opt byte_elt l with Some s => Secret s | None => Err end
  | Vec _ => Vec l
  | _ => fold_right Pair Nil l
  end.

Section Eval.

Variables form W : Type.
Definition binds := list (sym * val).
Variable ev : form -> binds -> W -> val * W.
Variable applicable : val -> bool.
Variable ap : val -> val -> W -> val * W.
Variable same : val -> val -> bool.

(* eval_internals.h 275-303 *)
Fixpoint eval_body (fs : list form) (b : binds) (w : W) : val * W :=
  match fs with
  | [] => (Void, w)
  | [f] => ev f b w
  | f :: rest =>
      let (v, w1) := ev f b w in
      if aborted v then (v, w1) else eval_body rest b w1
  end.

(* eval_internals.h 233-252; [fail] is what {} counts as *)
Inductive tested := TTrue | TFalse | TWhoops (v : val).
Definition testeval (f : form) (fail : bool) (b : binds) (w : W) : tested * W :=
  let (v, w1) := ev f b w in
  (match v with
   | Fals => TFalse
   | Empty => if fail then TTrue else TFalse
   | Void => TWhoops Err
   | Brk | Err => TWhoops v
   | _ => TTrue
   end, w1).

(* conditionals.c 24-41 *)
Definition if_evalfn (test thn : form) (els : option form) (b : binds) (w : W) : val * W :=
  let (t, w1) := ev test b w in
  if aborted t then (t, w1)
  else if is_empty t then (t, w1)
  else if is_fals t then match els with None => (Void, w1) | Some e => ev e b w1 end
  else ev thn b w1.

(* conditionals.c 55-66; the values before are dropped *)
Fixpoint try_clauses (fs : list form) (value : val) (b : binds) (w : W) : val * W :=
  match fs with
  | [] => (value, w)
  | f :: rest =>
      let (v, w1) := ev f b w in
      match v with
      | Brk | Err => (v, w1)
      | Void => (Err, w1)
      | Empty => try_clauses rest v b w1
      | _ => (v, w1)
      end
  end.

(* conditionals.c 43-67 *)
Definition tryif_evalfn (test : form) (fs : list form) (b : binds) (w : W) : val * W :=
  match testeval test false b w with
  | (TWhoops v, w1) => (v, w1)
  | (TFalse, w1) => (Empty, w1)
  | (TTrue, w1) => try_clauses fs Void b w1
  end.

(* conditionals.c 143-159 *)
Definition when_evalfn (test : form) (fs : list form) (b : binds) (w : W) : val * W :=
  let (t, w1) := ev test b w in
  if aborted t then (t, w1)
  else if is_fals t then (Void, w1)
  else if is_empty t then (Void, w1)
  else eval_body fs b w1.

(* conditionals.c 161-180 *)
Definition unless_evalfn (test : form) (fs : list form) (b : binds) (w : W) : val * W :=
  let (t, w1) := ev test b w in
  if aborted t then (t, w1)
  else if is_fals t then eval_body fs b w1
  else (Void, w1).

(* conditionals.c 182-195, from [value] on *)
Fixpoint and_loop (fs : list form) (value : val) (b : binds) (w : W) : val * W :=
  match fs with
  | [] => (value, w)
  | f :: rest =>
      let (v, w1) := ev f b w in
      if aborted v then (v, w1)
      else if is_fals v || is_empty v then (v, w1)
      else and_loop rest v b w1
  end.
Definition and_evalfn (fs : list form) := and_loop fs Tru.

(* conditionals.c 197-209, from [value] on *)
Fixpoint or_loop (fs : list form) (value : val) (b : binds) (w : W) : val * W :=
  match fs with
  | [] => (value, w)
  | f :: rest =>
      let (v, w1) := ev f b w in
      if aborted v then (v, w1)
      else if is_fals v || is_empty v then or_loop rest v b w1
      else (v, w1)
  end.
Definition or_evalfn (fs : list form) := or_loop fs Fals.

(* conditionals.c 82-117: clauses (else ...), (test ...), (test => f ...),
   (test =>) and what is no pair; [ap] is kno_apply with one argument *)
Inductive clause :=
| Else (fs : list form) | Test (t : form) (fs : list form)
| Arrow (t f : form) | NoArrow (t : form) | NoClause.
Fixpoint cond_evalfn (cs : list clause) (b : binds) (w : W) : val * W :=
  match cs with
  | [] => (Void, w)
  | Else fs :: _ => eval_body fs b w
  | Test t fs :: rest =>
      let (v, w1) := ev t b w in
      if aborted v then (v, w1)
      else if is_fals v then cond_evalfn rest b w1
      else eval_body fs b w1
  | Arrow t f :: rest =>
      let (v, w1) := ev t b w in
      if aborted v then (v, w1)
      else if is_fals v then cond_evalfn rest b w1
      else let (fn, w2) := ev f b w1 in
           if aborted fn then (fn, w2)
           else if applicable fn then ap fn v w2
           else (Err, w2)
  | NoArrow t :: rest =>
      let (v, w1) := ev t b w in
      if aborted v then (v, w1)
      else if is_fals v then cond_evalfn rest b w1
      else (Err, w1)
  | NoClause :: _ => (Err, w)
  end.

(* conditionals.c 127-141: clauses ((key ...) ...), (else ...) and others;
   [same] is KNO_EQ *)
Inductive kclause := Keys (ks : list val) (fs : list form) | KElse (fs : list form) | NoKeys.
Fixpoint case_loop (kv : val) (cs : list kclause) (b : binds) (w : W) : val * W :=
  match cs with
  | [] => (Void, w)
  | Keys ks fs :: rest =>
      if existsb (same kv) ks then eval_body fs b w else case_loop kv rest b w
  | KElse fs :: _ => eval_body fs b w
  | NoKeys :: _ => (Err, w)
  end.
(* conditionals.c 119-141 *)
Definition case_evalfn (key : form) (cs : list kclause) (b : binds) (w : W) : val * W :=
  let (kv, w1) := ev key b w in
  if aborted kv then (kv, w1) else case_loop kv cs b w1.

(* iterators.c 451-456 *)
Definition begin_evalfn := eval_body.

(* iterators.c 463-471 *)
Definition onbreak_evalfn (brk : form) (fs : list form) (b : binds) (w : W) : val * W :=
  let (v, w1) := eval_body fs b w in
  if is_brk v then ev brk b w1 else (v, w1).

(* iterators.c 490-497; the test for #break is never met *)
Fixpoint prog1_loop (fs : list form) (result : val) (b : binds) (w : W) : val * W :=
  match fs with
  | [] => (result, w)
  | f :: rest =>
      let (v, w1) := ev f b w in
      if aborted v then (v, w1)
      else if is_brk v then (result, w1)
      else prog1_loop rest result b w1
  end.
(* iterators.c 477-498 *)
Definition prog1_evalfn (f : form) (fs : list form) (b : binds) (w : W) : val * W :=
  let (v, w1) := ev f b w in
  if aborted v then (v, w1) else prog1_loop fs v b w1.

(* iterators.c 46-49, 76-79: one round of WHILE and UNTIL; the value which
   ended it, if one did *)
Fixpoint run_all (fs : list form) (b : binds) (w : W) : option val * W :=
  match fs with
  | [] => (None, w)
  | f :: rest =>
      let (v, w1) := ev f b w in
      if aborted v then (Some v, w1) else run_all rest b w1
  end.

(* iterators.c 51-53, 81-83 *)
Definition unbreak (v : val) : val := if is_brk v then Void else v.

(* iterators.c 34-54, at most [n] tests; None: it is not over then *)
Fixpoint while_evalfn (n : nat) (test : form) (fs : list form) (b : binds) (w : W) : option (val * W) :=
  match n with
  | O => None
  | S k =>
      match testeval test false b w with
      | (TTrue, w1) =>
          match run_all fs b w1 with
          | (None, w2) => while_evalfn k test fs b w2
          | (Some v, w2) => Some (unbreak v, w2)
          end
      | (TFalse, w1) => Some (Void, w1)
      | (TWhoops v, w1) => Some (unbreak v, w1)
      end
  end.

(* iterators.c 64-84, likewise *)
Fixpoint until_evalfn (n : nat) (test : form) (fs : list form) (b : binds) (w : W) : option (val * W) :=
  match n with
  | O => None
  | S k =>
      match testeval test true b w with
      | (TFalse, w1) =>
          match run_all fs b w1 with
          | (None, w2) => until_evalfn k test fs b w2
          | (Some v, w2) => Some (unbreak v, w2)
          end
      | (TTrue, w1) => Some (Void, w1)
      | (TWhoops v, w1) => Some (unbreak v, w1)
      end
  end.

(* iterators.c 116-129: [k] rounds to go, from [i] *)
Fixpoint dotimes_loop (k : nat) (i : Z) (var : sym) (fs : list form) (w : W) : val * W :=
  match k with
  | O => (Void, w)
  | S k' =>
      let (v, w1) := eval_body fs [(var, Int i)] w in
      if aborted v then (if is_brk v then Void else v, w1)
      else dotimes_loop k' (i + 1) var fs w1
  end.

(* iterators.c 96-131; [lv] is the value of the limit, kept in an int *)
Definition dotimes_evalfn (var : sym) (lv : val) (fs : list form) (w : W) : val * W :=
  if aborted lv then (lv, w)
  else match lv with
       | Int z => if uintp z then dotimes_loop (Z.to_nat (to_int z)) 0 var fs w else (Err, w)
       | _ => (Err, w)
       end.

(* eval_internals.h 504-525: the variables of a round; None for a variable
   switched off with #f *)
Definition iter_binds (var : sym) (cv wv : option sym) (whole elt : val) (i : Z) : binds :=
  match cv, wv with
  | Some c, Some v => [(var, elt); (c, Int i); (v, whole)]
  | Some c, None => [(var, elt); (c, Int i)]
  | None, Some v => [(var, elt); (hashmark, Int i); (v, whole)]
  | None, None => [(var, elt)]
  end.

(* iterators.c 172-190, from element [i] on *)
Fixpoint doseq_loop (es : list val) (i : Z) (bd : val -> Z -> binds) (fs : list form) (w : W) : val * W :=
  match es with
  | [] => (Void, w)
  | e :: rest =>
      let (v, w1) := eval_body fs (bd e i) w in
      if aborted v then (if is_brk v then Void else v, w1)
      else doseq_loop rest (i + 1) bd fs w1
  end.

(* iterators.c 142-192; [sv] is the value of the sequence expression *)
Definition doseq_evalfn (var : sym) (cv wv : option sym) (sv : val) (fs : list form) (w : W) : val * W :=
  if aborted sv then (sv, w)
  else if is_empty sv then (Void, w)
  else match seq_elts sv with
       | None => (Err, w)
       | Some es => doseq_loop es 0 (iter_binds var cv wv sv) fs w
       end.

(* iterators.c 238-256, from element [i] on; [acc] are the results so far, the
   last first; the error, if there is one, and the results *)
Fixpoint forseq_loop (es : list val) (i : Z) (bd : val -> Z -> binds) (fs : list form)
  (acc : list val) (w : W) : option val * list val * W :=
  match es with
  | [] => (None, rev acc, w)
  | e :: rest =>
      let (v, w1) := eval_body fs (bd e i) w in
      if aborted v then ((if is_brk v then None else Some v), rev acc, w1)
      else forseq_loop rest (i + 1) bd fs (v :: acc) w1
  end.

(* iterators.c 205-262 *)
Definition forseq_evalfn (var : sym) (cv wv : option sym) (sv : val) (fs : list form) (w : W) : val * W :=
  if aborted sv then (sv, w)
  else if is_empty sv then (Empty, w)
  else match seq_elts sv with
       | None => (Err, w)
       | Some [] => (sv, w)
       | Some es =>
           match forseq_loop es 0 (iter_binds var cv wv sv) fs [] w with
           | (Some v, _, w1) => (v, w1)
           | (None, rs, w1) => (makeseq sv rs, w1)
           end
       end.

(* iterators.c 306-327, from element [i] on *)
Fixpoint tryseq_loop (es : list val) (i : Z) (bd : val -> Z -> binds) (fs : list form) (w : W) : val * W :=
  match es with
  | [] => (Empty, w)
  | e :: rest =>
      let (v, w1) := eval_body fs (bd e i) w in
      if aborted v then (if is_brk v then Empty else v, w1)
      else if is_empty v then tryseq_loop rest (i + 1) bd fs w1
      else (v, w1)
  end.

(* iterators.c 274-329 *)
Definition tryseq_evalfn (var : sym) (cv wv : option sym) (sv : val) (fs : list form) (w : W) : val * W :=
  if aborted sv then (sv, w)
  else if is_empty sv then (Empty, w)
  else match seq_elts sv with
       | None => (Err, w)
       | Some es => tryseq_loop es 0 (iter_binds var cv wv sv) fs w
       end.

(* iterators.c 366-384, from the pairs [scan], the first being number [i] *)
Fixpoint dolist_loop (scan : val) (i : Z) (bd : val -> Z -> binds) (fs : list form) (w : W) : val * W :=
  match scan with
  | Pair a d =>
      let (v, w1) := eval_body fs (bd a i) w in
      if aborted v then (if is_brk v then Void else v, w1)
      else dolist_loop d (i + 1) bd fs w1
  | _ => (Void, w)
  end.

(* iterators.c 340-386 *)
Definition dolist_evalfn (var : sym) (cv wv : option sym) (sv : val) (fs : list form) (w : W) : val * W :=
  if aborted sv then (sv, w)
  else match sv with
       | Empty | Nil => (Void, w)
       | Pair _ _ => dolist_loop sv 0 (iter_binds var cv wv sv) fs w
       | _ => (Err, w)
       end.

(* iterators.c 397-442, at most [n] calls of the iterator, which is [next] *)
Fixpoint doiter_loop (n : nat) (next : W -> val * W) (i : Z) (bd : val -> Z -> binds)
  (fs : list form) (w : W) : option (val * W) :=
  match n with
  | O => None
  | S k =>
      let (e, w1) := next w in
      match e with
      | Eod => Some (Void, w1)
      | _ =>
          let (v, w2) := eval_body fs (bd e i) w1 in
          if aborted v then Some (if is_brk v then Void else v, w2)
          else doiter_loop k next (i + 1) bd fs w2
      end
  end.

End Eval.

Arguments Else {form} fs. Arguments Test {form} t fs. Arguments Arrow {form} t f.
Arguments NoArrow {form} t. Arguments NoClause {form}.
Arguments Keys {form} ks fs. Arguments KElse {form} fs. Arguments NoKeys {form}.
Arguments eval_body {form W}. Arguments testeval {form W}.
Arguments if_evalfn {form W}. Arguments tryif_evalfn {form W}. Arguments try_clauses {form W}.
Arguments when_evalfn {form W}. Arguments unless_evalfn {form W}.
Arguments and_loop {form W}. Arguments and_evalfn {form W}.
Arguments or_loop {form W}. Arguments or_evalfn {form W}.
Arguments cond_evalfn {form W}. Arguments case_loop {form W}. Arguments case_evalfn {form W}.
Arguments begin_evalfn {form W}. Arguments onbreak_evalfn {form W}.
Arguments prog1_loop {form W}. Arguments prog1_evalfn {form W}. Arguments run_all {form W}.
Arguments while_evalfn {form W}. Arguments until_evalfn {form W}.
Arguments dotimes_loop {form W}. Arguments dotimes_evalfn {form W}.
Arguments doseq_loop {form W}. Arguments doseq_evalfn {form W}.
Arguments forseq_loop {form W}. Arguments forseq_evalfn {form W}.
Arguments tryseq_loop {form W}. Arguments tryseq_evalfn {form W}.
Arguments dolist_loop {form W}. Arguments dolist_evalfn {form W}.
Arguments doiter_loop {form W}.

(* LARGEST, SMALLEST and GETRANGE: src/eval/choiceops.c.

   Simplifications: the key function is a function of the element, without
   effects (keyfn_get, 27-50, is not modelled); objects of one type other than
   fixnums and OIDs are compared by a rank (KNO_FULL_COMPARE is taken to be a
   total preorder on each type); immediate objects other than fixnums and OIDs
   are no scores; key arguments are taken to be such (KEYFNP, 53-57); the choice of the elements found is the list
   of them; reference counts. *)

From Coq Require Import List ZArith Bool.
Import ListNotations.
Open Scope Z_scope.

(* A score: a fixnum, an OID, or an object of the cons type [t] with the rank
   [r] among those. *)
Inductive score := Fix (z : Z) | Oid (a : Z) | Cons (t : Z) (r : Z).

(* include/kno/ptr.h 98, 142, 163-222: the type codes *)
Definition type_of (s : score) : Z := match s with Fix _ => 2 | Oid _ => 3 | Cons t _ => 132 + t end.

(* choiceops.c 951-968, ptr.h 517-518 *)
Definition compare_lisp (x y : score) : Z :=
  if type_of x =? type_of y then
    match x, y with
    | Fix a, Fix b => if a <? b then -1 else if a >? b then 1 else 0
    | Oid a, Oid b => if a =? b then 0 else if a <? b then -1 else 1
    | Cons _ a, Cons _ b => if a <? b then -1 else if a >? b then 1 else 0
    | _, _ => 0
    end
  else if type_of x <? type_of y then -1 else 1.

(* What the key function gives: a score, {}, void or an abort. *)
Inductive keyed := Score (s : score) | NoScore | VoidScore | Aborts (e : nat).
(* What is returned: the elements found, or an error: of the key function, or
   for a void key *)
Inductive found (A : Type) := Found (l : list A) | KeyError (e : nat) | VoidKey (a : A).
Arguments Found {A}. Arguments KeyError {A}. Arguments VoidKey {A}.

Section Loop.
Variable A : Type.
Variable key : A -> keyed.

(* choiceops.c 999-1030 *)
Fixpoint smallest_loop (elts top : list A) (top_score : option score) : found A :=
  match elts with
  | [] => Found top
  | e :: rest =>
      match key e with
      | Aborts x => KeyError x
      | VoidScore => VoidKey e
      | NoScore => smallest_loop rest top top_score
      | Score s =>
          match top_score with
          | None => smallest_loop rest [e] (Some s)
          | Some t =>
              let c := compare_lisp s t in
              if c >? 0 then smallest_loop rest top top_score
              else if c =? 0 then smallest_loop rest (top ++ [e]) top_score
              else smallest_loop rest [e] (Some s)
          end
      end
  end.
Definition smallest_prim (elts : list A) : found A := smallest_loop elts [] None.

(* choiceops.c 1063-1094 *)
Fixpoint largest_loop (elts top : list A) (top_score : option score) : found A :=
  match elts with
  | [] => Found top
  | e :: rest =>
      match key e with
      | Aborts x => KeyError x
      | VoidScore => VoidKey e
      | NoScore => largest_loop rest top top_score
      | Score s =>
          match top_score with
          | None => largest_loop rest [e] (Some s)
          | Some t =>
              let c := compare_lisp s t in
              if c <? 0 then largest_loop rest top top_score
              else if c =? 0 then largest_loop rest (top ++ [e]) top_score
              else largest_loop rest [e] (Some s)
          end
      end
  end.
Definition largest_prim (elts : list A) : found A := largest_loop elts [] None.

End Loop.

(* choiceops.c 977-995, 1041-1059: LARGEST with a choice of key functions, in
   order; [KeyItself]: the key function is returned where the error should be *)
Inductive several (A K : Type) := All (l : list A) | KeyItself (k : K).
Arguments All {A K}. Arguments KeyItself {A K}.
Fixpoint largest_keys {A K} (key : K -> A -> keyed) (ks : list K) (elts results : list A) : several A K :=
  match ks with
  | [] => All results
  | k :: rest =>
      match largest_prim A (key k) elts with
      | Found l => largest_keys key rest elts (results ++ l)
      | _ => KeyItself k
      end
  end.

(* choiceops.c 1783: a long long kept in an int *)
Definition wrap32 (z : Z) : Z := (z + 2147483648) mod 4294967296 - 2147483648.

(* choiceops.c 1771-1786: the first number and how many; an int is used for
   swapping *)
Definition getrange (start end_ : Z) : Z * Z :=
  let (s, e) := if start >? end_ then (end_, wrap32 start) else (start, end_) in
  (s, Z.max 0 (e - s)).

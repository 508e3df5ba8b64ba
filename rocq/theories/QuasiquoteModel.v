(** * Quasiquote.

    Source: /repo/src/eval/quasiquote.c.

    A template is a value; the symbols quasiquote, unquote and unquote* in front of a list of two
    mark its parts.  kno_quasiquote goes over the template with a level, raised by quasiquote and
    lowered by unquote; what is unquoted at level 1 is evaluated.

    Simplifications.
    - kno_eval is a function of the expression and of a state (of type [St], whatever evaluating
      can change); it gives a value or an abort (KNO_ABORTED: errors, throws).  The template
      itself is not changed by it.
    - What an abort says (condition, caller, detail) is not modelled.
    - The elements of a choice are a list in the order of DO_CHOICES.
    - Reference counts and memory are not modelled. *)

From Coq Require Import NArith List Bool.
Import ListNotations.

(** Lisp values, as far as they are told apart here.  [Err]: the constants for which KNO_ABORTED
    holds (ptr.h:815-818, 828).  [Sym]: symbols.  [Atom]: other immediates (ATOMICP, ptr.h:319).
    [Obj]: conses of other types (strings, numbers, tables other than slotmaps, ...). *)
Inductive val :=
| Void | Empty | Nil | Err
| Sym (n : N) | Atom (n : N) | Obj (n : N)
| Pair (a d : val) | Vec (l : list val) | Choice (l : list val) | Map (l : list (val * val)).

(** The symbols of 376-378: quasiquote, unquote, unquote*. *)
Definition quasi := Sym 0.
Definition unq := Sym 1.
Definition unqs := Sym 2.
Definition is_sym (s : N) (v : val) : bool := match v with Sym n => N.eqb n s | _ => false end.
(** kno_make_list(2,...). *)
Definition list2 (a b : val) : val := Pair a (Pair b Nil).
(** PAIRP(x) && NILP(KNO_CDR(x)), as in 38-42. *)
Definition one_elt (d : val) : option val := match d with Pair x Nil => Some x | _ => None end.
(** KNO_BAD_UNQUOTEP, 38-42, of the pair of [a] and [d]. *)
Definition bad_unquote (a d : val) : bool :=
  (is_sym 1 a || is_sym 2 a) && match one_elt d with Some _ => false | None => true end.

(** The elements of what is spliced: 112-149 for lists and 199-240 for vectors; [None] for an improper
    list or something else. *)
Fixpoint list_elts (v : val) : option (list val) :=
  match v with
  | Nil => Some []
  | Pair a d => match list_elts d with Some l => Some (a :: l) | None => None end
  | _ => None
  end.
Definition splice_elts (v : val) : option (list val) :=
  match v with Vec l => Some l | _ => list_elts v end.

(** The result of a call; [Stuck] is for too little fuel. *)
Inductive res := Stuck | Abort | Ok (v : val).

Section Quasiquote.

Variable St : Type.
(** kno_eval. *)
Variable eval : val -> St -> option val * St.
(** LISP_EQUAL. *)
Variable veq : val -> val -> bool.

(** kno_slotmap_store, tables.c:301-344, with kno_keyvals_insert: errors as keys or values and the
    empty choice as key are not stored (the result is not looked at by the caller). *)
Fixpoint put (m : list (val * val)) (k v : val) : list (val * val) :=
  match m with
  | [] => [(k, v)]
  | (k', v') :: r => if veq k k' then (k', v) :: r else (k', v') :: put r k v
  end.
Definition store (m : list (val * val)) (k v : val) : list (val * val) :=
  match k, v with
  | Err, _ | _, Err | Empty, _ => m
  | _, _ => put m k v
  end.

(** KNO_ADD_TO_CHOICE and kno_simplify_choice (choices.h, choices.c:482-530): a choice without
    duplicates; none, one or more elements. *)
Definition members (v : val) : list val :=
  match v with Empty => [] | Choice l => l | _ => [v] end.
Fixpoint distinct (l : list val) : list val :=
  match l with
  | [] => []
  | x :: r => if existsb (veq x) r then distinct r else x :: distinct r
  end.
Definition mk_choice (l : list val) : val :=
  match distinct l with [] => Empty | [x] => x | l' => Choice l' end.

(** What is evaluated: an abort, or VOID, which is made an error (57-67, 87-90, 103-110, 188-198,
    341-344). *)
Definition value_of (e : val) (s : St) : res * St :=
  match eval e s with
  | (None, s') => (Abort, s')
  | (Some Err, s') => (Abort, s')
  | (Some Void, s') => (Abort, s')
  | (Some v, s') => (Ok v, s')
  end.

(** kno_quasiquote, 321-361. *)
Fixpoint qq (fuel : nat) (level : nat) (obj : val) (s : St) : res * St :=
  match fuel with
  | O => (Stuck, s)
  | S k =>
    match obj with
    | Err => (Abort, s)
    | Pair a d =>
      if bad_unquote a d then (Abort, s)
      else if is_sym 0 a then
        match d with
        | Pair x _ =>
          match qq k (S level) x s with
          | (Ok v, s') => (Ok (list2 quasi v), s')
          | o => o
          end
        | _ => (Abort, s)
        end
      else if is_sym 1 a then
        match one_elt d with
        | Some x =>
          if Nat.eqb level 1 then value_of x s
          else match qq k (level - 1) x s with
               | (Ok v, s') => (Ok (list2 unq v), s')
               | o => o
               end
        | None => (Abort, s)
        end
      else if is_sym 2 a then (Abort, s)
      else qq_list k level obj s
    | Vec [] => (Ok obj, s)
    | Vec l => match qq_elts k level l s with
               | (Some (Some vs), s') => (Ok (Vec vs), s')
               | (Some None, s') => (Abort, s')
               | (None, s') => (Stuck, s')
               end
    | Choice l => qq_choice k level l [] s
    | Map l => qq_map k level l [] s
    | _ => (Ok obj, s)
    end
  end
(** quasiquote_list, 44-172. *)
with qq_list (fuel : nat) (level : nat) (obj : val) (s : St) : res * St :=
  match fuel with
  | O => (Stuck, s)
  | S k =>
    match obj with
    | Pair elt rest =>
      let push (r : res * St) :=
        match r with
        | (Ok v, s1) =>
          match qq_list k level rest s1 with (Ok t, s2) => (Ok (Pair v t), s2) | o => o end
        | o => o
        end in
      match elt with
      | Sym _ =>
        if is_sym 1 elt then
          match one_elt rest with
          | None => (Abort, s)
          | Some x =>
            if Nat.eqb level 1 then value_of x s
            else match qq k (level - 1) x s with
                 | (Ok v, s') => (Ok (Pair unq v), s')
                 | o => o
                 end
          end
        else push (Ok elt, s)
      | Err => (Abort, s)
      | Void | Empty | Nil | Atom _ => push (Ok elt, s)
      | Pair a d =>
        if bad_unquote a d then (Abort, s)
        else if is_sym 1 a then
          match one_elt d with
          | None => (Abort, s)
          | Some x =>
            if Nat.eqb level 1 then push (value_of x s)
            else match qq k (level - 1) x s with
                 | (Ok v, s') => push (Ok (list2 unq v), s')
                 | o => o
                 end
          end
        else if is_sym 2 a then
          match one_elt d with
          | None => (Abort, s)
          | Some x =>
            if Nat.eqb level 1 then
              match value_of x s with
              | (Ok ins, s1) =>
                match splice_elts ins with
                | None => (Abort, s1)
                | Some vs =>
                  match qq_list k level rest s1 with
                  | (Ok t, s2) => (Ok (fold_right Pair t vs), s2)
                  | o => o
                  end
                end
              | o => o
              end
            else match qq k (level - 1) x s with
                 | (Ok v, s') => push (Ok (list2 unqs v), s')
                 | o => o
                 end
          end
        else push (qq k level elt s)
      | _ => push (qq k level elt s)
      end
    | Nil => (Ok Nil, s)
    | _ => qq k level obj s
    end
  end
(** quasiquote_vector, 174-269: the elements ([None]: fuel; [Some None]: an abort). *)
with qq_elts (fuel : nat) (level : nat) (l : list val) (s : St) : option (option (list val)) * St :=
  match fuel with
  | O => (None, s)
  | S k =>
    match l with
    | [] => (Some (Some []), s)
    | elt :: r =>
      let one (q : res * St) :=
        match q with
        | (Ok Void, s1) => (Some None, s1)
        | (Ok v, s1) =>
          match qq_elts k level r s1 with
          | (Some (Some vs), s2) => (Some (Some (v :: vs)), s2)
          | o => o
          end
        | (Abort, s1) => (Some None, s1)
        | (Stuck, s1) => (None, s1)
        end in
      match elt with
      | Pair a (Pair x _) =>
        if is_sym 2 a then
          if Nat.eqb level 1 then
            match value_of x s with
            | (Ok ins, s1) =>
              match splice_elts ins with
              | None => (Some None, s1)
              | Some vs =>
                match qq_elts k level r s1 with
                | (Some (Some vs'), s2) => (Some (Some (vs ++ vs')), s2)
                | o => o
                end
              end
            | (Abort, s1) => (Some None, s1)
            | (Stuck, s1) => (None, s1)
            end
          else one (qq k (level - 1) elt s)
        else one (qq k level elt s)
      | _ => one (qq k level elt s)
      end
    end
  end
(** quasiquote_choice, 307-319. *)
with qq_choice (fuel : nat) (level : nat) (l : list val) (acc : list val) (s : St) : res * St :=
  match fuel with
  | O => (Stuck, s)
  | S k =>
    match l with
    | [] => (Ok (mk_choice acc), s)
    | elt :: r =>
      match qq k level elt s with
      | (Ok v, s1) => qq_choice k level r (acc ++ members v) s1
      | o => o
      end
    end
  end
(** quasiquote_slotmap, 271-305. *)
with qq_map (fuel : nat) (level : nat) (l : list (val * val)) (acc : list (val * val)) (s : St) : res * St :=
  match fuel with
  | O => (Stuck, s)
  | S k =>
    match l with
    | [] => (Ok (Map acc), s)
    | (key, v) :: r =>
      let '(key', s1) := match key with Pair _ _ => qq k level key s | _ => (Ok key, s) end in
      match key' with
      | Stuck => (Stuck, s1)
      | Ok Empty | Ok Void => qq_map k level r acc s1
      | _ =>
        let slot := match key' with Ok x => x | _ => Err end in
        match v with
        | Pair _ _ | Vec _ | Map _ | Choice _ =>
          match qq k level v s1 with
          | (Ok v', s2) => qq_map k level r (store acc slot v') s2
          | o => o
          end
        | _ => qq_map k level r (store acc slot v) s1
        end
      end
    end
  end.

(** The size of a value. *)
Fixpoint vsize (v : val) : nat :=
  match v with
  | Pair a d => S (vsize a + vsize d)
  | Vec l | Choice l => S (fold_right (fun x n => S (vsize x + n)) O l)
  | Map l => S (fold_right (fun kv n => S (vsize (fst kv) + vsize (snd kv) + n)) O l)
  | _ => 1
  end.
(** Enough for [obj] (QuasiquoteProofs.v). *)
Definition enough (obj : val) : nat := 2 + 2 * vsize obj.
Definition quasiquote (level : nat) (obj : val) (s : St) : res * St := qq (enough obj) level obj s.
(** quasiquote_evalfn, 363-372, for the whole expression. *)
Definition quasiquote_evalfn (expr : val) (s : St) : res * St :=
  match expr with
  | Pair _ d => match one_elt d with Some x => quasiquote 1 x s | None => (Abort, s) end
  | _ => (Abort, s)
  end.

End Quasiquote.

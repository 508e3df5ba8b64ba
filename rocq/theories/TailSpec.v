(** * What the expressions mean, without frames

    The value of an expression of TailModel.v as the language has it:
    applying a lambda is evaluating its body where its parameters are
    bound to the arguments.  There are no frames, no tail positions and
    no return constant here. *)

From Coq Require Import ZArith List Bool Arith.
Import ListNotations.
From Verif Require Import TailModel.

(** A value or an error. *)
Inductive res : Type :=
| Ok (v : value)
| Fail.

(** Evaluating a list of arguments: all their values, or what the whole
    application gives without a call being made. *)
Inductive lres : Type :=
| All (vs : list value)
| Instead (r : res).

Section Direct.
Variable prim : nat -> list value -> pstep.

Fixpoint dv (n : nat) (e : expr) (env : list value) {struct n} : option res :=
  match n with
  | O => None
  | S n =>
      match e with
      | EQ v => Some (Ok v)
      | EVar i =>
          Some (match nth_error env i with
                | None | Some VUnbound => Fail
                | Some v => Ok v
                end)
      | ELam k l nt pr body => Some (Ok (VClo k l nt pr body env))
      | EIf a b c =>
          match dv n a env with
          | Some (Ok VEmpty) => Some (Ok VEmpty)
          | Some (Ok VFalse) =>
              match c with
              | None => Some (Ok VVoid)
              | Some c => dv n c env
              end
          | Some (Ok _) => dv n b env
          | x => x
          end
      | EWhen a body =>
          match dv n a env with
          | Some (Ok VEmpty) | Some (Ok VFalse) => Some (Ok VVoid)
          | Some (Ok _) => dbody n body env
          | x => x
          end
      | EAnd es => dand n es env VTrue
      | EBegin body => dbody n body env
      | ELet vals body =>
          match dlets n vals env with
          | Some (All vs) => dbody n body (vs ++ env)
          | Some (Instead r) => Some r
          | None => None
          end
      | EMac e => dv n e env
      | EApp f args =>
          match dv n f env with
          | Some (Ok VEmpty) => Some (Ok VEmpty)
          | Some (Ok fn) =>
              if callable fn (length args) then
                match dargs n args env with
                | Some (All vs) => dapp n fn vs
                | Some (Instead r) => Some r
                | None => None
                end
              else Some Fail
          | x => x
          end
      end
  end
with dbody (n : nat) (es : list expr) (env : list value) {struct n} : option res :=
  match n with
  | O => None
  | S n =>
      match es with
      | [] => Some (Ok VVoid)
      | [e] => dv n e env
      | e :: es =>
          match dv n e env with
          | Some (Ok _) => dbody n es env
          | x => x
          end
      end
  end
with dand (n : nat) (es : list expr) (env : list value) (v : value) {struct n} : option res :=
  match n with
  | O => None
  | S n =>
      match es with
      | [] => Some (Ok v)
      | e :: es =>
          match dv n e env with
          | Some (Ok VFalse) => Some (Ok VFalse)
          | Some (Ok VEmpty) => Some (Ok VEmpty)
          | Some (Ok v1) => dand n es env v1
          | x => x
          end
      end
  end
with dlets (n : nat) (es : list expr) (env : list value) {struct n} : option lres :=
  match n with
  | O => None
  | S n =>
      match es with
      | [] => Some (All [])
      | e :: es =>
          match dv n e env with
          | None => None
          | Some Fail | Some (Ok VVoid) => Some (Instead Fail)
          | Some (Ok v) =>
              match dlets n es env with
              | Some (All vs) => Some (All (v :: vs))
              | x => x
              end
          end
      end
  end
with dargs (n : nat) (es : list expr) (env : list value) {struct n} : option lres :=
  match n with
  | O => None
  | S n =>
      match es with
      | [] => Some (All [])
      | e :: es =>
          match dv n e env with
          | None => None
          | Some Fail | Some (Ok VVoid) => Some (Instead Fail)
          | Some (Ok VEmpty) => Some (Instead (Ok VEmpty))
          | Some (Ok v) =>
              match dargs n es env with
              | Some (All vs) => Some (All (v :: vs))
              | x => x
              end
          end
      end
  end
with dapp (n : nat) (fn : value) (vs : list value) {struct n} : option res :=
  match n with
  | O => None
  | S n =>
      match fn with
      | VClo k l nt pr body env => dbody n body (vs ++ repeat VUnbound l ++ env)
      | VPrim p => drun n p vs
      | _ => Some Fail
      end
  end
with drun (n : nat) (p : nat) (vs : list value) {struct n} : option res :=
  match n with
  | O => None
  | S n =>
      match prim p vs with
      | PDone v => Some (Ok v)
      | PFail => Some Fail
      | PCall fn args p1 =>
          if callable fn (length args) then
            match dapp n fn args with
            | Some (Ok r) => drun n p1 (r :: vs)
            | x => x
            end
          else Some Fail
      end
  end.

(** The expression has a result, whatever number of steps it takes. *)
Definition gives (e : expr) (env : list value) (r : res) : Prop :=
  exists n, dv n e env = Some r.
End Direct.

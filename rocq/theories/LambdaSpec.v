(* What a parameter list means, said about parameters rather than about the
   list structure and the arrays of LambdaModel.v. *)

From Coq Require Import List Arith Bool ZArith.
Import ListNotations.
From Verif Require Import LambdaModel.

(* A parameter is required, has a default expression, or may be left out. *)
Inductive kind := KReq | KOpt (e : lisp) | KNone.
Record formal := { f_name : nat; f_kind : kind; f_type : option lisp }.

(* How parameters are written: x, (x <required> type), (x e), (x e type), (x). *)
Definition write_formal (f : formal) : lisp :=
  let x := Sym (f_name f) in
  match f_kind f, f_type f with
  | KReq, None => x
  | KReq, Some t => Pair x (Pair Req (Pair t Nil))
  | KOpt e, None => Pair x (Pair e Nil)
  | KOpt e, Some t => Pair x (Pair e (Pair t Nil))
  | KNone, None => Pair x Nil
  | KNone, Some t => Pair x (Pair Void (Pair t Nil))
  end.

Definition write_rest (r : option nat) : lisp :=
  match r with None => Nil | Some n => Sym n end.

Definition write_params (fs : list formal) (r : option nat) : lisp :=
  fold_right (fun f l => Pair (write_formal f) l) (write_rest r) fs.

(* Expressions which stand for themselves in these positions. *)
Definition plain_formal (f : formal) : Prop :=
  match f_kind f with
  | KOpt e => e <> Req /\ e <> Void /\ e <> QVoid
  | _ => True
  end /\
  match f_type f with
  | Some t => t <> Void /\ t <> Fals /\ t <> Empty
  | None => True
  end.

Definition required (f : formal) : bool :=
  match f_kind f with KReq => true | _ => false end.

(* The names: parameters, rest. *)
Definition names (fs : list formal) (r : option nat) : list nat :=
  map f_name fs ++ match r with Some n => [n] | None => [] end.

Section Spec.
  Variable tev : lisp -> option lisp.
  Variable dev : lisp -> option lisp.
  Variable check : lisp -> lisp -> bool.

  (* [stands f a v]: given argument [a] (None when there are fewer arguments),
     parameter [f] has the value [v]. *)
  Inductive value_of (f : formal) : option lisp -> lisp -> Prop :=
  | given : forall a, a <> Dflt -> a <> Void -> a <> Abort ->
      (forall v, a <> QCh v) -> value_of f (Some a) a
  | given_qchoice : forall v, value_of f (Some (QCh v)) v
  | default_given : forall e v, f_kind f = KOpt e ->
      dev e = Some v -> v <> Void -> v <> Abort -> value_of f (Some Dflt) v
  | default_void : forall e v, f_kind f = KOpt e ->
      dev e = Some v -> v <> Void -> v <> Abort -> value_of f (Some Void) v
  | default_missing : forall e v, f_kind f = KOpt e ->
      dev e = Some v -> v <> Void -> v <> Abort -> value_of f None v
  | none_given : forall a, (forall e, f_kind f <> KOpt e) ->
      a = Dflt \/ a = Void -> value_of f (Some a) a
  | none_missing : (forall e, f_kind f <> KOpt e) -> value_of f None Void.

  (* The value passes the parameter's type. *)
  Definition fits (f : formal) (v : lisp) : Prop :=
    v = Empty \/ v = Void \/ v = Dflt \/
    match f_type f with
    | None => True
    | Some t => exists tv, tev t = Some tv /\ (tv = Fals \/ tv = Void \/ check v tv = true)
    end.

  (* [binds fs args vs]: the parameters [fs], given [args], have the values
     [vs]. *)
  Inductive binds : list formal -> list lisp -> list lisp -> Prop :=
  | binds_nil : forall args, binds [] args []
  | binds_given : forall f fs a args v vs,
      value_of f (Some a) v -> fits f v -> binds fs args vs ->
      binds (f :: fs) (a :: args) (v :: vs)
  | binds_missing : forall f fs v vs,
      value_of f None v -> fits f v -> binds fs [] vs ->
      binds (f :: fs) [] (v :: vs).
End Spec.

(* The first value a name has in a list of bindings. *)
Fixpoint find (n : nat) (env : list (lisp * lisp)) : option lisp :=
  match env with
  | [] => None
  | (Sym m, v) :: r => if n =? m then Some v else find n r
  | _ :: r => find n r
  end.

(* A lisp list. *)
Definition listof (l : list lisp) : lisp := fold_right Pair Nil l.

(* The names a body makes local, said of the list of its forms: those of the
   define forms before the first form which is not a pair.  A body of one form
   has none. *)
Definition def_name (x : lisp) : list nat :=
  match x with
  | Pair (Sym 2) (Pair (Sym n) _) => [n]
  | Pair (Sym 2) (Pair (Pair (Sym n) _) _) => [n]
  | _ => []
  end.

Definition is_pair (x : lisp) : bool := match x with Pair _ _ => true | _ => false end.
Definition is_str (x : lisp) : bool := match x with Str _ => true | _ => false end.

(* The forms up to the first which is not a pair. *)
Fixpoint leading (forms : list lisp) : list lisp :=
  match forms with
  | f :: r => if is_pair f then f :: leading r else []
  | [] => []
  end.

(* The strings at the start of a body, other than its last form, are its
   documentation. *)
Fixpoint undoc (forms : list lisp) : list lisp :=
  match forms with
  | x :: ((_ :: _) as r) => if is_str x then undoc r else forms
  | _ => forms
  end.

Definition locals (forms : list lisp) : list nat :=
  match undoc forms with
  | [] | [_] => []
  | l => flat_map def_name (leading l)
  end.

(* No (local ...) forms, and define forms define a name. *)
Definition plain_form (x : lisp) : Prop :=
  (forall l, x <> Pair (Sym 0) l /\ x <> Pair (Sym 1) l) /\
  (forall l, x = Pair (Sym 2) l -> def_name x <> []).

(* What is accepted as one parameter: a symbol, or a list of a name, an
   initial value and a type, of which the last two may be left out. *)
Inductive spec_ok (tev : lisp -> option lisp) : lisp -> Prop :=
| spec_sym : forall n, spec_ok tev (Sym n)
| spec_1 : forall x, spec_ok tev (listof [x])
| spec_2 : forall x e, spec_ok tev (listof [x; e])
| spec_3 : forall x e t, (tev t <> None \/ t = Void \/ t = Fals \/ t = Empty) ->
    spec_ok tev (listof [x; e; t]).

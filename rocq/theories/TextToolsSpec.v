(** Words for what the functions of texttools.c are to do, in terms of the
    meaning of patterns in TextMatchSpec. *)
From Coq Require Import List Bool Arith NArith Relations.
From Verif Require Import TextMatchModel TextMatchSpec.
Import ListNotations.

Section Spec.
Variable t : list N.
Variable lower : N -> N.

(** The characters of the text from [a] to [b]. *)
Definition span (a b : nat) : list N := firstn (b - a) (skipn a t).

(** [longest_at p s e]: the longest match of [p] that begins at [s] ends at
    [e]. *)
Definition longest_at (p : pat) (s e : nat) : Prop :=
  ends t lower false p s e /\ forall k, ends t lower false p s k -> k <= e.

(** [found p i l]: [l] are the matches of [p] one meets going through the text
    from [i] on: always the leftmost one that begins before the end of the text
    and is not yet passed, and of those that begin there the longest; after an
    empty one going on with the next character. *)
Inductive found (p : pat) : nat -> list (nat * nat) -> Prop :=
| found_nil : forall i,
    (forall k j, i <= k < length t -> ~ ends t lower false p k j) ->
    found p i []
| found_cons : forall i s e l,
    first_match t lower false p i s -> s < length t -> longest_at p s e ->
    found p (if s =? e then S s else e) l ->
    found p i ((s, e) :: l).

(** Those which are not empty. *)
Definition nonempty (l : list (nat * nat)) : list (nat * nat) :=
  filter (fun ab => fst ab <? snd ab) l.

(** The text from [i] on with the parts of [l] replaced. *)
Fixpoint replaced (rep : list N) (i : nat) (l : list (nat * nat)) : list N :=
  match l with
  | [] => span i (length t)
  | (a, b) :: r => span i a ++ rep ++ replaced rep b r
  end.

(** What lies between the parts of [l], from [i] on; the last only if it is not
    empty; nothing before an empty part at [i]. *)
Fixpoint between (i : nat) (l : list (nat * nat)) : list (list N) :=
  match l with
  | [] => if i <? length t then [span i (length t)] else []
  | (a, b) :: r => (if i <? b then [span i a] else []) ++ between b r
  end.

(** [loose ic p i j]: like [ends], for matching in which the matcher picks one
    of the ends: an OPT may match nothing, PREF is a choice, LONGEST need not be
    the longest. *)
Fixpoint loose (ic : bool) (p : pat) (i j : nat) {struct p} : Prop :=
  match p with
  | PAlt l | PChoiceOp l | PPref l =>
    (fix any (l : list pat) : Prop :=
       match l with [] => False | q :: r => loose ic q i j \/ any r end) l
  | PVec l =>
    (fix seq (l : list pat) (i : nat) : Prop :=
       match l with
       | [] => i = j
       | q :: r => exists k, loose ic q i k /\ seq r k
       end) l i
  | PStar q => clos_refl_trans nat (loose ic q) i j
  | PPlus q => clos_trans nat (loose ic q) i j
  | POpt q => loose ic q i j \/ j = i
  | PLabel q | PExpansive q | PLongest q | PGreedy q => loose ic q i j
  | PIgnoreCase q => loose true q i j
  | PMatchCase q => loose false q i j
  | PSym _ | PStarAny | PNot _ | PNotGt _ | PAnd _ _ => False
  | _ => ends t lower ic p i j
  end.

(** Patterns without symbols, wildcards, NOT, NOT> and AND, and with the
    restrictions of [good] on ranges and classes. *)
Fixpoint plain (ic : bool) (p : pat) : Prop :=
  match p with
  | PAlt l | PChoiceOp l | PVec l | PPref l =>
    (fix all (l : list pat) : Prop :=
       match l with [] => True | q :: r => plain ic q /\ all r end) l
  | PStar q | PPlus q | POpt q | PLabel q | PLongest q | PExpansive q
  | PGreedy q => plain ic q
  | PIgnoreCase q => plain true q
  | PMatchCase q => plain false q
  | PRange a _ => ic = false /\ (0 < a)%N
  | PClass f | PClassPlus f => f 0%N = false
  | PSym _ | PStarAny | PNot _ | PNotGt _ | PAnd _ _ => False
  | _ => True
  end.

End Spec.

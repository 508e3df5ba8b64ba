(** What text patterns say: the ends of the parts of a text that begin at a
    position and match a pattern, for patterns whose meaning does not depend on
    what follows them (src/text/match.c:25-80, 188-222 describe it in words).

    Nothing here uses the functions of TextMatchModel, only its patterns. *)
From Coq Require Import List Bool Arith NArith Relations.
From Verif Require Import TextMatchModel.
Import ListNotations.

Section Spec.
Variable t : list N.
Variable lower : N -> N.

(** Two characters that count as the same. *)
Definition same (ic : bool) (c d : N) : Prop :=
  if ic then lower c = lower d else c = d.

(** A character among those of a set. *)
Definition among (ic : bool) (s : list N) (d : N) : Prop :=
  exists c, In c s /\ same ic c d.

(** [ends ic p i j]: the part of the text from [i] to [j] matches [p].
    - a string: that string; a character: that character;
    - a choice, and CHOICE: one of the patterns; PREF: the first of the
      patterns which matches at all;
    - a vector: its patterns one after the other;
    - [*]: any number of repetitions, [+]: at least one;
    - OPT: what the pattern matches or, if it matches nothing here, the empty
      part;
    - NOT: any part which is not empty and in which no match begins, and at the
      end of the text the empty part;
    - NOT>: everything up to the first place where a match begins, or all;
    - AND: both; LONGEST: the longest;
    - CHARS and the like: the longest run of characters of the set (for CHARS
      and CHAR-NOT not empty unless at the end of the text);
    - ISALNUM and the like: a character of the class, ISALNUM+ and the like: a
      run of them;
    - BOL, EOL, BOS, EOS: beginning and end of a line and of the text (EOL
      takes the newline); REST: everything. *)
Fixpoint ends (ic : bool) (p : pat) (i j : nat) {struct p} : Prop :=
  match p with
  | PStr s =>
    i <= length t /\ j = i + length s /\
    forall k c, nth_error s k = Some c ->
      exists d, nth_error t (i + k) = Some d /\ same ic c d
  | PChr c => nth_error t i = Some c /\ j = S i
  | PAlt l | PChoiceOp l =>
    (fix any (l : list pat) : Prop :=
       match l with [] => False | q :: r => ends ic q i j \/ any r end) l
  | PVec l =>
    (fix seq (l : list pat) (i : nat) : Prop :=
       match l with
       | [] => i = j
       | q :: r => exists k, ends ic q i k /\ seq r k
       end) l i
  | PStar q => clos_refl_trans nat (ends ic q) i j
  | PPlus q => clos_trans nat (ends ic q) i j
  | POpt q => ends ic q i j \/ (j = i /\ forall k, ~ ends ic q i k)
  | PNot q =>
    (i < j <= length t /\ forall k m, i <= k < j -> ~ ends ic q k m) \/
    (i = length t /\ j = length t)
  | PNotGt q =>
    i <= j <= length t /\ (forall k m, i <= k < j -> ~ ends ic q k m) /\
    (j = length t \/ exists m, ends ic q j m)
  | PAnd p1 p2 => ends ic p1 i j /\ ends ic p2 i j
  | PPref l =>
    (fix pref (l : list pat) : Prop :=
       match l with
       | [] => False
       | q :: r => ends ic q i j \/ ((forall k, ~ ends ic q i k) /\ pref r)
       end) l
  | PLabel q | PExpansive q => ends ic q i j
  | PLongest q => ends ic q i j /\ forall k, ends ic q i k -> k <= j
  | PIgnoreCase q => ends true q i j
  | PMatchCase q => ends false q i j
  | PBol => i = j /\ i <= length t /\
            (i = 0 \/ exists c, nth_error t (i - 1) = Some c /\ (c = 10 \/ c = 13)%N)
  | PEol => (i = length t /\ j = i) \/
            (j = S i /\ exists c, nth_error t i = Some c /\ (c = 10 \/ c = 13)%N)
  | PBos => i = 0 /\ j = 0
  | PEos => i = length t /\ j = i
  | PRest => i <= length t /\ j = length t
  | PRange a b => exists c, nth_error t i = Some c /\ (a <= c <= b)%N /\ j = S i
  | PChars neg star s =>
    let hit d := if neg then ~ among ic s d else among ic s d in
    i <= j <= length t /\
    (forall k d, i <= k < j -> nth_error t k = Some d -> hit d) /\
    (forall d, nth_error t j = Some d -> ~ hit d) /\
    (star = true \/ i < j \/ i = length t)
  | PClass f => exists c, nth_error t i = Some c /\ f c = true /\ j = S i
  | PClassPlus f =>
    i < j <= length t /\
    forall k, i <= k < j -> exists c, nth_error t k = Some c /\ f c = true
  | PSym _ | PStarAny | PGreedy _ => False
  end.

(** Patterns whose search gives a place before the limit or nothing. *)
Fixpoint strict (p : pat) : Prop :=
  match p with
  | PStr _ | PChr _ | PAlt _ | PVec _ | PAnd _ _ | PRange _ _ | PChars _ _ _
  | PClass _ | PClassPlus _ => True
  | PPlus q | PLabel q | PExpansive q | PLongest q | PIgnoreCase q
  | PMatchCase q => strict q
  | PChoiceOp l => match l with [q] => strict q | _ => True end
  | _ => False
  end.

(** Patterns for which the searchers look for what the matchers match; what is
    left out is refuted in TextMatchProps or depends on what follows. *)
Fixpoint findable (ic : bool) (p : pat) : Prop :=
  match p with
  | PStr _ => ic = false
  | PChr c => (128 <= c)%N
  | PAlt l | PChoiceOp l =>
    (fix all (l : list pat) : Prop :=
       match l with [] => True | q :: r => findable ic q /\ all r end) l
  | PVec l => match l with [] => False | q :: _ => findable ic q end
  | PStar _ | POpt _ | PRest | PBos | PRange _ _ | PChars _ _ _ | PClass _
  | PClassPlus _ => True
  | PPlus q | PLabel q | PExpansive q | PLongest q => findable ic q
  | PIgnoreCase q => findable true q
  | PMatchCase q => findable false q
  | PAnd q _ => findable ic q /\ strict q
  | _ => False
  end.

(** Patterns of which the matcher is right: no symbols, no GREEDY, no wildcard;
    repetitions with [+] of patterns which do not match the empty part;
    NOT and NOT> of patterns the search can find; no character ranges in which
    case is ignored; character classes which do not have the NUL. *)
Fixpoint good (ic : bool) (p : pat) : Prop :=
  match p with
  | PAlt l | PChoiceOp l | PVec l | PPref l =>
    (fix all (l : list pat) : Prop :=
       match l with [] => True | q :: r => good ic q /\ all r end) l
  | PStar q | POpt q | PLabel q | PLongest q | PExpansive q => good ic q
  | PPlus q => good ic q /\ forall i, ~ ends ic q i i
  | PNot q => good ic q /\ findable ic q /\ strict q
  | PNotGt q => good ic q /\ findable ic q
  | PAnd p1 p2 => good ic p1 /\ good ic p2
  | PIgnoreCase q => good true q
  | PMatchCase q => good false q
  | PRange a _ => ic = false /\ (0 < a)%N
  | PClass f | PClassPlus f => f 0%N = false
  | PSym _ | PStarAny | PGreedy _ => False
  | _ => True
  end.

(** The first place from [off] on where a match of [p] begins. *)
Definition first_match (ic : bool) (p : pat) (off k : nat) : Prop :=
  off <= k <= length t /\ (exists j, ends ic p k j) /\
  forall k' j, off <= k' < k -> ~ ends ic p k' j.

End Spec.

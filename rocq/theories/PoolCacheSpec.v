(** What a program may expect of the values of a pool's OIDs, told from the
    operations it did and what they gave, without looking into the pool. *)

From Coq Require Import List ZArith Bool.
Import ListNotations.
From Verif Require Import PoolCacheModel.
Local Open Scope Z_scope.

(** [cur]: the value the program should see of each OID.  [disk]: the value that
    is stored for it. *)
Record view := MkV { cur : Z -> saved; disk : Z -> saved }.
Definition upd (m : Z -> saved) (o : Z) (v : saved) : Z -> saved :=
  fun k => if k =? o then v else m k.
Definition same (m m' : Z -> saved) : Prop := forall o, m o = m' o.

(** What is seen of a value that is read. *)
Definition answer (v : saved) : res := match v with SUnalloc => RErr | _ => RVal v end.
(** A change of a table; an OID without a value gets an empty one. *)
Definition edited (f : Z -> Z) (v : saved) : saved :=
  match v with SEmpty => STab (f 0) | STab z => STab (f z) | _ => v end.
Definition given (v : setval) : saved :=
  match v with
  | SetVal VEmpty => SEmpty | SetVal (VAtom z) => SAtom z | SetVal (VCons z) => SCons z
  | SetTab z => STab z
  | _ => SVoid
  end.

(** Every OID is stored as it was or as it is seen. *)
Definition mixed (v v' : view) : Prop :=
  same (cur v') (cur v) /\ forall o, disk v' o = disk v o \/ disk v' o = cur v o.
(** The OIDs meant are stored as they are seen, the others as they were. *)
Definition stored_as (w : which) (v v' : view) : Prop :=
  match w with
  | WAll => same (cur v') (cur v) /\ same (disk v') (cur v)
  | WNamed os => same (cur v') (cur v) /\
      forall o, disk v' o = if existsb (Z.eqb o) os then cur v o else disk v o
  | WFinished => mixed v v'
  end.
Definition unchanged (v v' : view) : Prop :=
  same (cur v') (cur v) /\ same (disk v') (disk v).

(** One operation, what it gave, and the expectations before and after. *)
Definition tell (v : view) (x : op * res) (v' : view) : Prop :=
  match x with
  | (ORead o, r) => r = answer (cur v o) /\ unchanged v v'
  | (OSet o a _, RInt _) => same (cur v') (upd (cur v) o (given a)) /\ same (disk v') (disk v)
  | (OEdit o f _, RInt _) =>
      (cur v o = SEmpty \/ exists z, cur v o = STab z) /\
      same (cur v') (upd (cur v) o (edited f (cur v o))) /\ same (disk v') (disk v)
  | (OCommit w _, RInt _) => stored_as w v v'
  | (OCommit w _, _) => mixed v v'
  | (OUnlock os Commit co, _) =>
      if co_start co && co_write co
      then stored_as (match os with Some l => WNamed l | None => WAll end) v v'
      else mixed v v'
  | (OUnlock _ Discard _, _) => same (cur v') (disk v) /\ same (disk v') (disk v)
  | (OAlloc o, _) => same (cur v') (upd (cur v) o SEmpty) /\ same (disk v') (upd (disk v) o SEmpty)
  | _ => unchanged v v'
  end.

Inductive tells : view -> list (op * res) -> view -> Prop :=
| tells_nil : forall v v', unchanged v v' -> tells v [] v'
| tells_cons : forall v x v1 l v2, tell v x v1 -> tells v1 l v2 -> tells v (x :: l) v2.

(** *** The histories in question.
    A program stores values of its own ([plain]), works on allocated OIDs,
    commits OIDs which are locked, each named once, does not change a table
    behind the OID's back or store one table for two OIDs, and has not read an
    OID before allocating it.  The driver does not fail (a negative answer) when
    an OID is set or unlocked; it may refuse a lock, and commits may fail. *)
Definition plain (v : setval) : Prop :=
  match v with
  | SetVal (VEmpty | VAtom _ | VCons _) => True
  | SetTab _ => True
  | _ => False
  end.
Definition lockedp (s : st) (o : Z) : Prop := tnovoid (chg s) o = true.
Definition named_ok (s : st) (os : list Z) : Prop := NoDup os /\ forall o, In o os -> lockedp s o.
Definition allocated (s : st) (o : Z) : Prop := store s o <> SUnalloc.
Definition orderly (s : st) (x : op) : Prop :=
  match x with
  | OSet o v l => plain v /\ allocated s o /\ 0 <= l
  | OEdit o _ _ => allocated s o
  | OTouch _ _ => False
  | OLock os _ => forall o, In o os -> allocated s o
  | OUnlock os fl co =>
      0 <= co_unlock co /\
      match os, fl with Some l, Commit => named_ok s l | _, _ => True end
  | OCommit w co =>
      0 <= co_unlock co /\ match w with WNamed l => named_ok s l | _ => True end
  | OPrefetch os => NoDup os
  | OAlloc o => store s o = SUnalloc /\ tnovoid (cache s) o = false
  | _ => True
  end.
Fixpoint orderly_run (c : cfg) (s : st) (l : list op) : Prop :=
  match l with
  | [] => True
  | x :: l' => orderly s x /\ orderly_run c (snd (step c s x)) l'
  end.

(** What may be stored to begin with: values and nothing, or an OID not yet
    allocated. *)
Definition fit (m : Z -> saved) : Prop := forall o, m o <> SVoid /\ m o <> SLock.

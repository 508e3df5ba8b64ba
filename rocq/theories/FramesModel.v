(** * Computed slots of frames: caches and dependencies, /repo/src/storage/frames.c:25-634.

    What is modelled: kno_frame_get, kno_frame_test, kno_frame_add, kno_frame_drop,
    kno_decache and what they use (the stack of operations, slot caches, test caches,
    dependencies), for one thread.

    Simplifications.
    - Frames are OIDs that can be fetched; [store] has their stored values (kno_oid_get,
      kno_oid_test, kno_oid_add, kno_oid_drop).  A slot id is a symbol or an OID ([oidslot]).
    - A choice is the list of its elements.
    - A method is a program that looks at frames only through kno_frame_get and
      kno_frame_test, and doesn't fail ([prog]); methods and the slots they belong to don't
      change.  Slots have no add or drop effects (574-587, 608-623).
    - The caches are functions; a hash table whose entry is VOID is one without entry
      (kno_hashtable_get, tables.c:2080-2082).  kno_ipeval_status is the same before and
      after a method (464), so what is computed is always cached.
    - A factoid for a test is a list of three, one for a change is (frame slot . value); they
      are taken to be different (values that are lists of one element aside). *)

From Coq Require Import List Bool Arith Lia.
Import ListNotations.

Section Frames.

Variable V : Type.
Variable veq : V -> V -> bool.
(** Slot ids that are OIDs (OIDP(slotid), 423 and 491); the others are symbols. *)
Variable oidslot : V -> bool.

Definition mem (v : V) (l : list V) : bool := existsb (veq v) l.
Definition union (a b : list V) : list V := a ++ filter (fun v => negb (mem v a)) b.

(** Methods. *)
Inductive prog :=
| Ret (vs : list V)
| PGet (f s : V) (k : list V -> prog)
| PTest (f s v : V) (k : bool -> prog).

(** get_slotid_methods, 399-416, for get-methods, compute-methods and test-methods (with
    those lookup_method, 385-397, finds); [None] is VOID, a slot id that has no table. *)
Variable gm : V -> option (list (V -> prog)).
Variable cm : V -> option (list (V -> prog)).
Variable tm : V -> option (list (V -> V -> prog)).
(** KNO_TRUE as a value. *)
Variable truev : V.

(** Factoids (264-271, 320-324): the values of a slot, or whether a slot has a value. *)
Inductive fact := FGet (f s : V) | FTest (f s v : V).
Definition feq (a b : fact) : bool :=
  match a, b with
  | FGet f s, FGet g t => veq f g && veq s t
  | FTest f s v, FTest g t w => veq f g && veq s t && veq v w
  | _, _ => false
  end.
Definition memf (a : fact) (l : list fact) : bool := existsb (feq a) l.

(** Stored values, slot caches (frame, slot), test caches (frame, slot: the values found and
    those not found), implications. *)
Record state := St {
  store : V -> V -> list V;
  scache : V -> V -> option (list V);
  tcache : V -> V -> list V * list V;
  impl : list (fact * list fact) }.

Definition upd {A : Type} (m : V -> V -> A) (f s : V) (x : A) : V -> V -> A :=
  fun g t => if veq f g && veq s t then x else m g t.

(** The implications of a factoid, and an entry more (kno_hashtable_iterkeys with
    kno_table_add, 325). *)
Fixpoint lookup (l : list (fact * list fact)) (a : fact) : list fact :=
  match l with
  | [] => []
  | (b, x) :: r => if feq a b then x else lookup r a
  end.
Fixpoint imply (l : list (fact * list fact)) (a b : fact) : list (fact * list fact) :=
  match l with
  | [] => [(a, [b])]
  | (c, x) :: r => if feq a c then (c, if memf b x then x else x ++ [b]) :: r else (c, x) :: imply r a b
  end.
(** kno_hashtable_store of EMPTY, 351. *)
Definition forget (l : list (fact * list fact)) (a : fact) : list (fact * list fact) :=
  filter (fun e => negb (feq a (fst e))) l.

(** record_dependencies, 315-331. *)
Definition record (deps : list fact) (a : fact) (st : state) : state :=
  St (store st) (scache st) (tcache st) (fold_left (fun l d => imply l d a) deps (impl st)).

(** decache_factoid, 333-344, with kno_clear_slotcache_entry, 187-198, and
    kno_clear_testcache_entry, 200-213.  For a test the slot id is taken to be the rest of
    the list (slot value), for which there are no caches, so nothing is cleared. *)
Definition decache_factoid (a : fact) (st : state) : state :=
  match a with
  | FGet f s => St (store st) (upd (scache st) f s None) (upd (tcache st) f s ([], [])) (impl st)
  | FTest _ _ _ => st
  end.
(** decache_implications, 346-354.  Entries are taken out before the recursion, so that it is
    no deeper than there are entries; [fuel] counts it. *)
Fixpoint decache_implications (fuel : nat) (a : fact) (st : state) : state :=
  match fuel with
  | O => st
  | S k =>
    let implies := lookup (impl st) a in
    let st1 := decache_factoid a st in
    let st2 := match implies with
               | [] => st1
               | _ => St (store st1) (scache st1) (tcache st1) (forget (impl st1) a)
               end in
    fold_left (fun s b => decache_implications k b s) implies st2
  end.
(** kno_decache, 356-368: what depends on the factoid (frame slot . value), under which
    nothing is ever recorded, and then what depends on the slot. *)
Definition decache (f s : V) (st : state) : state :=
  decache_implications (S (length (impl st))) (FGet f s) st.

(** What an operation gives: the result, the dependencies it notes for the operation on top
    of the stack (note_dependency, 294-313; every get or test that runs methods has a list
    of dependencies, so it is that one), and the state; [None] if the fuel is used up. *)
Definition out (A : Type) : Type := option (A * list fact * state).

Fixpoint run (get : list fact -> V -> V -> state -> out (list V))
    (test : list fact -> V -> V -> V -> state -> out bool)
    (ops : list fact) (p : prog) (st : state) : out (list V) :=
  match p with
  | Ret vs => Some (vs, [], st)
  | PGet f s k =>
    match get ops f s st with
    | None => None
    | Some (vs, d, st1) =>
      match run get test ops (k vs) st1 with
      | None => None
      | Some (r, d2, st2) => Some (r, d ++ d2, st2)
      end
    end
  | PTest f s v k =>
    match test ops f s v st with
    | None => None
    | Some (b, d, st1) =>
      match run get test ops (k b) st1 with
      | None => None
      | Some (r, d2, st2) => Some (r, d ++ d2, st2)
      end
    end
  end.
(** The loop over the methods of a get, 450-461. *)
Fixpoint run_get (get : list fact -> V -> V -> state -> out (list V))
    (test : list fact -> V -> V -> V -> state -> out bool)
    (ops : list fact) (ms : list (V -> prog)) (f : V) (acc : list V) (st : state) : out (list V) :=
  match ms with
  | [] => Some (acc, [], st)
  | m :: r =>
    match run get test ops (m f) st with
    | None => None
    | Some (vs, d, st1) =>
      match run_get get test ops r f (union acc vs) st1 with
      | None => None
      | Some (x, d2, st2) => Some (x, d ++ d2, st2)
      end
    end
  end.
Definition truep (vs : list V) : bool := match vs with [x] => veq x truev | _ => false end.
(** The loop over the methods of a test, 530-544: the first that returns true ends it. *)
Fixpoint run_test (get : list fact -> V -> V -> state -> out (list V))
    (test : list fact -> V -> V -> V -> state -> out bool)
    (ops : list fact) (ms : list (V -> V -> prog)) (f v : V) (st : state) : out bool :=
  match ms with
  | [] => Some (false, [], st)
  | m :: r =>
    match run get test ops (m f v) st with
    | None => None
    | Some (vs, d, st1) =>
      if truep vs then Some (true, d, st1)
      else
        match run_test get test ops r f v st1 with
        | None => None
        | Some (x, d2, st2) => Some (x, d ++ d2, st2)
        end
    end
  end.

(** kno_frame_get, 421-485.  [ops] is the stack of operations (kno_in_progressp, 82-95): those
    in progress give EMPTY.  A value that is cached is returned before the dependency is
    noted. *)
Fixpoint frame_get (fuel : nat) (ops : list fact) (f s : V) (st : state) {struct fuel} : out (list V) :=
  match fuel with
  | O => None
  | S k =>
    if oidslot s then
      if memf (FGet f s) ops then Some ([], [], st)
      else
        match scache st f s with
        | Some vs => Some (vs, [], st)
        | None =>
          let compute (ms : option (list (V -> prog))) : out (list V) :=
            match ms with
            | None => Some ([], [FGet f s], st)
            | Some l =>
              match run_get (frame_get k) (frame_test k) (FGet f s :: ops) l f [] st with
              | None => None
              | Some (vs, d, st1) =>
                let st2 := record d (FGet f s) st1 in
                Some (vs, [FGet f s],
                      St (store st2) (upd (scache st2) f s (Some vs)) (tcache st2) (impl st2))
              end
            end in
          match gm s with
          | None => Some ([], [FGet f s], st)
          | Some [] =>
            match store st f s with
            | [] => compute (cm s)
            | vs => Some (vs, [FGet f s], st)
            end
          | Some l => compute (Some l)
          end
        end
    else Some (store st f s, [FGet f s], st)
  end
(** kno_frame_test, 487-561, of one value; no dependency is noted for a test of a slot that
    is an OID. *)
with frame_test (fuel : nat) (ops : list fact) (f s v : V) (st : state) {struct fuel} : out bool :=
  match fuel with
  | O => None
  | S k =>
    if oidslot s then
      if memf (FTest f s v) ops then Some (false, [], st)
      else
        let (inn, outt) := tcache st f s in
        if mem v inn then Some (true, [], st)
        else if mem v outt then Some (false, [], st)
        else
          let note (r : bool) (d : list fact) (st1 : state) : out bool :=
            let (i, o) := tcache st1 f s in
            let e := if r then (i ++ [v], o) else (i, o ++ [v]) in
            Some (r, d, St (store st1) (scache st1) (upd (tcache st1) f s e) (impl st1)) in
          match tm s with
          | None => Some (false, [], st)
          | Some [] =>
            match frame_get k ops f s st with
            | None => None
            | Some (vs, d, st1) => note (mem v vs) d st1
            end
          | Some ms =>
            match run_test (frame_get k) (frame_test k) (FTest f s v :: ops) ms f v st with
            | None => None
            | Some (r, d, st1) => note r [] (record d (FTest f s v) st1)
            end
          end
    else Some (mem v (store st f s), [FTest f s v], st)
  end.

(** kno_frame_add, 563-594, and kno_frame_drop, 596-631, without effects. *)
Definition frame_add (f s v : V) (st : state) : state :=
  let st1 := decache f s st in
  St (upd (store st1) f s (union (store st1 f s) [v])) (scache st1) (tcache st1) (impl st1).
Definition frame_drop (f s v : V) (st : state) : state :=
  let st1 := decache f s st in
  St (upd (store st1) f s (filter (fun x => negb (veq x v)) (store st1 f s)))
     (scache st1) (tcache st1) (impl st1).
(** kno_clear_slotcaches, 370-380. *)
Definition clear_slotcaches (st : state) : state :=
  St (store st) (fun _ _ => None) (fun _ _ => ([], [])) [].
(** kno_clear_slotcache, 177-185; the implications stay. *)
Definition clear_slotcache (s : V) (st : state) : state :=
  St (store st) (fun f t => if veq s t then None else scache st f t)
     (fun f t => if veq s t then ([], []) else tcache st f t) (impl st).

(** What is done from outside of methods (the stack is empty): get, test, assert! and
    retract! of one frame, slot and value (eval/tableops.c:205-355), and clear-slotcache!
    without or with a slot (prims/dbprims.c:1627-1632). *)
Inductive cmd := CGet (f s : V) | CTest (f s v : V) | CAdd (f s v : V) | CDrop (f s v : V)
| CClear | CClearSlot (s : V).
Definition exec (fuel : nat) (c : cmd) (st : state) : option state :=
  match c with
  | CGet f s => match frame_get fuel [] f s st with Some (_, _, st1) => Some st1 | None => None end
  | CTest f s v => match frame_test fuel [] f s v st with Some (_, _, st1) => Some st1 | None => None end
  | CAdd f s v => Some (frame_add f s v st)
  | CDrop f s v => Some (frame_drop f s v st)
  | CClear => Some (clear_slotcaches st)
  | CClearSlot s => Some (clear_slotcache s st)
  end.
Fixpoint exec_all (fuel : nat) (cs : list cmd) (st : state) : option state :=
  match cs with
  | [] => Some st
  | c :: r => match exec fuel c st with Some st1 => exec_all fuel r st1 | None => None end
  end.
End Frames.

Arguments Ret {V}. Arguments PGet {V}. Arguments PTest {V}.
Arguments FGet {V}. Arguments FTest {V}.
Arguments St {V}. Arguments store {V}. Arguments scache {V}. Arguments tcache {V}. Arguments impl {V}.
Arguments CGet {V}. Arguments CTest {V}. Arguments CAdd {V}. Arguments CDrop {V}. Arguments CClear {V}. Arguments CClearSlot {V}.

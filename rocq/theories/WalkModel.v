(** * Walks over frames, /repo/src/storage/methods.c:28-251 and 387-461,
    /repo/src/prims/dbprims.c:3208-3283.

    What is modelled: keep_walking, kno_walk_tree, kno_collect_tree, kno_get_basis,
    kno_inherit_values, kno_inherits_valuep, kno_pathp, kleene_get_helper and the two
    kleene methods, and the primitives get*, inherit, path?, get-basis, for a fixed state of
    the frames and slot ids that are symbols.  For those kno_frame_get (frames.c:480-484) is
    kno_oid_get and kno_frame_test (frames.c:557-560) kno_oid_test; slot ids that are OIDs
    (methods, caches, the stack of operations) are not here (see FramesModel).

    Simplifications.
    - A choice is the list of its elements, in any order (DO_CHOICES goes by address).
    - Values are taken up to LISP_EQUAL, by which hash sets compare; a hash set is the list
      of its elements, the last added first (HashsetModel has the slots).  kno_pathp compares
      pointers, which is the same for OIDs.
    - No adjuncts (oidstore.c:322-328), no allocation failures, no reference counts. *)

From Coq Require Import List Bool Arith Lia.
Import ListNotations.

(** The types the code asks for: OIDP, SLOTMAPP or SCHEMAPP, HASHTABLEP, anything else. *)
Inductive kind := KOid | KMap | KHashtable | KOther.

(** What [get_oid_value] (pools.c:533-549) and [kno_oid2pool] give for an OID: an error of
    the pool, no pool, the empty choice, a table, another value. *)
Inductive oidval (V : Type) :=
| OErr | ONoPool | OEmpty | OTable (t : V -> list V) | OValue.
Arguments OErr {V}. Arguments ONoPool {V}. Arguments OEmpty {V}. Arguments OTable {V}.
Arguments OValue {V}.

(** What a step of a walk says: a positive number, zero, a negative number. *)
Inductive code := Go | Stop | Fail.

Section Walk.

Variable V : Type.
Variable veq : V -> V -> bool.
Variable kindof : V -> kind.
(** The values of the OIDs. *)
Variable oval : V -> oidval V.
(** The entries of slotmaps, schemaps and hash tables. *)
Variable tval : V -> V -> list V.

Definition oidp (v : V) : bool := match kindof v with KOid => true | _ => false end.
Definition mem (v : V) (l : list V) : bool := existsb (veq v) l.
(** CHOICE_ADD of each element (choices.h; ChoiceModel has the accumulating choices). *)
Definition union (a b : list V) : list V := a ++ filter (fun v => negb (mem v a)) b.

(** kno_oid_get with the default EMPTY, oidstore.c:319-349: an OID without a pool has the
    value EMPTY; what is not a table gives the default.  [None]: an error.  What is not an
    OID makes get_oid_value signal a type error (pools.c:535). *)
Definition oid_get (f s : V) : option (list V) :=
  if oidp f then
    match oval f with
    | OErr => None
    | OTable t => Some (t s)
    | ONoPool | OEmpty | OValue => Some []
    end
  else None.
(** kno_oid_test of a value that isn't VOID, oidstore.c:535-580: an OID without a pool and
    an OID whose value isn't a table are errors, the empty choice gives 0.  kno_slotmap_test
    of a choice asks for an overlap. *)
Definition oid_test (f s : V) (v : list V) : option bool :=
  match oval f with
  | OErr | ONoPool | OValue => None
  | OEmpty => Some false
  | OTable t => Some (existsb (fun x => mem x (t s)) v)
  end.
(** kno_frame_get of a slot id that is a symbol, frames.c:480-484 ([f] is one value, so not
    EMPTY). *)
Definition frame_get (f s : V) : option (list V) := oid_get f s.

(** ** Walks *)

Section Keep.
Variable D : Type.
(** A walk function: [walk(node,data)], which may change the data. *)
Variable walk : V -> D -> code * D.

(** The hash set of the nodes that were seen, the data, and the nodes the walk function was
    called for, the last first (a record for the theorems; the code has none). *)
Record state := St { seen : list V; data : D; visited : list V }.
Inductive res := Done (c : code) (s : state) | Out.

(** The inner loop of keep_walking, methods.c:45-54: values that aren't OIDs and those seen
    are passed over. *)
Fixpoint each_value (rec : V -> state -> res) (vs : list V) (s : state) : res :=
  match vs with
  | [] => Done Go s
  | v :: r =>
    if negb (oidp v) then each_value rec r s
    else if mem v (seen s) then each_value rec r s
    else match rec v s with
         | Done Go s' => each_value rec r s'
         | x => x
         end
  end.
(** The loop over the slot ids, 40-54.  kno_interr returns -1. *)
Fixpoint each_slot (rec : V -> state -> res) (node : V) (slots : list V) (s : state) : res :=
  match slots with
  | [] => Done Go s
  | sl :: r =>
    match frame_get node sl with
    | None => Done Fail s
    | Some vs =>
      match each_value rec vs s with
      | Done Go s' => each_slot rec node r s'
      | x => x
      end
    end
  end.
(** keep_walking, 30-56.  [fuel] bounds the depth of the recursion; [Out] when it is used up
    (the code has no bound: C92_walk shows that the number of nodes is enough). *)
Fixpoint keep_walking (fuel : nat) (slots : list V) (node : V) (s : state) : res :=
  if mem node (seen s) then Done Go s
  else
    match fuel with
    | O => Out
    | S k =>
      let s1 := St (node :: seen s) (data s) (node :: visited s) in
      match walk node (data s) with
      | (Go, d) => each_slot (keep_walking k slots) node slots (St (seen s1) d (visited s1))
      | (c, d) => Done c (St (seen s1) d (visited s1))
      end
    end.
(** kno_walk_tree, 59-72: roots that aren't OIDs, slotmaps or schemaps are passed over; the
    value of the function is that of the last root walked, zero if there is none. *)
Definition rootp (v : V) : bool := match kindof v with KOid | KMap => true | _ => false end.
Fixpoint walk_roots (fuel : nat) (slots roots : list V) (last : code) (s : state) : res :=
  match roots with
  | [] => Done last s
  | r :: more =>
    if rootp r then
      match keep_walking fuel slots r s with
      | Done Go s' => walk_roots fuel slots more Go s'
      | x => x
      end
    else walk_roots fuel slots more last s
  end.
Definition walk_tree (fuel : nat) (roots slots : list V) (d : D) : res :=
  walk_roots fuel slots roots Stop (St [] d []).
(** kno_collect_tree, 75-82: all roots, whatever they are; only errors stop it. *)
Fixpoint collect_tree (fuel : nat) (slots roots : list V) (s : state) : res :=
  match roots with
  | [] => Done Go s
  | r :: more =>
    match keep_walking fuel slots r s with
    | Done Fail s' => Done Fail s'
    | Done _ s' => collect_tree fuel slots more s'
    | Out => Out
    end
  end.
End Keep.

(** Results of the functions that give values: [None] for fuel used up, [Some None] for an
    error. *)
Definition answer := option (option (list V)).

(** The loops over the slot ids in inherit_values_fn (127-142; OIDs by kno_oid_get, maps by
    kno_get) and inherits_valuesp_fn (185-199). *)
Definition direct_get (node s : V) : option (list V) :=
  if oidp node then oid_get node s else Some (tval node s).
Definition direct_test (node s : V) (v : list V) : option bool :=
  if oidp node then oid_test node s v else Some (existsb (fun x => mem x (tval node s)) v).
Fixpoint get_slots (node : V) (slots : list V) (acc : list V) : option (list V) :=
  match slots with
  | [] => Some acc
  | s :: r => match direct_get node s with
              | None => None
              | Some vs => get_slots node r (union acc vs)
              end
  end.
Definition inherit_values_fn (slots : list V) (node : V) (acc : list V) : code * list V :=
  match get_slots node slots [] with
  | None => (Fail, acc)
  | Some vs => (Go, union acc vs)
  end.
Fixpoint test_slots (node : V) (slots v : list V) : option bool :=
  match slots with
  | [] => Some false
  | s :: r => match direct_test node s v with
              | None => None
              | Some true => Some true
              | Some false => test_slots node r v
              end
  end.
Definition inherits_valuesp_fn (slots v : list V) (node : V) (found : bool) : code * bool :=
  match test_slots node slots v with
  | None => (Fail, found)
  | Some true => (Stop, true)
  | Some false => (Go, found)
  end.
(** pathp_fn, 231-237: the target is compared as it is, a choice is equal to no node. *)
Definition pathp_fn (target : list V) (node : V) (found : bool) : code * bool :=
  match target with
  | [t] => if veq node t then (Stop, true) else (Go, found)
  | _ => (Go, found)
  end.

(** kno_inherit_values, 148-156. *)
Definition inherit_values (fuel : nat) (roots slots through : list V) : answer :=
  match walk_tree _ (inherit_values_fn slots) fuel roots through [] with
  | Out _ => None
  | Done _ Fail _ => Some None
  | Done _ _ s => Some (Some (data _ s))
  end.
(** kno_inherits_valuep, 205-213: 1 and 0 as booleans, [Some None] for -1. *)
Definition inherits_valuep (fuel : nat) (roots slots through v : list V) : option (option bool) :=
  match walk_tree _ (inherits_valuesp_fn slots v) fuel roots through false with
  | Out _ => None
  | Done _ Fail _ => Some None
  | Done _ _ s => Some (Some (data _ s))
  end.
(** kno_pathp, 244-251. *)
Definition kpathp (fuel : nat) (roots slots target : list V) : option (option bool) :=
  match walk_tree _ (pathp_fn target) fuel roots slots false with
  | Out _ => None
  | Done _ Fail _ => Some None
  | Done _ _ s => Some (Some (data _ s))
  end.

(** kno_get_basis, 86-110: the first loop collects the values of the lattice slots of the
    members; the result of kno_collect_tree isn't looked at. *)
Definition no_walk (_ : V) (d : unit) : code * unit := (Go, d).
Fixpoint slot_values (node : V) (lattice : list V) (acc : list V) : option (list V) :=
  match lattice with
  | [] => Some acc
  | s :: r => match frame_get node s with
              | None => None
              | Some vs => slot_values node r (union acc vs)
              end
  end.
Fixpoint member_values (coll lattice : list V) (acc : list V) : option (list V) :=
  match coll with
  | [] => Some acc
  | n :: r => match slot_values n lattice acc with
              | None => None
              | Some acc' => member_values r lattice acc'
              end
  end.
Definition get_basis (fuel : nat) (coll lattice : list V) : answer :=
  match member_values coll lattice [] with
  | None => Some None
  | Some roots =>
    match collect_tree _ no_walk fuel lattice roots (St unit [] tt []) with
    | Out _ => None
    | Done _ _ s => Some (Some (filter (fun n => negb (mem n (seen _ s))) coll))
    end
  end.

(** ** Closures *)

(** getter, 387-395. *)
Definition getter (f s : V) : option (list V) :=
  match kindof f with
  | KOid => frame_get f s
  | KHashtable => Some (tval f s)
  | _ => match kindof s with KHashtable => Some (tval s f) | _ => Some [] end
  end.
Inductive kres := KDone (seen : list V) | KFail | KOut.
(** kleene_get_helper, 397-416: the loop over the slot ids and that over the frames. *)
Fixpoint kleene_slots (rec : list V -> list V -> kres) (f : V) (slots seen : list V) : kres :=
  match slots with
  | [] => KDone seen
  | s :: r =>
    match getter f s with
    | None => KFail
    | Some vs => match rec vs seen with
                 | KDone seen' => kleene_slots rec f r seen'
                 | x => x
                 end
    end
  end.
Fixpoint kleene_get (fuel : nat) (slots frames seen : list V) : kres :=
  match fuel with
  | O => KOut
  | S k =>
    (fix frames_loop (fs seen : list V) : kres :=
       match fs with
       | [] => KDone seen
       | f :: r =>
         if mem f seen then frames_loop r seen
         else match kleene_slots (kleene_get k slots) f slots (f :: seen) with
              | KDone seen' => frames_loop r seen'
              | x => x
              end
       end) frames seen
  end.
(** kleene_star_get_method, 423-438, and kleene_plus_get_method, 445-461 (the closure_of slot
    of the slot id has been fetched; what is called with is [slots]). *)
Definition kleene_star (fuel : nat) (root slots : list V) : answer :=
  match kleene_get fuel slots root [] with
  | KOut => None | KFail => Some None | KDone s => Some (Some s)
  end.
Definition kleene_plus (fuel : nat) (root slots : list V) : answer :=
  match kleene_get fuel slots root [] with
  | KOut => None | KFail => Some None
  | KDone s => Some (Some (filter (fun v => negb (mem v root)) s))
  end.

(** ** Primitives, dbprims.c:3208-3283 *)

(** getroots, 3208-3219. *)
Definition getroots (frames : list V) : list V := filter rootp frames.
(** get*, 3226-3239: one walk for each slot id. *)
Fixpoint getstar_loop (fuel : nat) (roots slots acc : list V) : answer :=
  match slots with
  | [] => Some (Some acc)
  | s :: r => match inherit_values fuel roots [s] [s] with
              | Some (Some vs) => getstar_loop fuel roots r (union acc vs)
              | x => x
              end
  end.
Definition getstar (fuel : nat) (frames slots : list V) : answer :=
  match getroots frames with
  | [] => Some (Some [])
  | roots => getstar_loop fuel roots slots roots
  end.
(** inherit, 3247-3257: the results begin with the frames; an error of a walk is added to
    them as a value ([errval]). *)
Fixpoint inherit_loop (errval : V) (fuel : nat) (frames slots through acc : list V) : option (list V) :=
  match through with
  | [] => Some acc
  | t :: r => match inherit_values fuel frames slots [t] with
              | None => None
              | Some (Some vs) => inherit_loop errval fuel frames slots r (union acc vs)
              | Some None => inherit_loop errval fuel frames slots r (union acc [errval])
              end
  end.
Definition inherit_prim (errval : V) (fuel : nat) (slots frames through : list V) : option (list V) :=
  match getroots frames with
  | [] => Some []
  | _ => inherit_loop errval fuel frames slots through frames
  end.
(** path?, 3265-3273: -1 is true in C. *)
Definition pathp_prim (fuel : nat) (frames slots values : list V) : option bool :=
  match getroots frames with
  | [] => Some false
  | _ => match kpathp fuel frames slots values with
         | None => None
         | Some (Some b) => Some b
         | Some None => Some true
         end
  end.

End Walk.

Arguments Done {V D}. Arguments Out {V D}. Arguments St {V D}.
Arguments seen {V D}. Arguments data {V D}. Arguments visited {V D}.

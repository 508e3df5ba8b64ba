(** * Key/value vectors and slotmaps.

    Source: /repo/include/kno/tables.h:174-375, /repo/src/lisp/tables.c:104-622, 687-735,
    1011-1033.

    Not modelled: reference counts, locks (each operation is taken to be atomic), the
    MODIFIED bit, memory exhaustion, and the sharing of one accumulator object between
    two tables (kno_slotmap_store keeps a reference to the caller's accumulator).
    [None] is undefined behaviour, abort() or exhausted fuel. *)

From Verif Require Export ChoicesModel.
Local Open Scope N_scope.

(** struct KNO_KEYVAL, tables.h:176-177. *)
Notation keyval := (val * lv)%type.

(** KNO_TROUBLEP, ptr.h:819-824: the constants 9..15. *)
Definition troublep (v : val) : bool :=
  match v with VAtom w => (w mod 4 =? 1) && (8 <? w / 4) && (w / 4 <? 16) | _ => false end.
Definition trouble (x : lv) : bool := match x with Simple (SVal v) => troublep v | _ => false end.
Definition KUNBOUND : val := VAtom 77.
(** EMPTYP and VOIDP of a word holding any value. *)
Definition lemptyp (x : lv) : bool := match x with Simple s => is_empty s | Pre _ => false end.
Definition lvoidp (x : lv) : bool := match x with Simple (SVal v) => voidp v | _ => false end.
Definition lunboundp (x : lv) : bool :=
  match x with Simple (SVal (VAtom w)) => w =? 77 | _ => false end.

(** The test in the scanning loops of __kno_keyvals_get, tables.h:267-275: pointer
    identity when the key is an atom, LISP_EQUAL otherwise. *)
Definition key_matches (slot key : val) : bool :=
  match key with
  | VAtom w => match slot with VAtom w' => w =? w' | _ => false end
  | _ => lequal slot key
  end.
(** __kno_keyvals_get, tables.h:263-277: the position of the entry. *)
Fixpoint keyvals_get {V} (key : val) (l : list (val * V)) : option nat :=
  match l with
  | [] => None
  | (k, _) :: l' => if key_matches k key then Some 0%nat
                    else match keyvals_get key l' with Some i => Some (S i) | None => None end
  end.

(** ** Binary search over a vector of keys.  The copies (tables.h:287-302,
    tables.c:227-249 and the hash bucket functions of HashtableModel) differ in the comparison [c]
    of the key with an entry.  [bottom], [top], [middle] are offsets from the start;
    [dir] is 0 when the key was found, otherwise the direction of the last step.
    The test [middle >= limit] never holds (middle <= top < limit). *)
Section Search.
Context {K : Type}.
Variable c : K -> comparison.
Variable ks : list K.
Fixpoint bs_loop (fuel : nat) (bottom top middle dir : Z) : option (Z * Z * Z) :=
  if (top <? bottom)%Z then Some (middle, bottom, dir)
  else match fuel with
  | O => None
  | S f =>
    let middle := (bottom + Z.quot (top - bottom) 2)%Z in
    do m <- (if (middle <? 0)%Z then None else nth_error ks (Z.to_nat middle));
    match c m with
    | Eq => Some (middle, bottom, 0%Z)
    | Lt => bs_loop f bottom (middle - 1) middle (-1)
    | Gt => bs_loop f (middle + 1) top middle 1
    end
  end.
End Search.

(** The comparison in __kno_sortvec_get and kno_sortvec_insert: tables.h:290-293 and
    298-302, tables.c:230-238 and 242-249. *)
Definition kcmp (key m : val) : comparison :=
  match key with
  | VAtom w => match m with VAtom w' => N.compare w w' | _ => Lt end
  | _ => cons_compare key m
  end.
Definition keys_of {V} (l : list (val * V)) : list val := map fst l.

(** __kno_sortvec_get, tables.h:278-306. *)
Definition sortvec_get {V} (key : val) (l : list (val * V)) : option (option nat) :=
  let size := Z.of_nat (length l) in
  if (size <? 4)%Z then Some (keyvals_get key l)
  else
    do r <- bs_loop (kcmp key) (keys_of l) (S (length l)) 0 (size - 1) 0 2;
    let '(middle, _, dir) := (r : Z * Z * Z) in
    Some (if (dir =? 0)%Z then Some (Z.to_nat middle) else None).

(** memmove up and write: tables.c:266-273. *)
Definition insert_at {A} (i : nat) (x : A) (l : list A) : list A := firstn i l ++ x :: skipn i l.
(** memmove down: tables.c:429-432, 459-463. *)
Definition remove_at {A} (i : nat) (l : list A) : list A := firstn i l ++ skipn (S i) l.
Definition set_at {A} (i : nat) (x : A) (l : list A) : list A := firstn i l ++ x :: skipn (S i) l.

Definition EMPTYV : lv := Simple (SVal KEMPTY).
Definition SHRT_MAX : N := 32767.

(** kno_keyvals_insert with a space counter, tables.c:104-144.  Result: the position
    (None when the vector is full), the entries and the allocated space. *)
Definition keyvals_insert (key : val) (l : list keyval) (space : N)
  : option nat * list keyval * N :=
  let size := N.of_nat (length l) in
  match keyvals_get key l with
  | Some i => (Some i, l, space)
  | None =>
    if size <? space then (Some (length l), l ++ [(key, EMPTYV)], space)
    else if space <? SHRT_MAX then (Some (length l), l ++ [(key, EMPTYV)], space + 4)
    else (None, l, space)
  end.

(** kno_sortvec_insert with a space counter, tables.c:205-275.  The limit argument is
    not used by the code. *)
Definition sortvec_insert (key : val) (l : list keyval) (space : N)
  : option (option nat * list keyval * N) :=
  let size := Z.of_nat (length l) in
  do r <- (if (size =? 0)%Z then Some (0, 0, -1)%Z
           else bs_loop (kcmp key) (keys_of l) (S (length l)) 0 (size - 1) (size / 2) 0);
  let '(middle, _, dir) := (r : Z * Z * Z) in
  if (dir =? 0)%Z then Some (Some (Z.to_nat middle), l, space)
  else
    let space' := if N.of_nat (length l) <? space then space else space + 1 in
    let ipos := Z.to_nat (if (dir <? 0)%Z then middle else middle + 1)%Z in
    Some (Some ipos, insert_at ipos (key, EMPTYV) l, space').

(** struct KNO_SLOTMAP, tables.h:190-194. *)
Record slotmap := {
  kvs : list keyval;       (* sm_keyvals, n_slots *)
  allocd : N;              (* n_allocd *)
  sortbit : bool;          (* KNO_SLOTMAP_SORT_KEYVALS *)
  readonly : bool;
}.
(** The insertion call shared by store and add, tables.c:319-332, 365-378. *)
Definition sm_insert (sm : slotmap) (key : val) : option (option nat * slotmap) :=
  do r <- (if sortbit sm then sortvec_insert key (kvs sm) (allocd sm)
           else Some (keyvals_insert key (kvs sm) (allocd sm)));
  let '(pos, l, space) := (r : option nat * list keyval * N) in
  Some (pos, {| kvs := l; allocd := space; sortbit := sortbit sm; readonly := readonly sm |}).
Definition sm_set (sm : slotmap) (l : list keyval) : slotmap :=
  {| kvs := l; allocd := allocd sm; sortbit := sortbit sm; readonly := readonly sm |}.
Definition value_at (l : list keyval) (i : nat) : option lv :=
  do e <- nth_error l i; Some (snd (e : keyval)).
Definition key_at (l : list keyval) (i : nat) : option val :=
  do e <- nth_error l i; Some (fst (e : keyval)).
(** [result->kv_val = v] *)
Definition write_value (l : list keyval) (i : nat) (v : lv) : option (list keyval) :=
  do k <- key_at l i; Some (set_at i (k, v) l).

(** kno_slotmap_store, tables.c:301-344: the return code and the new state. *)
Definition slotmap_store (sm : slotmap) (key : val) (value : lv) : option (Z * slotmap) :=
  if troublep key then Some ((-1)%Z, sm)
  else if trouble value then Some ((-1)%Z, sm)
  else if emptyp key then Some (0%Z, sm)
  else if readonly sm then Some ((-1)%Z, sm)
  else
    do r <- sm_insert sm key;
    let (pos, sm') := (r : option nat * slotmap) in
    match pos with
    | None => Some ((-1)%Z, sm)
    | Some i =>
      do l <- write_value (kvs sm') i value;
      Some (if (length (kvs sm) =? length (kvs sm'))%nat then 0%Z else 1%Z, sm_set sm' l)
    end.

(** kno_slotmap_add, tables.c:346-396.  [shared]: see add_to_choice. *)
Definition slotmap_add (cf : config) (shared : bool) (sm : slotmap) (key : val) (value : lv)
  : option (Z * slotmap) :=
  if troublep key then Some (0%Z, sm)
  else if trouble value then Some ((-1)%Z, sm)
  else if emptyp key then Some (0%Z, sm)
  else if lemptyp value then Some (0%Z, sm)
  else if readonly sm then Some ((-1)%Z, sm)
  else
    do r <- sm_insert sm key;
    let (pos, sm') := (r : option nat * slotmap) in
    match pos with
    | None => Some ((-1)%Z, sm)
    | Some i =>
      do cur <- value_at (kvs sm') i;
      do new <- (if lvoidp cur || lunboundp cur then Some value
                 else add_to_choice cf shared cur value);
      do l <- write_value (kvs sm') i new;
      Some (if (length (kvs sm) =? length (kvs sm'))%nat then 0%Z else 1%Z, sm_set sm' l)
    end.

(** kno_slotmap_drop, tables.c:398-440.  When kno_difference returns its first argument
    itself the code leaves the entry alone; the model writes the equal value back. *)
Definition slotmap_drop (cf : config) (sm : slotmap) (key : val) (value : lv)
  : option (Z * slotmap) :=
  if troublep key then Some ((-1)%Z, sm)
  else if trouble value then Some ((-1)%Z, sm)
  else if emptyp key then Some (0%Z, sm)
  else if readonly sm then Some ((-1)%Z, sm)
  else
    match keyvals_get key (kvs sm) with
    | None => Some (0%Z, sm)
    | Some i =>
      do cur <- value_at (kvs sm) i;
      do new <- (if lvoidp value then Some EMPTYV else kno_difference cf cur value);
      if lemptyp new then Some (1%Z, sm_set sm (remove_at i (kvs sm)))
      else do l <- write_value (kvs sm) i new; Some (1%Z, sm_set sm l)
    end.

(** kno_slotmap_delete, tables.c:442-466. *)
Definition slotmap_delete (sm : slotmap) (key : val) : option (Z * slotmap) :=
  if troublep key then Some ((-1)%Z, sm)
  else if emptyp key then Some (0%Z, sm)
  else if readonly sm then Some ((-1)%Z, sm)
  else
    match keyvals_get key (kvs sm) with
    | None => Some (0%Z, sm)
    | Some i => Some (1%Z, sm_set sm (remove_at i (kvs sm)))
    end.

(** __kno_slotmap_get, tables.h:325-348. *)
Definition slotmap_get (cf : config) (sm : slotmap) (key : val) (dflt : lv) : option lv :=
  match keyvals_get key (kvs sm) with
  | None => Some dflt
  | Some i =>
    do v <- value_at (kvs sm) i;
    match v with
    | Pre _ => do s <- simplify cf v; Some (Simple s)
    | Simple _ => Some v
    end
  end.

(** __kno_slotmap_test, tables.h:349-375 (the error return for an abort constant
    as key or value is not modelled).  The pointer comparison of the code is
    subsumed by the equality test (a value equals itself); when both values are the
    same choice the overlap test gives the same answer for non-empty choices. *)
Definition test_values (cf : config) (value current : lv) : option bool :=
  if lvoidp value then Some true
  else
    match value, current with
    | Simple (SVal v), Simple (SVal c) => Some (lequal v c)
    | _, _ => kno_overlapp cf value current
    end.
Definition slotmap_test (cf : config) (sm : slotmap) (key : val) (value : lv) : option bool :=
  match keyvals_get key (kvs sm) with
  | None => Some false
  | Some i => do cur <- value_at (kvs sm) i; test_values cf value cur
  end.

(** sort_keyvals, tables.c:189-197 (atomic_sort_keyvals 153-169, cons_sort_keyvals
    171-187: the quicksort of SortModel on entries, compared by key). *)
Definition kv_cmp (atomic : bool) (x y : keyval) : option comparison :=
  choice_cmp atomic (fst x) (fst y).
Definition sort_keyvals (l : list keyval) : option (list keyval) :=
  sort_vec (kv_cmp (forallb (fun e => atomicp (fst e)) l)) false l.
(** kno_sort_slotmap, tables.c:1011-1033. *)
Definition sort_slotmap (sm : slotmap) (sorted : bool) : option (Z * slotmap) :=
  let with_bit l b := {| kvs := l; allocd := allocd sm; sortbit := b; readonly := readonly sm |} in
  if negb sorted then
    Some (if sortbit sm then 1%Z else 0%Z, with_bit (kvs sm) false)
  else if sortbit sm then Some (0%Z, sm)
  else
    do l <- sort_keyvals (kvs sm); Some (1%Z, with_bit l true).

(** kno_slotmap_keys, tables.c:502-534.  With a #VOID key the code copies fewer keys
    than it declares (the rest of the vector is uninitialised): [None]. *)
Definition slotmap_keys (cf : config) (sm : slotmap) : option lv :=
  match keys_of (kvs sm) with
  | [] => Some EMPTYV
  | [k] => Some (Simple (SVal k))
  | ks =>
    if existsb voidp ks then None
    else do s <- init_choice cf ks {| f_sort := true; f_compress := false; f_realloc := true;
                                       f_atomic := forallb atomicp ks;
                                       f_conses := negb (forallb atomicp ks) |};
         Some (Simple s)
  end.
(** kno_slotmap_keyvec, tables.c:566-590: [i] is never incremented, so the reported
    length is 0. *)
Definition slotmap_keyvec (sm : slotmap) : list val := firstn 0 (keys_of (kvs sm)).

(** kno_slotmap_values, tables.c:536-564. *)
Fixpoint add_all (cf : config) (p : pre) (l : list lv) : option pre :=
  match l with
  | [] => Some p
  | x :: l' => do p' <- prechoice_add cf p x; add_all cf p' l'
  end.
Definition slotmap_values (cf : config) (sm : slotmap) : option lv :=
  match map snd (kvs sm) with
  | [] => Some EMPTYV
  | [v] => Some v
  | vs => do p <- add_all cf (init_prechoice (7 * length vs)) vs;
          do s <- simplify cf (Pre p); Some (Simple s)
  end.
(** kno_slotmap_assocs, tables.c:592-622.  A pair whose tail is an accumulator is
    outside the model: [None]. *)
Definition assoc_pair (e : keyval) : option lv :=
  match snd e with Simple s => Some (Simple (SVal (VPair (fst e) (toval s)))) | Pre _ => None end.
Fixpoint all_some {A} (l : list (option A)) : option (list A) :=
  match l with [] => Some [] | x :: l' => do a <- x; do r <- all_some l'; Some (a :: r) end.
Definition slotmap_assocs (cf : config) (sm : slotmap) : option lv :=
  do ps <- all_some (map assoc_pair (kvs sm));
  match ps with
  | [] => Some EMPTYV
  | [p] => Some p
  | _ => do p <- add_all cf (init_prechoice (7 * length ps)) ps;
         do s <- simplify cf (Pre p); Some (Simple s)
  end.

(** kno_init_slotmap(NULL,len,NULL) and kno_make_slotmap(len,0,NULL), tables.c:687-735. *)
Definition init_slotmap (space : N) : slotmap :=
  {| kvs := []; allocd := space; sortbit := false; readonly := false |}.

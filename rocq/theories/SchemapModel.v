(** * Schemaps: tables with a fixed set of slots.

    Source: /repo/include/kno/tables.h:392-534, /repo/src/lisp/tables.c:1075-1140, 1259-1478.

    Slots are compared as machine words only (pointer identity), so a slot is its word.
    Not modelled: reference counts, locks (each operation is atomic), the MODIFIED bit,
    the flags saying who frees the schema and the values. *)

From Verif Require Export ChoicesModel SlotmapModel.
Local Open Scope N_scope.

(** struct KNO_SCHEMAP, tables.h:392-396. *)
Record schemap := {
  schema : list N;         (* table_schema *)
  values : list lv;        (* table_values *)
  sm_sorted : bool;        (* KNO_SCHEMAP_SORTED *)
  sm_readonly : bool;
}.

(** The binary search of __kno_get_slotno, tables.h:463-473: [top] starts one past the
    end.  The reads at 466-467 are in range when [middle] is. *)
Fixpoint slot_loop (fuel : nat) (key : N) (s : list N) (bottom top middle : Z) : option (option nat) :=
  let size := Z.of_nat (length s) in
  let at_ i := if (i <? 0)%Z then None else nth_error s (Z.to_nat i) in
  if (bottom <? top)%Z then
    match fuel with
    | O => None
    | S f =>
      do m <- at_ middle;
      if key =? m then Some (Some (Z.to_nat middle))
      else if key <? m then
        let top := (middle - 1)%Z in slot_loop f key s bottom top (bottom + Z.quot (top - bottom) 2)
      else
        let bottom := (middle + 1)%Z in slot_loop f key s bottom top (bottom + Z.quot (top - bottom) 2)
    end
  else if (middle <? size)%Z then
    do m <- at_ middle;
    Some (if key =? m then Some (Z.to_nat middle) else None)
  else Some None.
(** 475-479. *)
Fixpoint slot_scan (key : N) (s : list N) : option nat :=
  match s with
  | [] => None
  | x :: s' => if key =? x then Some 0%nat
               else match slot_scan key s' with Some i => Some (S i) | None => None end
  end.
(** __kno_get_slotno, tables.h:459-480. *)
Definition get_slotno (key : N) (s : list N) (sorted : bool) : option (option nat) :=
  if sorted && (7 <? length s)%nat then
    slot_loop (S (length s)) key s 0 (Z.of_nat (length s)) (Z.of_nat (length s) / 2)
  else Some (slot_scan key s).

Definition set_slot (sm : schemap) (i : nat) (v : lv) : option schemap :=
  do _ <- nth_error (values sm) i;
  Some {| schema := schema sm; values := set_at i v (values sm);
          sm_sorted := sm_sorted sm; sm_readonly := sm_readonly sm |}.

(** kno_schemap_store, tables.c:1259-1291. *)
Definition schemap_store (sm : schemap) (key : N) (value : lv) : option (Z * schemap) :=
  if troublep (VAtom key) then Some ((-1)%Z, sm)
  else if trouble value then Some ((-1)%Z, sm)
  else if key =? 13 then Some (0%Z, sm)
  else if sm_readonly sm then Some ((-1)%Z, sm)
  else
    do n <- get_slotno key (schema sm) (sm_sorted sm);
    match (n : option nat) with
    | Some i => do sm' <- set_slot sm i value; Some (1%Z, sm')
    | None => Some ((-1)%Z, sm)
    end.

(** kno_schemap_add, tables.c:1293-1329. *)
Definition schemap_add (cf : config) (shared : bool) (sm : schemap) (key : N) (value : lv)
  : option (Z * schemap) :=
  if troublep (VAtom key) then Some ((-1)%Z, sm)
  else if trouble value then Some ((-1)%Z, sm)
  else if key =? 13 then Some (0%Z, sm)
  else if lemptyp value then Some (0%Z, sm)
  else if sm_readonly sm then Some ((-1)%Z, sm)
  else
    do n <- get_slotno key (schema sm) (sm_sorted sm);
    match (n : option nat) with
    | Some i =>
      do cur <- nth_error (values sm) i;
      do new <- add_to_choice cf shared cur value;
      do sm' <- set_slot sm i new; Some (1%Z, sm')
    | None => Some ((-1)%Z, sm)
    end.

(** kno_schemap_drop, tables.c:1331-1373. *)
Definition schemap_drop (cf : config) (sm : schemap) (key : N) (value : lv) : option (Z * schemap) :=
  if troublep (VAtom key) then Some ((-1)%Z, sm)
  else if trouble value then Some ((-1)%Z, sm)
  else if key =? 13 then Some (0%Z, sm)
  else if lemptyp value then Some (0%Z, sm)
  else if sm_readonly sm then Some ((-1)%Z, sm)
  else
    do n <- get_slotno key (schema sm) (sm_sorted sm);
    match (n : option nat) with
    | Some i =>
      do cur <- nth_error (values sm) i;
      do new <- (if lvoidp value then Some EMPTYV else kno_difference cf cur value);
      do sm' <- set_slot sm i new; Some (1%Z, sm')
    | None => Some (0%Z, sm)
    end.

(** __kno_schemap_get, tables.h:481-506. *)
Definition schemap_get (cf : config) (sm : schemap) (key : N) (dflt : lv) : option lv :=
  do n <- get_slotno key (schema sm) (sm_sorted sm);
  match (n : option nat) with
  | Some i =>
    do v <- nth_error (values sm) i;
    match v with
    | Pre _ => do s <- simplify cf v; Some (Simple s)
    | Simple _ => Some v
    end
  | None => Some dflt
  end.
(** __kno_schemap_test, tables.h:507-534 (see slotmap_test). *)
Definition schemap_test (cf : config) (sm : schemap) (key : N) (value : lv) : option bool :=
  do n <- get_slotno key (schema sm) (sm_sorted sm);
  match (n : option nat) with
  | Some i => do cur <- nth_error (values sm) i; test_values cf value cur
  | None => Some false
  end.

(** kno_sort_schema, tables.c:1124-1140: the quicksort of SortModel on words. *)
Definition sort_schema (s : list N) : option (list N) :=
  sort_vec (fun x y => Some (N.compare x y)) false s.
(** kno_make_schemap, tables.c:1075-1113: without values every slot holds #VOID. *)
Definition make_schemap (s : list N) (sorted : bool) (vals : option (list lv)) : schemap :=
  {| schema := s; sm_sorted := sorted; sm_readonly := false;
     values := match vals with
               | Some v => v
               | None => map (fun _ => Simple (SVal KVOID)) s
               end |}.

(** kno_schemap_keys, tables.c:1411-1428, for a schema of atoms: the word is the key. *)
Definition schemap_keys (cf : config) (sm : schemap) : option simple :=
  match map VAtom (schema sm) with
  | [] => Some (SVal KEMPTY)
  | [k] => Some (SVal k)
  | ks => init_choice cf ks {| f_sort := negb (sm_sorted sm); f_compress := false; f_realloc := false;
                               f_atomic := false; f_conses := false |}
  end.
(** kno_schemap_keyvec, tables.c:1465-1478. *)
Definition schemap_keyvec (sm : schemap) : list N := schema sm.
(** kno_schemap_assocs, tables.c:1430-1463, for a schema of atoms.  kno_init_choice is
    given the schema as its data and copies it over the pairs (choices.c:304-306). *)
Definition schemap_assocs (cf : config) (sm : schemap) : option simple :=
  match map VAtom (schema sm) with
  | [] => Some (SVal KEMPTY)
  | [k] => match values sm with
           | [Simple s] => Some (SVal (VPair k (toval s)))
           | _ => None
           end
  | ks => init_choice cf ks {| f_sort := true; f_compress := false; f_realloc := false;
                               f_atomic := false; f_conses := false |}
  end.

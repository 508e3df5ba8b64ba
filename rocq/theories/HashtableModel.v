(** * Hashtables keyed by structural equality.

    Source: /repo/src/lisp/tables.c:1592-1631, 1808-1924, 2055-2107, 2196-2262, 2296-2362,
    2468-2600, 3117-3249, 3276-3305, 3416-3442, 3535-3573.

    A NULL bucket pointer is the empty list; no operation leaves an allocated bucket of
    length 0.  The hash function (hash_lisp, tables.c:1700-1791) is a parameter: all the
    results hold for any function of the key's structure.

    Not modelled: reference counts, locks (each operation is taken to be atomic), the
    MODIFIED and BIG_BUCKETS bits, memory exhaustion.  [None] is undefined behaviour,
    abort() or exhausted fuel. *)

From Verif Require Export SlotmapModel.
Local Open Scope N_scope.

(** [hash]: hash_lisp.  [init_size]: kno_init_hash_size, tables.c:67 (73 unless
    configured).  [load_num]/[load_den]: table_load_factor, 1.2 unless configured
    (tables.c:1604); the double product n_keys*1.2 truncates and compares with integers
    like the exact 6/5 for every 32-bit n_keys. *)
Record hcfg := { hash : val -> N; init_size : N; load_num : N; load_den : N }.

(** hashtable_sizes, tables.c:1616-1620. *)
Definition hashtable_sizes : list N :=
  [53; 97; 193; 389; 769; 1543; 3079; 6151; 12289; 24593; 49157;
   98317; 196613; 393241; 786433; 1572869; 3145739; 6291469;
   12582917; 25165843; 50331653; 100663319; 201326611; 402653189;
   805306457; 1610612741].
(** kno_get_hashtable_size, tables.c:1623-1630.  The table has no terminating zero: for
    [min] not below its last entry the loop reads beyond it. *)
Definition get_hashtable_size (min : N) : option N := find (fun s => min <? s) hashtable_sizes.

(** struct KNO_HASHTABLE, tables.h:568-573. *)
Record hashtable := { buckets : list (list keyval); n_keys : N; ht_ro : bool }.
Definition n_buckets (ht : hashtable) : N := N.of_nat (length (buckets ht)).
(** new_hash_buckets, tables.c:2296-2307. *)
Definition new_buckets (n : N) : list (list keyval) := repeat [] (N.to_nat n).

Section Vec.
Variable hc : hcfg.

(** compute_offset(hash_lisp(key),n_slots), tables.c:51. *)
Definition offset (key : val) (bs : list (list keyval)) : nat :=
  N.to_nat (hash hc key mod N.of_nat (length bs)).

(** hashvec_get, tables.c:1810-1824: bucket number and position in it.  With no buckets
    the division by zero is [None]. *)
Definition bucket_get (key : val) (b : list keyval) : option (option nat) :=
  match b with
  | [] => Some None
  | [e] => Some (if lequal key (fst e) then Some 0%nat else None)
  | _ => sortvec_get key b
  end.
Definition hashvec_get (key : val) (bs : list (list keyval)) : option (option (nat * nat)) :=
  let off := offset key bs in
  do b <- nth_error bs off;
  do r <- bucket_get key b;
  Some (match r with Some i => Some (off, i) | None => None end).

(** The comparison in hash_bucket_insert, tables.c:1867-1869. *)
Definition bcmp (key m : val) : comparison :=
  if lequal key m then Eq else match cons_compare key m with Lt => Lt | _ => Gt end.
(** hash_bucket_insert, tables.c:1857-1892: the position and the new bucket. *)
Definition bucket_insert (key : val) (b : list keyval) : option (nat * list keyval) :=
  let size := Z.of_nat (length b) in
  do r <- bs_loop (bcmp key) (keys_of b) (S (length b)) 0 (size - 1) (Z.quot (size - 1) 2) 2;
  let '(middle, bottom, dir) := (r : Z * Z * Z) in
  if (dir =? 0)%Z then Some (Z.to_nat middle, b)
  else
    let ipos := Z.to_nat (middle + (if (middle <? bottom)%Z then 1 else 0))%Z in
    Some (ipos, insert_at ipos (key, EMPTYV) b).
(** hashvec_insert, tables.c:1829-1855: bucket number, position, new buckets and the
    increment of the key count. *)
Definition hashvec_insert (key : val) (bs : list (list keyval))
  : option (nat * nat * list (list keyval) * N) :=
  let off := offset key bs in
  do b <- nth_error bs off;
  match b with
  | [] => Some (off, 0%nat, set_at off [(key, EMPTYV)] bs, 1)
  | [e] =>
    if lequal key (fst e) then Some (off, 0%nat, bs, 0)
    else do r <- bucket_insert key b; let (i, b') := (r : nat * list keyval) in
         Some (off, i, set_at off b' bs, 1)
  | _ =>
    do r <- bucket_insert key b; let (i, b') := (r : nat * list keyval) in
    Some (off, i, set_at off b' bs, if (length b <? length b')%nat then 1 else 0)
  end.
(** [result->kv_val] and [result->kv_val = v] *)
Definition value_in (bs : list (list keyval)) (off i : nat) : option lv :=
  do b <- nth_error bs off; value_at b i.
Definition write_in (bs : list (list keyval)) (off i : nat) (v : lv) : option (list (list keyval)) :=
  do b <- nth_error bs off; do b' <- write_value b i v; Some (set_at off b' bs).

(** resize_hashtable, tables.c:3535-3573: every entry is inserted again. *)
Definition put_entry (bs : list (list keyval)) (e : keyval) : option (list (list keyval)) :=
  do r <- hashvec_insert (fst e) bs;
  let '(off, i, bs', _) := (r : nat * nat * list (list keyval) * N) in
  write_in bs' off i (snd e).
Fixpoint put_all (bs : list (list keyval)) (es : list keyval) : option (list (list keyval)) :=
  match es with
  | [] => Some bs
  | e :: es => do bs' <- put_entry bs e; put_all bs' es
  end.
Definition resize_hashtable (ht : hashtable) (n : N) : option hashtable :=
  do bs <- put_all (new_buckets n) (concat (buckets ht));
  Some {| buckets := bs; n_keys := n_keys ht; ht_ro := ht_ro ht |}.

(** hashtable_needs_resizep, hashtable_resize_target, tables.c:1592-1597. *)
Definition needs_resize (ht : hashtable) : bool :=
  load_den hc * n_buckets ht <? load_num hc * n_keys ht.
Definition resize_target (ht : hashtable) : N := load_num hc * n_keys ht / load_den hc.
(** The resizing step after a store, tables.c:2356-2360. *)
Definition auto_resize (ht : hashtable) : option hashtable :=
  if needs_resize ht then do n <- get_hashtable_size (resize_target ht); resize_hashtable ht n
  else Some ht.

(** setup_hashtable, tables.c:2309-2316, for n >= 0. *)
Definition setup (ht : hashtable) (n : N) : hashtable :=
  {| buckets := new_buckets n; n_keys := 0; ht_ro := ht_ro ht |}.
Definition ensure (ht : hashtable) : hashtable :=
  if n_buckets ht =? 0 then setup ht (init_size hc) else ht.

Variable cf : config.

(** kno_hashtable_store, tables.c:2318-2362. *)
Definition hashtable_store (ht : hashtable) (key : val) (value : lv) : option (Z * hashtable) :=
  if trouble value then Some ((-1)%Z, ht)
  else if emptyp key then Some (0%Z, ht)
  else if troublep key then Some ((-1)%Z, ht)
  else if ht_ro ht then Some ((-1)%Z, ht)
  else
    let ht0 := ensure ht in
    do r <- hashvec_insert key (buckets ht0);
    let '(off, i, bs, inc) := (r : nat * nat * list (list keyval) * N) in
    do newv <- (match value with Pre _ => do s <- simplify cf value; Some (Simple s)
                               | Simple _ => Some value end);
    do bs' <- write_in bs off i newv;
    do ht' <- auto_resize {| buckets := bs'; n_keys := n_keys ht0 + inc; ht_ro := ht_ro ht0 |};
    Some (if 0 <? inc then 1%Z else 0%Z, ht').

(** add_to_hashtable, tables.c:2468-2500 (the tests on the value repeat the caller's). *)
Definition add_to_hashtable (shared : bool) (ht : hashtable) (key : val) (value : lv)
  : option (Z * hashtable) :=
  let ht0 := ensure ht in
  do r <- hashvec_insert key (buckets ht0);
  let '(off, i, bs, inc) := (r : nat * nat * list (list keyval) * N) in
  do cur <- value_in bs off i;
  do new <- (if lvoidp cur then Some value else add_to_choice cf shared cur value);
  do bs' <- write_in bs off i new;
  Some (if 0 <? inc then 1%Z else 0%Z,
        {| buckets := bs'; n_keys := n_keys ht0 + inc; ht_ro := ht_ro ht0 |}).

(** check_hashtable_size, tables.c:2502-2516, for delta >= 0. *)
Definition check_size (ht : hashtable) (delta : N) : option hashtable :=
  let need := n_keys ht + delta + init_size hc in
  if n_buckets ht =? 0 then do n <- get_hashtable_size need; Some (setup ht n)
  else if n_buckets ht <? need then do n <- get_hashtable_size (need * 2); resize_hashtable ht n
  else Some ht.

(** kno_hashtable_add, tables.c:2518-2550.  For a choice of keys the loop adds the whole
    choice as a key, once for every element. *)
Fixpoint add_times (shared : bool) (n : nat) (ht : hashtable) (key : val) (value : lv) (added : Z)
  : option (Z * hashtable) :=
  match n with
  | O => Some (added, ht)
  | S n => do r <- add_to_hashtable shared ht key value; let (a, ht') := (r : Z * hashtable) in
           add_times shared n ht' key value (added + a)%Z
  end.
Definition hashtable_add (shared : bool) (ht : hashtable) (key : val) (value : lv)
  : option (Z * hashtable) :=
  if emptyp key then Some (0%Z, ht)
  else if ht_ro ht then Some ((-1)%Z, ht)
  else if lemptyp value then Some (0%Z, ht)
  else if trouble value then Some ((-1)%Z, ht)
  else if troublep key then Some ((-1)%Z, ht)
  else
    match key with
    | VChoice l => do ht0 <- check_size ht (N.of_nat (length l));
                   add_times shared (length l) ht0 key value 0
    | _ => do ht0 <- check_size ht 3; add_to_hashtable shared ht0 key value
    end.

(** kno_hashtable_drop, tables.c:2552-2598; hash_bucket_remove 1894-1910.  When
    kno_difference returns its first argument the same value is written back. *)
Definition hashtable_drop (ht : hashtable) (key : val) (value : lv) : option (Z * hashtable) :=
  if emptyp key then Some (0%Z, ht)
  else if troublep key then Some ((-1)%Z, ht)
  else if trouble value then Some ((-1)%Z, ht)
  else if n_keys ht =? 0 then Some (0%Z, ht)
  else if ht_ro ht then Some ((-1)%Z, ht)
  else
    do r <- hashvec_get key (buckets ht);
    match r with
    | None => Some (0%Z, ht)
    | Some (off, i) =>
      do b <- nth_error (buckets ht) off;
      do cur <- value_at b i;
      do new <- (if lemptyp cur || lvoidp value then Some EMPTYV else kno_difference cf cur value);
      if lemptyp new then
        Some (1%Z, {| buckets := set_at off (remove_at i b) (buckets ht);
                      n_keys := n_keys ht - 1; ht_ro := ht_ro ht |})
      else
        do bs <- write_in (buckets ht) off i new;
        Some (1%Z, {| buckets := bs; n_keys := n_keys ht; ht_ro := ht_ro ht |})
    end.

(** kno_hashtable_get, tables.c:2055-2107. *)
Definition hashtable_get (ht : hashtable) (key : val) (dflt : lv) : option lv :=
  if emptyp key then Some EMPTYV
  else if n_keys ht =? 0 then Some dflt
  else
    do r <- hashvec_get key (buckets ht);
    match r with
    | None => Some dflt
    | Some (off, i) =>
      do v <- value_in (buckets ht) off i;
      if lvoidp v then Some dflt
      else match v with Pre _ => do s <- simplify cf v; Some (Simple s) | Simple _ => Some v end
    end.
(** kno_hashtable_probe, tables.c:2196-2222.  For an empty key the code returns the word
    of the constant KNO_EMPTY; not modelled ([None]). *)
Definition hashtable_probe (ht : hashtable) (key : val) : option bool :=
  if emptyp key then None
  else if n_keys ht =? 0 then Some false
  else do r <- hashvec_get key (buckets ht); Some (match r with Some _ => true | None => false end).
(** hashtable_test, tables.c:2224-2262; the comparison of the values as in [test_values],
    except that a VOID argument asks for a current value that is not VOID. *)
Definition hashtable_test (ht : hashtable) (key : val) (value : lv) : option bool :=
  if emptyp key then None
  else if n_keys ht =? 0 then Some false
  else
    do r <- hashvec_get key (buckets ht);
    match r with
    | None => Some false
    | Some (off, i) =>
      do cur <- value_in (buckets ht) off i;
      if lvoidp value then Some (negb (lvoidp cur)) else test_values cf value cur
    end.

(** The listing functions scan the buckets in order and skip VOID values. *)
Definition live (ht : hashtable) : list keyval :=
  filter (fun e => negb (lvoidp (snd e))) (concat (buckets ht)).
(** kno_hashtable_keys, tables.c:3117-3139. *)
Fixpoint collect (acc : lv) (ks : list val) : option lv :=
  match ks with
  | [] => Some acc
  | k :: ks => do acc' <- add_to_choice cf false acc (Simple (SVal k)); collect acc' ks
  end.
Definition hashtable_keys (ht : hashtable) : option lv :=
  do r <- collect EMPTYV (keys_of (live ht)); do s <- simplify cf r; Some (Simple s).
(** kno_hashtable_keyvec, tables.c:3141-3168: the vector is allocated with n_keys
    elements; writing more is undefined. *)
Definition hashtable_keyvec (ht : hashtable) : option (list val) :=
  let ks := keys_of (live ht) in
  if N.of_nat (length ks) <=? n_keys ht then Some ks else None.
(** kno_hashtable_values, tables.c:3170-3206. *)
Definition hashtable_values (ht : hashtable) : option lv :=
  if n_keys ht =? 0 then Some EMPTYV
  else
    do p <- add_all cf (init_prechoice (17 * N.to_nat (n_keys ht)))
              (filter (fun v => negb (lemptyp v)) (map snd (live ht)));
    do s <- simplify cf (Pre p); Some (Simple s).
(** kno_hashtable_assocs, tables.c:3208-3243; a pair whose tail is an accumulator is
    outside the model. *)
Definition hashtable_assocs (ht : hashtable) : option lv :=
  do ps <- all_some (map assoc_pair (live ht));
  do p <- add_all cf (init_prechoice (17 * N.to_nat (n_keys ht))) ps;
  do s <- simplify cf (Pre p); Some (Simple s).
End Vec.

(** kno_make_hashtable, tables.c:3416-3440. *)
Definition make_hashtable (n : Z) : option hashtable :=
  do bs <- (if (n =? 0)%Z then Some []
            else if (n <? 0)%Z then Some (new_buckets (Z.to_N (- n)))
            else do s <- get_hashtable_size (Z.to_N n); Some (new_buckets s));
  Some {| buckets := bs; n_keys := 0; ht_ro := false |}.
(** kno_reset_hashtable, tables.c:3276-3305: [n < 0] keeps the number of buckets. *)
Definition reset_hashtable (ht : hashtable) (n : Z) : hashtable :=
  {| buckets := new_buckets (if (n <? 0)%Z then n_buckets ht else Z.to_N n);
     n_keys := 0; ht_ro := ht_ro ht |}.

(** kno_init_hashtable, tables.c:3472-3500: the keys are inserted, the values are not
    stored. *)
Section Init.
Variable hc : hcfg.
Fixpoint init_keys (bs : list (list keyval)) (n : N) (inits : list keyval) : option (list (list keyval) * N) :=
  match inits with
  | [] => Some (bs, n)
  | e :: es =>
    do r <- hashvec_insert hc (fst e) bs;
    let '(_, _, bs', inc) := (r : nat * nat * list (list keyval) * N) in
    init_keys bs' (n + inc) es
  end.
Definition init_hashtable (inits : list keyval) : option hashtable :=
  do s <- get_hashtable_size (N.of_nat (length inits));
  do r <- init_keys (new_buckets s) 0 inits; let (bs, n) := (r : list (list keyval) * N) in
  Some {| buckets := bs; n_keys := n; ht_ro := false |}.
(** kno_initialize_hashtable, tables.c:3503-3531. *)
Fixpoint init_entries (bs : list (list keyval)) (n : N) (inits : list keyval) : option (list (list keyval) * N) :=
  match inits with
  | [] => Some (bs, n)
  | e :: es =>
    do r <- hashvec_insert hc (fst e) bs;
    let '(off, i, bs1, inc) := (r : nat * nat * list (list keyval) * N) in
    do bs2 <- write_in bs1 off i (snd e);
    init_entries bs2 (n + inc) es
  end.
Definition initialize_hashtable (inits : list keyval) : option hashtable :=
  do s <- get_hashtable_size (N.of_nat (length inits));
  do r <- init_entries (new_buckets s) 0 inits; let (bs, n) := (r : list (list keyval) * N) in
  Some {| buckets := bs; n_keys := n; ht_ro := false |}.
End Init.
(** kno_swap_hashtable, tables.c:3343-3384: meant to move the contents of the source to
    the destination and to give the source new buckets; the new buckets go to the
    destination.  Result: source, destination. *)
Definition swap_hashtable (src : hashtable) : option (hashtable * hashtable) :=
  do s <- get_hashtable_size (n_keys src);
  Some ({| buckets := buckets src; n_keys := 0; ht_ro := false |},
        {| buckets := new_buckets s; n_keys := n_keys src; ht_ro := false |}).
(** kno_hashtable_set_readonly, tables.c:3818-3837, on the READONLY and USELOCKS bits:
    return code and new bits. *)
Definition set_readonly_bits (readonly : bool) (ro uselock : bool) : Z * (bool * bool) :=
  if readonly then
    if ro && negb uselock then (0%Z, (ro, uselock))
    else if negb ro && negb uselock then ((-1)%Z, (ro, uselock))
    else (1%Z, (true, false))
  else if ro then (0%Z, (ro, uselock))
  else if uselock then (0%Z, (ro, uselock))
  else (1%Z, (false, true)).

(** Indexes: pending additions, drops and stores, the cache, commits, and the
    log driver (src/storage/indexes.c, include/kno/indexes.h,
    src/drivers/logindex.c).

    What is modelled.  An index keeps four hashtables: a cache and the pending
    adds, drops and stores.  [kno_index_get] answers from the cache or asks the
    driver and applies the pending changes.  A commit hands the pending changes
    to the driver.  The driver modelled is the logindex: a file holding a list
    of (operation, key, value) entries which are replayed on loading.

    Simplifications, for the whole file.
    - A hashtable is a list of key/value pairs with no key twice; buckets,
      hashing, resizing and locks are left out (they are the subject of the
      table modules).
    - A value is a list of elements standing for the choice of them; the empty
      list is the empty choice.  [Void] is the value VOID which swapping out
      leaves in the cache.
    - Keys and elements are any types with an equality test.
    - Entries written to the log are read back as written (the dtype codec is
      the subject of its own module), and the log file itself is not damaged.
    - The index is writable, is not in the background, has no thread cache, and
      no ipeval is under way; one thread runs.
    - The cache level has been set ([init_cache_level] has run), and only
      whether it is positive matters.  A negative level is not modelled. *)

From Coq Require Import List Bool NArith.
Import ListNotations.

Section Index.

Variable K V : Type.
Variable keq : K -> K -> bool.
Variable veq : V -> V -> bool.

(** ** Choices *)

(** Membership test. *)
Definition mem (x : V) (s : list V) : bool := existsb (veq x) s.

(** CHOICE_ADD(result,new): include/kno/choices.h; the elements of [b] not
    already there are added.  (In C a prechoice collects duplicates and drops
    them when simplified.) *)
Definition union (a b : list V) : list V :=
  a ++ filter (fun x => negb (mem x a)) b.

(** [kno_difference]: src/lisp/choices.c. *)
Definition minus (a b : list V) : list V :=
  filter (fun x => negb (mem x b)) a.

(** ** Hashtables *)

Inductive tval := Void | Val (s : list V).

Definition table := list (K * tval).

(** [hashvec_get]: src/lisp/tables.c:1810. *)
Fixpoint t_find (k : K) (t : table) : option tval :=
  match t with
  | [] => None
  | (k', v) :: r => if keq k k' then Some v else t_find k r
  end.

(** [hashvec_insert] followed by setting the value. *)
Fixpoint t_put (k : K) (v : tval) (t : table) : table :=
  match t with
  | [] => [(k, v)]
  | (k', v') :: r => if keq k k' then (k', v) :: r else (k', v') :: t_put k v r
  end.

(** [hash_bucket_remove]: src/lisp/tables.c:1894. *)
Definition t_del (k : K) (t : table) : table :=
  filter (fun p => negb (keq k (fst p))) t.

(** [kno_hashtable_get]: src/lisp/tables.c:2055-2107, with the default VOID
    ([None]); a VOID value counts as absent. *)
Definition t_get (k : K) (t : table) : option (list V) :=
  match t_find k t with
  | Some (Val s) => Some s
  | _ => None
  end.

(** [htget]: indexes.c:43-44 (default EMPTY). *)
Definition htget (t : table) (k : K) : list V :=
  match t_get k t with Some s => s | None => [] end.

(** [kno_hashtable_probe]: tables.c:2196-2221; [kno_table_haskey] in
    [do_hashtable_op]: a VOID value counts as present. *)
Definition t_probe (k : K) (t : table) : bool :=
  match t_find k t with Some _ => true | None => false end.

(** [kno_hashtable_store] (tables.c:2318-2362), [kno_table_store] and
    [kno_table_store_noref] in [do_hashtable_op] (2744-2752). *)
Definition t_store (v : tval) (t : table) (k : K) : table := t_put k v t.

(** [kno_table_replace]: tables.c:2689-2705, 2744-2748; nothing happens when
    the key is absent. *)
Definition t_replace (v : tval) (t : table) (k : K) : table :=
  if t_probe k t then t_put k v t else t.

(** [kno_hashtable_add] (tables.c:2518-2550) and [kno_table_add]
    (2677-2687, 2755-2760): an empty value does nothing. *)
Definition t_add (v : list V) (t : table) (k : K) : table :=
  match v with
  | [] => t
  | _ =>
    match t_find k t with
    | None | Some Void => t_put k (Val v) t
    | Some (Val s) => t_put k (Val (union s v)) t
    end
  end.

(** [kno_table_add_if_present]: tables.c:2689-2705, 2753-2760. *)
Definition t_add_if_present (v : list V) (t : table) (k : K) : table :=
  match v with
  | [] => t
  | _ =>
    match t_find k t with
    | Some (Val s) => t_put k (Val (union s v)) t
    | _ => t
    end
  end.

(** [kno_table_drop] with a value other than VOID: tables.c:2677-2705,
    2766-2801.  An empty value does nothing; a key whose value is or becomes
    empty is removed; a VOID value is left (it differs from what is dropped).
    [kno_hashtable_drop] (2552-2599) does the same for non-empty values. *)
Definition t_drop (v : list V) (t : table) (k : K) : table :=
  match v with
  | [] => t
  | _ =>
    match t_find k t with
    | None | Some Void => t
    | Some (Val s) =>
      match minus s v with
      | [] => t_del k t
      | s' => t_put k (Val s') t
      end
    end
  end.

(** [kno_table_drop] with VOID: the key is removed (tables.c:2769-2771). *)
Definition t_remove (t : table) (k : K) : table := t_del k t.

(** [kno_hashtable_iterkeys]: tables.c:3026-3052, one operation for each of the
    keys.  With one key the callers use the plain operation, which is the same
    thing. *)
Definition each (op : table -> K -> table) (ks : list K) (t : table) : table :=
  fold_left op ks t.

(** [kno_hashtable_iter_kv] with [kno_table_drop]: tables.c:2998-3024. *)
Definition drop_all (kvs : list (K * list V)) (t : table) : table :=
  fold_left (fun t kv => t_drop (snd kv) t (fst kv)) kvs t.

(** ** The log driver *)

(** One entry of a logindex file: logindex.c:149-203; the operation byte is
    1, -1 or 0. *)
Inductive entry :=
| LAdd (k : K) (v : list V)
| LDrop (k : K) (v : list V)
| LStore (k : K) (v : list V).

(** The body of the loop of [load_logindex]: logindex.c:263-275. *)
Definition replay1 (t : table) (e : entry) : table :=
  match e with
  | LAdd k v => t_add v t k
  | LDrop k v => t_drop v t k
  | LStore k v => t_store (Val v) t k
  end.

(** [load_logindex]: logindex.c:238-283; the map starts out empty.  (Saving
    empties the map and clears [logx_loaded], so that the next fetch loads the
    log again; the model computes the map from the log at each fetch.) *)
Definition replay (l : list entry) : table := fold_left replay1 l [].

(** [logindex_fetch]: logindex.c:56-61. *)
Definition log_fetch (l : list entry) (k : K) : list V := htget (replay l) k.

(** [logindex_save]: logindex.c:149-203; adds, then drops, then stores are
    appended. *)
Definition log_save (l : list entry)
  (adds drops stores : list (K * list V)) : list entry :=
  l ++ map (fun kv => LAdd (fst kv) (snd kv)) adds
    ++ map (fun kv => LDrop (fst kv) (snd kv)) drops
    ++ map (fun kv => LStore (fst kv) (snd kv)) stores.

(** [logindex_fetchkeys]: logindex.c:87-113.  [None] is the empty choice: when
    the map has no keys, [keys] is EMPTY, which is not a choice, and it is
    returned as the single key. *)
Definition log_keys (l : list entry) : list (option K) :=
  match replay l with
  | [] => [None]
  | t => map (fun p => Some (fst p)) t
  end.

(** [KNO_INT(x)] as a number: include/kno/ptr.h:680-687, the fixnum tag is 2 and
    the value is shifted by two bits. *)
Definition tagged (n : N) : N := 4 * n + 2.

(** [logindex_fetchinfo] with no filter: logindex.c:120-147.  The count is
    stored as [KNO_INT(size)] into a [long long]: line 131. *)
Definition log_info (l : list entry) : list (K * N) :=
  map (fun p => (fst p, tagged (N.of_nat (length (htget (replay l) (fst p))))))
      (replay l).

(** ** The index *)

(** struct KNO_INDEX, include/kno/indexes.h:44-61: the four tables, whether the
    cache level is positive, the flag KNO_STORAGE_NOSWAP; and the file. *)
Record index := Ix {
  cache : table;
  adds : table;
  drops : table;
  stores : table;
  level : bool;
  noswap : bool;
  disk : list entry }.

(** [open_logindex] on a file: logindex.c:285-328, with empty tables. *)
Definition open_index (lv ns : bool) (l : list entry) : index :=
  Ix [] [] [] [] lv ns l.

(** [edit_result]: indexes.c:55-69. *)
Definition edit_result (ix : index) (k : K) (result : list V) : list V :=
  let r := union result (htget (adds ix) k) in
  match drops ix with
  | [] => r
  | _ =>
    match htget (drops ix) k with
    | [] => r
    | d => minus r d
    end
  end.

Definition with_cache (ix : index) (c : table) : index :=
  Ix c (adds ix) (drops ix) (stores ix) (level ix) (noswap ix) (disk ix).

(** [kno_index_fetch]: indexes.c:464-489. *)
Definition index_fetch (ix : index) (k : K) : list V * index :=
  let result :=
    match t_get k (stores ix) with
    | Some s => s
    | None => log_fetch (disk ix) k
    end in
  let r := edit_result ix k result in
  (r, if level ix then with_cache ix (t_store (Val r) (cache ix) k) else ix).

(** [kno_index_get]: include/kno/indexes.h:342-363 and [_kno_index_get],
    indexes.c:881-902. *)
Definition index_get (ix : index) (k : K) : list V * index :=
  match (if level ix then t_get k (cache ix) else None) with
  | Some s => (s, ix)
  | None => index_fetch ix k
  end.

(** [_kno_index_add]: indexes.c:915-964. *)
Definition index_add (ix : index) (ks : list K) (v : list V) : index :=
  match v with
  | [] => ix
  | _ =>
    Ix (each (t_add_if_present v) ks (cache ix))
       (each (t_add v) ks (adds ix))
       (each (t_drop v) ks (drops ix))
       (stores ix) (level ix) (noswap ix) (disk ix)
  end.

(** The inline [kno_index_add]: include/kno/indexes.h:364-414.  This is the one
    used by [table_indexadd] (indexes.c:966-972), so by [kno_add] and [add!] on
    an index, and by the slot indexes (src/storage/slotindexes.c:527,534).  The
    drops table is not touched, and the cache only when the level is positive. *)
Definition index_add_inline (ix : index) (ks : list K) (v : list V) : index :=
  Ix (if level ix then each (t_add_if_present v) ks (cache ix) else cache ix)
     (each (t_add v) ks (adds ix))
     (drops ix) (stores ix) (level ix) (noswap ix) (disk ix).

(** [kno_index_drop]: indexes.c:974-1014. *)
Definition index_drop (ix : index) (ks : list K) (v : list V) : index :=
  match v with
  | [] => ix
  | _ =>
    Ix (each (t_drop v) ks (cache ix))
       (each (t_drop v) ks (adds ix))
       (each (t_add v) ks (drops ix))
       (stores ix) (level ix) (noswap ix) (disk ix)
  end.

(** [kno_index_store]: indexes.c:1025-1072; [table_indexdrop] (1016-1023) with
    no value is this with the empty value. *)
Definition index_store (ix : index) (ks : list K) (v : list V) : index :=
  Ix (each (t_replace (Val v)) ks (cache ix))
     (each t_remove ks (adds ix))
     (each t_remove ks (drops ix))
     (each (t_store (Val v)) ks (stores ix))
     (level ix) (noswap ix) (disk ix).

(** [kno_index_merge] and [kno_batch_add]: indexes.c:1083-1141; the table's keys
    and values are added to the adds table. *)
Definition index_merge (ix : index) (kvs : list (K * list V)) : index :=
  Ix (cache ix)
     (fold_left (fun t kv => t_add (snd kv) t (fst kv)) kvs (adds ix))
     (drops ix) (stores ix) (level ix) (noswap ix) (disk ix).

(** [kno_index_setcache]: indexes.c:228-235; the cache is kept as it is. *)
Definition index_setcache (ix : index) (lv : bool) : index :=
  Ix (cache ix) (adds ix) (drops ix) (stores ix) lv (noswap ix) (disk ix).

(** [kno_index_swapout] without keys: indexes.c:1792-1802. *)
Definition index_swapout_all (ix : index) : index :=
  if noswap ix then ix else with_cache ix [].

(** [kno_index_swapout] with keys: indexes.c:1792-1814.  One key gets the value
    VOID (it is put into the cache even when it was not there); of several
    keys, those present are replaced by VOID and removed by
    [kno_devoid_hashtable], which removes every VOID entry. *)
Definition index_swapout (ix : index) (ks : list K) : index :=
  if noswap ix then ix
  else match cache ix with
  | [] => ix
  | _ =>
    match ks with
    | [k] => with_cache ix (t_store Void (cache ix) k)
    | _ =>
      with_cache ix
        (filter (fun p => match snd p with Void => false | _ => true end)
           (each (t_replace Void) ks (cache ix)))
    end
  end.

(** What [kno_index_prefetch] stores for a key it fetched: indexes.c:628-657;
    the stores table is not looked at. *)
Definition fetched_value (ix : index) (k : K) : list V :=
  edit_result ix k (log_fetch (disk ix) k).

(** The first loop of [kno_index_prefetch] when some keys are cached:
    indexes.c:566-594.  A key with a pending store goes into the cache; the
    others which are not cached are needed.  ([kno_hashtable_probe] on the
    stores table would also find a VOID value; nothing puts one there.) *)
Definition prefetch_scan (ix : index) (ks : list K) : table * list K :=
  fold_left
    (fun cn k =>
       let '(c, needed) := cn in
       if t_probe k c then (c, needed)
       else match t_get k (stores ix) with
            | Some s => (t_store (Val (edit_result ix k s)) c k, needed)
            | None => (c, needed ++ [k])
            end)
    ks (cache ix, []).

(** [kno_index_prefetch] for a driver with a [fetchn] handler and no [prefetch]
    handler, as the logindex is: indexes.c:522-663. *)
Definition index_prefetch (ix : index) (ks : list K) : index :=
  if negb (level ix) then ix
  else
    let '(c, needed) :=
      match ks with
      | [k] => (cache ix, if t_probe k (cache ix) then [] else [k])
      | _ =>
        if existsb (fun k => t_probe k (cache ix)) ks
        then prefetch_scan ix ks
        else (cache ix, ks)
      end in
    with_cache ix
      (fold_left (fun c k => t_store (Val (fetched_value ix k)) c k) needed c).

(** [kno_index_fetchn] with a choice of keys: indexes.c:665-706.  With one key
    it is [kno_index_fetch]; with several it is what the driver has. *)
Definition index_fetchn (ix : index) (ks : list K) : list (K * list V) :=
  match ks with
  | [k] => [(k, fst (index_fetch ix k))]
  | _ => map (fun k => (k, log_fetch (disk ix) k)) ks
  end.

(** [kno_index_keys]: indexes.c:729-761, where [edit_key_fn] (716-727) takes a
    stored key only if it is a pair [(set . x)] and then takes [x]; [set_key]
    is that test.  For the logindex [n_fetched] is never 0. *)
Definition index_keys (set_key : K -> option K) (ix : index) : list (option K) :=
  log_keys (disk ix)
  ++ map (fun p => Some (fst p)) (adds ix)
  ++ flat_map (fun p => match set_key (fst p) with
                        | Some x => [Some x]
                        | None => []
                        end) (stores ix).

(** Sizes by key, for [kno_index_keysizes]. *)
Definition sizes := list (K * N).

Fixpoint s_find (k : K) (t : sizes) : option N :=
  match t with
  | [] => None
  | (k', v) :: r => if keq k k' then Some v else s_find k r
  end.

Definition s_put (k : K) (v : N) (t : sizes) : sizes :=
  (k, v) :: filter (fun p => negb (keq k (fst p))) t.

(** [kno_table_increment] of a count: tables.c:2819-2845. *)
Definition s_incr (k : K) (v : N) (t : sizes) : sizes :=
  match s_find k t with
  | Some n => s_put k (n + v) t
  | None => s_put k v t
  end.

Definition size_of (v : tval) : N :=
  match v with Void => 0 | Val s => N.of_nat (length s) end.

(** [kno_index_keysizes] with no keys given: indexes.c:813-873, with
    [add_to_keysize] (797-803) and [set_keysize] (805-811). *)
Definition index_keysizes (ix : index) : sizes :=
  let s0 := fold_left (fun s kn => s_put (fst kn) (snd kn) s) (log_info (disk ix)) [] in
  let s1 := fold_left (fun s p => s_incr (fst p) (size_of (snd p)) s) (adds ix) s0 in
  fold_left (fun s p => s_put (fst p) (size_of (snd p)) s) (stores ix) s1.

(** ** Committing *)

(** [hashtable_keyvals]: indexes.c:1201-1238. *)
Definition keyvals (keep_empty : bool) (t : table) : list (K * list V) :=
  flat_map (fun p =>
    match snd p with
    | Void => []
    | Val [] => if keep_empty then [(fst p, [])] else []
    | Val s => [(fst p, s)]
    end) t.

(** The loop merging adds and drops into the stored values:
    indexes.c:1445-1464.  The key counts as merged when something was added or
    dropped. *)
Definition merge1 (ad dr : table) (kv : K * list V) : K * list V :=
  let added := htget ad (fst kv) in
  let dropped := htget dr (fst kv) in
  match added, dropped with
  | [], [] => kv
  | _, [] => (fst kv, union (snd kv) added)
  | _, _ => (fst kv, minus (union (snd kv) added) dropped)
  end.

Definition merged_keys (ad dr : table) (st : list (K * list V)) : list K :=
  flat_map (fun kv =>
    match htget ad (fst kv), htget dr (fst kv) with
    | [], [] => []
    | _, _ => [fst kv]
    end) st.

(** [remove_keyvals]: indexes.c:1185-1199, for one key.  The entry which takes
    the place of a removed one is not looked at. *)
Fixpoint remove_keyvals (k : K) (l : list (K * list V)) : list (K * list V) :=
  match l with
  | [] => []
  | kv :: r =>
    if keq (fst kv) k
    then match r with
         | [] => []
         | kv' :: r' => kv' :: remove_keyvals k r'
         end
    else kv :: remove_keyvals k r
  end.

(** The call of [remove_keyvals] for the merged keys: indexes.c:1465-1468.  One
    merged key is that key; with two or more, CHOICE_ADD has made a prechoice,
    which CHOICEP does not accept, so that every key is compared with the
    prechoice itself and nothing is removed. *)
Definition remove_merged (m : list K) (l : list (K * list V)) : list (K * list V) :=
  match m with
  | [k] => remove_keyvals k l
  | _ => l
  end.

(** [index_docommit] without given commits: indexes.c:1385-1608, called by
    [kno_commit_index] (1610-1628).  [ok] is whether the driver's write
    succeeds; when it does not, the changes stay in the tables. *)
Definition index_commit (ok : bool) (ix : index) : index :=
  let a := keyvals false (adds ix) in
  let d := keyvals false (drops ix) in
  let s := keyvals true (stores ix) in
  let m := merged_keys (adds ix) (drops ix) s in
  let s' := map (merge1 (adds ix) (drops ix)) s in
  let a' := remove_merged m a in
  let d' := remove_merged m d in
  if ok then
    Ix (cache ix) (drop_all a' (adds ix)) (drop_all d' (drops ix))
       (drop_all s' (stores ix)) (level ix) (noswap ix)
       (log_save (disk ix) a' d' s')
  else ix.

(** ** Histories *)

Inductive op :=
| Add (ks : list K) (v : list V)        (* _kno_index_add *)
| AddInline (ks : list K) (v : list V)  (* kno_index_add, add! *)
| Drop (ks : list K) (v : list V)
| Store (ks : list K) (v : list V)
| Get (k : K)
| Prefetch (ks : list K)
| Swapout (ks : list K)
| SwapoutAll
| SetCache (lv : bool)
| Commit (ok : bool).

Definition step (ix : index) (o : op) : index :=
  match o with
  | Add ks v => index_add ix ks v
  | AddInline ks v => index_add_inline ix ks v
  | Drop ks v => index_drop ix ks v
  | Store ks v => index_store ix ks v
  | Get k => snd (index_get ix k)
  | Prefetch ks => index_prefetch ix ks
  | Swapout ks => index_swapout ix ks
  | SwapoutAll => index_swapout_all ix
  | SetCache lv => index_setcache ix lv
  | Commit ok => index_commit ok ix
  end.

Definition run (ix : index) (l : list op) : index := fold_left step l ix.

End Index.

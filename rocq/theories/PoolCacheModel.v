(** The values of OIDs as a program sees them through a pool: the pool's cache,
    its table of changes, locking, swapping out, committing and unlocking
    (/repo/src/storage/pools.c:533-1095, 1147-1580; /repo/src/storage/oidstore.c:353-377).

    Simplifications.  One pool, one thread, no thread cache (kno_threadcache is
    NULL) and no ipeval.  An OID is its number.  The driver below is the map
    [store] from OIDs to stored values: its fetch reads it and makes a new
    object, its commit writes it; what it answers to lock, commit and unlock is
    given with each operation.  A table (slotmap, schemap or hashtable) is an
    object on the heap whose contents are one number and whose bits are those of
    include/kno/tables.h:117-119; any other compound value (string, vector) is
    [VCons].  The reference counts which finish_commit looks at are given with
    the operation ([co_held]).  Pool metadata is not changed, no adjuncts, the
    driver has a commit handler and fetchn. *)

From Coq Require Import List ZArith Bool.
Import ListNotations.
Local Open Scope Z_scope.

(** A lispval held in a table: KNO_EMPTY, KNO_VOID, KNO_UNALLOCATED_OID,
    KNO_LOCKHOLDER (ptr.h:748-770), another immediate, a compound value which is
    no table, a table. *)
Inductive val : Set :=
| VEmpty | VVoid | VUnalloc | VLock
| VAtom (z : Z) | VCons (z : Z) | VTab (id : nat).

(** What is stored for an OID: the same with the contents of tables. *)
Inductive saved : Set :=
| SEmpty | SVoid | SUnalloc | SLock
| SAtom (z : Z) | SCons (z : Z) | STab (body : Z).

(** KNO_TABLE_MODIFIED, KNO_TABLE_FINISHED, KNO_TABLE_READONLY (tables.h:117-119). *)
Record tobj := MkO { t_body : Z; t_mod : bool; t_fin : bool; t_ro : bool }.
Definition heap := nat -> tobj.
Definition hset (h : heap) (i : nat) (x : tobj) : heap :=
  fun j => if Nat.eqb j i then x else h j.
Definition set_mod (b : bool) (x : tobj) := MkO (t_body x) b (t_fin x) (t_ro x).
Definition set_fin (b : bool) (x : tobj) := MkO (t_body x) (t_mod x) b (t_ro x).
Definition set_ro (b : bool) (x : tobj) := MkO (t_body x) (t_mod x) (t_fin x) b.
Definition set_body (z : Z) (x : tobj) := MkO z (t_mod x) (t_fin x) (t_ro x).

(** A hashtable keyed by OIDs: its entries, kno_hashtable_get (tables.c:2055),
    kno_hashtable_probe (2196-2221: the key is there, even with VOID),
    kno_hashtable_probe_novoid (2268-2294), kno_hashtable_store,
    kno_table_replace (2689-2705, 2744: only where the key is),
    kno_devoid_hashtable (3624).  table_n_keys is the number of entries. *)
Definition tbl := list (Z * val).
Fixpoint tget (t : tbl) (k : Z) : option val :=
  match t with
  | [] => None
  | (k', v) :: t' => if k' =? k then Some v else tget t' k
  end.
Definition thas (t : tbl) (k : Z) : bool :=
  match tget t k with Some _ => true | None => false end.
Definition tnovoid (t : tbl) (k : Z) : bool :=
  match tget t k with Some VVoid | None => false | Some _ => true end.
Definition tvalue (t : tbl) (k : Z) : val :=
  match tget t k with Some v => v | None => VVoid end.
Fixpoint tput (t : tbl) (k : Z) (v : val) : tbl :=
  match t with
  | [] => [(k, v)]
  | (k', v') :: t' => if k' =? k then (k', v) :: t' else (k', v') :: tput t' k v
  end.
Definition treplace (t : tbl) (k : Z) (v : val) : tbl :=
  map (fun e => if fst e =? k then (fst e, v) else e) t.
Definition is_void (v : val) : bool := match v with VVoid => true | _ => false end.
Definition is_lock (v : val) : bool := match v with VLock => true | _ => false end.
Definition tdevoid (t : tbl) : tbl := filter (fun e => negb (is_void (snd e))) t.

(** struct KNO_POOL, the parts used: pool_cache_level (after init_cache_level,
    pools.c:266-273), whether the handler has a lock method, the flags
    KNO_POOL_NOLOCKS, KNO_POOL_VIRTUAL (pools.h:137-138), KNO_STORAGE_VIRTUAL and
    KNO_STORAGE_NOSWAP (storage.h:56-60). *)
Record cfg := MkC { c_level : nat; c_lockfn : bool; c_nolocks : bool; c_pvirt : bool;
                    c_svirt : bool; c_noswap : bool }.
Definition nolock (c : cfg) : bool := negb (c_lockfn c) || c_pvirt c || c_nolocks c.

(** [flock]: the driver's lock on its file (bigpool.c:500-527, 1742-1756). *)
Record st := MkS { hp : heap; nxt : nat; cache : tbl; chg : tbl;
                   store : Z -> saved; flock : bool }.
Definition with_hp h s := MkS h (nxt s) (cache s) (chg s) (store s) (flock s).
Definition with_cache t s := MkS (hp s) (nxt s) t (chg s) (store s) (flock s).
Definition with_chg t s := MkS (hp s) (nxt s) (cache s) t (store s) (flock s).
Definition with_store m s := MkS (hp s) (nxt s) (cache s) (chg s) m (flock s).
Definition with_flock b s := MkS (hp s) (nxt s) (cache s) (chg s) (store s) b.

(** What a program sees of a value it is given. *)
Definition snap (h : heap) (v : val) : saved :=
  match v with
  | VEmpty => SEmpty | VVoid => SVoid | VUnalloc => SUnalloc | VLock => SLock
  | VAtom z => SAtom z | VCons z => SCons z | VTab i => STab (t_body (h i))
  end.

(** What the driver stores for a value: bigpool_storen, bigpool.c:1105-1142.
    The constants from KNO_EOF to KNO_UNALLOCATED_OID are refused and the OID is
    left without a value, which fetch reads as EMPTY (bigpool.c:858); KNO_VOID
    is not among them. *)
Definition dwrite (h : heap) (v : val) : saved :=
  match v with VUnalloc | VLock => SEmpty | _ => snap h v end.

(** The driver's fetch (bigpool.c:834-870): a table is made anew. *)
Definition fetch (s : st) (o : Z) : val * st :=
  match store s o with
  | SEmpty => (VEmpty, s) | SVoid => (VVoid, s) | SUnalloc => (VUnalloc, s)
  | SLock => (VLock, s) | SAtom z => (VAtom z, s) | SCons z => (VCons z, s)
  | STab z => (VTab (nxt s),
               MkS (hset (hp s) (nxt s) (MkO z false false false)) (S (nxt s))
                   (cache s) (chg s) (store s) (flock s))
  end.

(** modify_readonly and modify_modified, pools.c:138-187, on the tables above. *)
Definition modify_readonly (b : bool) (v : val) (s : st) : st :=
  match v with VTab i => with_hp (hset (hp s) i (set_ro b (hp s i))) s | _ => s end.
Definition modify_modified (b : bool) (v : val) (s : st) : st :=
  match v with VTab i => with_hp (hset (hp s) i (set_mod b (hp s i))) s | _ => s end.

(** kno_pool_get, pools.c:682-725. *)
Definition pool_get (c : cfg) (s : st) (o : Z) : val * st :=
  let fetch_locked :=
    let (f, s1) := fetch s o in
    let s2 := if is_lock (tvalue (chg s1) o)
              then with_chg (tput (chg s1) o f) s1 else s1 in
    (f, modify_readonly false f s2) in
  let fetch_plain :=
    let (f, s1) := fetch s o in
    if Nat.eqb (c_level c) 0 then (f, s1)
    else
      let s2 := if c_svirt c then s1 else with_cache (tput (cache s1) o f) s1 in
      (f, modify_readonly (negb (nolock c)) f s2) in
  if tnovoid (chg s) o then
    let v := tvalue (chg s) o in
    if is_lock v then fetch_locked else (v, s)
  else if Nat.ltb 0 (c_level c) && negb (is_void (tvalue (cache s) o))
       then (tvalue (cache s) o, s)
  else fetch_plain.

(** kno_pool_lock, pools.c:989-1040; [l] is what the driver's lock returns.  One
    OID and a choice of them differ only in what is returned. *)
Definition pool_lock (c : cfg) (s : st) (os : list Z) (l : Z) : Z * st :=
  if nolock c then (0, s)
  else
    let needy := filter (fun o => negb (thas (chg s) o)) os in
    match needy with
    | [] => (1, s)
    | _ =>
      if l <? 0 then (l, s)
      else if l =? 0 then (0, s)
      else
        let s1 := with_cache (fold_left (fun t o => treplace t o VVoid) needy (cache s)) s in
        let s2 := with_chg (fold_left (fun t o => tput t o VLock) needy (chg s1)) s1 in
        ((match os with [_] => 1 | _ => l end), with_flock true s2)
    end.

(** set_oid_value, pools.c:552-571 (kno_lock_oid, 1585-1589).  A negative answer
    of kno_lock_oid counts as true. *)
Definition set_oid_value (c : cfg) (s : st) (o : Z) (v : val) (l : Z) : Z * st :=
  let s0 := modify_modified true v (modify_readonly false v s) in
  if nolock c then (1, with_cache (tput (cache s0) o v) s0)
  else
    let (r, s1) := pool_lock c s0 [o] l in
    if r =? 0 then (-1, s1)
    else (1, with_chg (tput (chg s1) o v) s1).

(** init_oid_value, pools.c:572-599, with kno_table_init (tables.c:2735-2748):
    the value in the table unless one is there. *)
Definition tinit (t : tbl) (o : Z) (v : val) : bool * tbl :=
  match tvalue t o with
  | VEmpty | VVoid | VLock => (true, tput t o v)
  | _ => (false, t)
  end.
Definition init_oid_value (c : cfg) (s : st) (o : Z) (v : val) : val * st :=
  if nolock c then
    let (b, t) := tinit (cache s) o v in
    if b then (v, with_cache t s) else pool_get c s o
  else if thas (chg s) o then
    let (b, t) := tinit (chg s) o v in
    if b then (v, with_chg t s) else pool_get c s o
  else (v, with_cache (snd (tinit (cache s) o v)) s).

(** kno_locked_oid_value, pools.c:622-656; None is an error. *)
Definition locked_value (c : cfg) (s : st) (o : Z) (l : Z) : option val * st :=
  if nolock c then let (v, s1) := pool_get c s o in (Some v, s1)
  else
    match tvalue (chg s) o with
    | VVoid =>
      let (r, s1) := pool_lock c s [o] l in
      if r <? 0 then (None, s1)
      else if r =? 0 then (None, s1)
      else
        let (v, s2) := pool_get c (with_chg (tput (chg s1) o VLock) s1) o in
        match v with VUnalloc => (None, s2) | _ => (Some v, s2) end
    | VLock => let (v, s1) := pool_get c s o in (Some v, s1)
    | v => (Some v, s)
    end.

(** edit_oid_value (oidstore.c:353-377) and then the change of the table, as
    kno_oid_store and kno_oid_add do (381-460): the contents become [f] of them.
    The slotmap made for an OID without a value has contents 0. *)
Definition oid_edit (c : cfg) (s : st) (o : Z) (f : Z -> Z) (l : Z) : bool * st :=
  let change v s :=
    match v with
    | VTab i =>
      if t_ro (hp s i) then (false, s)
      else (true, with_hp (hset (hp s) i (set_mod true (set_body (f (t_body (hp s i))) (hp s i)))) s)
    | _ => (false, s)
    end in
  let (r, s1) := locked_value c s o l in
  match r with
  | None => (false, s1)
  | Some (VEmpty | VVoid | VLock) =>
    let s2 := MkS (hset (hp s1) (nxt s1) (MkO 0 true false false)) (S (nxt s1))
                  (cache s1) (chg s1) (store s1) (flock s1) in
    let (v, s3) := init_oid_value c s2 o (VTab (nxt s1)) in
    change v s3
  | Some (VTab i) => change (VTab i) (modify_modified true (VTab i) s1)
  | Some _ => (false, s1)
  end.

(** kno_pool_swapout, pools.c:907-958: VOID stands for all. *)
Definition pool_swapout (c : cfg) (s : st) (os : option (list Z)) : st :=
  match os with
  | None => with_cache [] s
  | Some l =>
    if c_noswap c then s
    else
      let t := fold_left (fun t o => treplace t o VVoid) l (cache s) in
      with_cache (match l with [_] => t | _ => tdevoid t end) s
  end.

(** kno_pool_prefetch, pools.c:736-876: several OIDs. *)
Definition prefetch_one (c : cfg) (locked : bool) (s : st) (o : Z) : st :=
  let (v, s1) := fetch s o in
  if nolock c then s1
  else if locked && tnovoid (chg s1) o
       then modify_readonly false v (with_chg (treplace (chg s1) o v) s1)
       else with_cache (tput (cache s1) o v) (modify_readonly true v s1).
Definition pool_prefetch (c : cfg) (s : st) (os : list Z) : st :=
  if Nat.eqb (c_level c) 0 then s
  else
    match os with
    | [] => s
    | [o] =>
      (* lines 853-874: what is fetched is stored only if it is in the changes,
         and then in the cache too; otherwise it is dropped *)
      if negb (tnovoid (cache s) o) && negb (thas (chg s) o) then snd (fetch s o) else s
    | _ =>
      let todo := filter (fun o =>
        (negb (tnovoid (cache s) o) && negb (thas (chg s) o)) || is_lock (tvalue (chg s) o)) os in
      let locked := existsb (fun o => is_lock (tvalue (chg s) o)) todo in
      fold_left (prefetch_one c locked) todo s
    end.

(** kno_pool_alloc, pools.c:962-988, for one OID; kno_table_default
    (tables.c:2812-2816).  The driver counts the OID as allocated, so that it is
    fetched as EMPTY, and locks its file (bigpool.c:1716-1738). *)
Definition tdefault (t : tbl) (o : Z) (v : val) : tbl :=
  match tvalue t o with VEmpty | VVoid => tput t o v | _ => t end.
Definition pool_alloc (c : cfg) (s : st) (o : Z) : st :=
  let s0 := with_flock true
    (with_store (fun k => if k =? o then SEmpty else store s k) s) in
  if c_svirt c then s0
  else if c_lockfn c then with_chg (tdefault (chg s0) o VEmpty) s0
  else with_cache (tdefault (cache s0) o VEmpty) s0.

(** modifiedp and savep, pools.c:1468-1510. *)
Definition modifiedp (h : heap) (v : val) : bool :=
  match v with VTab i => t_mod (h i) | _ => true end.
Definition savep (h : heap) (v : val) (finished : bool) : bool * heap :=
  match v with
  | VTab i =>
    if t_mod (h i) && (negb finished || t_fin (h i))
    then (true, hset h i (set_mod false (h i))) else (false, h)
  | _ => (true, h)
  end.

(** pick_modified, pools.c:1543-1582: the entries of the table of changes. *)
Fixpoint pick (h : heap) (fin : bool) (l : tbl) : list (Z * val) * heap :=
  match l with
  | [] => ([], h)
  | (o, v) :: l' =>
    if is_lock v then pick h fin l'
    else
      let (b, h1) := savep h v fin in
      let (r, h2) := pick h1 fin l' in
      ((if b then (o, v) :: r else r), h2)
  end.
(** pick_writes, pools.c:1514-1541: those named; kno_hashtable_get gives VOID for
    an OID which is not in the table. *)
Definition pick_named (h : heap) (os : list Z) (t : tbl) : list (Z * val) * heap :=
  pick h false (map (fun o => (o, tvalue t o)) os).

Definition put_saved (m : Z -> saved) (h : heap) (l : list (Z * val)) : Z -> saved :=
  fold_left (fun m e => fun k => if k =? fst e then dwrite h (snd e) else m k) l m.

(** What the driver does in a commit: whether kno_commit_start and then the
    writing and syncing succeed; how many of the values are in the file after a
    failure that could not be rolled back; which of the objects are referred to
    by others than the table of changes and the commit (KNO_REFCOUNT>2); what
    unlock returns. *)
Record copts := MkCo { co_start : bool; co_write : bool; co_left : nat;
                       co_held : Z -> bool; co_unlock : Z }.

(** The driver's unlock, bigpool.c:1749-1756. *)
Definition driver_unlock (s : st) : st :=
  match chg s with [] => with_flock false s | _ => s end.

Definition val_eqb (a b : val) : bool :=
  match a, b with
  | VEmpty, VEmpty | VVoid, VVoid | VUnalloc, VUnalloc | VLock, VLock => true
  | VAtom x, VAtom y | VCons x, VCons y => x =? y
  | VTab i, VTab j => Nat.eqb i j
  | _, _ => false
  end.

(** finish_commit, pools.c:1412-1464: one entry, then all. *)
Definition finish_one (co : copts) (h : heap) (e : Z * val) (t : tbl) : bool * tbl :=
  let (o, v) := e in
  match tget t o with
  | None => (false, t)
  | Some w =>
    if negb (val_eqb w v) then (false, t)
    else
      match v with
      | VTab i => if negb (t_mod (h i)) && negb (co_held co o)
                  then (true, treplace t o VVoid) else (false, t)
      | VCons _ => if negb (co_held co o) then (true, treplace t o VVoid) else (false, t)
      | _ => (true, treplace t o VVoid)
      end
  end.
Fixpoint finish_all (co : copts) (h : heap) (l : list (Z * val)) (t : tbl) : nat * tbl :=
  match l with
  | [] => (O, t)
  | e :: l' =>
    let (b, t1) := finish_one co h e t in
    let (n, t2) := finish_all co h l' t1 in
    ((if b then S n else n), t2)
  end.
Definition finish_commit (co : copts) (s : st) (l : list (Z * val)) : st :=
  let (n, t) := finish_all co (hp s) l (chg s) in
  let s1 := with_chg t s in
  if Nat.eqb n 0 then with_chg (tdevoid t) s1
  else
    let s2 := driver_unlock s1 in
    if co_unlock co <? 0 then s2 else with_chg (tdevoid (chg s2)) s2.

(** abort_commit, pools.c:1399-1409. *)
Definition abort_commit (h : heap) (l : list (Z * val)) : heap :=
  fold_left (fun h e =>
    match snd e with VTab i => hset h i (set_mod true (h i)) | _ => h end) l h.

(** pool_docommit, pools.c:1147-1385, without use_commits: all the changes, those
    which are also finished, or the OIDs named. *)
Inductive which : Set := WAll | WFinished | WNamed (os : list Z).
Definition pool_commit (s : st) (w : which) (co : copts) : Z * st :=
  match chg s with
  | [] => (0, s)
  | _ =>
    if negb (co_start co) then (-1, s)
    else
      let (l, h) := match w with
                    | WAll => pick (hp s) false (chg s)
                    | WFinished => pick (hp s) true (chg s)
                    | WNamed os => pick_named (hp s) os (chg s)
                    end in
      let s1 := with_hp h s in
      match l with
      | [] => (0, finish_commit co s1 [])
      | _ =>
        if co_write co
        then (Z.of_nat (length l),
              finish_commit co (with_store (put_saved (store s) h l) s1) l)
        else (-1, with_hp (abort_commit h l)
                    (with_store (put_saved (store s) h (firstn (co_left co) l)) s1))
      end
  end.

(** kno_pool_unlock, pools.c:1043-1086; the flags of pools.h:141-144. *)
Inductive uflag : Set := Commit | Leave | Discard.
Definition pool_unlock (s : st) (os : option (list Z)) (f : uflag) (co : copts) : Z * st :=
  match chg s with
  | [] => (0, s)
  | _ =>
    match f with
    | Discard => (Z.of_nat (length (chg s)), with_chg [] (driver_unlock s))
    | _ =>
      let (n, s1) := match f with
                     | Commit => pool_commit s (match os with
                                                | Some l => WNamed l
                                                | None => WAll end) co
                     | _ => (0, s)
                     end in
      let go := filter (fun e => negb (is_void (snd e)) && negb (modifiedp (hp s1) (snd e)))
                       (chg s1) in
      let s2 := driver_unlock s1 in
      let t := fold_left (fun t e => treplace t (fst e) VVoid) go (chg s2) in
      (Z.of_nat (length go) + n, with_chg (tdevoid t) s2)
    end
  end.

(** kno_pool_finish, pools.c:1096-1122. *)
Definition pool_finish (s : st) (os : list Z) : st :=
  fold_left (fun s o =>
    match tvalue (chg s) o with
    | VTab i => if t_mod (hp s i) then with_hp (hset (hp s) i (set_fin true (hp s i))) s else s
    | _ => s
    end) os s.

(** *** What programs do.
    [ORead]: kno_oid_value (pools.c:603-620).  [OSet]: SET-OID-VALUE!
    (dbprims.c:722-745), which copies tables ([SetTab]: a table with these
    contents) unless asked not to, and %SET-OID-VALUE! (752-766), which stores
    the table it is given ([SetRaw]).  [OEdit]: kno_oid_store, kno_oid_add.
    [OTouch]: a change made directly to a table the program holds.  [OLocked]:
    LOCKED? (dbprims.c:793-803). *)
Inductive setval : Set := SetVal (v : val) | SetTab (body : Z) | SetRaw (id : nat).
Inductive op : Type :=
| ORead (o : Z)
| OSet (o : Z) (v : setval) (l : Z)
| OEdit (o : Z) (f : Z -> Z) (l : Z)
| OTouch (id : nat) (f : Z -> Z)
| OLock (os : list Z) (l : Z)
| OLocked (o : Z)
| OUnlock (os : option (list Z)) (fl : uflag) (co : copts)
| OCommit (w : which) (co : copts)
| OSwap (os : option (list Z))
| OPrefetch (os : list Z)
| OFinish (os : list Z)
| OAlloc (o : Z).

(** What the program is given: a value, a number, an error. *)
Inductive res : Set := RVal (v : saved) | RInt (z : Z) | RErr.

Definition step (c : cfg) (s : st) (x : op) : res * st :=
  match x with
  | ORead o =>
    let (v, s1) := pool_get c s o in
    match v with VUnalloc => (RErr, s1) | _ => (RVal (snap (hp s1) v), s1) end
  | OSet o v l =>
    let '(w, s0) := match v with
                    | SetVal w => (w, s)
                    | SetRaw i => (VTab i, s)
                    | SetTab b =>
                      (VTab (nxt s), MkS (hset (hp s) (nxt s) (MkO b true false false)) (S (nxt s))
                                         (cache s) (chg s) (store s) (flock s))
                    end in
    let (r, s1) := set_oid_value c s0 o w l in
    ((if r <? 0 then RErr else RInt r), s1)
  | OEdit o f l =>
    let (b, s1) := oid_edit c s o f l in ((if b then RInt 1 else RErr), s1)
  | OTouch i f =>
    if t_ro (hp s i) then (RErr, s)
    else (RInt 1, with_hp (hset (hp s) i (set_mod true (set_body (f (t_body (hp s i))) (hp s i)))) s)
  | OLock os l =>
    let (r, s1) := pool_lock c s os l in ((if r <? 0 then RErr else RInt r), s1)
  | OLocked o => (RInt (if tnovoid (chg s) o then 1 else 0), s)
  | OUnlock os fl co =>
    let (r, s1) := pool_unlock s os fl co in ((if r <? 0 then RErr else RInt r), s1)
  | OCommit w co =>
    let (r, s1) := pool_commit s w co in ((if r <? 0 then RErr else RInt r), s1)
  | OSwap os => (RInt 0, pool_swapout c s os)
  | OPrefetch os => (RInt 0, pool_prefetch c s os)
  | OFinish os => (RInt 0, pool_finish s os)
  | OAlloc o => (RInt 0, pool_alloc c s o)
  end.

(** A history: each operation with what it gave. *)
Fixpoint run (c : cfg) (s : st) (l : list op) : list (op * res) * st :=
  match l with
  | [] => ([], s)
  | x :: l' =>
    let (r, s1) := step c s x in
    let (t, s2) := run c s1 l' in ((x, r) :: t, s2)
  end.

(** A pool just opened over what is stored. *)
Definition opened (m : Z -> saved) : st :=
  MkS (fun _ => MkO 0 false false false) O [] [] m false.

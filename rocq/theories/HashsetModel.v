(** * Hash sets.

    Source: /repo/src/lisp/tables.c:3985-4480.  A bucket holds a value: the empty choice,
    a single element, a choice or an accumulator ([lv]).

    The hash function (kno_hash_lisp, tables.c:1700-1791) is a parameter, as in
    HashtableModel.  So is everything computed in floating point from the load factor:
    [grow_when n b] is (b) < (n*load_factor) (4407), [grow_target n] the double product
    truncated to an int (1601), [grow_need n] ceil(n*load_factor) (4436, 4456); every
    load factor and every rounding is covered.

    Not modelled: reference counts, locks (each operation is atomic), the MODIFIED bit,
    memory exhaustion, NULL or VOID bucket contents (never written by the operations
    below).  kno_init_hashset (3985-4000) leaves hs_n_elts as malloc returned it: the
    initial count is a parameter of [make_hashset].  [None] is undefined behaviour,
    abort() or exhausted fuel. *)

From Verif Require Export HashtableModel.
Local Open Scope N_scope.

Record scfg := { shash : val -> N; grow_when : Z -> N -> bool; grow_target : Z -> N; grow_need : Z -> N;
                 start_size : N }.

(** struct KNO_HASHSET, tables.h: hs_buckets and hs_n_elts (an int). *)
Record hashset := { slots : list lv; n_elts : Z }.
Definition s_buckets (h : hashset) : N := N.of_nat (length (slots h)).
(** kno_make_hashset, tables.c:4002-4008, kno_init_hashset 3985-4000. *)
Definition make_hashset (sc : scfg) (garbage : Z) : option hashset :=
  do n <- get_hashtable_size (start_size sc);
  Some {| slots := repeat EMPTYV (N.to_nat n); n_elts := garbage |}.

Section Set_ops.
Variable sc : scfg.
Variable cf : config.

(** hash%n_slots; no slots: nothing to read. *)
Definition sbucket (h : hashset) (key : val) : nat := N.to_nat (shash sc key mod s_buckets h).
Definition with_slot (h : hashset) (i : nat) (v : lv) : hashset :=
  {| slots := set_at i v (slots h); n_elts := n_elts h |}.
(** The test on a simple content: 4051-4055, 4065-4068. *)
Definition in_simple (key : val) (s : simple) : option bool :=
  match s with
  | SVal v => Some (if emptyp v then false else lequal v key)
  | SChoice _ l => choice_containsp key l
  end.
(** kno_hashset_get, tables.c:4035-4070: an accumulator is normalised in place. *)
Definition hashset_get (h : hashset) (key : val) : option (bool * hashset) :=
  if (n_elts h =? 0)%Z then Some (false, h)
  else
    do c <- nth_error (slots h) (sbucket h key);
    match c with
    | Simple s => do b <- in_simple key s; Some (b, h)
    | Pre _ =>
      do s <- simplify cf c; do b <- in_simple key s;
      Some (b, with_slot h (sbucket h key) (Simple s))
    end.

(** hashset_add_raw, tables.c:4290-4298. *)
Definition add_raw (h : hashset) (key : val) : option hashset :=
  do c <- nth_error (slots h) (sbucket h key);
  do c' <- add_to_choice cf false c (Simple (SVal key));
  Some (with_slot h (sbucket h key) c').
Fixpoint add_raw_all (h : hashset) (keys : list val) : option hashset :=
  match keys with
  | [] => Some h
  | k :: ks => do h' <- add_raw h k; add_raw_all h' ks
  end.
(** The elements of a bucket in the order of KNO_DO_CHOICES. *)
Definition content_elts (c : lv) : option (list val) :=
  do s <- simplify cf c;
  Some (match s with SVal v => if emptyp v then [] else [v] | SChoice _ l => l end).
Fixpoint slots_elts (cs : list lv) : option (list val) :=
  match cs with
  | [] => Some []
  | c :: cs => do l <- content_elts c; do r <- slots_elts cs; Some (l ++ r)
  end.
(** grow_hashset, tables.c:4300-4323; [target] = 0 stands for target<=0. *)
Definition grow_hashset (h : hashset) (target : N) : option hashset :=
  do n <- (if target =? 0 then get_hashtable_size (grow_target sc (n_elts h)) else Some target);
  do l <- slots_elts (slots h);
  add_raw_all {| slots := repeat EMPTYV (N.to_nat n); n_elts := n_elts h |} l.

(** hashset_test_add, tables.c:4336-4369.  Line 4356 calls
    kno_choice_containsp(contents,key) although the function expects the element first
    and the choice second (choices.c:234): with a key that is not a choice this is
    LISP_EQUAL(key,contents). *)
Definition test_add (h : hashset) (key : val) : option (bool * hashset) :=
  if voidp key || emptyp key then Some (false, h)
  else
    let i := sbucket h key in
    do c <- nth_error (slots h) i;
    let add := do c' <- add_to_choice cf false c (Simple (SVal key)); Some (true, with_slot h i c') in
    match c with
    | Simple (SVal v) =>
      if emptyp v then Some (true, with_slot h i (Simple (SVal key)))
      else if lequal v key then Some (false, h) else add
    | Simple (SChoice _ l) =>
      do b <- choice_containsp key l; if (b : bool) then Some (false, h) else add
    | Pre _ => do b <- equal_to cf (SVal key) c; if (b : bool) then Some (false, h) else add
    end.
(** hashset_test_drop, tables.c:4371-4398, with the same call in line 4387. *)
Definition test_drop (h : hashset) (key : val) : option (bool * hashset) :=
  let i := sbucket h key in
  do c <- nth_error (slots h) i;
  let diff := do c' <- kno_difference cf c (Simple (SVal key)); Some (true, with_slot h i c') in
  match c with
  | Simple (SVal v) =>
    if emptyp v then Some (false, h)
    else if lequal v key then Some (true, with_slot h i EMPTYV) else diff
  | Simple (SChoice _ l) =>
    do b <- choice_containsp key l; if (b : bool) then diff else Some (true, h)
  | Pre _ => do b <- equal_to cf (SVal key) c; if (b : bool) then diff else Some (false, h)
  end.
Definition with_count (h : hashset) (n : Z) : hashset := {| slots := slots h; n_elts := n |}.
(** kno_hashset_mod / hashset_mod, tables.c:4400-4425. *)
Definition hashset_mod (h : hashset) (key : val) (add : bool) : option (bool * hashset) :=
  if add then
    do r <- test_add h key; let (rv, h1) := (r : bool * hashset) in
    if rv then
      let h2 := with_count h1 (n_elts h1 + 1)%Z in
      if grow_when sc (n_elts h1) (s_buckets h2)
      then do h3 <- grow_hashset h2 0; Some (true, h3) else Some (true, h2)
    else Some (false, h1)
  else
    do r <- test_drop h key; let (rv, h1) := (r : bool * hashset) in
    Some (rv, if rv then with_count h1 (n_elts h1 - 1)%Z else h1).
(** kno_hashset_add, tables.c:4432-4448.  [upto] is KNO_CHOICE_SIZE, for an accumulator
    an upper bound of the number of elements; it only influences the growth. *)
Fixpoint mod_all (h : hashset) (keys : list val) (n : Z) : option (Z * hashset) :=
  match keys with
  | [] => Some (n, h)
  | k :: ks => do r <- hashset_mod h k true; let (rv, h') := (r : bool * hashset) in
               mod_all h' ks (if rv then n + 1 else n)%Z
  end.
Definition hashset_add (h : hashset) (keys : lv) (upto : Z) : option (Z * hashset) :=
  match keys with
  | Simple (SVal k) =>
    if emptyp k then Some (0%Z, h)
    else do r <- hashset_mod h k true; let (rv, h') := (r : bool * hashset) in
         Some (if rv then 1%Z else 0%Z, h')
  | _ =>
    let need := grow_need sc (upto + n_elts h)%Z in
    do h0 <- (if s_buckets h <? need then grow_hashset h need else Some h);
    do l <- content_elts keys;
    mod_all h0 l 0
  end.

(** kno_reset_hashset, tables.c:4243-4263. *)
Definition reset_hashset (h : hashset) : Z * hashset :=
  if (n_elts h =? 0)%Z then (0%Z, h)
  else (n_elts h, {| slots := repeat EMPTYV (length (slots h)); n_elts := 0 |}).

(** kno_hashset_elts, tables.c:4138-4185, with clean=0, and with clean=1 the hash set
    left behind. *)
Fixpoint collect_all (acc : lv) (cs : list lv) : option lv :=
  match cs with
  | [] => Some acc
  | c :: cs =>
    if lemptyp c then collect_all acc cs
    else do s <- simplify cf c; do acc' <- add_to_choice cf false acc (Simple s); collect_all acc' cs
  end.
Definition hashset_elts (h : hashset) : option lv :=
  if (n_elts h =? 0)%Z then Some EMPTYV
  else do r <- collect_all EMPTYV (slots h); do s <- simplify cf r; Some (Simple s).
Definition hashset_elts_clean (h : hashset) : option (lv * hashset) :=
  if (n_elts h =? 0)%Z then Some (EMPTYV, h)
  else do r <- hashset_elts h; Some (r, {| slots := repeat EMPTYV (length (slots h)); n_elts := n_elts h |}).
(** kno_hashset_vec, tables.c:4187-4241: the vector has room for hs_n_elts elements; a
    choice that does not fit is the error [Some None].  A single element is written
    without a sufficient check (4228 tests > instead of >=): past the end is undefined. *)
Fixpoint vec_fill (room : Z) (cs : list lv) : option (option (list val)) :=
  match cs with
  | [] => Some (Some [])
  | c :: cs =>
    do l <- content_elts c;
    let room' := (room - Z.of_nat (length l))%Z in
    if (room' <? 0)%Z then (if (length l =? 1)%nat then None else Some None)
    else do r <- vec_fill room' cs; Some (match r with Some t => Some (l ++ t) | None => None end)
  end.
Definition hashset_vec (h : hashset) : option (option (list val)) :=
  if (n_elts h =? 0)%Z then Some (Some []) else vec_fill (n_elts h) (slots h).

(** hashset_probe and hashset_intern, tables.c:4072-4125; kno_hashset_intern 4127-4136
    with add=1.  The count is not changed. *)
Definition has_equal (key : val) (c : lv) : option bool :=
  do l <- content_elts c; Some (existsb (fun e => lequal e key) l).
Definition hashset_intern (h : hashset) (key : val) : option (val * hashset) :=
  do found <- (if (n_elts h =? 0)%Z then Some false
               else do c <- nth_error (slots h) (sbucket h key); has_equal key c);
  if (found : bool) then Some (key, h)
  else
    do c <- nth_error (slots h) (sbucket h key);
    do b <- has_equal key c;
    if (b : bool) then Some (key, h) else do h' <- add_raw h key; Some (key, h').
(** kno_hashset_merge, tables.c:4450-4483: hashset_test_add does not count. *)
Fixpoint test_add_all (h : hashset) (keys : list val) (n : Z) : option (Z * hashset) :=
  match keys with
  | [] => Some (n, h)
  | k :: ks => do r <- test_add h k; let (rv, h') := (r : bool * hashset) in
               test_add_all h' ks (if rv then n + 1 else n)%Z
  end.
Definition hashset_merge (h src : hashset) : option (Z * hashset) :=
  let need := grow_need sc (n_elts h + n_elts src)%Z in
  do h0 <- (if s_buckets h <? need then grow_hashset h need else Some h);
  do l <- slots_elts (slots src);
  test_add_all h0 l 0.
End Set_ops.

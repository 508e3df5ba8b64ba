(** * Hashtables keyed by identity (KNO_HASHTABLE_COMPARE_EQ).

    Source: /repo/src/lisp/tables.c:1931-2034 and the functions of HashtableModel with
    eq_cmp set.  A key is the word of a lisp pointer, written [VAtom w]; for a cons
    pointer (low bits 0) [deref] gives the structure it points to.

    Not modelled: the copying of static keys (1998-2000), and what HashtableModel leaves
    out.  [None] is undefined behaviour or exhausted fuel. *)

From Verif Require Export HashtableModel.
Local Open Scope N_scope.

(** [eh]: sizes, load factor and, as its hash, hash_ptr (tables.c:1710-1734) of the word.
    [lhash]: hash_lisp (1670-1695) of the structure. *)
Record ecfg := { eh : hcfg; deref : N -> val; lhash : val -> N }.

Section Eq_ops.
Variable ec : ecfg.
Definition pointer (k : val) : bool := match k with VAtom w => w mod 4 =? 0 | _ => false end.
(** The structure behind a word. *)
Definition struct_of (k : val) : val :=
  match k with VAtom w => if w mod 4 =? 0 then deref ec w else k | _ => k end.
(** [==] and [<] on words *)
Definition word (k : val) : N := match k with VAtom w => w | _ => 0 end.
Definition same (a b : val) : bool := word a =? word b.
(** LISP_EQUAL on words, as in ValueModel. *)
Definition wequal (a b : val) : bool :=
  same a b || (pointer a && pointer b && lequal (struct_of a) (struct_of b)).

(** __kno_keyvals_get, tables.h:263-277. *)
Fixpoint eq_keyvals_get (key : val) (l : list keyval) : option nat :=
  match l with
  | [] => None
  | (k, _) :: l' =>
    if (if pointer key then wequal k key else same k key) then Some 0%nat
    else match eq_keyvals_get key l' with Some i => Some (S i) | None => None end
  end.
(** eq_sortvec_get, tables.c:1931-1952; the second comparison of the loop repeats the
    first, so that its branch is never taken. *)
Fixpoint eq_loop (fuel : nat) (key : val) (l : list keyval) (bottom top : Z) : option (option nat) :=
  if (top <? bottom)%Z then Some None
  else match fuel with
  | O => None
  | S f =>
    let middle := (bottom + Z.quot (top - bottom) 2)%Z in
    do m <- nth_error l (Z.to_nat middle);
    if word key <? word (fst m) then eq_loop f key l bottom (middle - 1)
    else if word key <? word (fst m) then eq_loop f key l (middle + 1) top
    else Some (Some (Z.to_nat middle))
  end.
Definition eq_sortvec_get (key : val) (l : list keyval) : option (option nat) :=
  if (length l <? 4)%nat then Some (eq_keyvals_get key l)
  else eq_loop (S (length l)) key l 0 (Z.of_nat (length l) - 1).
(** eq_hashvec_get, tables.c:1954-1968. *)
Definition eq_bucket_get (key : val) (b : list keyval) : option (option nat) :=
  match b with
  | [] => Some None
  | [e] => Some (if wequal key (fst e) then Some 0%nat else None)
  | _ => eq_sortvec_get key b
  end.
Definition eq_hashvec_get (key : val) (bs : list (list keyval)) : option (option (nat * nat)) :=
  let off := offset (eh ec) key bs in
  do b <- nth_error bs off;
  do r <- eq_bucket_get key b;
  Some (match r with Some i => Some (off, i) | None => None end).
(** eq_hash_bucket_insert, tables.c:1970-2005. *)
Definition eq_bucket_insert (key : val) (b : list keyval) : option (nat * list keyval) :=
  let size := Z.of_nat (length b) in
  do r <- bs_loop (fun m => word key ?= word m) (keys_of b) (S (length b)) 0 (size - 1) (Z.quot (size - 1) 2) 2;
  let '(middle, bottom, dir) := (r : Z * Z * Z) in
  if (dir =? 0)%Z then Some (Z.to_nat middle, b)
  else
    let ipos := Z.to_nat (middle + (if (middle <? bottom)%Z then 1 else 0))%Z in
    Some (ipos, insert_at ipos (key, EMPTYV) b).
(** eq_hashvec_insert, tables.c:2007-2034. *)
Definition eq_hashvec_insert (key : val) (bs : list (list keyval))
  : option (nat * nat * list (list keyval) * N) :=
  let off := offset (eh ec) key bs in
  do b <- nth_error bs off;
  match b with
  | [] => Some (off, 0%nat, set_at off [(key, EMPTYV)] bs, 1)
  | [e] =>
    if same key (fst e) then Some (off, 0%nat, bs, 0)
    else do r <- eq_bucket_insert key b; let (i, b') := (r : nat * list keyval) in
         Some (off, i, set_at off b' bs, 1)
  | _ =>
    do r <- eq_bucket_insert key b; let (i, b') := (r : nat * list keyval) in
    Some (off, i, set_at off b' bs, if (length b <? length b')%nat then 1 else 0)
  end.

(** resize_hashtable, tables.c:3535-3573, calls hashvec_insert for every table:
    structural hash, structural comparison. *)
Definition lisp_offset (key : val) (bs : list (list keyval)) : nat :=
  N.to_nat (lhash ec (struct_of key) mod N.of_nat (length bs)).
Definition lisp_bucket_insert (key : val) (b : list keyval) : option (nat * list keyval) :=
  let size := Z.of_nat (length b) in
  do r <- bs_loop (fun m => bcmp (struct_of key) (struct_of m)) (keys_of b) (S (length b)) 0 (size - 1)
            (Z.quot (size - 1) 2) 2;
  let '(middle, bottom, dir) := (r : Z * Z * Z) in
  if (dir =? 0)%Z then Some (Z.to_nat middle, b)
  else
    let ipos := Z.to_nat (middle + (if (middle <? bottom)%Z then 1 else 0))%Z in
    Some (ipos, insert_at ipos (key, EMPTYV) b).
Definition lisp_hashvec_insert (key : val) (bs : list (list keyval))
  : option (nat * nat * list (list keyval) * N) :=
  let off := lisp_offset key bs in
  do b <- nth_error bs off;
  match b with
  | [] => Some (off, 0%nat, set_at off [(key, EMPTYV)] bs, 1)
  | [e] =>
    if lequal (struct_of key) (struct_of (fst e)) then Some (off, 0%nat, bs, 0)
    else do r <- lisp_bucket_insert key b; let (i, b') := (r : nat * list keyval) in
         Some (off, i, set_at off b' bs, 1)
  | _ =>
    do r <- lisp_bucket_insert key b; let (i, b') := (r : nat * list keyval) in
    Some (off, i, set_at off b' bs, if (length b <? length b')%nat then 1 else 0)
  end.
Definition eq_put_entry (bs : list (list keyval)) (e : keyval) : option (list (list keyval)) :=
  do r <- lisp_hashvec_insert (fst e) bs;
  let '(off, i, bs', _) := (r : nat * nat * list (list keyval) * N) in
  write_in bs' off i (snd e).
Fixpoint eq_put_all (bs : list (list keyval)) (es : list keyval) : option (list (list keyval)) :=
  match es with
  | [] => Some bs
  | e :: es => do bs' <- eq_put_entry bs e; eq_put_all bs' es
  end.
Definition eq_resize (ht : hashtable) (n : N) : option hashtable :=
  do bs <- eq_put_all (new_buckets n) (concat (buckets ht));
  Some {| buckets := bs; n_keys := n_keys ht; ht_ro := ht_ro ht |}.
Definition eq_auto_resize (ht : hashtable) : option hashtable :=
  if needs_resize (eh ec) ht then do n <- get_hashtable_size (resize_target (eh ec) ht); eq_resize ht n
  else Some ht.

Variable cf : config.
(** kno_hashtable_store, tables.c:2318-2362. *)
Definition eq_store (ht : hashtable) (key : val) (value : lv) : option (Z * hashtable) :=
  if trouble value then Some ((-1)%Z, ht)
  else if emptyp key then Some (0%Z, ht)
  else if troublep key then Some ((-1)%Z, ht)
  else if ht_ro ht then Some ((-1)%Z, ht)
  else
    let ht0 := ensure (eh ec) ht in
    do r <- eq_hashvec_insert key (buckets ht0);
    let '(off, i, bs, inc) := (r : nat * nat * list (list keyval) * N) in
    do newv <- (match value with Pre _ => do s <- simplify cf value; Some (Simple s)
                               | Simple _ => Some value end);
    do bs' <- write_in bs off i newv;
    do ht' <- eq_auto_resize {| buckets := bs'; n_keys := n_keys ht0 + inc; ht_ro := ht_ro ht0 |};
    Some (if 0 <? inc then 1%Z else 0%Z, ht').
(** kno_hashtable_drop, tables.c:2552-2598. *)
Definition eq_drop (ht : hashtable) (key : val) (value : lv) : option (Z * hashtable) :=
  if emptyp key then Some (0%Z, ht)
  else if troublep key then Some ((-1)%Z, ht)
  else if trouble value then Some ((-1)%Z, ht)
  else if n_keys ht =? 0 then Some (0%Z, ht)
  else if ht_ro ht then Some ((-1)%Z, ht)
  else
    do r <- eq_hashvec_get key (buckets ht);
    match r with
    | None => Some (0%Z, ht)
    | Some (off, i) =>
      do b <- nth_error (buckets ht) off;
      do cur <- value_at b i;
      do new <- (if lemptyp cur || lvoidp value then Some EMPTYV else kno_difference cf cur value);
      if lemptyp new then
        Some (1%Z, {| buckets := set_at off (remove_at i b) (buckets ht);
                      n_keys := n_keys ht - 1; ht_ro := ht_ro ht |})
      else
        do bs <- write_in (buckets ht) off i new;
        Some (1%Z, {| buckets := bs; n_keys := n_keys ht; ht_ro := ht_ro ht |})
    end.
(** kno_hashtable_get, tables.c:2055-2107. *)
Definition eq_get (ht : hashtable) (key : val) (dflt : lv) : option lv :=
  if emptyp key then Some EMPTYV
  else if n_keys ht =? 0 then Some dflt
  else
    do r <- eq_hashvec_get key (buckets ht);
    match r with
    | None => Some dflt
    | Some (off, i) =>
      do v <- value_in (buckets ht) off i;
      if lvoidp v then Some dflt
      else match v with Pre _ => do s <- simplify cf v; Some (Simple s) | Simple _ => Some v end
    end.
End Eq_ops.

(** * Table operations that compute the new value from the old one.

    Source: do_hashtable_op and kno_hashtable_op, /repo/src/lisp/tables.c:2659-2949, for the
    operations increment, multiply, maximize, minimize (each also "if present"), default,
    init, replace, replace_novoid and push.  The operations store, add, drop, test and
    haskey of the same function are those of HashtableModel.

    Numbers are exact reals; with flonums and complex numbers the outcome is [None] here
    ("not modelled").  Tables keyed by identity are not covered (EqhashModel).  Otherwise
    [None] is undefined behaviour. *)

From Verif Require Export HashtableModel.
From Verif Require BigintModel NumbersModel.
Module B := BigintModel.
Module A := NumbersModel.
Local Open Scope N_scope.

(** ** Numbers as values *)

(** KNO_INT2FIX and KNO_FIX2INT, ptr.h:646-647, on 64-bit words. *)
Definition fix_word (z : Z) : val := VAtom (Z.to_N ((4 * z + 2) mod 2 ^ 64)%Z).
Definition word_fix (w : N) : Z :=
  ((if (w <? 2 ^ 63)%N then Z.of_N w else Z.of_N w - 2 ^ 64) / 4)%Z.
Definition fixnump (v : val) : bool := match v with VAtom w => w mod 4 =? 2 | _ => false end.
(** NUMBERP, ptr.h:1105-1109. *)
Definition numeric (v : val) : bool := fixnump v || match v with VNum _ => true | _ => false end.

(** ValueModel keeps the value of a bigint, BigintModel its digits: base 2^30, least
    significant first. *)
Fixpoint z_digits (fuel : nat) (z : Z) : list Z :=
  match fuel with
  | O => []
  | S f => if (z =? 0)%Z then [] else (z mod B.radix)%Z :: z_digits f (z / B.radix)%Z
  end.
Definition big_of_z (z : Z) : B.bigint :=
  B.BI (z <? 0)%Z (z_digits (S (Z.to_nat (Z.log2 (Z.abs z)))) (Z.abs z)).
Fixpoint z_of_digits (ds : list Z) : Z :=
  match ds with [] => 0 | d :: t => d + B.radix * z_of_digits t end%Z.
Definition z_of_big (b : B.bigint) : Z :=
  if B.bneg b then (- z_of_digits (B.bdig b))%Z else z_of_digits (B.bdig b).
Definition int_of_z (z : Z) : A.inum :=
  if (A.min_fixnum <=? z)%Z && (z <=? A.max_fixnum)%Z then A.Fix z else A.Big (big_of_z z).
Definition z_of_int (i : A.inum) : Z := match i with A.Fix z => z | A.Big b => z_of_big b end.
(** The exact real that a value is, and back. *)
Definition real_of (v : val) : option A.real :=
  match v with
  | VAtom w => if fixnump v then Some (A.RI (A.Fix (word_fix w))) else None
  | VNum (NReal (RInt z)) => Some (A.RI (A.Big (big_of_z z)))
  | VNum (NReal (RRat n d)) => Some (A.RR (int_of_z n) (int_of_z d))
  | _ => None
  end.
Definition of_real (r : A.real) : val :=
  match r with
  | A.RI (A.Fix z) => fix_word z
  | A.RI (A.Big b) => VNum (NReal (RInt (z_of_big b)))
  | A.RR n d => VNum (NReal (RRat (z_of_int n) (z_of_int d)))
  end.
Definition arith (f : A.real -> A.real -> option (A.res A.real)) (x y : val) : option val :=
  do a <- real_of x; do b <- real_of y; do r <- f a b;
  match r with A.Val c => Some (of_real c) | _ => None end.

(** ** One element of the operand, tables.c:2826-2843 and 2854-2871 *)

(** KNO_INTP, ptr.h:719-720. *)
Definition intp (z : Z) : bool := (-2147483648 <=? z)%Z && (z <=? 2147483647)%Z.
Definition fix_of (v : val) : option Z := match v with VAtom w => if fixnump v then Some (word_fix w) else None | _ => None end.
Definition inc_one (cur v : val) : option val :=
  match fix_of cur, fix_of v with
  | Some c, Some d => do s <- B.int64 (c + d)%Z; do i <- A.kno_int s; Some (of_real (A.RI i))
  | _, _ => arith A.rplus cur v
  end.
Definition mul_one (cur v : val) : option val :=
  match fix_of cur, fix_of v with
  | Some c, Some d =>
    if intp c && intp d then do s <- B.int64 (c * d)%Z; do i <- A.kno_int s; Some (of_real (A.RI i))
    else arith A.rmultiply cur v
  | _, _ => arith A.rmultiply cur v
  end.
(** The loop over the elements of the operand.  [cur] is read once, before the loop; when
    it is a heap object and a sum different from it is stored, its reference is dropped
    (tables.c:2841, 2869) and reading it again is undefined ([freed]).  [neutral]: adding
    fixnum 0, or multiplying by fixnum 1, gives the same object back and nothing is
    stored. *)
Fixpoint op_loop (f : val -> val -> option val) (neutral : Z) (cur : val) (freed : bool) (new : lv)
  (vs : list val) : option (Z * lv) :=
  match vs with
  | [] => Some (1%Z, new)
  | v :: vs' =>
    if freed then None
    else if numeric v then
      do n <- f cur v;
      if negb (fixnump cur) && match fix_of v with Some z => (z =? neutral)%Z | None => false end
      then op_loop f neutral cur false new vs'
      else op_loop f neutral cur (negb (fixnump cur)) (Simple (SVal n)) vs'
    else Some ((-1)%Z, new)
  end.

(** ** The operations *)

Inductive tableop :=
| Increment (ifp : bool) | Multiply (ifp : bool) | Maximize (ifp : bool) | Minimize (ifp : bool)
| Default | Init | Replace | ReplaceNovoid | Push.

(** The elements DO_CHOICES runs through. *)
Definition choice_elts (s : simple) : list val :=
  match s with SVal v => if emptyp v then [] else [v] | SChoice _ l => l end.
Definition LOCKHOLDER : val := VAtom 85.
Definition KNIL : val := VAtom 17.
Definition novalue (x : lv) : bool := lemptyp x || lvoidp x.
(** tables.c:2758-2759. *)
Definition uninit (x : lv) : bool :=
  novalue x || match x with Simple (SVal (VAtom w)) => (w =? 0) || (w =? 85) | _ => false end.

Section Op.
Variable hc : hcfg.
Variable cf : config.

(** The second switch, tables.c:2755-2910: the return code and the new value of the slot. *)
Definition num_op (f : val -> val -> option val) (neutral : Z) (cur value : lv) : option (Z * lv) :=
  if novalue cur then Some (1%Z, value)
  else match cur with
       | Simple (SVal c) =>
         if numeric c then do s <- simplify cf value; op_loop f neutral c false cur (choice_elts s)
         else Some ((-1)%Z, cur)
       | _ => Some ((-1)%Z, cur)
       end.
Definition ext_op (better : Z -> bool) (cur value : lv) : option (Z * lv) :=
  if novalue cur then Some (1%Z, value)
  else match cur with
       | Simple (SVal c) =>
         if numeric c then
           match value with
           | Simple (SVal v) =>
             if numeric v then
               do x <- real_of v; do y <- real_of c; do r <- A.numcompare x y;
               Some (1%Z, if better r then value else cur)
             else Some ((-1)%Z, cur)
           | _ => Some ((-1)%Z, cur)
           end
         else Some ((-1)%Z, cur)
       | _ => Some ((-1)%Z, cur)
       end.
Definition op_value (op : tableop) (cur value : lv) : option (Z * lv) :=
  match op with
  | Increment ifp => if ifp && lvoidp cur then Some (1%Z, cur) else num_op inc_one 0 cur value
  | Multiply ifp => if ifp && lvoidp cur then Some (1%Z, cur) else num_op mul_one 1 cur value
  | Maximize ifp => if ifp && lvoidp cur then Some (1%Z, cur) else ext_op (fun c => (0 <? c)%Z) cur value
  | Minimize ifp => if ifp && lvoidp cur then Some (1%Z, cur) else ext_op (fun c => (c <? 0)%Z) cur value
  | Default => if novalue cur then Some (1%Z, value) else Some (0%Z, cur)
  | Init => if uninit cur then Some (1%Z, value) else Some (0%Z, cur)
  | Replace => Some (1%Z, value)
  | ReplaceNovoid => if lvoidp cur then Some (0%Z, cur) else Some (1%Z, value)
  | Push =>
    match value with
    | Simple (SVal v) =>
      if novalue cur then Some (1%Z, Simple (SVal (VPair v KNIL)))
      else match cur with
           | Simple (SVal (VPair a d)) => Some (1%Z, Simple (SVal (VPair v (VPair a d))))
           | Simple (SVal c) => Some (1%Z, Simple (SVal (VPair v (VPair c KNIL))))
           | _ => None                       (* a choice inside a list: not modelled *)
           end
    | _ => None
    end
  end.
(** The operations that leave the table alone when the key is not there,
    tables.c:2690-2709. *)
Definition needs_key (op : tableop) : bool :=
  match op with
  | Increment b | Multiply b | Maximize b | Minimize b => b
  | Replace | ReplaceNovoid => true
  | _ => false
  end.
Definition ignores_empty (op : tableop) : bool :=
  match op with Increment _ | Multiply _ | Maximize _ | Minimize _ => true | _ => false end.

(** do_hashtable_op, tables.c:2661-2923. *)
Definition do_hashtable_op (ht : hashtable) (op : tableop) (key : val) (value : lv) : option (Z * hashtable) :=
  if emptyp key then Some (0%Z, ht)
  else if troublep key then Some ((-1)%Z, ht)
  else if trouble value then Some ((-1)%Z, ht)
  else if ht_ro ht then Some ((-1)%Z, ht)
  else if lemptyp value && ignores_empty op then Some (0%Z, ht)
  else if needs_key op then
    if n_keys ht =? 0 then Some (0%Z, ht)
    else
      do r <- hashvec_get hc key (buckets ht);
      match r with
      | None => Some (0%Z, ht)
      | Some (off, i) =>
        do cur <- value_in (buckets ht) off i;
        do cn <- op_value op cur value; let (c, new) := (cn : Z * lv) in
        do bs <- write_in (buckets ht) off i new;
        Some (c, {| buckets := bs; n_keys := n_keys ht; ht_ro := ht_ro ht |})
      end
  else
    let ht0 := ensure hc ht in
    do r <- hashvec_insert hc key (buckets ht0);
    let '(off, i, bs, inc) := (r : nat * nat * list (list keyval) * N) in
    do cur <- value_in bs off i;
    do cn <- op_value op cur value; let (c, new) := (cn : Z * lv) in
    do bs' <- write_in bs off i new;
    Some (c, {| buckets := bs'; n_keys := n_keys ht0 + inc; ht_ro := ht_ro ht0 |}).
(** kno_hashtable_op, tables.c:2925-2949. *)
Definition hashtable_op (ht : hashtable) (op : tableop) (key : val) (value : lv) : option (Z * hashtable) :=
  if emptyp key then Some (0%Z, ht)
  else if troublep key then Some ((-1)%Z, ht)
  else if trouble value then Some ((-1)%Z, ht)
  else
    do r <- do_hashtable_op ht op key value; let (c, ht1) := (r : Z * hashtable) in
    do ht2 <- auto_resize hc ht1;
    Some (c, ht2).
(** kno_hashtable_iterkeys, tables.c:3022-3046: the operation on several keys.  The result
    is that of the operations up to the first that is not 0; the loop ends when that one
    is negative. *)
Fixpoint iterkeys (ht : hashtable) (op : tableop) (added : Z) (keys : list val) (value : lv)
  : option (Z * hashtable) :=
  match keys with
  | [] => Some (added, ht)
  | k :: ks =>
    do r <- do_hashtable_op ht op k value; let (c, ht1) := (r : Z * hashtable) in
    let added' := if (added =? 0)%Z then c else added in
    if (added' <? 0)%Z then Some (added', ht1) else iterkeys ht1 op added' ks value
  end.
Definition hashtable_iterkeys (ht : hashtable) (op : tableop) (keys : list val) (value : lv)
  : option (Z * hashtable) :=
  do r <- iterkeys ht op 0 keys value; let (added, ht1) := (r : Z * hashtable) in
  if (0 <? added)%Z then do ht2 <- auto_resize hc ht1; Some (added, ht2) else Some (added, ht1).
End Op.

(** * Writing and reading values as xtypes.

    Source: /repo/src/lisp/xtypes.c, /repo/include/kno/xtypes.h,
    /repo/src/lisp/numbers.c:1952-1965, 3524-3591, 3624-3632.

    Values, the process in which they are read and the numbers are those of DtypeModel.
    As there, the output buffer can grow without limit, the input is a buffer in memory
    without a fill function, and memory allocation always succeeds (in particular the
    array on the stack for the name of a symbol, xtypes.c:617). Types with a dump or
    restore function (struct KNO_TYPEINFO) are not modelled; nor are compression, UUIDs,
    timestamps and regular expressions.  Reference counts are not modelled. *)

From Coq Require Import NArith ZArith List Bool.
From Verif Require Import SortModel BytesModel ValueModel ChoicesModel DtypeModel.
From Verif Require BigintModel NumbersModel.
Import ListNotations.
Local Open Scope N_scope.

(** ** The process

    [x_r]: see DtypeModel.  [x_bases]: kno_base_oids (oids.c:30), the position of a base
    is its id.  [x_first]: the number of kno_rational_xtag; the constants that follow it
    in cons.c:910-920 get the numbers that follow. *)
Record xenv := { x_r : renv; x_bases : list N; x_first : N }.

(** The codes of the constants in the order of cons.c:910-920, xtypes.h:75-85. *)
Definition tag_codes : list N := [0xB0; 0xB1; 0xB2; 0xB4; 0xB5; 0xB6; 0xB3; 0xB8; 0xB9; 0xBA].
Fixpoint position (x : N) (l : list N) : option nat :=
  match l with
  | [] => None
  | a :: r => if a =? x then Some O else do i <- position x r; Some (S i)
  end.
Definition const_of_code (e : xenv) (code : N) : option dv :=
  do i <- position code tag_codes; Some (DConst (x_first e + N.of_nat i)).
Definition code_of_const (e : xenv) (n : N) : option N :=
  if n <? x_first e then None else nth_error tag_codes (N.to_nat (n - x_first e)).

(** ** Reference tables, xtypes.h:92-106

    [r_refs]: the first xt_refs_count entries of xt_refs; [r_len]: xt_refs_len; [r_max]:
    xt_refs_max; [r_lookup]: xt_lookup, restricted to OIDs and symbols (no other keys
    are looked up), the last entry for a key first.  [r_bad]: memory outside of xt_refs
    has been written, or xt_refs has been freed. *)
Record xrefs := {
  r_read_only : bool; r_add_oids : bool; r_add_syms : bool; r_changed : bool;
  r_refs : list dv; r_len : N; r_max : Z; r_lookup : list (dv * N); r_bad : bool }.

Fixpoint bytes_eqb (a b : bytes) : bool :=
  match a, b with
  | [], [] => true
  | x :: a', y :: b' => (x =? y) && bytes_eqb a' b'
  | _, _ => false
  end.
Definition keyp (x : dv) : bool := match x with DSym _ | DOid _ _ => true | _ => false end.
Definition key_eqb (x y : dv) : bool :=
  match x, y with
  | DSym s, DSym t => bytes_eqb s t
  | DOid h l, DOid h' l' => (h =? h') && (l =? l')
  | _, _ => false
  end.
Fixpoint lookup (k : dv) (t : list (dv * N)) : option N :=
  match t with
  | [] => None
  | (k', i) :: r => if key_eqb k' k then Some i else lookup k r
  end.

(** kno_init_xrefs, xtypes.c:101-138, without a table given: xt_refs_max is only
    assigned if the argument [max] is negative; [old_max] is what the structure contained
    before.  The table is filled from the first to the last entry (kno_hashtable_iter
    with kno_table_store; entries that are choices are left out). *)
Fixpoint fill (i : N) (l : list dv) (t : list (dv * N)) : list (dv * N) :=
  match l with
  | [] => t
  | x :: r => fill (i + 1) r (if keyp x then (x, i) :: t else t)
  end.
Definition init_xrefs (old_max : Z) (flags : option (bool * bool * bool)) (len : N) (max : Z)
    (elts : list dv) : xrefs :=
  let '(ro, oids, syms) := match flags with Some f => f | None => (false, true, true) end in
  {| r_read_only := ro; r_add_oids := oids; r_add_syms := syms; r_changed := false;
     r_refs := elts; r_len := len; r_max := if (max <? 0)%Z then (-1)%Z else old_max;
     r_lookup := fill 0 elts []; r_bad := false |}.

Definition set_read_only (r : xrefs) : xrefs :=
  {| r_read_only := true; r_add_oids := r_add_oids r; r_add_syms := r_add_syms r;
     r_changed := r_changed r; r_refs := r_refs r; r_len := r_len r; r_max := r_max r;
     r_lookup := r_lookup r; r_bad := r_bad r |}.
Definition set_len (len : N) (r : xrefs) : xrefs :=
  {| r_read_only := r_read_only r; r_add_oids := r_add_oids r; r_add_syms := r_add_syms r;
     r_changed := r_changed r; r_refs := r_refs r; r_len := len; r_max := r_max r;
     r_lookup := r_lookup r; r_bad := r_bad r |}.
Definition set_bad (r : xrefs) : xrefs :=
  {| r_read_only := r_read_only r; r_add_oids := r_add_oids r; r_add_syms := r_add_syms r;
     r_changed := r_changed r; r_refs := r_refs r; r_len := r_len r; r_max := r_max r;
     r_lookup := r_lookup r; r_bad := true |}.
(** xtypes.c:174-179.  kno_hashtable_add returns 1 for a key that was not there. *)
Definition push_ref (x : dv) (r : xrefs) : xrefs :=
  let ref := llen (r_refs r) in
  {| r_read_only := r_read_only r; r_add_oids := r_add_oids r; r_add_syms := r_add_syms r;
     r_changed := true; r_refs := r_refs r ++ [x]; r_len := r_len r; r_max := r_max r;
     r_lookup := (x, ref) :: r_lookup r; r_bad := r_bad r || (r_len r <=? ref) |}.

(** kno_add_xtype_ref, xtypes.c:148-182; [None] is -1.  A vector of length zero grows by
    nothing: realloc(p,0).  That xt_refs_count is an [int] is ignored. *)
Definition XTYPE_REFS_DELTA_MAX : N := 4096.
Definition add_xtype_ref (x : dv) (r : xrefs) : option N * xrefs :=
  if negb (keyp x) then (None, r)
  else match lookup x (r_lookup r) with
  | Some i => (Some i, r)
  | None =>
    if r_read_only r then (None, r)
    else
      let ref := llen (r_refs r) in
      if r_len r <=? ref then
        if ((0 <=? r_max r) && (r_max r <=? Z.of_N (r_len r)))%Z then (None, set_read_only r)
        else
          let delta := if XTYPE_REFS_DELTA_MAX <? r_len r then XTYPE_REFS_DELTA_MAX else r_len r in
          let new_size := r_len r + delta in
          if new_size =? 0 then (None, set_bad r)
          else (Some ref, push_ref x (set_len new_size r))
      else (Some ref, push_ref x r)
  end.

(** __kno_xtype_ref with [add] = -1, xtypes.h:138-160. *)
Definition xtype_ref (x : dv) (r : xrefs) : option N * xrefs :=
  if negb (keyp x) then (None, r)
  else match lookup x (r_lookup r) with
  | Some i => (Some i, r)
  | None =>
    if match x with DOid _ _ => r_add_oids r | _ => r_add_syms r end
    then add_xtype_ref x r else (None, r)
  end.

(** ** OIDs as base and offset, ptr.h:570-619 *)
Definition oid_addr64 (hi lo : N) : N := N.lor (N.shiftl hi 32) lo.
Definition oid_offset (lo : N) : N := N.land lo 0xFFFFF.
(** KNO_OID_BASE_ID: the position of the base; an OID whose base is not in the table does
    not exist. *)
Definition oid_base_id (e : xenv) (hi lo : N) : option nat :=
  position (oid_addr64 hi (N.ldiff lo 0xFFFFF)) (x_bases e).
(** KNO_CONSTRUCT_OID and KNO_OID_ADDR. *)
Definition oid_at (e : xenv) (id : nat) (off : N) : option dv :=
  do base <- nth_error (x_bases e) id;
  let a := base + off in
  Some (DOid (N.shiftr a 32) (N.land a 0xFFFFFFFF)).
(** kno_oid_ptr_type | (x & _KNO_OID_BUCKET_MASK), xtypes.c:235: the mask is 0xFFFF, the
    base id begins at bit 2, so that 14 of its 16 bits are kept. *)
Definition base_key (e : xenv) (id : nat) : option dv :=
  oid_at e (N.to_nat (N.of_nat id mod 2 ^ 14)) 0.

(** ** Writing *)

(** The settings that matter: XTYPE_NO_XTREFS; XTYPE_WRITE_OPAQUE with the printed
    representation; the order of kno_natsort_choice, as positions. *)
Record xconf := { x_norefs : bool; x_opaque : option (dv -> bytes); x_order : list dv -> list nat }.

(** A writer: the bytes appended and the number returned, and the table (NULL is [None])
    as it is left behind. *)
Definition writer := option xrefs -> wres * option xrefs.
Definition wput (b : bytes) : writer := fun r => ((b, Z.of_nat (length b)), r).
Definition wfail : writer := fun r => (([], (-1)%Z), r).
(** kno_write_varint. *)
Definition wvarint (n : N) : wres := (put_varint n, Z.of_N (write_varint_rv n)).
(** A code followed by a number. *)
Definition wcode (code n : N) : wres := (code :: fst (wvarint n), (1 + snd (wvarint n))%Z).

(** Loops that stop at the first negative result and return it (choices 218-223, pairs
    379-385, slotmaps 1024-1034, hashtables 1076-1085, hashsets 1106-1111, compounds
    1163-1181).  All negative results are -1. *)
Fixpoint wall (l : list writer) (len : Z) : writer := fun r =>
  match l with
  | [] => (([], len), r)
  | w :: t =>
    let '((b, n), r1) := w r in
    if (n <? 0)%Z then ((b, n), r1)
    else let '((bs, m), r2) := wall t (len + n)%Z r1 in ((b ++ bs, m), r2)
  end.
Definition wafter (h : bytes) (w : writer) : writer := fun r =>
  let '((b, n), r1) := w r in ((h ++ b, n), r1).
(** Vectors, xtypes.c:364-375: elements that could not be written are passed over. *)
Fixpoint wsome (l : list writer) (len : Z) : writer := fun r =>
  match l with
  | [] => (([], len), r)
  | w :: t =>
    let '((b, n), r1) := w r in
    let '((bs, m), r2) := wsome t (if (0 <? n)%Z then (len + n)%Z else len) r1 in
    ((b ++ bs, m), r2)
  end.
(** write_schemap, xtypes.c:1039-1062: after the value the result for the key is tested. *)
Fixpoint wpairs (l : list writer) (len : Z) : writer := fun r =>
  match l with
  | k :: v :: t =>
    let '((b, n), r1) := k r in
    if (n <? 0)%Z then ((b, (-1)%Z), r1)
    else
      let '((b', n'), r2) := v r1 in
      let '((bs, m), r3) := wpairs t (len + n + n')%Z r2 in
      ((b ++ b' ++ bs, m), r3)
  | _ => (([], len), r)
  end.

Section Write.
Variables (e : xenv) (c : xconf).

(** Symbols, xtypes.c:259-271. *)
Definition write_symbol (s : bytes) : writer := fun r =>
  let plain := (0x93 :: put_varint (llen s) ++ s,
                (1 + Z.of_N (write_varint_rv (llen s)) + Z.of_N (llen s))%Z) in
  match r with
  | Some t =>
    if x_norefs c then (plain, r)
    else match xtype_ref (DSym s) t with
         | (Some i, t') => (wcode 0xA8 i, Some t')
         | (None, t') => (plain, Some t')
         end
  | None => (plain, r)
  end.
(** OIDs, xtypes.c:233-250. *)
Definition write_oid (hi lo : N) : writer := fun r =>
  let plain := (0x89 :: put_4bytes hi ++ put_4bytes lo, 9%Z) in
  match r with
  | Some t =>
    if x_norefs c then (plain, r)
    else match (do id <- oid_base_id e hi lo; base_key e id) with
         | None => (plain, r)
         | Some base =>
           match xtype_ref base t with
           | (Some i, t') =>
             ((0xA9 :: put_varint (oid_offset lo) ++ put_varint i,
               (1 + Z.of_N (write_varint_rv i) + Z.of_N (write_varint_rv (oid_offset lo)))%Z), Some t')
           | (None, t') => (plain, Some t')
           end
         end
  | None => (plain, r)
  end.
(** write_opaque, xtypes.c:1185-1202: the symbol is "_knopaque". *)
Definition knopaque : bytes := [95; 107; 110; 111; 112; 97; 113; 117; 101].
Definition write_opaque (srep : bytes) : writer :=
  wafter [0x99] (wall [write_symbol knopaque; wput (0x90 :: put_varint (llen srep) ++ srep)] 1).
Definition write_fallback (x : dv) : writer :=
  match x_opaque c with Some srep => write_opaque (srep x) | None => wfail end.
(** Constants, xtypes.c:279-343.  Line 318 looks up a constant in the table of references
    with kno_xtype_ref, which refuses everything but OIDs and symbols. *)
Definition write_const (n : N) : writer :=
  if n =? 1 then wput [0x82]
  else if n =? 2 then wput [0x81]
  else if n =? 3 then wput [0x83]
  else if n =? 4 then wput [0x84]
  else if n =? 5 then wput [0x85]
  else if (n =? 0) || (n =? 23) then wput [0x86]
  else match code_of_const e n with
       | Some code => wput [code]
       | None => write_fallback (DConst n)
       end.
(** Fixnums, xtypes.c:251-257. *)
Definition write_fixnum (z : Z) : writer := fun r =>
  (if (z <? 0)%Z then wcode 0x8D (Z.to_N (- z)) else wcode 0x8C (Z.to_N z), r).
(** write_bigint_xtype, numbers.c:3524-3559. *)
Definition write_bigint (b : B.bigint) : writer := fun r =>
  match B.fits_in_word b 32 true, B.bigint_to_digit_stream b 256 with
  | Some true, _ =>
    match B.bigint_to_long b with
    | Some z => write_fixnum z r
    | None => wfail r
    end
  | Some false, Some t =>
    ((if B.bneg b then 0x95 else 0x94) :: put_varint (llen t) ++ flat_map put_byte (map Z.to_N (rev t)),
     (1 + Z.of_N (write_varint_rv (llen t)) + Z.of_N (llen t))%Z, r)
  | _, _ => wfail r
  end.
(** Strings and packets, xtypes.c:347-361. *)
Definition write_block (code : N) (s : bytes) : writer := fun r =>
  ((code :: put_varint (llen s) ++ s, (1 + Z.of_N (write_varint_rv (llen s)) + Z.of_N (llen s))%Z), r).
(** A code, a number, elements. *)
Definition wcounted (code n : N) (loop : Z -> writer) : writer :=
  wafter (code :: put_varint n) (loop (1 + Z.of_N (write_varint_rv n))%Z).
(** write_choice_xtype, xtypes.c:206-226. *)
Definition write_choice (l : list dv) (ws : list writer) : writer :=
  wcounted 0xA0 (llen l) (wall (map (fun i => nth i ws wfail) (x_order c l))).

(** write_compound, xtypes.c:1154-1183.  What it uses of a compound besides tag and
    elements: compound_seqoff and compound_annotated. *)
Record chead := { ch_seqoff : Z; ch_annotated : bool }.
Definition plain_head : chead := {| ch_seqoff := -1; ch_annotated := false |}.
Definition write_compound (h : chead) (tag : writer) (elts : list writer) : writer :=
  let tablep := ch_annotated h in
  let n := llen elts + 4 - (if tablep then 1 else 0) in
  wcounted 0xA3 n (wall
    ([tag;
      (if (0 <=? ch_seqoff h)%Z then fun r => (wcode 0x8C (Z.to_N (ch_seqoff h)), r) else wput [0x82]);
      wput [0x82]]
     ++ (if tablep then [] else [wput [0x82]])
     ++ elts)).
(** xtypes.c:1134-1153: the bytes of a packet as they are.  (The second element may also
    be a reference table.) *)
Definition xtype_symbol : bytes := [120; 116; 121; 112; 101].
Definition verbatim (tag : dv) (l : list dv) : option bytes :=
  match tag, l with
  | DSym s, [DPacket _ p] => if bytes_eqb s xtype_symbol then Some p else None
  | DSym s, DPacket _ p :: DConst 1 :: _ => if bytes_eqb s xtype_symbol then Some p else None
  | _, _ => None
  end.

(** write_xtype, xtypes.c:230-439. *)
Fixpoint write_xtype (x : dv) {struct x} : writer :=
  match x with
  | DOid hi lo => write_oid hi lo
  | DFix z => write_fixnum z
  | DSym s => write_symbol s
  | DChar ch => fun r => (wcode 0x8E ch, r)
  | DConst n => write_const n
  | DStr s => write_block 0x90 s
  | DPacket false s => write_block 0x91 s
  | DPacket true s => write_block 0x92 s
  | DChoice l => write_choice l (map write_xtype l)
  | DVec l => wcounted 0xA1 (llen l) (wsome (map write_xtype l))
  | DPair a b => wafter [0x98] (wall [write_xtype a; write_xtype b] 1)
  | DSlotmap l => wcounted 0xA2 (llen l) (wall (map write_xtype l))
  | DSchemap l => wcounted 0xA2 (llen l) (wpairs (map write_xtype l))
  | DHashtable _ l => wafter [0x99; 0xB5] (fun r =>
      let '((b, n), r') := wcounted 0xA2 (llen l) (wall (map write_xtype l)) r in
      ((b, if (n <? 0)%Z then n else (n + 2)%Z), r'))
  | DHashset _ l => wafter [0x99; 0xB6] (fun r =>
      let '((b, n), r') := wcounted 0xA1 (llen l) (wall (map write_xtype l)) r in
      ((b, if (n <? 0)%Z then n else (n + 2)%Z), r'))
  | DCompound tag l =>
    match verbatim tag l with
    | Some p => wput p
    | None => write_compound plain_head (write_xtype tag) (map write_xtype l)
    end
  | DQChoice l => wafter [0x99; 0xB4] (fun r =>
      let '((b, n), r') := match l with [] => wput [0x83] r | _ => write_choice l (map write_xtype l) r end in
      ((b, if (n <? 0)%Z then n else (n + 2)%Z), r'))
  | DFlo w => wput (0x88 :: put_8bytes w)
  | DBig b => write_bigint b
  | DRat n d => wafter [0x99; 0xB0; 0x98] (wall [write_xtype n; write_xtype d] 3)
  | DCpx a b => wafter [0x99; 0xB1; 0x98] (wall [write_xtype a; write_xtype b] 3)
  | DMystery _ _ _ _ _ | DOther _ _ => write_fallback x
  end.

(** kno_embed_xtype, xtypes.c:468-489.  A negative result, or a result of zero, is
    returned as -1. *)
Fixpoint wplain (l : list dv) (len : Z) : wres :=
  match l with
  | [] => ([], len)
  | x :: t =>
    let '((b, n), _) := write_xtype x None in
    if (n <=? 0)%Z then (b, (-1)%Z)
    else let (bs, m) := wplain t (len + n)%Z in (b ++ bs, m)
  end.
Definition embed_xtype (x : dv) : writer := fun r =>
  match r with
  | Some t =>
    match r_refs t with
    | [] => write_xtype x r
    | refs =>
      let (b1, n1) := wplain refs (2 + Z.of_N (write_varint_rv (llen refs)))%Z in
      let h := [0x9D; 0xA1] ++ put_varint (llen refs) ++ b1 in
      if (n1 <? 0)%Z then ((h, (-1)%Z), r)
      else
        let '((b2, n2), r') := write_xtype x r in
        ((h ++ b2, if (n2 <=? 0)%Z then (-1)%Z else (n1 + n2)%Z), r')
    end
  | None => write_xtype x r
  end.
End Write.

(** ** Reading *)

(** What a call of read_xtype does: a value and the bytes that are left; undefined
    behaviour; a loop without end; not modelled. *)
Inductive xrd := XRd (v : dv) (rest : bytes) | XBad | XLoop | XUnk.
Inductive xrds := XRds (l : list dv) (rest : bytes) | XStop (l : list dv) (v : dv) (rest : bytes)
                | XsBad | XsLoop | XsUnk.

(** The loops of the readers: they stop at ABORTED values; [XStop] has the elements read
    before. *)
Fixpoint xread_n (rd1 : bytes -> xrd) (n : nat) (b : bytes) : xrds :=
  match n with
  | O => XRds [] b
  | S n' =>
    match rd1 b with
    | XRd v r =>
      if abortp v then XStop [] v r
      else match xread_n rd1 n' r with
           | XRds l r' => XRds (v :: l) r'
           | XStop l v' r' => XStop (v :: l) v' r'
           | o => o
           end
    | XBad => XsBad
    | XLoop => XsLoop
    | XUnk => XsUnk
    end
  end.

(** xt_read_varint, xtypes.c:84-92: an [ssize_t], -1 at the end of the data. *)
Definition ssize (n : N) : Z := if n <? 2 ^ 63 then Z.of_N n else (Z.of_N n - 2 ^ 64)%Z.
Definition xt_varint (b : bytes) : Z * bytes :=
  match read_varint b with Some (n, r) => (ssize n, r) | None => ((-1)%Z, []) end.

(** kno_read_bytes, bufio.h:494-502, of a length that may be negative: then the test
    [bufread+n <= buflim] succeeds and memcpy is called with a length above 2^63. *)
Definition xread_bytes (n : Z) (b : bytes) (k : bytes -> bytes -> xrd) : xrd :=
  if (n <? 0)%Z then XBad
  else if negb (request_bytes b (Z.to_nat n)) then XRd D_ERROR b
  else k (firstn (Z.to_nat n) b) (skipn (Z.to_nat n) b).

(** KNO_INT, of values of long long: what is not a fixnum becomes a bigint (not modelled:
    the writer does not write these). *)
Definition xint (z : Z) (rest : bytes) : xrd :=
  if ((A.min_fixnum <=? z) && (z <=? A.max_fixnum))%Z then XRd (DFix z) rest else XUnk.

(** restore_bigint, numbers.c:3624-3632, and xtypes.c:637-642: a result that is a fixnum
    is an error. *)
Definition restore_bigint (digits : bytes) (neg : bool) (rest : bytes) : xrd :=
  match (do r <- B.digit_stream_to_bigint (map Z.of_N digits) 256 neg;
         match r with Some b => do i <- A.simplify b; Some (Some i) | None => Some None end) with
  | Some (Some (A.Big b)) => XRd (DBig b) rest
  | Some _ => XRd D_ERROR rest
  | None => XUnk
  end.

(** kno_make_rational, numbers.c:2105-2151. *)
Definition inum_of (x : dv) : option A.inum :=
  match x with DFix z => Some (A.Fix z) | DBig b => Some (A.Big b) | _ => None end.
Definition dv_of (i : A.inum) : dv := match i with A.Fix z => DFix z | A.Big b => DBig b end.
Definition restore_rational (n d : dv) (rest : bytes) : xrd :=
  match inum_of n, inum_of d with
  | Some a, Some b =>
    match A.make_rational a b with
    | Some (A.Val (A.RI i)) => XRd (dv_of i) rest
    | Some (A.Val (A.RR n' d')) => XRd (DRat (dv_of n') (dv_of d')) rest
    | Some A.Err => XRd D_ERROR rest
    | _ => XUnk
    end
  | _, _ => XRd D_ERROR rest
  end.
(** kno_make_complex, numbers.c:2057-2066, 2084-2089, with kno_numcompare, 2640-2672: a
    flonum never compares as equal to the fixnum zero, and anything that is not a number
    does not either. *)
Definition restore_complex (re im : dv) (rest : bytes) : xrd :=
  match im with
  | DCpx _ _ => XUnk
  | DFix z => XRd (if (z =? 0)%Z then re else DCpx re im) rest
  | DBig b => if (int_val im =? 0)%Z then XUnk else XRd (DCpx re im) rest
  | DRat n d => if (int_val n =? 0)%Z then XUnk else XRd (DCpx re im) rest
  | _ => XRd (DCpx re im) rest
  end.

(** ** Choices: kno_init_choice on the data of the choice itself

    xtypes.c:659-663 calls kno_init_choice (choices.c:286-376) with [data] being the data
    of [ch].  Above kno_bigchoice_threshold elements kno_big_sort then gets the same
    vector as input and as output (335-347: a copy is made if [xdata] is NULL, and it is
    NULL exactly if [data] is a different vector). *)
Section Alias.
Variable atomic : bool.
Record ascan := { a_top : val; a_ptr : nat; a_lim : nat }.
Definition set_at (i : nat) (x : val) (l : list val) : list val := firstn i l ++ x :: skipn (S i) l.
(** atomic_pop, cons_pop, choices.c:661-669, 696-704. *)
Fixpoint a_skip (n : nat) (arr : list val) (last : val) (ptr : nat) : option nat :=
  match n with
  | O => Some ptr
  | S n' => do x <- nth_error arr ptr; do q <- scan_eq atomic x last;
            if (q : bool) then a_skip n' arr last (S ptr) else Some ptr
  end.
(** shuffle_scanners, choices.c:640-659. *)
Fixpoint a_drop (v : list ascan) : list ascan :=
  match v with s :: v' => if Nat.eqb (a_ptr s) (a_lim s) then a_drop v' else v | [] => [] end.
Fixpoint a_insert (s : ascan) (v : list ascan) : option (list ascan) :=
  match v with
  | [] => Some [s]
  | t :: v' => do q <- choice_cmp atomic (a_top s) (a_top t);
               match q with Gt => do r <- a_insert s v'; Some (t :: r) | _ => Some (s :: v) end
  end.
(** The loop over the last scanner, 684-691, 722-731. *)
Fixpoint a_copy (n : nat) (arr : list val) (w : nat) (last : val) (ptr : nat) : option (list val * nat) :=
  match n with
  | O => Some (arr, w)
  | S n' => do x <- nth_error arr ptr; do q <- scan_eq atomic x last;
            if (q : bool) then a_copy n' arr w last (S ptr)
            else a_copy n' (set_at w x arr) (S w) x (S ptr)
  end.
(** atomic_scanner_loop, scanner_loop, choices.c:671-732: the vector and the number of
    elements written to its beginning. *)
Fixpoint a_loop (fuel : nat) (arr : list val) (w : nat) (last : val) (v : list ascan)
  : option (list val * nat) :=
  match v with
  | [] => Some (arr, w)
  | [s] => a_copy (a_lim s - a_ptr s) arr w last (a_ptr s)
  | s0 :: ((s1 :: _) as others) =>
    match fuel with
    | O => None
    | S f =>
      do q <- scan_eq atomic (a_top s0) last;
      let arr' := if (q : bool) then arr else set_at w (a_top s0) arr in
      let w' := if (q : bool) then w else S w in
      let last' := if (q : bool) then last else a_top s0 in
      do p <- a_skip (a_lim s0 - S (a_ptr s0)) arr' last' (S (a_ptr s0));
      if Nat.eqb p (a_lim s0) then a_loop f arr' w' last' (a_drop others)
      else
        do x <- nth_error arr' p;
        let s0' := {| a_top := x; a_ptr := p; a_lim := a_lim s0 |} in
        do c <- choice_cmp atomic x (a_top s1);
        match c with
        | Lt => a_loop f arr' w' last' (s0' :: others)
        | _ => do v' <- a_insert s0' others; a_loop f arr' w' last' v'
        end
    end
  end.
Fixpoint a_scanners (start : nat) (bs : list (list val)) : option (list ascan) :=
  match bs with
  | [] => Some []
  | b :: t => do x <- hd_error b; do r <- a_scanners (start + length b) t;
              a_insert {| a_top := x; a_ptr := start; a_lim := (start + length b)%nat |} r
  end.
End Alias.
(** kno_big_sort and merge_scanners, choices.c:1428-1500, with [items] = [out]. *)
Definition big_sort_in_place (cf : config) (atomic : bool) (items : list val) : option (list val) :=
  match block_size cf with
  | O => None
  | S _ =>
    do bs <- sort_blocks atomic (blocks (Nat.div (length items) (block_size cf)) (block_size cf) items);
    do sc <- a_scanners atomic 0 bs;
    do r <- a_loop atomic (S (length items)) (concat bs) 0 NEVERSEEN sc;
    Some (firstn (snd r) (fst r))
  end.
Definition xchoice_flags (atomic : bool) : cflags :=
  {| f_sort := true; f_compress := true; f_realloc := true; f_atomic := atomic; f_conses := negb atomic |}.
Definition xinit_choice (cf : config) (data : list val) : option simple :=
  let atomic := forallb atomicp data in
  let n := length data in
  if (1 <? n)%nat && (0 <? big_threshold cf)%nat && (big_threshold cf <? n)%nat then
    do newdata <- big_sort_in_place cf atomic data;
    match newdata with
    | [] => Some (SVal KEMPTY)
    | [x] => Some (SVal x)
    | _ => Some (SChoice atomic newdata)
    end
  else init_choice cf data (xchoice_flags atomic).
Definition xmake_choice (e : renv) (l : list dv) : option dv :=
  do s <- xinit_choice (r_cf e) (map (vof e) l);
  match s with
  | SVal v => if emptyp v then Some D_EMPTY else find_elt e l v
  | SChoice _ vs => do r <- find_elts e l vs; Some (DChoice r)
  end.

(** ** The reader *)

Definition consp (x : dv) : bool :=
  match x with DConst _ | DChar _ | DSym _ | DFix _ | DOid _ _ => false | _ => true end.
(** KNO_TABLEP, tables.h:93-105; only used on the fourth part of a compound. *)
Definition tablep (x : dv) : bool :=
  match x with DOid _ _ | DSlotmap _ | DSchemap _ | DHashtable _ _ | DHashset _ _ => true | _ => false end.

(** xt_table, xtypes.c:681-705, after a loop that stopped: the entries that have been
    read are released and the table is returned all the same, with VOID for what has
    not been read. *)
Definition broken_table (n : nat) (l : list dv) (rest : bytes) : xrd :=
  let l' := firstn (2 * (length l / 2)) l in
  if existsb consp l' then XBad
  else XRd (DSlotmap (l' ++ repeat D_VOID (n - length l'))) rest.

(** Compounds, xtypes.c:706-741, with kno_init_compound_from_elts: tag, length of the
    head, schema and table are not checked.  [ch_seqoff] is a signed char, and
    KNO_COMPOUND_HEADER_LENGTH takes a byte of the flags (compounds.h:79). *)
Definition signed_char (z : Z) : Z := let w := (z mod 256)%Z in if (w <? 128)%Z then w else (w - 256)%Z.
Definition read_head (head_len table : dv) : chead :=
  let tp := tablep table in
  match head_len with
  | DFix z => {| ch_seqoff := if tp then signed_char (signed_char z + 1) else signed_char z; ch_annotated := tp |}
  | _ => {| ch_seqoff := -1; ch_annotated := tp |}
  end.
Inductive xcomp := XComp (h : chead) (tag : dv) (elts : list dv) (rest : bytes) | XNot (r : xrd).
Definition read_compound (rd1 : bytes -> xrd) (b : bytes) : xcomp :=
  let (n, b1) := xt_varint b in
  if (n <? 4)%Z then XNot (XRd D_ERROR b1)
  else if (2 ^ 31 <=? n)%Z then XNot XUnk
  else match rd1 b1 with
  | XRd tag b2 =>
    match rd1 b2 with
    | XRd head_len b3 =>
      match rd1 b3 with
      | XRd schema b4 =>
        match rd1 b4 with
        | XRd table b5 =>
          match xread_n rd1 (Z.to_nat (n - 4)) b5 with
          | XRds l r => XComp (read_head head_len table) tag (if tablep table then table :: l else l) r
          | XStop _ v r => XNot (XRd v r)
          | XsBad => XNot XBad
          | XsLoop => XNot XLoop
          | XsUnk => XNot XUnk
          end
        | o => XNot o
        end
      | o => XNot o
      end
    | o => XNot o
    end
  | o => XNot o
  end.

(** read_bigset, xtypes.c:854-872: [i] is never incremented, and the end of the data is
    not an error. *)
Fixpoint bigset_loop (fuel : nat) (rd1 : bytes -> xrd) (b : bytes) : xrd :=
  match fuel with
  | O => XUnk
  | S f =>
    match b with
    | [] => XLoop
    | _ =>
      match rd1 b with
      | XRd v r => if abortp v then XRd v r else bigset_loop f rd1 r
      | o => o
      end
    end
  end.
Definition read_bigset (rd1 : bytes -> xrd) (b : bytes) : xrd :=
  match b with
  | code :: b1 =>
    if negb (code =? 0xA1) then XRd D_ERROR b1
    else match read_varint b1 with
         | Some (n, b2) => if n =? 0 then XRd (DHashset 0 []) b2
                           else if n <? 2 ^ 31 then bigset_loop (S (length b2)) rd1 b2 else XUnk
         | None => XUnk
         end
  | [] => XRd D_ERROR []
  end.
(** read_bigtable, xtypes.c:823-852.  The table that is built from the keys and values
    (kno_initialize_hashtable) is not modelled. *)
Definition read_bigtable (rd1 : bytes -> xrd) (b : bytes) : xrd :=
  match b with
  | code :: b1 =>
    if negb (code =? 0xA2) then XRd D_ERROR b1
    else match read_varint b1 with
         | Some (n, b2) =>
           if negb (n <? 2 ^ 31) then XUnk
           else if negb (n mod 2 =? 0) then XRd D_ERROR b2
           else match xread_n rd1 (N.to_nat n) b2 with
                | XRds l r => XUnk
                | XStop _ _ r => XRd D_ERROR r
                | XsBad => XBad
                | XsLoop => XLoop
                | XsUnk => XUnk
                end
         | None => XUnk
         end
  | [] => XRd D_ERROR []
  end.

Section Read.
Variable e : xenv.

(** restore_tagged, xtypes.c:1206-1251.  Tags with a restore function, or whose type is
    declared to be a sequence, a table, opaque or mutable ([restores], see DtypeModel) are
    not modelled. *)
Definition restore_tagged (tag data : dv) (rest : bytes) : xrd :=
  match (match tag with DConst n => code_of_const e n | _ => None end) with
  | Some code =>
    if code =? 0xB4 then
      match data with
      | DChoice l => XRd (DQChoice l) rest
      | DConst 3 => XRd (DQChoice []) rest
      | _ => XRd data rest
      end
    else match data with
    | DPair a b =>
      if code =? 0xB0 then restore_rational a b rest
      else if code =? 0xB1 then restore_complex a b rest
      else XUnk
    | _ => XUnk
    end
  | None =>
    if restores (x_r e) tag then XUnk
    else match data with
         | DVec l => XRd (DCompound tag l) rest
         | _ => XRd (DCompound tag [data]) rest
         end
  end.
(** read_tagged, xtypes.c:806-821. *)
Definition read_tagged (rd1 : bytes -> xrd) (tag : dv) (b : bytes) : xrd :=
  match (match tag with DConst n => code_of_const e n | _ => None end) with
  | Some 0xB5 => read_bigtable rd1 b
  | Some 0xB6 => read_bigset rd1 b
  | _ =>
    match rd1 b with
    | XRd data r => if abortp data then XRd data r else restore_tagged tag data r
    | o => o
    end
  end.

(** Codes of a single byte, xtypes.c:502-518. *)
Definition read_constant (code : N) : option dv :=
  if code =? 0x81 then Some D_TRUE
  else if code =? 0x82 then Some D_FALSE
  else if code =? 0x83 then Some D_EMPTY
  else if code =? 0x84 then Some D_NIL
  else if code =? 0x85 then Some D_DEFAULT
  else if code =? 0x86 then Some (DConst 23)
  else const_of_code e code.

(** References, xtypes.c:520-541.  A negative index is not refused for xt_absref. *)
Definition read_absref (refs : option (list dv)) (b : bytes) : xrd :=
  let (off, r) := xt_varint b in
  match refs with
  | None => XRd D_ERROR r
  | Some t =>
    if (off <? 0)%Z then XBad
    else match nth_error t (Z.to_nat off) with Some v => XRd v r | None => XRd D_ERROR r end
  end.
Definition read_offref (refs : option (list dv)) (b : bytes) : xrd :=
  match refs with
  | None => XRd D_ERROR b
  | Some t =>
    let (oid_off, r) := xt_varint b in
    if (oid_off <? 0)%Z then XRd D_ERROR r
    else
      let (base_off, r') := xt_varint r in
      if (base_off <? 0)%Z then XRd D_ERROR r'
      else match nth_error t (Z.to_nat base_off) with
      | None => XRd D_ERROR r'
      | Some (DOid hi lo) =>
        if (2 ^ 20 <=? oid_off)%Z then XUnk
        else match (do id <- oid_base_id e hi lo; oid_at e id (Z.to_N oid_off)) with
             | Some v => XRd v r'
             | None => XUnk
             end
      | Some _ => XRd D_ERROR r'
      end
  end.

(** read_xtype, xtypes.c:493-793.  [fuel] bounds the depth of the recursion.
    - xt_block (623-628) has no return: the block is skipped and a bigint is read.
    - xt_objid, xt_uuid, xt_compressed are not modelled. *)
Definition mime_symbol : bytes := [37; 109; 105; 109; 101].
Definition encrypted_symbol : bytes := [37; 101; 110; 99; 114; 121; 112; 116; 101; 100].
Definition read_big (neg : bool) (b : bytes) : xrd :=
  let (n, b1) := xt_varint b in
  xread_bytes n b1 (fun digits r => restore_bigint digits neg r).
Fixpoint xread_loop (fuel : nat) (refs : option (list dv)) (b : bytes) {struct fuel} : xrd :=
  match fuel with
  | O => XUnk
  | S f =>
    let rd1 := xread_loop f refs in
    match b with
    | [] => XRd D_EOD b
    | code :: b1 =>
      match read_constant code with
      | Some v => XRd v b1
      | None =>
      if code =? 0xA8 then read_absref refs b1
      else if code =? 0xA9 then read_offref refs b1
      else if code =? 0x88 then
        xread_bytes 8 b1 (fun w r => match get8 w with Some n => XRd (DFlo n) r | None => XUnk end)
      else if code =? 0x89 then
        match read_4bytes b1 with
        | None => XRd D_ERROR b1
        | Some (hi, b2) =>
          match read_4bytes b2 with
          | None => XRd D_ERROR b2
          | Some (lo, b3) => XRd (DOid hi lo) b3
          end
        end
      else if (code =? 0x8C) || (code =? 0x8D) || (code =? 0x8E) then
        let (ival, r) := xt_varint b1 in
        if (ival <? 0)%Z then XRd D_ERROR r
        else if code =? 0x8C then xint ival r
        else if code =? 0x8D then xint (- ival) r
        else if (ival <? 2 ^ 23)%Z then XRd (DChar (Z.to_N ival)) r else XUnk
      else if (code =? 0x90) || (code =? 0x91) || (code =? 0x92) then
        let (len, b2) := xt_varint b1 in
        xread_bytes len b2 (fun s r =>
          XRd (if code =? 0x90 then DStr s else DPacket (code =? 0x92) s) r)
      else if code =? 0x93 then
        let (len, b2) := xt_varint b1 in
        if (len <? 0)%Z then XRd D_ERROR b2
        else xread_bytes len b2 (fun s r => if has_nul s then XUnk else XRd (DSym s) r)
      else if code =? 0x96 then
        let (len, b2) := xt_varint b1 in
        if (len <? 0)%Z then XRd D_ERROR b2
        else xread_bytes len b2 (fun _ r => read_big false r)
      else if (code =? 0x94) || (code =? 0x95) then read_big (code =? 0x95) b1
      else if code =? 0xA0 then
        let (n, b2) := xt_varint b1 in
        if (n <? 0)%Z || (2 ^ 31 <=? n)%Z then XUnk
        else match xread_n rd1 (Z.to_nat n) b2 with
             | XRds l r => match xmake_choice (x_r e) l with Some v => XRd v r | None => XUnk end
             | XStop _ v r => XRd v r
             | XsBad => XBad
             | XsLoop => XLoop
             | XsUnk => XUnk
             end
      else if code =? 0xA1 then
        let (n, b2) := xt_varint b1 in
        if (n <? 0)%Z then XBad
        else if (2 ^ 31 <=? n)%Z then XUnk
        else match xread_n rd1 (Z.to_nat n) b2 with
             | XRds l r => XRd (DVec l) r
             | XStop _ v r => XRd v r
             | XsBad => XBad
             | XsLoop => XLoop
             | XsUnk => XUnk
             end
      else if code =? 0xA2 then
        let (n, b2) := xt_varint b1 in
        if negb (Z.rem n 2 =? 0)%Z then XRd D_ERROR b2
        else if (n <? 0)%Z || (2 ^ 31 <=? n)%Z then XUnk
        else match xread_n rd1 (Z.to_nat n) b2 with
             | XRds l r => XRd (DSlotmap l) r
             | XStop l _ r => broken_table (Z.to_nat n) l r
             | XsBad => XBad
             | XsLoop => XLoop
             | XsUnk => XUnk
             end
      else if code =? 0xA3 then
        match read_compound rd1 b1 with
        | XComp h tag l r =>
          if (ch_seqoff h =? -1)%Z && negb (ch_annotated h) then XRd (DCompound tag l) r else XUnk
        | XNot o => o
        end
      else if code =? 0x99 then
        match rd1 b1 with
        | XRd tag r => if abortp tag then XRd tag r else read_tagged rd1 tag r
        | o => o
        end
      else if (code =? 0x98) || (code =? 0x9A) || (code =? 0x9B) || (code =? 0x9C) then
        match rd1 b1 with
        | XRd car r =>
          if abortp car then XRd car r
          else match rd1 r with
          | XRd cdr r' =>
            if abortp cdr then XRd cdr r'
            else if code =? 0x98 then XRd (DPair car cdr) r'
            else if code =? 0x9A then XRd (DCompound (DSym mime_symbol) [car; cdr]) r'
            else if code =? 0x9C then XRd (DCompound (DSym encrypted_symbol) [car; cdr]) r'
            else XUnk
          | o => o
          end
        | o => o
        end
      else if code =? 0x9D then
        match rd1 b1 with
        | XRd v r =>
          if abortp v then XRd v r
          else match v with
               | DVec l => xread_loop f (Some l) r
               | _ => XRd D_ERROR r
               end
        | o => o
        end
      else if (code =? 0x8A) || (code =? 0x8B) then XUnk
      else XRd D_ERROR b1
      end
    end
  end.
Definition read_xtype (refs : option (list dv)) (b : bytes) : xrd := xread_loop (S (length b)) refs b.

(** ** kno_validate_xtype, xtypes.c:882-1010

    The number returned and the bytes that are left.  Where a Lisp value is returned
    (default, and the two cases of xt_refcoded) it is converted to an [int]: KNO_ERROR is
    the constant 15, the word 61. *)
Inductive vres := VRes (rv : Z) (rest : bytes) | VBad | VLoop | VUnk.
Fixpoint validate_n (v1 : bytes -> vres) (n : nat) (b : bytes) : vres :=
  match n with
  | O => VRes 1 b
  | S n' =>
    match v1 b with
    | VRes rv r => if (rv <? 0)%Z then VRes (-1) r else validate_n v1 n' r
    | o => o
    end
  end.
(** The word of a constant as a C [int]. *)
Definition const_int (v : dv) : Z := match v with DConst n => Z.of_N (imm_word 0 n) | _ => 0%Z end.
Definition vskip (n : Z) (b : bytes) : vres :=
  if request_bytes b (Z.to_nat n) then VRes 1 (skipn (Z.to_nat n) b) else VRes (-1) b.
Fixpoint validate_loop (fuel : nat) (refs : option (list dv)) (b : bytes) {struct fuel} : vres :=
  match fuel with
  | O => VUnk
  | S f =>
    let v1 := validate_loop f refs in
    match b with
    | [] => VRes (-1) b
    | code :: b1 =>
      if existsb (N.eqb code) [0x81; 0x82; 0x83; 0x84; 0x85; 0x86] then VRes 1 b1
      else if existsb (N.eqb code) [0xB0; 0xB1; 0xB2; 0xB3; 0xB4; 0xB5; 0xB8; 0xB9; 0xBA] then VRes 1 b1
      else if code =? 0xA8 then
        let (off, r) := xt_varint b1 in
        match refs with
        | None => VRes 1 r
        | Some t => VRes (if (off <? Z.of_nat (length t))%Z then 1 else -1) r
        end
      else if code =? 0xA9 then
        let (oid_off, r) := xt_varint b1 in
        if (oid_off <? 0)%Z then VRes (-1) r
        else
          let (base_off, r') := xt_varint r in
          if (base_off <? 0)%Z then VRes (-1) r'
          else match refs with
               | None => VRes 1 r'
               | Some t => VRes (if (base_off <? Z.of_nat (length t))%Z then 1 else -1) r'
               end
      else if (code =? 0x88) || (code =? 0x89) then vskip 8 b1
      else if code =? 0x8A then vskip 12 b1
      else if code =? 0x8B then vskip 16 b1
      else if (code =? 0x8C) || (code =? 0x8D) || (code =? 0x8E) then
        let (ival, r) := xt_varint b1 in VRes (if (ival <? 0)%Z then -1 else 1) r
      else if existsb (N.eqb code) [0x90; 0x91; 0x92; 0x93; 0x94; 0x95] then
        let (len, r) := xt_varint b1 in
        if (len <? 0)%Z then VRes (-1) r else vskip len r
      else if code =? 0x96 then
        let (len, r) := xt_varint b1 in
        if (len <? 0)%Z then VRes (-1) r
        else match v1 r with
             | VRes rv r' =>
               if (0 <=? rv)%Z && negb (Z.of_nat (length r) - Z.of_nat (length r') =? len)%Z
               then VRes (-1) r' else VRes rv r'
             | o => o
             end
      else if (code =? 0xA0) || (code =? 0xA1) || (code =? 0xA2) then
        let (n, r) := xt_varint b1 in
        if (n <? 0)%Z then VRes (-1) r
        else if (2 ^ 31 <=? n)%Z then VUnk
        else validate_n v1 (Z.to_nat n) r
      else if existsb (N.eqb code) [0x98; 0x99; 0x9A; 0x9B; 0x9C] then validate_n v1 2 b1
      else if code =? 0x9D then
        match xread_loop f refs b1 with
        | XRd v r =>
          if abortp v then VRes (const_int v) r
          else match v with
               | DVec l => validate_loop f (Some l) r
               | _ => VRes (const_int D_ERROR) r
               end
        | XBad => VBad
        | XLoop => VLoop
        | XUnk => VUnk
        end
      else VRes (const_int D_ERROR) b1
    end
  end.
Definition validate_xtype (refs : option (list dv)) (b : bytes) : vres := validate_loop (S (length b)) refs b.
End Read.

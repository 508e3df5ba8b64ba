(** * Writing and reading values as dtypes.

    Source: /repo/src/lisp/dtwrite.c, /repo/src/lisp/dtread.c,
    /repo/include/kno/dtypeio.h:26-81 (the codes), /repo/src/lisp/numbers.c:1923-1950,
    3472-3508, 3609-3623 (flonums and bigints).

    The output buffer is one in memory that can grow, so that the elementary writers do
    not fail (BytesModel has the buffer itself); the input buffer is one in memory
    without a fill function, i.e. the list of the bytes that are left.  The flag
    KNO_FIX_DTSYMS and the variable kno_dtype_fixcase are off, and so is
    kno_check_utf8 (cons.c:57).  Memory allocation always succeeds. *)

From Coq Require Import NArith ZArith List Bool.
From Verif Require Import SortModel BytesModel ValueModel ChoicesModel.
From Verif Require BigintModel NumbersModel.
Module B := BigintModel.
Module A := NumbersModel.
Import ListNotations.
Local Open Scope N_scope.

(** ** Values

    Immediates are given by their data (ptr.h:425-432), a symbol by its name, an OID by
    its address, a flonum by the 64 bits of its representation.  The keys and values of
    a table alternate: [k1; v1; k2; v2; ...].
    [DConst n]: KNO_CONSTANT(n), ptr.h:745-771.
    [DQChoice l]: a quoted choice; the empty list stands for a quoted empty choice.
    [DHashtable n l], [DHashset n l]: [n] is table_n_keys or hs_n_elts, [l] the content
    of the buckets in the order in which they are scanned.
    [DMystery p c n bs l]: a KNO_MYSTERY_DTYPE with package, code, size and payload
    ([bs] or [l], according to the bit 0x80 of the code).
    [DOther]: any value whose type has no dtype writer.
    Not represented: prechoices, flags of compounds. *)
Inductive dv :=
| DConst (n : N)
| DChar (c : N)
| DSym (name : bytes)
| DFix (z : Z)
| DOid (hi lo : N)
| DBig (b : B.bigint)
| DFlo (w : N)
| DRat (n d : dv)
| DCpx (re im : dv)
| DStr (s : bytes)
| DPacket (secret : bool) (s : bytes)
| DPair (car cdr : dv)
| DVec (l : list dv)
| DChoice (l : list dv)
| DQChoice (l : list dv)
| DCompound (tag : dv) (l : list dv)
| DSlotmap (l : list dv)
| DSchemap (l : list dv)
| DHashtable (n : N) (l : list dv)
| DHashset (n : N) (l : list dv)
| DMystery (package code size : N) (payload : bytes) (elts : list dv)
| DOther (t a : N).

(** Constants, ptr.h:747-766. *)
Definition D_VOID := DConst 0.
Definition D_FALSE := DConst 1.
Definition D_TRUE := DConst 2.
Definition D_EMPTY := DConst 3.
Definition D_NIL := DConst 4.
Definition D_DEFAULT := DConst 5.
Definition D_EOD := DConst 7.
Definition D_XFORMAT_ERROR := DConst 10.
Definition D_ERROR := DConst 15.
(** KNO_ABORTP and KNO_ERRORP, ptr.h:815-822: the end-of-data constant is neither. *)
Definition abortp (x : dv) : bool :=
  match x with DConst n => (8 <? n) && (n <=? 18) | _ => false end.
Definition errorp (x : dv) : bool :=
  match x with DConst n => (8 <? n) && (n <? 16) | _ => false end.

(** ** Writing *)

(** What a call of kno_write_dtype does: the bytes appended and the number returned. *)
Definition wres := (bytes * Z)%type.

(** The settings that matter: KNO_USE_DTYPEV2; KNO_NATSORT_VALUES with the order used
    (kno_natsort_choice, choices.c: the positions in which the elements are taken);
    KNO_WRITE_OPAQUE with the printed representation (kno_lisp2string); what writing the
    value of an OID of the zero pool does, for the OIDs that have one (oids.c:227-242;
    [None] is VOID). *)
Record wconf := {
  w_v2 : bool;
  w_natsort : option (list dv -> list nat);
  w_opaque : option (dv -> bytes);
  w_zero : N -> option wres }.

(** The conversion of a long long to [unsigned int] or [unsigned long long]. *)
Definition word_of_z (bits : Z) (z : Z) : N := Z.to_N (z mod 2 ^ bits)%Z.

(** try_dtype_output and the macro kno_output_dtype, dtwrite.c:49-68, over a sequence:
    [len] is the length so far. *)
Fixpoint wseq (l : list wres) (len : Z) : wres :=
  match l with
  | [] => ([], len)
  | (b, dlen) :: t =>
    if (dlen <? 0)%Z then (b, (-1)%Z)
    else let (bs, r) := wseq t (len + dlen) in (b ++ bs, r)
  end.
(** Bytes followed by such a sequence. *)
Definition wpre (h : bytes) (r : wres) : wres := (h ++ fst r, snd r).

(** The length of an array as an N. *)
Definition llen {T : Type} (l : list T) : N := N.of_nat (length l).

(** The header of a choice, dtwrite.c:115-129, and of the other aggregates of the kno
    package (364-382, 442-450, 469-477, 496-504, 530-538).  Lengths are [int]s. *)
Definition package_header (small large : N) (is_small : bool) (len : N) : bytes * Z :=
  if is_small then (put_byte 0x42 ++ put_byte small ++ put_byte len, 3%Z)
  else (put_byte 0x42 ++ put_byte large ++ put_4bytes len, 6%Z).
Definition choice_header (c : wconf) (len : N) : bytes * Z :=
  if (len <? 256) && w_v2 c then (put_byte 0x12 ++ put_byte len, 2%Z)
  else package_header 0x80 0xC0 (len <? 256) len.

(** write_opaque, dtwrite.c:70-83. *)
Definition write_opaque (srep : bytes) : wres :=
  (put_byte 0x0b ++ put_byte 0x07 ++ put_4bytes 7 ++ [37; 111; 112; 97; 113; 117; 101]
   ++ put_byte 0x06 ++ put_4bytes (llen srep) ++ srep, (18 + Z.of_N (llen srep))%Z).
(** The last resort, dtwrite.c:273-280, 283-287 and 400-404 (kno_dtype_error is NULL,
    line 29). *)
Definition write_fallback (c : wconf) (x : dv) : wres :=
  match w_opaque c with Some srep => write_opaque (srep x) | None => ([], (-1)%Z) end.

(** Symbols, dtwrite.c:207-221, strings, 293-305. *)
Definition write_named (c : wconf) (tiny large : N) (s : bytes) : wres :=
  if w_v2 c && (llen s <? 256)
  then (put_byte tiny ++ put_byte (llen s) ++ s, (Z.of_N (llen s) + 2)%Z)
  else (put_byte large ++ put_4bytes (llen s) ++ s, (Z.of_N (llen s) + 5)%Z).

(** Characters, dtwrite.c:222-248; the last case cannot occur, the data of an immediate
    has 23 bits (ptr.h:430). *)
Definition write_char (c : N) : wres :=
  if c <? 128 then (put_byte 0x40 ++ put_byte 0 ++ put_byte 1 ++ put_byte c, 4%Z)
  else if c <? 0x100 then (put_byte 0x40 ++ put_byte 1 ++ put_byte 1 ++ put_byte c, 4%Z)
  else if c <? 0x10000 then
    (put_byte 0x40 ++ put_byte 1 ++ put_byte 2 ++ put_byte (N.land (N.shiftr c 8) 0xFF)
     ++ put_byte (N.land c 0xFF), 5%Z)
  else if c <? 0x1000000 then
    (put_byte 0x40 ++ put_byte 1 ++ put_byte 3 ++ put_byte (N.land (N.shiftr c 16) 0xFF)
     ++ put_byte (N.land (N.shiftr c 8) 0xFF) ++ put_byte (N.land c 0xFF), 6%Z)
  else (put_byte 0x40 ++ put_byte 1 ++ put_byte 3 ++ put_4bytes c, 7%Z).

(** Constants, dtwrite.c:249-280. *)
Definition write_const (c : wconf) (n : N) : wres :=
  if n =? 0 then (put_byte 0x0a, 1%Z)
  else if n =? 1 then (put_byte 0x02 ++ put_byte 0, 2%Z)
  else if n =? 2 then (put_byte 0x02 ++ put_byte 1, 2%Z)
  else if n =? 3 then
    if w_v2 c then (put_byte 0x13, 1%Z)
    else (put_byte 0x42 ++ put_byte 0x80 ++ put_byte 0, 3%Z)
  else if n =? 4 then (put_byte 0x01, 1%Z)
  else if n =? 20 then (put_byte 0x15, 1%Z)
  else write_fallback c (DConst n).

(** Fixnums, dtwrite.c:188-203. *)
Definition write_fixnum (z : Z) : wres :=
  if ((z <=? 2147483647) && (-2147483648 <=? z))%Z
  then (put_byte 0x03 ++ put_4bytes (word_of_z 32 z), 5%Z)
  else (put_byte 0x41 ++ put_byte 0 ++ put_byte 9
        ++ put_byte (if (z <? 0)%Z then 1 else 0)
        ++ put_8bytes (word_of_z 64 (if (z <? 0)%Z then - z else z)), 12%Z).

(** write_bigint_dtype, numbers.c:3476-3508.  The buffer for the digits has the size
    kno_bigint_length_in_bytes; that it is large enough is not part of the model.
    Outside the domain of the digit functions nothing is written. *)
Definition write_bigint (b : B.bigint) : wres :=
  match B.fits_in_word b 32 true, B.bigint_to_digit_stream b 256 with
  | Some true, _ =>
    match B.bigint_to_long b with
    | Some z => (put_byte 0x03 ++ put_4bytes (word_of_z 32 z), 5%Z)
    | None => ([], (-1)%Z)
    end
  | Some false, Some t =>
    let digits := map Z.to_N (rev t) in
    let n := llen t in
    (put_byte 0x41
     ++ (if n + 1 <? 256 then put_byte 0 ++ put_byte (n + 1)
         else put_byte 0x40 ++ put_4bytes (n + 1))
     ++ put_byte (if B.bneg b then 1 else 0) ++ flat_map put_byte digits,
     if n + 1 <? 256 then (3 + Z.of_N n + 1)%Z else (6 + Z.of_N n + 1)%Z)
  | _, _ => ([], (-1)%Z)
  end.

(** Secret packets, dtwrite.c:312-326. *)
Definition write_secret (s : bytes) : wres :=
  if llen s <? 256
  then (put_byte 0x40 ++ put_byte 0x05 ++ put_byte (llen s) ++ s, (3 + Z.of_N (llen s))%Z)
  else (put_byte 0x40 ++ put_byte 0x45 ++ put_4bytes (llen s) ++ s, (6 + Z.of_N (llen s))%Z).

(** dtype_compound, dtwrite.c:622-641: a negative result for the tag, or for the only
    field, is added to the number of bytes; a negative result among several fields is
    returned. *)
Fixpoint wfields (l : list wres) (n_bytes : Z) : wres :=
  match l with
  | [] => ([], n_bytes)
  | (b, written) :: t =>
    if (written <? 0)%Z then (b, written)
    else let (bs, r) := wfields t (n_bytes + written) in (b ++ bs, r)
  end.
Definition write_compound (tag : wres) (fields : list wres) : wres :=
  let n_bytes := (1 + snd tag)%Z in
  match fields with
  | [f] => (put_byte 0x0b ++ fst tag ++ fst f, (n_bytes + snd f)%Z)
  | _ => wpre (put_byte 0x0b ++ fst tag ++ put_byte 0x09 ++ put_4bytes (llen fields))
              (wfields fields (n_bytes + 5))
  end.

(** write_mystery, dtwrite.c:411-433: a size of 256 takes the one-byte form. *)
Definition write_mystery (package code size : N) (payload : bytes) (elts : list wres) : wres :=
  let h := if 256 <? size
           then (put_byte package ++ put_byte (N.lor code 0x40) ++ put_4bytes size, 6%Z)
           else (put_byte package ++ put_byte (N.ldiff code 0x40) ++ put_byte size, 3%Z) in
  if negb (N.land code 0x80 =? 0)
  then wpre (fst h) (wseq elts (snd h))
  else (fst h ++ payload, (snd h + Z.of_N size)%Z).

(** kno_write_dtype, dtwrite.c:171-409, with write_choice_dtype (105-134), write_slotmap
    (435-460), write_schemap (462-487), write_hashtable (489-522) and write_hashset
    (524-555).  The loop over the cdrs of a list (327-339) is written as recursion: a
    cdr that is a pair starts with the same code byte that the loop writes. *)
Section Write.
Variable c : wconf.
Fixpoint write_dtype (x : dv) {struct x} : wres :=
  match x with
  | DOid hi lo =>
    match (if hi =? 0 then w_zero c lo else None) with
    | Some r => r
    | None => (put_byte 0x0e ++ put_4bytes hi ++ put_4bytes lo, 9%Z)
    end
  | DFix z => write_fixnum z
  | DSym s => write_named c 0x10 0x07 s
  | DChar ch => write_char ch
  | DConst n => write_const c n
  | DStr s => write_named c 0x11 0x06 s
  | DPacket false s => (put_byte 0x05 ++ put_4bytes (llen s) ++ s, (5 + Z.of_N (llen s))%Z)
  | DPacket true s => write_secret s
  | DPair a b => wpre (put_byte 0x08) (wseq [write_dtype a; write_dtype b] 1)
  | DRat n d => wpre (put_byte 0x81) (wseq [write_dtype n; write_dtype d] 1)
  | DCpx r i => wpre (put_byte 0x82) (wseq [write_dtype r; write_dtype i] 1)
  | DVec l => wpre (put_byte 0x09 ++ put_4bytes (llen l)) (wseq (map write_dtype l) 5)
  | DChoice l =>
    let data := match w_natsort c with
                | Some order => let ws := map write_dtype l in
                                map (fun i => nth i ws ([], (-1)%Z)) (order l)
                | None => map write_dtype l
                end in
    let h := choice_header c (llen l) in
    wpre (fst h) (wseq data (snd h))
  | DQChoice l =>
    let h := package_header 0x83 0xC3 (llen l <? 256) (llen l) in
    wpre (fst h) (wseq (map write_dtype l) (snd h))
  | DCompound tag l => write_compound (write_dtype tag) (map write_dtype l)
  | DSlotmap l | DSchemap l =>
    let h := package_header 0x81 0xC1 (llen l <? 256) (llen l) in
    wpre (fst h) (wseq (map write_dtype l) (snd h))
  | DHashtable n l =>
    let h := package_header 0x82 0xC2 (n <? 128) (n * 2) in
    wpre (fst h) (wseq (map write_dtype l) (snd h))
  | DHashset n l =>
    let h := package_header 0x84 0xC4 (n <? 128) n in
    wpre (fst h) (wseq (map write_dtype l) (snd h))
  | DMystery p k n bs l => write_mystery p k n bs (map write_dtype l)
  | DBig b => write_bigint b
  | DFlo w => (put_byte 0x41 ++ put_byte 0x01 ++ put_byte 8 ++ put_8bytes w, 11%Z)
  | DOther _ _ => write_fallback c x
  end.
End Write.

(** ** Reading *)

(** What a call of kno_read_dtype does: a value (which may be the end-of-data constant
    or an error constant) and the bytes that are left.  [RBad]: undefined behaviour.
    [RUnk]: not modelled. *)
Inductive rd := Rd (v : dv) (rest : bytes) | RBad | RUnk.
(** The same for a sequence of values; [RdsStop]: a value that stops the loop. *)
Inductive rds := Rds (l : list dv) (rest : bytes) | RdsStop (v : dv) (rest : bytes)
               | RdsBad | RdsUnk.

(** The loops of read_dtypes (dtread.c:126-141, [stop] is KNO_TROUBLEP) and of the
    readers for choices, slotmaps (350-355, 384-391, 405-421, [stop] is KNO_ABORTP). *)
Fixpoint read_n (rd1 : bytes -> rd) (stop : dv -> bool) (n : nat) (b : bytes) : rds :=
  match n with
  | O => Rds [] b
  | S n' =>
    match rd1 b with
    | Rd v r =>
      if stop v then RdsStop v r
      else match read_n rd1 stop n' r with
           | Rds l r' => Rds (v :: l) r'
           | o => o
           end
    | RBad => RdsBad
    | RUnk => RdsUnk
    end
  end.

(** The process in which the value is read: what a symbol or an OID is as a word
    (symbols.c, oids.c), the configuration of choices, the compound types that have a
    restore function (dtread.c:246-250; kno_default_restorefn is NULL). *)
Record renv := {
  sym_word : bytes -> N;
  oid_word : N -> N -> N;
  r_cf : config;
  restores : dv -> bool }.

(** The 64 bits of a double as a number: IEEE 754 binary64. *)
Definition flo_of_bits (w : N) : SpecFloat.spec_float :=
  let m := N.land w (N.ones 52) in
  let e := N.land (N.shiftr w 52) (N.ones 11) in
  let s := N.testbit w 63 in
  if e =? 0x7FF then if m =? 0 then SpecFloat.S754_infinity s else SpecFloat.S754_nan
  else if e =? 0 then match m with N0 => SpecFloat.S754_zero s
                      | Npos p => SpecFloat.S754_finite s p (-1074) end
  else match m + 2 ^ 52 with N0 => SpecFloat.S754_zero s
       | Npos p => SpecFloat.S754_finite s p (Z.of_N e - 1075) end.

(** The value as ValueModel has it, for comparison with other values.  Tables and the
    like, whose comparison is not in ValueModel, are given as objects without a
    comparator, which is wrong; theorems about choices leave them out. *)
Section AsVal.
Variable e : renv.
Definition imm_word (type data : N) : N := N.lor (N.shiftl type 25) (N.lor (N.shiftl data 2) 1).
Definition int_val (x : dv) : Z :=
  match x with
  | DFix z => z
  | DBig b => let m := fold_right (fun d v => d + B.radix * v)%Z 0%Z (B.bdig b) in
              if B.bneg b then (- m)%Z else m
  | _ => 0%Z
  end.
Definition real_val (x : dv) : real :=
  match x with
  | DRat n d => RRat (int_val n) (int_val d)
  | DFlo w => RFlo (flo_of_bits w)
  | _ => RInt (int_val x)
  end.
Fixpoint vof (x : dv) : val :=
  match x with
  | DConst n => VAtom (imm_word 0 n)
  | DChar c => VAtom (imm_word 1 c)
  | DSym s => VAtom (sym_word e s)
  | DFix z => VAtom (Z.to_N ((4 * z + 2) mod 2 ^ 64))
  | DOid hi lo => VAtom (oid_word e hi lo)
  | DBig _ => VNum (NReal (RInt (int_val x)))
  | DFlo _ | DRat _ _ => VNum (NReal (real_val x))
  | DCpx r i => VNum (NCpx (real_val r) (real_val i))
  | DStr s => VStr s
  | DPacket secret s => VPacket secret s
  | DPair a b => VPair (vof a) (vof b)
  | DVec l => VVec (map vof l)
  | DChoice l => VChoice (map vof l)
  | DQChoice l => VQChoice (map vof l)
  | DCompound t l => VCompound (vof t) (map vof l)
  | DSlotmap _ => VOther 0x98 0
  | DSchemap _ => VOther 0x99 0
  | DHashtable _ _ => VOther 0x9a 0
  | DHashset _ _ => VOther 0x9b 0
  | DMystery _ _ _ _ _ => VOther 0x9c 0
  | DOther t a => VOther t a
  end.

(** kno_init_choice(ch,len,NULL,KNO_CHOICE_DOSORT|KNO_CHOICE_REALLOC), choices.c:286-376,
    by way of ChoicesModel: its result consists of elements that were given, here
    found again by comparison. *)
Definition find_elt (l : list dv) (v : val) : option dv :=
  find (fun d => is_eq (cons_compare (vof d) v)) l.
Fixpoint find_elts (l : list dv) (vs : list val) : option (list dv) :=
  match vs with
  | [] => Some []
  | v :: t => do d <- find_elt l v; do r <- find_elts l t; Some (d :: r)
  end.
Definition sort_flags : cflags :=
  {| f_sort := true; f_compress := false; f_realloc := true; f_atomic := false; f_conses := false |}.
Definition make_choice (l : list dv) : option dv :=
  do s <- init_choice (r_cf e) (map vof l) sort_flags;
  match s with
  | SVal v => if emptyp v then Some D_EMPTY else find_elt l v
  | SChoice _ vs => do r <- find_elts l vs; Some (DChoice r)
  end.
Definition choicep (x : dv) : bool := match x with DChoice _ => true | _ => false end.
End AsVal.

(** The conversion of 32 bits to [int], dtread.c:169. *)
Definition int32 (w : N) : Z := if w <? 2 ^ 31 then Z.of_N w else (Z.of_N w - 2 ^ 32)%Z.
(** Lengths from 2^31 on become negative [int]s in the functions they are given to. *)
Definition int_len (len : N) : bool := len <? 2 ^ 31.

(** KNO_CODE2CHAR, ptr.h:425-426, 842: a code of more than 23 bits runs over into the
    type of the immediate. *)
Definition code2char (c : N) (rest : bytes) : rd := if c <? 2 ^ 23 then Rd (DChar c) rest else RUnk.

(** unpack_bigint, numbers.c:3614-3623: [packet[0]] is read without a check. *)
Definition unpack_bigint (packet : bytes) : option dv :=
  match packet with
  | [] => None
  | sign :: digits =>
    do r <- B.digit_stream_to_bigint (map Z.of_N digits) 256 (negb (sign =? 0));
    match r with
    | Some b => do i <- A.simplify b;
                Some (match i with A.Fix z => DFix z | A.Big b => DBig b end)
    | None => Some D_VOID
    end
  end.
(** unpack_flonum, numbers.c:1923-1933: eight bytes are read without a check. *)
Definition unpack_flonum (packet : bytes) : option dv := do w <- get8 packet; Some (DFlo w).

(** make_character_type, dtread.c:574-622.  Strings and symbols of 16-bit characters and
    mystery packets are not modelled. *)
Definition make_character_type (code : N) (packet : bytes) (rest : bytes) : rd :=
  if code =? 0x00 then
    match packet with [] => RBad | ch :: _ => code2char ch rest end
  else if code =? 0x01 then
    if 3 <? llen packet then RUnk
    else code2char (fold_left (fun c b => N.lor (N.shiftl c 8) b) packet 0) rest
  else if (code =? 0x45) || (code =? 0x05) then Rd (DPacket true packet) rest
  else RUnk.
(** kno_make_mystery_packet, dtread.c:624-640, for the numeric package and the unpackers
    registered in numbers.c:4282-4285. *)
Definition make_numeric (code : N) (packet : bytes) (rest : bytes) : rd :=
  let off := N.land code 0x3F in
  if off =? 0 then match unpack_bigint packet with Some v => Rd v rest | None => RBad end
  else if off =? 1 then match unpack_flonum packet with Some v => Rd v rest | None => RBad end
  else RUnk.
(** read_packaged_dtype, dtread.c:533-572; vectors in packages are not modelled. *)
Definition read_packaged_dtype (package : N) (b : bytes) : rd :=
  if negb (request_bytes b 2) then Rd D_ERROR b
  else match b with
  | [] => RUnk
  | code :: b1 =>
    let lenlen := if negb (N.land code 0x40 =? 0) then 4%nat else 1%nat in
    if negb (request_bytes b1 lenlen) then Rd D_ERROR b1
    else match (if negb (N.land code 0x40 =? 0) then read_4bytes b1 else get_byte b1) with
    | None => RUnk
    | Some (len, b2) =>
      if negb (N.land code 0x80 =? 0) then RUnk
      else if negb (request_bytes b2 (N.to_nat len)) then Rd D_ERROR b2
      else if negb (int_len len) then RUnk
      else
        let packet := firstn (N.to_nat len) b2 in
        let rest := skipn (N.to_nat len) b2 in
        if package =? 0x40 then make_character_type code packet rest
        else if package =? 0x41 then make_numeric code packet rest
        else RUnk
    end
  end.

(** Strings, packets, symbols: the payload after its length.  [short] is what is returned
    if it is not there (the long symbols return KNO_EOD, the others raise an error,
    dtread.c:278-328).  kno_make_symbol keeps its argument up to the first NUL only
    (symbols.c:268-305): names with NULs are not modelled. *)
Definition read_payload (mk : bytes -> dv) (short : dv) (len : N) (b : bytes) : rd :=
  if negb (request_bytes b (N.to_nat len)) then Rd short b
  else if negb (int_len len) then RUnk
  else Rd (mk (firstn (N.to_nat len) b)) (skipn (N.to_nat len) b).
Definition has_nul (s : bytes) : bool := existsb (fun x => x =? 0) s.
Definition read_symbol (short : dv) (len : N) (b : bytes) : rd :=
  match read_payload DSym short len b with
  | Rd (DSym s) r => if has_nul s then RUnk else Rd (DSym s) r
  | o => o
  end.

(** kno_read_dtype, dtread.c:148-478.  [fuel] bounds the depth of the recursion, which
    goes at least one byte forward at each level.

    - Codes that are never written (dt_flonum, dt_exception, dt_zstring as symbol,
      hashtables, hashsets, unknown aggregates) are only partly modelled.
    - Pairs (206-234): the loop over successive pair codes is written as recursion.
    - Vectors (329-341, read_dtypes 126-141): the elements are stored into the new
      vector itself; after an error [u8_free] is called on the address of its elements,
      which lie inside the allocated block.
    - Compounds (243-273): a vector as content gives the fields. *)
Section Read.
Variable e : renv.

Definition finish_choice (l : list dv) (rest : bytes) : rd :=
  match make_choice e l with Some v => Rd v rest | None => RUnk end.

(** dtread.c:235-277 after the two components have been read. *)
Definition finish_compound (code : N) (car cdr : dv) (rest : bytes) : rd :=
  if code =? 0x81 then Rd (DRat car cdr) rest
  else if code =? 0x82 then Rd (DCpx car cdr) rest
  else if restores e car then RUnk
  else match cdr with
       | DVec l => Rd (DCompound car l) rest
       | _ => Rd (DCompound car [cdr]) rest
       end.

(** The kno package, dtread.c:362-472. *)
Definition read_kno_package (rd1 : bytes -> rd) (b : bytes) : rd :=
  if negb (request_bytes b 2) then Rd D_ERROR b
  else match b with
  | [] => RUnk
  | code :: b1 =>
    match (if negb (N.land code 0x40 =? 0) then read_4bytes b1 else get_byte b1) with
    | None => Rd D_ERROR b1
    | Some (len, b2) =>
      let quoted := (code =? 0xC3) || (code =? 0x83) in
      if quoted && (len =? 0) then Rd (DQChoice []) b2
      else if quoted || (code =? 0xC0) || (code =? 0x80) then
        if len =? 0 then Rd D_EMPTY b2
        else if negb (int_len len) then RUnk
        else match read_n rd1 abortp (N.to_nat len) b2 with
             | Rds l r =>
               match finish_choice l r with
               | Rd (DChoice l') r' => if quoted then Rd (DQChoice l') r' else Rd (DChoice l') r'
               | o => o
               end
             | RdsStop v r => Rd v r
             | RdsBad => RBad
             | RdsUnk => RUnk
             end
      else if (code =? 0xC1) || (code =? 0x81) then
        if len =? 0 then Rd (DSlotmap []) b2
        else if negb (int_len len) then RUnk
        else match read_n rd1 abortp (2 * (N.to_nat len / 2)) b2 with
             | Rds l r => Rd (DSlotmap l) r
             | RdsStop v r => Rd v r
             | RdsBad => RBad
             | RdsUnk => RUnk
             end
      else RUnk
    end
  end.

Fixpoint read_loop (fuel : nat) (b : bytes) {struct fuel} : rd :=
  match fuel with
  | O => RUnk
  | S f =>
    let rd1 := read_loop f in
    match b with
    | [] => Rd D_EOD b
    | code :: b1 =>
      if code =? 0x01 then Rd D_NIL b1
      else if code =? 0x0a then Rd D_VOID b1
      else if code =? 0x13 then Rd D_EMPTY b1
      else if code =? 0x15 then Rd D_DEFAULT b1
      else if code =? 0x02 then
        match b1 with
        | [] => Rd D_EOD b1
        | x :: b2 => Rd (if x =? 0 then D_FALSE else D_TRUE) b2
        end
      else if code =? 0x03 then
        match read_4bytes b1 with
        | Some (w, b2) => Rd (DFix (int32 w)) b2
        | None => Rd D_EOD b1
        end
      else if code =? 0x04 then
        match read_4bytes b1 with Some _ => RUnk | None => Rd D_ERROR b1 end
      else if code =? 0x0e then
        match read_4bytes b1 with
        | None => Rd D_ERROR b1
        | Some (hi, b2) =>
          match read_4bytes b2 with
          | None => Rd D_ERROR b2
          | Some (lo, b3) => Rd (DOid hi lo) b3
          end
        end
      else if code =? 0x0c then
        match rd1 b1 with
        | Rd v r => if abortp v then Rd v r
                    else Rd (DCompound (DSym [37; 101; 114; 114; 111; 114]) [v]) r
        | o => o
        end
      else if code =? 0x0d then
        match rd1 b1 with
        | Rd v r => if abortp v then Rd v r else RUnk
        | o => o
        end
      else if code =? 0x08 then
        match rd1 b1 with
        | Rd car r =>
          if abortp car then Rd car r
          else match r with
          | [] => Rd D_ERROR r
          | _ =>
            match rd1 r with
            | Rd cdr r' => if abortp cdr then Rd cdr r' else Rd (DPair car cdr) r'
            | o => o
            end
          end
        | o => o
        end
      else if (code =? 0x0b) || (code =? 0x81) || (code =? 0x82) then
        match rd1 b1 with
        | Rd car r =>
          if errorp car then Rd car r
          else match rd1 r with
          | Rd cdr r' => if errorp cdr then Rd cdr r' else finish_compound code car cdr r'
          | o => o
          end
        | o => o
        end
      else if (code =? 0x05) || (code =? 0x06) then
        match read_4bytes b1 with
        | None => Rd D_ERROR b1
        | Some (len, b2) =>
          read_payload (if code =? 0x06 then DStr else DPacket false) D_ERROR len b2
        end
      else if code =? 0x10 then
        match get_byte b1 with
        | None => Rd D_ERROR b1
        | Some (len, b2) => read_symbol D_ERROR len b2
        end
      else if code =? 0x11 then
        match get_byte b1 with
        | None => Rd D_ERROR b1
        | Some (len, b2) => read_payload DStr D_ERROR len b2
        end
      else if (code =? 0x07) || (code =? 0x0f) then
        match read_4bytes b1 with
        | None => Rd D_EOD b1
        | Some (len, b2) => read_symbol D_EOD len b2
        end
      else if code =? 0x09 then
        match read_4bytes b1 with
        | None => Rd D_EOD b1
        | Some (len, b2) =>
          if negb (int_len len) then RBad
          else match read_n rd1 errorp (N.to_nat len) b2 with
               | Rds l r => Rd (DVec l) r
               | RdsStop _ _ => RBad
               | RdsBad => RBad
               | RdsUnk => RUnk
               end
        end
      else if code =? 0x12 then
        match get_byte b1 with
        | None => Rd D_ERROR b1
        | Some (len, b2) =>
          match read_n rd1 abortp (N.to_nat len) b2 with
          | Rds l r => finish_choice l r
          | RdsStop v r => Rd v r
          | RdsBad => RBad
          | RdsUnk => RUnk
          end
        end
      else if code =? 0x14 then
        match read_4bytes b1 with
        | None => Rd D_ERROR b1
        | Some (len, b2) =>
          if negb (request_bytes b2 (N.to_nat len)) then Rd D_ERROR b2 else rd1 b2
        end
      else if code =? 0x42 then read_kno_package rd1 b1
      else if (0x40 <=? code) && (code <? 0x80) then read_packaged_dtype code b1
      else Rd D_XFORMAT_ERROR b1
    end
  end.
Definition read_dtype (b : bytes) : rd := read_loop (S (length b)) b.
End Read.

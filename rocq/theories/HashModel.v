(** * Hash codes of Lisp values.

    Source: /repo/include/kno/hash.h, /repo/src/lisp/tables.c:1632-1806 (kno_hash_lisp,
    the hash function of tables in memory), /repo/src/storage/hashdtype.c (kno_hash_lisp1,
    kno_hash_lisp2, kno_hash_lisp3, the hash functions of index files),
    /repo/src/lisp/numbers.c:1983-1993, 2091-2097, 2153-2159, 3593-3607 (hash functions of
    numbers).

    The values are those of ValueModel: tables, timestamps, uuids, regexes, numeric vectors,
    opaque compounds and prechoices are not among them.  A C [int] or [unsigned int] result
    is given as the number 0..2^32-1 that the caller gets. *)

From Coq Require Import NArith ZArith List Bool SpecFloat.
From Verif Require Import ValueModel BytesModel.
Import ListNotations.
Local Open Scope N_scope.

Definition w32 (x : N) : N := x mod 2 ^ 32.
Definition w64 (x : N) : N := x mod 2 ^ 64.
(** Conversion of a signed number to [unsigned int]. *)
Definition z32 (z : Z) : N := Z.to_N (z mod 2 ^ 32)%Z.
(** Conversion of an [unsigned int] to [int]. *)
Definition int32 (x : N) : Z := if x <? 2 ^ 31 then Z.of_N x else (Z.of_N x - 2 ^ 32)%Z.

(** ** Words *)

(** KNO_PTR_MANIFEST_TYPE, ptr.h:317: 1 immediate, 2 fixnum, 3 OID (116-119). *)
Definition manifest (w : N) : N := N.land w 3.
(** KNO_IMMEDIATE_TYPEOF, ptr.h:432: 4 constant, 5 character, 6 symbol. *)
Definition imm_type (w : N) : N := N.land (N.shiftr w 25) 0x7F + 4.
(** KNO_GET_IMMEDIATE, ptr.h:430. *)
Definition imm_data (w : N) : N := N.land (N.shiftr w 2) 0x7FFFFF.
(** KNO_FIX2INT, ptr.h:646: the signed word without its two low bits, divided by 4. *)
Definition fix2int (w : N) : Z :=
  Z.quot (if w <? 2 ^ 63 then Z.of_N (w - w mod 4) else (Z.of_N (w - w mod 4) - 2 ^ 64)%Z) 4.
(** KNO_INT, ptr.h:649-662: the word of a fixnum. *)
Definition int2fix (z : Z) : N := Z.to_N ((z * 4 + 2) mod 2 ^ 64)%Z.
(** KNO_MAX_FIXNUM and KNO_MIN_FIXNUM with 64 bit words, ptr.h:639, 649-650. *)
Definition fixnum_range (z : Z) : bool :=
  ((-2305843009213693951 <=? z) && (z <=? 2305843009213693951))%Z.
(** KNO_FALSE, KNO_TRUE, KNO_EMPTY_CHOICE, KNO_EMPTY_LIST, ptr.h:749-752. *)
Definition w_false : N := 5.
Definition w_true : N := 9.
Definition w_empty : N := 13.
Definition w_nil : N := 17.

(** ** Numbers: numbers.c *)

(** hash_bigint, numbers.c:3595-3607: the absolute value of the remainder.  (The remainder
    is that of kno_remainder, of the sign of the dividend.) *)
Definition hash_bigint (z : Z) : N := Z.to_N (Z.abs (Z.rem z 256001281)).

(** The integer part of the absolute value of a finite flonum. *)
Definition flo_floor (m : positive) (e : Z) : Z :=
  if (0 <=? e)%Z then (Zpos m * 2 ^ e)%Z else (Zpos m / 2 ^ (- e))%Z.
(** hash_flonum, numbers.c:1983-1993.  frexp of the absolute value gives a mantissa in
    [1/2,1) (or 0) and an exponent; with an exponent below 0 the exponent is replaced by 0,
    and the conversion of the mantissa to [unsigned int] gives 0, as for the integer part of
    the number itself.  The conversion of a number of 2^32 or more, of infinity or of NaN to
    [unsigned int] is undefined in C: [ub] is what it gives, taken to be determined by the
    absolute value. *)
Definition hash_flonum (ub : spec_float -> N) (f : spec_float) : N :=
  let asint :=
    match f with
    | S754_zero _ => 0
    | S754_finite _ m e =>
      if (flo_floor m e <? 2 ^ 32)%Z then Z.to_N (flo_floor m e) else w32 (ub (SFabs f))
    | _ => w32 (ub (SFabs f))
    end in
  asint mod 256001281.

(** The bits of a double, IEEE 754 binary64.  The standard library's reference
    representation has one NaN; it is given here the bits of the usual quiet NaN. *)
Definition flo_bits (f : spec_float) : N :=
  let sign (s : bool) := if s then 2 ^ 63 else 0 in
  match f with
  | S754_zero s => sign s
  | S754_infinity s => sign s + 0x7FF * 2 ^ 52
  | S754_nan => 0x7FF8 * 2 ^ 48
  | S754_finite s m e =>
    if N.pos m <? 2 ^ 52 then sign s + N.pos m
    else sign s + Z.to_N (e + 1075) * 2 ^ 52 + (N.pos m - 2 ^ 52)
  end.

(** ** In memory: hash.h and tables.c *)

Module Mem.
(** hash.h:13-14 and tables.c:1632-1642. *)
Definition MODULUS : N := 256001281.
Definition MULTIPLIER : N := 2654435769.
Definition FIXNUM_MULTIPLIER : N := 220000073.
Definition OID_MULTIPLIER : N := 240000083.
Definition CONSTANT_MULTIPLIER : N := 250000073.
Definition SYMBOL_MULTIPLIER : N := 260000093.
(** hash_mult, hash.h:22-26: the product is one of [unsigned int]. *)
Definition hash_mult (x y : N) : N := w32 (w32 x * w32 y) mod MODULUS.
(** hash_combine, hash.h:46-54. *)
Definition hash_combine (x y : N) : N :=
  if (x =? 0) && (y =? 0) then MODULUS + 2
  else if (x =? 0) || (y =? 0) then w32 (x + y)
  else hash_mult x y.

(** mult_hash_bytes, tables.c:1644-1660, on a little endian machine: four bytes at a time,
    then the one to three bytes left, or 1.  (127*h is one of [unsigned int].) *)
Definition step (h asint : N) : N := w32 (127 * h + asint) mod MODULUS.
Fixpoint mult_hash_bytes (h : N) (s : list N) : N :=
  match s with
  | [] => step h 1
  | [a] => step h a
  | [a; b] => step h (N.lor a (N.shiftl b 8))
  | [a; b; c] => step h (N.lor (N.lor a (N.shiftl b 8)) (N.shiftl c 16))
  | a :: b :: c :: d :: s' =>
    mult_hash_bytes (step h (a + 256 * b + 65536 * c + 16777216 * d)) s'
  end.

(** hash_lisp, tables.c:1672-1696, on a pointer that is not a CONS.  Immediate types other
    than constants and symbols all take the last branch (type codes are 4 or more: none is
    above kno_symbol_type = 6 and below N_TYPE_MULTIPLIERS = 6). *)
Definition hash_atom (w : N) : N :=
  if manifest w =? 3 then hash_mult w OID_MULTIPLIER
  else if manifest w =? 2 then hash_mult w FIXNUM_MULTIPLIER
  else if imm_type w =? 4 then hash_mult w CONSTANT_MULTIPLIER
  else if imm_type w =? 6 then hash_mult w SYMBOL_MULTIPLIER
  else hash_mult w MULTIPLIER.

(** kno_hash_lisp of an integer: a fixnum or a bigint. *)
Definition hash_int (z : Z) : N :=
  if fixnum_range z then hash_atom (int2fix z) else hash_bigint z.

(** hash_elts, tables.c:1797-1806, on the hash codes of the elements: the sum is an [int],
    the remainder that of [int]. *)
Definition hash_elts (hs : list N) : N :=
  z32 (fold_left (fun (sum : Z) h => Z.rem (int32 (hash_combine (z32 sum) h)) (Z.of_N MODULUS))
                 hs 0%Z).

Section Mem.
Variable ub : spec_float -> N.
(** hash_flonum, hash_rational (numbers.c:2153-2159). *)
Definition hash_real (r : real) : N :=
  match r with
  | RInt z => hash_int z
  | RRat n d => hash_combine (hash_int n) (hash_int d)
  | RFlo f => hash_flonum ub f
  end.
(** hash_complex, numbers.c:2091-2097.  A number that is not complex is the heap number
    itself; an integer there is a bigint. *)
Definition hash_num (n : num) : N :=
  match n with
  | NReal (RInt z) => hash_bigint z
  | NReal r => hash_real r
  | NCpx re im => hash_combine (hash_real re) (hash_real im)
  end.

(** hash_lisp and hash_cons, tables.c:1672-1696, 1739-1785.  The value of a quoted choice is
    a choice, or the one element, or the empty choice (1776-1778).  Objects of other types
    are hashed by address (1785), the types with a hash function of their own are not
    modelled. *)
Fixpoint hash_lisp (v : val) : N :=
  let hashes := fix hashes (l : list val) : list N :=
    match l with [] => [] | a :: r => hash_lisp a :: hashes r end in
  match v with
  | VAtom w => hash_atom w
  | VNum n => hash_num n
  | VStr s => mult_hash_bytes 0 s
  | VPacket _ s => mult_hash_bytes 0 s
  | VPair a b => hash_mult (hash_lisp a) (hash_lisp b)
  | VVec l => hash_elts (hashes l)
  | VChoice l => hash_elts (hashes l)
  | VQChoice l => match hashes l with
                  | [] => hash_atom w_empty
                  | [h] => h
                  | hs => hash_elts hs
                  end
  | VCompound tag l => hash_mult (hash_lisp tag) (hash_elts (hashes l))
  | VOther _ a => hash_mult a MULTIPLIER
  end.
End Mem.
End Mem.

(** ** In files: hashdtype.c *)

Module Dt.
(** hashdtype.c:22-24. *)
Definition MAGIC : N := 16777213.
Definition MIDDLIN : N := 573786077.
Definition MYSTERIOUS : N := 2000239099.

(** Symbol names (SYM_NAME) and OID addresses (KNO_OID_ADDR, ptr.h:608-610) are those of
    the process: a symbol is an index into the symbol table, an OID has the index of its
    base OID in it. *)
Record process := { symname : N -> list N; oidaddr : N -> N }.

(** hash_string_dtype1, hashdtype.c:28-36, for bytes below 128. *)
Definition hash_string1 (s : list N) : N :=
  fold_left (fun sum c => w32 (N.shiftl sum 8 + c) mod MAGIC) s 0.
(** hash_unicode_string_dtype1, hashdtype.c:38-47; [decode] gives the characters that
    u8_sgetc reads (libu8, not in the repository; a negative number for bytes that are
    not UTF-8). *)
Definition hash_unicode1 (decode : list N -> list Z) (s : list N) : N :=
  fold_left (fun sum c => w32 (N.shiftl sum 8 + z32 c) mod MAGIC) (decode s) 0.
(** hash_packet, hashdtype.c:49-57. *)
Definition hash_packet (s : list N) : N :=
  fold_left (fun sum c => w32 (N.shiftl sum 4 + c) mod MAGIC) s 0.

(** hash_symbol_dtype1, hashdtype.c:65-81, and hash_symbol_lisp2, 348-364, which is the
    same.  [*s & 0x3f << 6] is [*s & 0xfc0] and [*s & 0x1f << 12] is [*s & 0x1f000].  The name
    ends at the first NUL; a multibyte character cut off by the end of the name would be
    read past it, here the bytes past the end are NUL and reading stops there. *)
Fixpoint hash_symname (sum : N) (s : list N) : N :=
  let add (c : N) := w32 (N.shiftl sum 8 + c) mod MAGIC in
  match s with
  | [] => sum
  | a :: s1 =>
    if a =? 0 then sum
    else if a <? 0x80 then hash_symname (add a) s1
    else if a <? 0xe0 then
      match s1 with
      | [] => add (N.land a 0xfc0)
      | b :: s2 => hash_symname (add (N.lor (N.land a 0xfc0) (N.land b 0x3f))) s2
      end
    else
      match s1 with
      | [] => add (N.land a 0x1f000)
      | [b] => add (N.lor (N.land a 0x1f000) (N.shiftl (N.land b 0x3f) 6))
      | b :: c :: s3 =>
        hash_symname (add (N.lor (N.lor (N.land a 0x1f000) (N.shiftl (N.land b 0x3f) 6))
                                 (N.land c 0x3f))) s3
      end
  end.

(** The remainder of a fixnum, hashdtype.c:102, 274, 416: one of signed numbers, converted
    to [unsigned int]. *)
Definition hash_fix (z : Z) : N := z32 (Z.rem z 16777213).

(** Immediates, hashdtype.c:168-178 ([last] = 17), 329-339 and 471-481 ([last] = 19). *)
Definition hash_imm (p : process) (last : N) (w : N) : N :=
  if imm_type w =? 6 then hash_symname 0 (symname p w)
  else if imm_type w =? 5 then imm_data w mod MAGIC
  else if (w =? w_nil) || (w =? w_false) then 37
  else if w =? w_true then 17
  else if w =? w_empty then 13
  else last.
(** Pointers that are not CONSes, hashdtype.c:101-113, 168-178 and likewise; [oidmod] is the
    modulus for OIDs (KNO_STRUCT_OIDS is 0). *)
Definition hash_atom (p : process) (oidmod last : N) (w : N) : N :=
  if manifest w =? 2 then hash_fix (fix2int w)
  else if manifest w =? 3 then oidaddr p w mod oidmod
  else hash_imm p last w.

(** *** kno_hash_lisp1 *)

Section Hash1.
Variable p : process.
Variable decode : list N -> list Z.

Definition hash_string (s : list N) : N :=
  if existsb (fun c => 0x80 <=? c) s then hash_unicode1 decode s else hash_string1 s.
(** A bigint has no case, so 17 (line 166). *)
Definition hash_int1 (z : Z) : N := if fixnum_range z then hash_fix z else 17.
(** 156-160 and 161-165. *)
Definition hash_two (a b : N) : N :=
  w32 (N.shiftl (a mod MAGIC) 4 + b mod MAGIC) mod MAGIC.
Definition hash_real1 (r : real) : N :=
  match r with
  | RInt z => hash_int1 z
  | RRat n d => hash_two (hash_int1 n) (hash_int1 d)
  | RFlo f => flo_bits f mod MAGIC
  end.
Definition hash_num1 (n : num) : N :=
  match n with
  | NReal (RInt _) => 17
  | NReal r => hash_real1 r
  | NCpx re im => hash_two (hash_real1 re) (hash_real1 im)
  end.
(** 140-145. *)
Definition hash_vector1 (hs : list N) : N :=
  fold_left (fun sum h => w32 (N.shiftl sum 4 + h) mod MAGIC) hs 0.
(** 127-131. *)
Definition hash_choice1 (hs : list N) : N :=
  fold_left (fun sum h => w32 (sum + h) mod MAGIC) hs 0.

(** hash_lisp1, hashdtype.c:99-179, and hash_pair_dtype1, 189-200, whose loop over the cells
    is [walk].  Secrets have no case (123 has packets only), compounds neither. *)
Fixpoint hash_lisp1 (v : val) : N :=
  let hashes := fix hashes (l : list val) : list N :=
    match l with [] => [] | a :: r => hash_lisp1 a :: hashes r end in
  match v with
  | VAtom w => hash_atom p MAGIC 17 w
  | VNum n => hash_num1 n
  | VStr s => hash_string s
  | VPacket false s => hash_packet s
  | VPacket true _ => 17
  | VPair a b =>
    (fix walk (ptr : val) (sum : N) {struct ptr} : N :=
       match ptr with
       | VPair a b => walk b (w32 (sum * 2 + hash_lisp1 a) mod MAGIC)
       | VAtom w => if w =? w_nil then sum
                    else w32 (sum + N.shiftr (flip_word (hash_lisp1 ptr)) 8) mod MAGIC
       | _ => w32 (sum + N.shiftr (flip_word (hash_lisp1 ptr)) 8) mod MAGIC
       end) b (w32 (0 * 2 + hash_lisp1 a) mod MAGIC)
  | VVec l => hash_vector1 (hashes l)
  | VChoice l => hash_choice1 (hashes l)
  | VQChoice l => match hashes l with
                  | [] => hash_atom p MAGIC 17 w_empty
                  | [h] => h
                  | hs => hash_choice1 hs
                  end
  | VCompound _ _ => 17
  | VOther _ _ => 17
  end.
End Hash1.

(** *** kno_hash_lisp2 and kno_hash_lisp3 *)

(** hash_mult and hash_combine, hashdtype.c:221-233. *)
Definition hash_mult (x y : N) : N := w64 (w64 (x * y) * 2100000523) mod MYSTERIOUS.
Definition hash_combine (x y : N) : N :=
  if (x =? 0) && (y =? 0) then MAGIC + 2
  else if (x =? 0) || (y =? 0) then w32 (x + y)
  else hash_mult x y.
(** mult_hash_bytes, hashdtype.c:235-253: the words are big endian here, the one to three
    bytes left little endian. *)
Fixpoint mult_bytes (prod : N) (s : list N) : N :=
  match s with
  | [] => hash_combine prod 1
  | [a] => hash_combine prod a
  | [a; b] => hash_combine prod (N.lor a (N.shiftl b 8))
  | [a; b; c] => hash_combine prod (N.lor (N.lor a (N.shiftl b 8)) (N.shiftl c 16))
  | a :: b :: c :: d :: s' =>
    mult_bytes (hash_combine prod (16777216 * a + 65536 * b + 256 * c + d)) s'
  end.
Definition mult_hash_bytes (s : list N) : N :=
  mult_bytes (fold_left (fun prod c => w32 (prod + c)) s 1) s.
(** hash_string_lisp2, hashdtype.c:261-269. *)
Definition hash_string2 (s : list N) : N :=
  match s with
  | [] => MAGIC + 2
  | [c] => if c =? 0 then MAGIC - 2 else c
  | _ => mult_hash_bytes s
  end.

Section Hash23.
Variable p : process.
Variable ub : spec_float -> N.
(** The modulus for OIDs (283, 425) and the one for the elements of choices (301, 443). *)
Variables oidmod chmod : N.

Definition hash_int2 (z : Z) : N := if fixnum_range z then hash_fix z else hash_bigint z.
(** 319-324, 461-466; bigints and flonums by kno_hashfns (325-327, 467-469). *)
Definition hash_real2 (r : real) : N :=
  match r with
  | RInt z => hash_int2 z
  | RRat n d => hash_combine (hash_int2 n) (hash_int2 d)
  | RFlo f => hash_flonum ub f
  end.
Definition hash_num2 (n : num) : N :=
  match n with
  | NReal (RInt z) => hash_bigint z
  | NReal r => hash_real2 r
  | NCpx re im => hash_combine (hash_real2 re) (hash_real2 im)
  end.
(** 303-307, 445-449. *)
Definition hash_vector2 (hs : list N) : N := fold_left hash_combine hs 1.
(** 298-302, 440-444. *)
Definition hash_choice2 (hs : list N) : N :=
  fold_left (fun sum h => w32 (sum + h mod chmod)) hs 0.

(** hash_lisp2, hashdtype.c:271-340, with hash_pair_lisp2, 381-391; hash_lisp3, 413-482, with
    hash_pair_dtype3, 401-411. *)
Fixpoint hash_lisp23 (v : val) : N :=
  let hashes := fix hashes (l : list val) : list N :=
    match l with [] => [] | a :: r => hash_lisp23 a :: hashes r end in
  match v with
  | VAtom w => hash_atom p oidmod 19 w
  | VNum n => hash_num2 n
  | VStr s => hash_string2 s
  | VPacket _ s => hash_packet s
  | VPair a b =>
    (fix walk (ptr : val) (prod : N) {struct ptr} : N :=
       match ptr with
       | VPair a b => walk b (hash_combine prod (hash_lisp23 a))
       | VAtom w => if w =? w_nil then prod else hash_combine prod (hash_lisp23 ptr)
       | _ => hash_combine prod (hash_lisp23 ptr)
       end) b (hash_combine 1 (hash_lisp23 a))
  | VVec l => hash_vector2 (hashes l)
  | VChoice l => hash_choice2 (hashes l)
  | VQChoice l => match hashes l with
                  | [] => hash_atom p oidmod 19 w_empty
                  | [h] => h
                  | hs => hash_choice2 hs
                  end
  | VCompound _ _ => 17
  | VOther _ _ => 17
  end.
End Hash23.
Definition hash_lisp2 (p : process) (ub : spec_float -> N) : val -> N :=
  hash_lisp23 p ub MAGIC MAGIC.
Definition hash_lisp3 (p : process) (ub : spec_float -> N) : val -> N :=
  hash_lisp23 p ub MYSTERIOUS MIDDLIN.
End Dt.

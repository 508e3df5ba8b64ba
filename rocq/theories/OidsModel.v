(** * Object identifiers: the base table, the pointer layout and the printed form.

    Source: /repo/src/lisp/oids.c:25-110, /repo/include/kno/ptr.h:540-619,
    /repo/src/lisp/parse.c:540-583, 654-679, /repo/src/lisp/unparse.c:356-363.

    Configuration: 64-bit pointers, KNO_LONG_LONG_OIDS (an address is an unsigned
    64-bit number).  Not modelled: base_oid_lock (it is initialised but never taken, so
    the code is only meaningful for one thread at a time), statistics (n_chains). *)

From Verif Require Export BytesModel.
Local Open Scope N_scope.

(** ptr.h:570-582. *)
Definition OID_BUCKET_WIDTH : N := 16.
Definition OID_OFFSET_MASK : N := 0xFFFFF.
Definition OID_BUCKET_MASK : N := 0xFFFF.
Definition N_OID_BUCKETS : N := 262144.           (* 1<<(2+16) *)
(** oids.c:33 *)
Definition oid_buckets_len : N := 1048575.        (* KNO_N_OID_BUCKETS*4-1 *)

(** The global tables: kno_base_oids, kno_oid_buckets, kno_n_base_oids (oids.c:30-33).
    A bucket with bucket_no < 0 is [None]; otherwise (bucket_base, bucket_no). *)
Record oidtab := { n_base : N; buckets : N -> option (N * N); bases : N -> N }.
(** init_oids, oids.c:296-299 (the predefined bases added there are ordinary calls of
    kno_make_oid). *)
Definition oids_init : oidtab := {| n_base := 0; buckets := fun _ => None; bases := fun _ => 0 |}.

(** KNO_OID_HI, KNO_OID_LO, ptr.h:538-539. *)
Definition oid_hi (a : N) : N := u32 (N.shiftr a 32).
Definition oid_lo (a : N) : N := N.land a 0xFFFFFFFF.
(** KNO_SET_OID_HI, KNO_SET_OID_LO, ptr.h:541-544. *)
Definition set_hi (a hi : N) : N := N.lor (N.land a 0xFFFFFFFF) (u64 (N.shiftl hi 32)).
Definition set_lo (a lo : N) : N := N.lor (N.land a 0xFFFFFFFF00000000) (N.land lo 0xFFFFFFFF).

(** The hash, oids.c:18, 42-45: [unsigned int] products, then 64-bit xor and remainder. *)
Definition init_probe (base : N) : N :=
  N.lxor (u32 (oid_hi base * 2654435769)) (u32 (oid_lo base * 2654435769)) mod oid_buckets_len.
Definition next_probe (probe : N) : N :=
  if oid_buckets_len <=? probe + 1 then 0 else probe + 1.

(** find_base_oid, oids.c:39-55.  Outer [None]: fuel exhausted; [Some None]: -1. *)
Fixpoint find_loop (fuel : nat) (t : oidtab) (base init probe : N) : option (option N) :=
  match buckets t probe with
  | None => Some None
  | Some (b, no) =>
    if base =? b then Some (Some no)
    else let p := next_probe probe in
         if p =? init then Some None
         else match fuel with O => None | S f => find_loop f t base init p end
  end.
Definition probe_fuel : nat := N.to_nat oid_buckets_len.
Definition find_base_oid (t : oidtab) (base : N) : option (option N) :=
  find_loop probe_fuel t base (init_probe base) (init_probe base).

(** The probing loop of add_base_oid_index, oids.c:70-79: [inl probe] is a free slot,
    [inr r] an early return. *)
Fixpoint add_loop (fuel : nat) (t : oidtab) (base init probe : N) : option (N + option N) :=
  match buckets t probe with
  | None => Some (inl probe)
  | Some (b, no) =>
    if base =? b then Some (inr (Some no))
    else let p := next_probe probe in
         if p =? init then Some (inr None)
         else match fuel with O => None | S f => add_loop f t base init p end
  end.
(** add_base_oid_index, oids.c:57-85.  The result [None] inside is -1. *)
Definition add_base_oid_index (t : oidtab) (base : N) : option (option N * oidtab) :=
  match find_base_oid t base with
  | None => None
  | Some (Some boi) => Some (Some boi, t)
  | Some None =>
    if N_OID_BUCKETS <=? n_base t then Some (None, t)
    else
      let boi := n_base t in
      let t1 := {| n_base := n_base t + 1; buckets := buckets t; bases := bases t |} in
      match add_loop probe_fuel t1 base (init_probe base) (init_probe base) with
      | None => None
      | Some (inr r) => Some (r, t1)
      | Some (inl p) =>
        Some (Some boi,
              {| n_base := n_base t + 1;
                 buckets := fun q => if q =? p then Some (base, boi) else buckets t q;
                 bases := fun k => if k =? boi then base else bases t k |})
      end
  end.

(** KNO_CONSTRUCT_OID, ptr.h:611-613; -1 converts to 2^64-1. *)
Definition construct_oid (baseid : option N) (offset : N) : N :=
  let b := match baseid with Some b => b | None => 0xFFFFFFFFFFFFFFFF end in
  N.lor (N.lor (u64 (N.shiftl b 2)) (u64 (N.shiftl offset (OID_BUCKET_WIDTH + 2)))) 3.
(** kno_make_oid, oids.c:100-110. *)
Definition make_oid (t : oidtab) (addr : N) : option (N * oidtab) :=
  let offset := N.land (oid_lo addr) OID_OFFSET_MASK in
  let bucket_base := N.land (oid_lo addr) (N.lxor OID_OFFSET_MASK 0xFFFFFFFF) in
  let base := set_lo addr bucket_base in
  match add_base_oid_index t base with
  | None => None
  | Some (boi, t') => Some (construct_oid boi offset, t')
  end.
(** KNO_OID_ADDR, ptr.h:608-610. *)
Definition oid_addr (t : oidtab) (x : N) : N :=
  u64 (bases t (N.land (N.shiftr x 2) OID_BUCKET_MASK) + N.shiftr x (OID_BUCKET_WIDTH + 2)).

(** ** Printed form *)

(** A hexadecimal digit as printed by "%x". *)
Definition hexchar (d : N) : N := if d <? 10 then 48 + d else 87 + d.
(** "%x" of an unsigned number: no leading zeros. *)
Fixpoint hex_loop (fuel : nat) (n : N) (acc : list N) : list N :=
  match fuel with
  | O => acc
  | S f => let acc' := hexchar (n mod 16) :: acc in
           if n / 16 =? 0 then acc' else hex_loop f (n / 16) acc'
  end.
Definition print_hex (n : N) : list N := hex_loop 16 n [].
(** kno_unparse of an OID, unparse.c:360-363 (no kno_unparsers entry): "@%x/%x". *)
Definition print_oid (addr : N) : list N :=
  64 :: print_hex (oid_hi addr) ++ 47 :: print_hex (oid_lo addr).

(** isxdigit in the C locale and the digit's weight. *)
Definition xdigit (c : N) : option N :=
  if (48 <=? c) && (c <=? 57) then Some (c - 48)
  else if (97 <=? c) && (c <=? 102) then Some (c - 87)
  else if (65 <=? c) && (c <=? 70) then Some (c - 55)
  else None.
(** strtoull(s,&end,16) on strings of hexadecimal digits and other characters that are
    neither blank, sign nor "x": the value saturates at 2^64-1; the second component is
    the text from [end] on. *)
Fixpoint strtoull_loop (acc : N) (s : list N) : N * list N :=
  match s with
  | [] => (acc, [])
  | c :: s' => match xdigit c with
               | Some d => strtoull_loop (N.min (acc * 16 + d) 0xFFFFFFFFFFFFFFFF) s'
               | None => (acc, s)
               end
  end.
Definition strtoull16 (s : list N) : N * list N := strtoull_loop 0 s.

(** resolve_numeric_oid, parse.c:540-558, on the NUL-terminated text; [None] is
    KNO_PARSE_ERROR.  Gives the address handed to kno_make_oid. *)
Definition resolve_numeric_oid (s : list N) : option N :=
  let s := match s with 64 :: r => r | _ => s end in
  let (addr, e) := strtoull16 s in
  match e with
  | [] => Some (set_lo (set_hi 0 (N.land (N.shiftr addr 32) 0xFFFFFFFF)) (N.land addr 0xFFFFFFFF))
  | 47 :: e' =>
    let (lo, e'') := strtoull16 e' in
    match e'' with
    | [] => Some (set_lo (set_hi 0 (u32 addr)) (u32 lo))
    | _ => None
    end
  | _ => None
  end.

(** u8_isspace: ASCII blanks only (the other Unicode blanks are not modelled). *)
Definition isspace (c : N) : bool := ((9 <=? c) && (c <=? 13)) || (c =? 32).
(** The strchr test for delimiters in parse.c:571 (double quote, brackets, quote, hash);
    strchr also finds the terminating NUL. *)
Definition oid_delim (c : N) : bool :=
  existsb (N.eqb c) [34; 40; 91; 123; 125; 93; 41; 39; 35; 0].

(** Outcome of a parsing function: out-of-bounds write, parse error, or value and the
    remaining input (a list of characters; [[]] is end of input). *)
Inductive pres (A : Type) := POverflow | PError | POk (a : A) (rest : list N).
Arguments POverflow {A}. Arguments PError {A}. Arguments POk {A}.

(** The loop of parse_numeric_oid, parse.c:565-575.  [buf] is the text written so far,
    reversed; the array has 64 bytes. *)
Fixpoint pno_loop (s : list N) (buf : list N) (len : N) (slash : bool) : pres (list N) :=
  if 64 <=? len then POk buf s else
  match s with
  | [] => POk buf []
  | c :: s' =>
    match xdigit c with
    | Some _ => if 64 <=? N.of_nat (length buf) then POverflow else pno_loop s' (c :: buf) (len + 1) slash
    | None =>
      if c =? 47 then
        if slash then PError
        else if 64 <=? N.of_nat (length buf) then POverflow else pno_loop s' (c :: buf) len true
      else if (c =? 58) || (c =? 46) then pno_loop s' buf len slash
      else if isspace c || oid_delim c then POk buf s
      else PError
    end
  end.
(** parse_numeric_oid, parse.c:560-578.  In the case that the loop stops because of
    [len<64] one more character has been read and is lost. *)
Definition parse_numeric_oid (s : list N) : pres N :=
  let s := match s with 64 :: r => r | _ => s end in
  match pno_loop s [] 0 false with
  | POverflow => POverflow
  | PError => PError
  | POk buf rest =>
    if 64 <=? N.of_nat (length buf) then POverflow        (* *write++='\0' *)
    else match resolve_numeric_oid (rev buf) with
         | Some a => POk a rest
         | None => PError
         end
  end.
(** parse_oid, parse.c:671-679, for numeric OIDs followed by nothing, a blank or a
    closing bracket (ignore_oid_name, parse.c:654-659, then returns at once);
    other continuations are not modelled (PError). *)
Definition parse_oid (s : list N) : pres N :=
  match s with
  | 64 :: ((ch :: _) as r) =>
    match xdigit ch with
    | Some _ =>
      match parse_numeric_oid r with
      | POk a rest =>
        match rest with
        | [] => POk a rest
        | nc :: _ => if isspace nc || existsb (N.eqb nc) [125; 93; 41; 0] then POk a rest else PError
        end
      | e => e
      end
    | None => PError
    end
  | _ => PError
  end.

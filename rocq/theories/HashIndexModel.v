(** * Hash indexes: the hashindex driver.

    Source: /repo/src/drivers/hashindex.c, /repo/src/drivers/headers/hashindex.h,
    /repo/src/storage/drivers.c (codes for slotids and base OIDs).

    The file.  256 bytes of header, then for each of the [n] buckets a reference (offset and
    size, see ChunkModel.v), then data.  The data of a bucket are the number of its keys and for
    each key: its length, its bytes, the number of values and then nothing (no values), the
    value (one value) or the offset and the size of a block of values.  A block of values is
    the number of values, the values, the size of the next block (0: none) and its offset.
    All numbers are varints.  A key is written as a code for its slotid and what remains of it,
    or as 0 and the whole key; a value that is an OID as a code for its base and its offset, or
    as 0 and the value.

    What is modelled: fetching one key (912-1004, 1006-1117), fetching many keys (1207-1471),
    sizes (1120-1168), keys and infos (1490-1775), saving (2030-2637), the writing of
    references and header (2901-3068) and making a file (514-636).

    Simplifications, for the whole file.
    - Keys and values are of a type [L] with an equality test (LISP_EQUAL) and a codec
      (kno_write_dtype, kno_read_dtype; fast_write_dtype and fast_read_dtype, 677-715 and
      759-827, as these).
    - The file is the list of its bytes; a write at the end appends, a read sees what has been
      written.  A block that reaches beyond the end of the file is cut off there.
    - References are read as kno_fetch_chunk_ref and kno_get_chunk_ref do (they agree:
      C33_readers_agree) and written as update_hashindex_ondisk does (the same bytes as in
      ChunkModel.v), at positions below 2^32.
    - Varints that the code stores in an [int] or [unsigned int] are not cut to 32 bits.
    - A choice of values is the list of its elements.
    - The vectors of slotids and base OIDs and the metadata, which a save appends to the file
      when they have changed, are not in it: the tables in memory stand for them. *)

From Coq Require Import NArith ZArith List Bool.
From Verif Require Import BytesModel ChunkModel.
From Verif Require FileIndexModel.
Import ListNotations.
Local Open Scope N_scope.

(** ** Hash codes *)

(** hash_mult, 642-646: [unsigned long long] products. *)
Definition hash_mult (x y : N) : N := (x * y * 2100000523) mod 2 ^ 64 mod 2000239099.
(** hash_combine, 648-654. *)
Definition hash_combine (x y : N) : N :=
  if (x =? 0) && (y =? 0) then 16777215
  else if (x =? 0) || (y =? 0) then x + y
  else hash_mult x y.
(** The loop over words and the switch of hash_bytes, 663-672. *)
Fixpoint hash_words (prod : N) (b : bytes) : N :=
  match b with
  | [] => hash_combine prod 1
  | [x] => hash_combine prod x
  | [x; y] => hash_combine prod (x + y * 2 ^ 8)
  | [x; y; z] => hash_combine prod (x + y * 2 ^ 8 + z * 2 ^ 16)
  | x :: y :: z :: w :: r => hash_words (hash_combine prod (x * 2 ^ 24 + y * 2 ^ 16 + z * 2 ^ 8 + w)) r
  end.
(** hash_bytes, 656-673. *)
Definition hash_bytes (b : bytes) : N := hash_words (fold_left (fun p x => (p + x) mod 2 ^ 32) b 1) b.

(** ** Pieces of the file *)

(** kno_open_block, streams.c:1122-1187, and kno_read_block, 1098-1112. *)
Definition slice (f : bytes) (off size : N) : bytes := firstn (N.to_nat size) (skipn (N.to_nat off) f).
Definition flen (f : bytes) : N := N.of_nat (length f).
(** A write inside the file. *)
Definition patch (f : bytes) (pos : N) (b : bytes) : bytes :=
  firstn (N.to_nat pos) f ++ b ++ skipn (N.to_nat pos + length b) f.
(** kno_fetch_chunk_ref with 256, streams.c:1406-1440. *)
Definition get_ref (t : offtype) (f : bytes) (b : N) : option cref :=
  decode_ref t (slice f (256 + b * ref_size t) (ref_size t)).
(** get_maxpos, 152-163. *)
Definition maxpos (t : offtype) : N := match t with B32 => 2 ^ 32 | B40 => 2 ^ 40 | B64 => 2 ^ 62 end.
Definition beq (a b : bytes) : bool := if list_eq_dec N.eq_dec a b then true else false.

(** The position of an element. *)
Fixpoint index_of (x : N) (l : list N) : option N :=
  match l with
  | [] => None
  | y :: r => if x =? y then Some 0 else match index_of x r with Some i => Some (i + 1) | None => None end
  end.

(** What a call comes to: a result; kno_DataFileOverflow; data that cannot be read (an error,
    or a read outside of what was written); no end. *)
Inductive out (A : Type) := Ok (a : A) | Overflow | Bad | Stuck.
Arguments Ok {A}. Arguments Overflow {A}. Arguments Bad {A}. Arguments Stuck {A}.

Section HashIndex.

Variable L : Type.
Variable leq : L -> L -> bool.
Variable enc : L -> bytes.
Variable dec : bytes -> option (L * bytes).
(** An OID: the number of its base (KNO_OID_BASE_ID) and KNO_OID_BASE_OFFSET, ptr.h:611-619. *)
Variable oid_of : L -> option (N * N).
Variable mk_oid : N -> N -> L.
(** A pair whose first element is a symbol or an OID: that element (by a number) and the rest. *)
Variable slot_of : L -> option (N * L).
Variable mk_key : N -> L -> L.
(** index_offtype and index_n_buckets, hashindex.h:46, 56. *)
Variable t : offtype.
Variable n : N.
(** What u8_malloc has left in the field ke_vref of a new key entry. *)
Variable junk : cref.

(** Choices, as for file indexes. *)
Definition choice_of : list L -> list L := FileIndexModel.choice_of L leq.
Definition minus : list L -> list L -> list L := FileIndexModel.minus L leq.

(** ** Codes

    struct KNO_SLOTCODER and struct KNO_OIDCODER, drivers.h:127-173: the slotids (base OIDs) by
    code; [None] for no table. *)
Definition codes := option (list N).
(** kno_slotid2code, drivers.h:195-208, and kno_get_oidcode, 150-157. *)
Definition code_of (c : codes) (s : N) : option N :=
  match c with Some l => index_of s l | None => None end.
(** kno_add_slotcode, drivers.c:912-950, and kno_add_oidcode, 704-742. *)
Definition add_code (c : codes) (s : N) : codes :=
  match c with
  | Some l => match index_of s l with Some _ => c | None => Some (l ++ [s]) end
  | None => None
  end.

(** write_zkey, 717-736.  (write_zkey_wsc, 738-757, is this with the table of [learn].) *)
Definition zkey (sc : codes) (k : L) : bytes :=
  match slot_of k with
  | Some (s, r) =>
    match code_of sc s with
    | Some i => put_varint (i + 1) ++ enc r
    | None => 0 :: enc k
    end
  | None => 0 :: enc k
  end.
(** The slotid of a key gets a code: 746-748. *)
Definition learn (sc : codes) (k : L) : codes :=
  match slot_of k with Some (s, _) => add_code sc s | None => sc end.
(** read_key, 829-843. *)
Definition read_key (sc : codes) (b : bytes) : option L :=
  match read_varint b with
  | None => None
  | Some (code, r) =>
    if code =? 0 then match dec r with Some (k, _) => Some k | None => None end
    else match sc with
         | None => None
         | Some l =>
           match nth_error l (N.to_nat (code - 1)), dec r with
           | Some s, Some (x, _) => Some (mk_key s x)
           | _, _ => None
           end
         end
  end.
(** The bucket of a key: 945-947. *)
Definition bucket (sc : codes) (k : L) : N := hash_bytes (zkey sc k) mod n.

(** write_zvalue, 866-896: the bytes and the table after it. *)
Definition zvalue (oc : codes) (v : L) : bytes * codes :=
  match oid_of v with
  | Some (b, o) =>
    match code_of (add_code oc b) b with
    | Some i => (put_varint (i + 1) ++ put_varint o, add_code oc b)
    | None => (0 :: enc v, oc)
    end
  | None => (0 :: enc v, oc)
  end.
Fixpoint zvalues (oc : codes) (vs : list L) : bytes * codes :=
  match vs with
  | [] => ([], oc)
  | v :: r => let '(b, oc1) := zvalue oc v in let '(b', oc2) := zvalues oc1 r in (b ++ b', oc2)
  end.
(** read_zvalue, 898-908; kno_get_baseoid, drivers.h:141-148. *)
Definition read_zvalue (oc : codes) (b : bytes) : option (L * bytes) :=
  match read_varint b with
  | None => None
  | Some (p, r) =>
    if p =? 0 then dec r
    else match oc with
         | None => None
         | Some l =>
           match nth_error l (N.to_nat (p - 1)), read_varint r with
           | Some base, Some (o, r') => Some (mk_oid base o, r')
           | _, _ => None
           end
         end
  end.
Fixpoint read_zvalues (oc : codes) (count : nat) (b : bytes) : option (list L * bytes) :=
  match count with
  | O => Some ([], b)
  | S c =>
    match read_zvalue oc b with
    | None => None
    | Some (v, r) =>
      match read_zvalues oc c r with Some (l, r') => Some (v :: l, r') | None => None end
    end
  end.

(** ** Blocks of values *)

(** write_value_block, 2162-2191: [vs] with the extra value first. *)
Definition value_block (oc : codes) (vs : list L) (cont : cref) : bytes * codes :=
  let '(b, oc') := zvalues oc vs in
  (put_varint (N.of_nat (length vs)) ++ b ++ put_varint (snd cont) ++
   (if snd cont =? 0 then [] else put_varint (fst cont)), oc').

(** The reference to the next block: 1055-1064, and fetchn, 1431-1437. *)
Definition read_cont (b : bytes) : option cref :=
  match read_varint b with
  | None => None
  | Some (size, r) =>
    if size =? 0 then Some (0, 0)
    else match read_varint r with Some (off, _) => Some (off, size) | None => None end
  end.
(** read_value_block, 1006-1073: at most [left] values are read (and the reference is read
    behind them). *)
Definition read_value_block (f : bytes) (oc : codes) (ref : cref) (left : nat) : option (list L * cref) :=
  match read_varint (slice f (fst ref) (snd ref)) with
  | None => None
  | Some (m, r) =>
    match read_zvalues oc (Nat.min (N.to_nat m) left) r with
    | None => None
    | Some (l, r') => match read_cont r' with Some c => Some (l, c) | None => None end
    end
  end.
(** read_values, 1075-1117.  [left] is [n_values - n_read], [fuel] bounds the number of blocks. *)
Fixpoint read_values (fuel : nat) (f : bytes) (oc : codes) (ref : cref) (left : nat) : out (list L) :=
  match left with
  | O => Ok []
  | S _ =>
    if fst ref =? 0 then Bad
    else match fuel with
         | O => Stuck
         | S fuel' =>
           match read_value_block f oc ref left with
           | None => Bad
           | Some (l, c) =>
             match read_values fuel' f oc c (left - length l) with
             | Ok l' => Ok (l ++ l')
             | Overflow => Overflow | Bad => Bad | Stuck => Stuck
             end
           end
         end
  end.
(** The blocks as fetchn reads them, 1408-1463, for one key: all values of every block, until
    there is no next one. *)
Fixpoint read_chain (fuel : nat) (f : bytes) (oc : codes) (ref : cref) : out (list L) :=
  match fuel with
  | O => Stuck
  | S fuel' =>
    match read_varint (slice f (fst ref) (snd ref)) with
    | None => Bad
    | Some (m, r) =>
      match read_value_block f oc ref (N.to_nat m) with
      | None => Bad
      | Some (l, c) =>
        if snd c =? 0 then Ok l
        else match read_chain fuel' f oc c with
             | Ok l' => Ok (l ++ l')
             | Overflow => Overflow | Bad => Bad | Stuck => Stuck
             end
      end
    end
  end.

(** ** Buckets *)

(** struct KEYENTRY, hashindex.h:88-94.  [e_val] is ke_values ([None] for VOID and EMPTY). *)
Record entry := E { e_key : bytes; e_n : N; e_val : option L; e_ref : cref }.

(** One entry: parse_keybucket, 2142-2159; the loops of hashindex_fetch, 966-1000, and fetchn,
    1336-1389, step over an entry in the same way (they need no base OID for that). *)
Definition read_entry (oc : codes) (b : bytes) : option (entry * bytes) :=
  match read_varint b with
  | None => None
  | Some (size, r) =>
    match read_bytes r (N.to_nat size) with
    | None => None
    | Some (key, r1) =>
      match read_varint r1 with
      | None => None
      | Some (nv, r2) =>
        if nv =? 0 then Some (E key 0 None junk, r2)
        else if nv =? 1 then
          match read_zvalue oc r2 with Some (v, r3) => Some (E key 1 (Some v) junk, r3) | None => None end
        else match read_varint r2 with
             | None => None
             | Some (off, r3) =>
               match read_varint r3 with
               | Some (vsize, r4) => Some (E key nv None (off, vsize), r4)
               | None => None
               end
             end
      end
    end
  end.
Fixpoint read_entries (oc : codes) (count : nat) (b : bytes) : option (list entry) :=
  match count with
  | O => Some []
  | S c =>
    match read_entry oc b with
    | None => None
    | Some (e, r) => match read_entries oc c r with Some l => Some (e :: l) | None => None end
    end
  end.
(** parse_keybucket, 2137-2160, with read_keybucket, 2376-2410. *)
Definition read_bucket (oc : codes) (f : bytes) (ref : cref) : option (list entry) :=
  if snd ref =? 0 then Some []
  else match read_varint (slice f (fst ref) (snd ref)) with
       | None => None
       | Some (c, r) => read_entries oc (N.to_nat c) r
       end.

(** The loop over the keys of a bucket up to the key sought, 966-1000: [Some None] when it is
    not there. *)
Fixpoint scan (oc : codes) (key : bytes) (count : nat) (b : bytes) : option (option entry) :=
  match count with
  | O => Some None
  | S c =>
    match read_entry oc b with
    | None => None
    | Some (e, r) => if beq (e_key e) key then Some (Some e) else scan oc key c r
    end
  end.

(** write_keybucket, 2346-2374. *)
Fixpoint write_entries (oc : codes) (es : list entry) : bytes * codes :=
  match es with
  | [] => ([], oc)
  | e :: r =>
    let '(b, oc1) :=
      if e_n e =? 0 then ([], oc)
      else if e_n e =? 1 then match e_val e with Some v => zvalue oc v | None => ([], oc) end
      else (put_varint (fst (e_ref e)) ++ put_varint (snd (e_ref e)), oc) in
    let '(b', oc2) := write_entries oc1 r in
    (put_varint (N.of_nat (length (e_key e))) ++ e_key e ++ put_varint (e_n e) ++ b ++ b', oc2)
  end.
Definition write_bucket (oc : codes) (es : list entry) : bytes * codes :=
  let '(b, oc') := write_entries oc es in (put_varint (N.of_nat (length es)) ++ b, oc').

(** ** Fetching *)

(** An open index: struct KNO_HASHINDEX, hashindex.h:38-60.  [ix_odd] is the flag
    KNO_HASHINDEX_ODDKEYS of hashindex_format. *)
Record index := Ix {
  ix_file : bytes; ix_slots : codes; ix_oids : codes; ix_odd : bool; ix_nkeys : N }.

(** The key cannot be in the index: 928-939, 1257-1263. *)
Definition uncoded (ix : index) (k : L) : bool :=
  match slot_of k with
  | Some (s, _) =>
    negb (ix_odd ix) && match code_of (ix_slots ix) s with Some _ => false | None => true end
  | None => false
  end.

(** What is common to hashindex_fetch and fetchn: the entry of a key. *)
Definition find_entry (ix : index) (k : L) : option (option entry) :=
  match get_ref t (ix_file ix) (bucket (ix_slots ix) k) with
  | None => None
  | Some ref =>
    if snd ref =? 0 then Some None
    else match read_varint (slice (ix_file ix) (fst ref) (snd ref)) with
         | None => None
         | Some (c, r) => scan (ix_oids ix) (zkey (ix_slots ix) k) (N.to_nat c) r
         end
  end.

(** hashindex_fetch, 912-1004. *)
Definition fetch (ix : index) (k : L) : out (list L) :=
  if uncoded ix k then Ok []
  else match find_entry ix k with
       | None => Bad
       | Some None => Ok []
       | Some (Some e) =>
         if e_n e =? 0 then Ok []
         else if e_n e =? 1 then match e_val e with Some v => Ok [v] | None => Bad end
         else match read_values (S (length (ix_file ix))) (ix_file ix) (ix_oids ix) (e_ref e)
                                (N.to_nat (e_n e)) with
              | Ok l => Ok (choice_of l)
              | Overflow => Overflow | Bad => Bad | Stuck => Stuck
              end
       end.

(** fetchn, 1207-1471, for one key.  The schedule orders the reads by position; what happens
    to one key depends on the file and on that key only.  The values go into a vector of [n_vals]
    elements: more of them are written behind its end, with fewer of them some elements are
    never set ([Bad]). *)
Definition fetchn1 (ix : index) (k : L) : out (list L) :=
  if uncoded ix k then Ok []
  else match find_entry ix k with
       | None => Bad
       | Some None => Ok []
       | Some (Some e) =>
         if e_n e =? 0 then Ok []
         else if e_n e =? 1 then match e_val e with Some v => Ok [v] | None => Bad end
         else match read_chain (S (length (ix_file ix))) (ix_file ix) (ix_oids ix) (e_ref e) with
              | Ok l => if N.of_nat (length l) =? e_n e then Ok (choice_of l) else Bad
              | Overflow => Overflow | Bad => Bad | Stuck => Stuck
              end
       end.

(** The loop of hashindex_fetchsize, 1150-1163: the number of values and two more numbers are
    read before the key. *)
Fixpoint size_scan (key : bytes) (count : nat) (b : bytes) : option N :=
  match count with
  | O => Some 0
  | S c =>
    match read_varint b with
    | None => None
    | Some (size, r) =>
      match read_varint r with
      | None => None
      | Some (nv, r1) =>
        match read_varint r1 with
        | None => None
        | Some (_, r2) =>
          match read_varint r2 with
          | None => None
          | Some (_, r3) =>
            if (size =? flen key) && beq (firstn (length key) r3) key then Some nv
            else size_scan key c (skipn (N.to_nat size) r3)
          end
        end
      end
    end
  end.
(** hashindex_fetchsize, 1120-1168. *)
Definition fetchsize (ix : index) (k : L) : option N :=
  match get_ref t (ix_file ix) (bucket (ix_slots ix) k) with
  | None => None
  | Some ref =>
    if snd ref =? 0 then Some 0
    else match read_varint (slice (ix_file ix) (fst ref) (snd ref)) with
         | None => None
         | Some (c, r) => size_scan (zkey (ix_slots ix) k) (N.to_nat c) r
         end
  end.

(** ** Keys *)

(** The references to buckets that are in use: 1519-1546. *)
Fixpoint used_refs (f : bytes) (bs : list nat) : option (list cref) :=
  match bs with
  | [] => Some []
  | b :: r =>
    match get_ref t f (N.of_nat b), used_refs f r with
    | Some ref, Some l => Some (if snd ref =? 0 then l else ref :: l)
    | _, _ => None
    end
  end.
Fixpoint keys_in (sc : codes) (es : list entry) : option (list (L * N)) :=
  match es with
  | [] => Some []
  | e :: r =>
    match read_key sc (e_key e), keys_in sc r with
    | Some k, Some l => Some ((k, e_n e) :: l)
    | _, _ => None
    end
  end.
Fixpoint infos_of (ix : index) (refs : list cref) : option (list (L * N)) :=
  match refs with
  | [] => Some []
  | ref :: r =>
    match read_bucket (ix_oids ix) (ix_file ix) ref with
    | None => None
    | Some es =>
      match keys_in (ix_slots ix) es, infos_of ix r with
      | Some l, Some l' => Some (l ++ l')
      | _, _ => None
      end
    end
  end.
(** hashindex_fetchinfo without a filter, 1636-1775: keys and numbers of values.  (The number
    of keys in the header, at 16, sizes the vectors; they grow when it is too low.) *)
Definition fetchinfo (ix : index) : option (list (L * N)) :=
  match read_4bytes (slice (ix_file ix) 16 4) with
  | None => None
  | Some (total, _) =>
    if total =? 0 then Some []
    else match used_refs (ix_file ix) (seq 0 (N.to_nat n)) with
         | None => None
         | Some refs => infos_of ix (FileIndexModel.qsort (fun r => fst r) refs)
         end
  end.
(** hashindex_fetchkeys, 1490-1628. *)
Definition fetchkeys (ix : index) : option (list L) :=
  match fetchinfo ix with Some l => Some (map fst l) | None => None end.

(** ** Saving *)

(** What is handed to a save: 2430-2435. *)
Record commits := { c_adds : list (L * list L); c_drops : list (L * list L);
                    c_stores : list (L * list L) }.
(** struct COMMIT_SCHEDULE, hashindex.h:83-86. *)
Record item := IT { it_key : L; it_vals : list L; it_repl : bool; it_bucket : N }.

(** process_drops, 2051-2102: the values that remain. *)
Fixpoint reduce_drops (ix : index) (drops : list (L * list L)) : out (list (L * list L)) :=
  match drops with
  | [] => Ok []
  | (k, v) :: r =>
    match fetchn1 ix k with
    | Ok ondisk =>
      match reduce_drops ix r with
      | Ok l => Ok ((k, minus ondisk v) :: l)
      | Overflow => Overflow | Bad => Bad | Stuck => Stuck
      end
    | Overflow => Overflow | Bad => Bad | Stuck => Stuck
    end
  end.
(** process_adds, 2104-2135: additions of nothing are left out. *)
Definition real_adds (adds : list (L * list L)) : list (L * list L) :=
  filter (fun kv => match snd kv with [] => false | _ => true end) adds.
(** The flag KNO_HASHINDEX_ODDKEYS after process_adds: 2117-2122 and 2133-2134. *)
Definition odd_after (ix : index) (adds : list (L * list L)) : bool :=
  ix_odd ix || existsb (fun kv => uncoded ix (fst kv)) (real_adds adds).

(** The schedule with the buckets, 2497-2503, and the table of slotids after it. *)
Fixpoint schedule (sc : codes) (l : list (L * list L * bool)) : list item * codes :=
  match l with
  | [] => ([], sc)
  | (k, vs, repl) :: r =>
    let sc1 := learn sc k in
    let '(its, sc2) := schedule sc1 r in
    (IT k vs repl (bucket sc1 k) :: its, sc2)
  end.
Definition edits (repl : bool) (l : list (L * list L)) : list (L * list L * bool) :=
  map (fun kv => (fst kv, snd kv, repl)) l.

(** A block of values is written at the end of the file. *)
Definition append_block (f : bytes) (oc : codes) (vs : list L) (cont : cref) : bytes * codes * cref :=
  let '(b, oc') := value_block oc vs cont in (f ++ b, oc', (flen f, flen b)).
(** An entry for values that replace all others: 2220-2250 (with [ref0] = (0,0)) and for a new
    key, 2311-2329 (ke_vref is not set unless a block is written). *)
Definition set_entry (f : bytes) (oc : codes) (key : bytes) (vs : list L) (ref0 : cref)
  : bytes * codes * entry :=
  match vs with
  | [] => (f, oc, E key 0 None ref0)
  | [v] => (f, oc, E key 1 (Some v) ref0)
  | _ => let '(f', oc', ref) := append_block f oc vs (0, 0) in
         (f', oc', E key (N.of_nat (length vs)) None ref)
  end.
(** Values are added to an entry: 2261-2301. *)
Definition extend_entry (f : bytes) (oc : codes) (e : entry) (vs : list L) : bytes * codes * entry :=
  let m := e_n e + N.of_nat (length vs) in
  match vs, e_val e with
  | [v], None =>
    if e_n e =? 0 then (f, oc, E (e_key e) m (Some v) (e_ref e))
    else let '(f', oc', ref) := append_block f oc vs (e_ref e) in (f', oc', E (e_key e) m None ref)
  | _, Some cur =>
    let '(f', oc', ref) := append_block f oc (cur :: vs) (0, 0) in (f', oc', E (e_key e) m None ref)
  | _, None =>
    let '(f', oc', ref) := append_block f oc vs (e_ref e) in (f', oc', E (e_key e) m None ref)
  end.
(** update_keybucket for one scheduled key, 2212-2339. *)
Fixpoint update (key : bytes) (vs : list L) (repl : bool) (f : bytes) (oc : codes) (es : list entry)
  : bytes * codes * list entry :=
  match es with
  | [] => let '(f', oc', e) := set_entry f oc key vs junk in (f', oc', [e])
  | e :: r =>
    if beq key (e_key e) then
      let '(f', oc', e') := if repl then set_entry f oc key vs (0, 0) else extend_entry f oc e vs in
      (f', oc', e' :: r)
    else let '(f', oc', r') := update key vs repl f oc r in (f', oc', e :: r')
  end.
Fixpoint updates (sc : codes) (its : list item) (f : bytes) (oc : codes) (es : list entry)
  : bytes * codes * list entry :=
  match its with
  | [] => (f, oc, es)
  | i :: r =>
    let '(f', oc', es') := update (zkey sc (it_key i)) (it_vals i) (it_repl i) f oc es in
    updates sc r f' oc' es'
  end.

(** The type of references with which a save reads them: the test in line 2446 assigns
    KNO_B40 to [offtype] unless it is KNO_B32. *)
Definition save_offtype : offtype := match t with B32 => B32 | _ => B40 end.

(** The march along the buckets, 2555-2591: [f0] is the file before the save, from which all
    buckets are read (2531-2537) before anything is written.  The results are the file, the
    table of base OIDs, the references to the new buckets and the number of new keys. *)
Fixpoint save_buckets (f0 : bytes) (sc : codes) (its : list item) (bs : list N) (f : bytes) (oc oc0 : codes)
  : option (bytes * codes * list (N * cref) * N) :=
  match bs with
  | [] => Some (f, oc, [], 0)
  | b :: r =>
    match get_ref save_offtype f0 b with
    | None => None
    | Some ref =>
      match read_bucket oc0 f0 ref with
      | None => None
      | Some es =>
        let '(f1, oc1, es1) := updates sc (filter (fun i => it_bucket i =? b) its) f oc es in
        let '(bb, oc2) := write_bucket oc1 es1 in
        match save_buckets f0 sc its r (f1 ++ bb) oc2 oc0 with
        | None => None
        | Some (f', oc', refs, nk) =>
          Some (f', oc', (b, (flen f1, flen bb)) :: refs, N.of_nat (length es1 - length es) + nk)
        end
      end
    end
  end.

(** The references are written: update_hashindex_ondisk, 2932-3019. *)
Definition write_ref (f : bytes) (r : N * cref) : bytes :=
  patch f (256 + fst r * ref_size t) (direct_bytes t (snd r)).
(** The header: 3044-3051.  [fmt] is hashindex_format without KNO_HASHINDEX_ODDKEYS. *)
Definition write_header (fmt : N) (odd : bool) (nkeys : N) (f : bytes) : bytes :=
  patch (patch (patch (patch f 248 (put_8bytes (flen f)))
                      8 (put_4bytes (if odd then fmt + 0x80 else fmt)))
               16 (put_4bytes nkeys))
        0 (put_4bytes 0x8011308).

(** What is known of a save when all data have been appended: the file, the tables, the flag,
    the references to be written, the number of keys. *)
Record saved := Sv { sv_file : bytes; sv_slots : codes; sv_oids : codes; sv_odd : bool;
                     sv_refs : list (N * cref); sv_nkeys : N }.

(** hashindex_save up to the writing of the references, 2460-2592.  [sort] is qsort with
    sort_cs_by_bucket (2507-2508); the entries for one bucket are then next to each other.
    The result is negative when the file has become too long: see 2252-2259, 2302-2309,
    2330-2337, 2369-2372 (not every overflow is noticed there: see DESIGN.md). *)
Definition save_data (sort : list item -> list item) (ix : index) (c : commits) : out saved :=
  match reduce_drops ix (c_drops c) with
  | Ok dvs =>
    let adds := real_adds (c_adds c) in
    let '(its0, sc) := schedule (ix_slots ix) (edits true (c_stores c ++ dvs) ++ edits false adds) in
    let its := sort its0 in
    match save_buckets (ix_file ix) sc its (nodup N.eq_dec (map it_bucket its))
                       (ix_file ix) (ix_oids ix) (ix_oids ix) with
    | None => Bad
    | Some (f', oc, refs, nk) =>
      if maxpos t <=? flen f' then Overflow
      else Ok (Sv f' sc oc (odd_after ix (c_adds c)) refs (ix_nkeys ix + nk))
    end
  | Overflow => Overflow | Bad => Bad | Stuck => Stuck
  end.
(** hashindex_save, 2425-2637. *)
Definition save_with (sort : list item -> list item) (fmt : N) (ix : index) (c : commits) : out index :=
  match c_adds c, c_drops c, c_stores c with
  | [], [], [] => Ok ix
  | _, _, _ =>
    match save_data sort ix c with
    | Ok s =>
      Ok (Ix (write_header fmt (sv_odd s) (sv_nkeys s) (fold_left write_ref (sv_refs s) (sv_file s)))
             (sv_slots s) (sv_oids s) (sv_odd s) (sv_nkeys s))
    | Overflow => Overflow | Bad => Bad | Stuck => Stuck
    end
  end.
(** With a stable sort, such as the merge sort of the GNU C library. *)
Definition save : N -> index -> commits -> out index := save_with (FileIndexModel.qsort it_bucket).

(** make_hashindex, 551-630: header and references; [times] is the rest of the header, [tail] the
    vectors of slotids and base OIDs and the metadata behind the references. *)
Definition make_file (fmt : N) (times tail : bytes) : bytes :=
  put_4bytes 0x8011308 ++ put_4bytes n ++ put_4bytes fmt ++ put_4bytes 0 ++ put_4bytes 0 ++
  firstn 236 (times ++ repeat 0 236) ++ repeat 0 (N.to_nat (n * ref_size t)) ++ tail.
(** open_hashindex, 255-349, for such a file. *)
Definition make_index (fmt : N) (odd : bool) (times tail : bytes) (slots oids : codes) : index :=
  Ix (make_file (if odd then fmt + 0x80 else fmt) times tail) slots oids odd 0.

(** ** Rollback and two-phase commit

    The head of a file: header and references. *)
Definition head_len : N := 256 + n * ref_size t.
Definition head_of (f : bytes) : bytes := firstn (N.to_nat head_len) f.
(** The rollback file: hashindex_commit, 2687-2689, with kno_write_rollback, drivers.c:1154-1173,
    and save_head, alcor.c:56-88: the head, then the size of the file. *)
Definition save_head (f : bytes) : bytes := head_of f ++ put_8bytes (flen f).
(** The rollback file is applied: 2724-2741, and when a file with a rollback file is opened,
    261-269.  (apply_head is as for file indexes, alcor.c:117-157.) *)
Definition rollback (saved f : bytes) : option bytes := FileIndexModel.apply_head saved f.
(** recover_hashindex, 460-486: kno_restore_head (alcor.c:286-289) calls kno_apply_head with
    its arguments the other way round.  The result: the rollback file and the index file. *)
Definition recover (saved f : bytes) : option (bytes * bytes) :=
  match FileIndexModel.apply_head f saved with Some saved' => Some (saved', f) | None => None end.
(** The write phase of a two-phase commit, 2690-2721, for a save of [f] that gives [f']: the
    data are appended to the file; references and header go to a copy of the head, to which
    kno_save_head has already appended the size and to which the end is appended again. *)
Definition data_only (f f' : bytes) : bytes := head_of f ++ skipn (N.to_nat head_len) f'.
Definition prepared (f f' : bytes) : bytes := head_of f' ++ put_8bytes (flen f) ++ put_8bytes (flen f').
(** The sync phase, 2742-2764. *)
Definition finish (f f' : bytes) : option bytes := FileIndexModel.apply_head (prepared f f') (data_only f f').

End HashIndex.

Arguments Ok {A}. Arguments Overflow {A}. Arguments Bad {A}. Arguments Stuck {A}.

(** * Sequences: elements, slices, searching, reversing, appending.

    Source: /repo/src/lisp/sequences.c:37-1030, /repo/src/prims/seqprims.c:440-476,
    585-784, 1399-1433, 2219-2272, /repo/src/lisp/cons.c:358-380, 486-498, 583-604,
    617-640, /repo/include/kno/sequences.h:46-66. *)

From Coq Require Export NArith ZArith List Bool Lia.
Export ListNotations.
Local Open Scope Z_scope.

(** ** Values

    [LFix]: a fixnum; [LBig]: an integer outside the range of fixnums; [LFlo]: a
    flonum, named by its 64 bits; [LChar]: a character by its code; [LAtom]: any
    value that is neither number, character nor sequence.
    [LStr]: a string, as the list of its characters.  The C code keeps UTF-8; the
    functions of libu8 (not part of /repo) that step through it are taken to work on
    valid UTF-8: u8_substring(s,i) is the place after [i] characters or NULL if there
    are fewer, u8_sgetc is the next character, u8_strlen_x and u8_charoffset count
    characters.  Because UTF-8 is self-synchronising, strchr for a character below
    0x80 and strstr for a valid string find exactly occurrences as characters.
    [LPacket true]: a secret.  [LNumvec w l]: a vector of shorts, ints or longs;
    [LFlovec dbl l]: of floats or doubles, each element given as the flonum made of it.
    [LComp tag off l]: a compound with elements [l]; [off] is compound_seqoff, None if
    negative.
    Not represented: sequence types registered by other modules. *)
Inductive width := WShort | WInt | WLong.
Inductive lv :=
| LFix (z : Z)
| LBig (z : Z)
| LFlo (w : N)
| LChar (c : N)
| LAtom (n : N)
| LNil
| LPair (a b : lv)
| LStr (s : list N)
| LPacket (secret : bool) (bs : list N)
| LVec (l : list lv)
| LComp (tag : lv) (off : option nat) (l : list lv)
| LNumvec (w : width) (l : list Z)
| LFlovec (dbl : bool) (l : list N)
| LChoice (l : list lv).

(** What a call returns: a value; the code KNO_RANGE_ERROR; an error that has been
    raised (kno_err, kno_type_error); the constant VOID; [SUnk]: it depends on what
    libu8 does (an allocation of a negative number of elements, a negative offset). *)
Inductive sres := SOk (v : lv) | SRange | SErr | SVoid | SUnk.
(** What the searching functions return: an int; [PJunk]: an uninitialised variable or
    memory beyond an array was used; [PLoop]: the loop does not end (before an int
    overflows); [PUnk]: it depends on libu8. *)
Inductive pres := PInt (z : Z) | PJunk | PLoop | PUnk.

(** KNO_INT of a long, ptr.h:680-687, with the bounds of fixnums, ptr.h:638, 649-650. *)
Definition max_fix : Z := 2 ^ 61 - 1.
Definition to_int (z : Z) : lv := if (max_fix <? z) || (z <? - max_fix) then LBig z else LFix z.

(** Number of elements of a C array.  Lengths are taken to be below 2^31. *)
Definition zlen {A} (l : list A) : Z := Z.of_nat (length l).
(** [l[i]] in C: [None] outside of the array. *)
Definition zref {A} (l : list A) (i : Z) : option A :=
  if i <? 0 then None else nth_error l (Z.to_nat i).

(** ** Elements *)

(** The loop over pairs, sequences.c:76-79. *)
Fixpoint pair_length (x : lv) : Z :=
  match x with LPair _ d => 1 + pair_length d | _ => 0 end.
(** seq_length, sequences.c:58-86; kno_seq_length, 90-95, is the same number. *)
Definition seq_length (x : lv) : Z :=
  match x with
  | LVec l => zlen l
  | LComp _ None _ => -1
  | LComp _ (Some off) l => zlen l - Z.of_nat off
  | LPacket _ bs => zlen bs
  | LNumvec _ l => zlen l
  | LFlovec _ l => zlen l
  | LStr s => zlen s
  | LPair _ _ => pair_length x
  | LNil => 0
  | _ => -1
  end.

(** sequences.c:144-149. *)
Fixpoint pair_elt (x : lv) (j i : Z) : sres :=
  match x with
  | LPair a d => if j =? i then SOk a else pair_elt d (j + 1) i
  | _ => SRange
  end.
(** The test [i>=len] of each case, sequences.c:110-141. *)
Definition elt_of {A} (f : A -> lv) (l : list A) (i : Z) : sres :=
  if zlen l <=? i then SRange else match zref l i with Some v => SOk (f v) | None => SUnk end.
(** kno_seq_elt, sequences.c:104-168.  A compound that is no sequence and all other
    values: an error.  [LChoice]s cannot be empty here (line 160). *)
Definition seq_elt (x : lv) (i : Z) : sres :=
  if i <? 0 then SRange
  else match x with
  | LVec l => elt_of id l i
  | LPacket true _ => SErr
  | LPacket false bs => elt_of (fun b => LFix (Z.of_N b)) bs i
  | LComp _ None _ => SErr
  | LComp _ (Some off) l => elt_of id (skipn off l) i
  | LNumvec _ l => elt_of to_int l i
  | LFlovec _ l => elt_of LFlo l i
  | LPair _ _ => pair_elt x 0 i
  | LStr s => elt_of LChar s i
  | LNil => SRange
  | _ => SErr
  end.

(** The pair case of kno_seq_elts, sequences.c:669-674. *)
Fixpoint pair_elts (x : lv) : list lv :=
  match x with LPair a d => a :: pair_elts d | _ => [] end.
(** kno_seq_elts, sequences.c:586-690: the elements, or [None] if the number of
    elements is set to -1 and NULL returned. *)
Definition seq_elts (x : lv) : option (list lv) :=
  let len := seq_length x in
  if len <? 0 then None
  else if len =? 0 then Some []
  else match x with
  | LPacket true _ => None
  | LPacket false bs => Some (map (fun b => LFix (Z.of_N b)) bs)
  | LStr s => Some (map LChar s)
  | LVec l => Some l
  | LComp _ (Some off) l => Some (skipn off l)
  | LNumvec _ l => Some (map to_int l)
  | LFlovec _ l => Some (map LFlo l)
  | LPair _ _ => Some (pair_elts x)
  | _ => None
  end.

(** ** Making sequences *)

(** The lisp types concerned, KNO_TYPEOF. *)
Inductive stype := TPair | TStr | TPacket | TSecret | TVec | TComp | TNum | TOther.
Definition stype_eqb (a b : stype) : bool :=
  match a, b with
  | TPair, TPair | TStr, TStr | TPacket, TPacket | TSecret, TSecret
  | TVec, TVec | TComp, TComp | TNum, TNum | TOther, TOther => true
  | _, _ => false
  end.
Definition stypeof (x : lv) : stype :=
  match x with
  | LPair _ _ => TPair | LStr _ => TStr
  | LPacket false _ => TPacket | LPacket true _ => TSecret
  | LVec _ => TVec | LComp _ _ _ => TComp
  | LNumvec _ _ | LFlovec _ _ => TNum
  | _ => TOther
  end.

(** One element of a string, sequences.c:705-711: characters and unsigned ints (ptr.h:
    721-722).  u8_putc is taken to write every code below 0x110000; [None]: not
    known; the inner [None] of the pair is the type error. *)
Fixpoint string_elts (v : list lv) : option (option (list N)) :=
  match v with
  | [] => Some (Some [])
  | x :: r =>
    match (match x with
           | LChar c => Some (Some c)
           | LFix z => if (0 <=? z) && (z <? 2 ^ 32)
                       then if z <? 0x110000 then Some (Some (Z.to_N z)) else None
                       else Some None
           | _ => Some None
           end) with
    | None => None
    | Some None => Some None
    | Some (Some c) =>
      match string_elts r with
      | Some (Some s) => Some (Some (c :: s)) | y => y
      end
    end
  end.
(** One byte of a packet, sequences.c:717-726. *)
Definition byte_of (x : lv) : option N :=
  match x with
  | LFix z => if (0 <=? z) && (z <? 2 ^ 32) then Some (Z.to_N (z mod 256)) else None
  | LChar c => Some (N.land c 0xFF)
  | _ => None
  end.
Fixpoint packet_elts (v : list lv) : option (list N) :=
  match v with
  | [] => Some []
  | x :: r => match byte_of x with
              | None => None
              | Some b => match packet_elts r with Some s => Some (b :: s) | None => None end
              end
  end.
(** kno_makeseq, sequences.c:692-746.  A numeric vector type has [makevector] as its
    maker (line 1008); other types are errors. *)
Definition makeseq (t : stype) (v : list lv) : sres :=
  match (match t with TComp => TVec | _ => t end) with
  | TStr => match string_elts v with
            | None => SUnk | Some None => SErr | Some (Some s) => SOk (LStr s) end
  | TPacket => match packet_elts v with Some bs => SOk (LPacket false bs) | None => SErr end
  | TSecret => match packet_elts v with Some bs => SOk (LPacket true bs) | None => SErr end
  | TVec | TNum => SOk (LVec v)
  | TPair => SOk (fold_right LPair LNil v)
  | _ => SErr
  end.

(** ** Slices *)

(** [memcpy]/the copying loop from [start] for [n] elements, within the array. *)
Definition sub {A} (l : list A) (start n : Z) : list A :=
  firstn (Z.to_nat n) (skipn (Z.to_nat start) l).

(** The pair case of kno_slice, sequences.c:221-243: [acc] is the list built so far,
    last element first. *)
Fixpoint pair_slice (x : lv) (j start end_ : Z) (acc : list lv) : sres :=
  match x with
  | LPair a d =>
    if j =? end_ then SOk (fold_right LPair LNil (rev acc))
    else pair_slice d (j + 1) start end_ (if start <=? j then a :: acc else acc)
  | _ =>
    if j <? start then SRange
    else if j <=? end_ then SOk (fold_right LPair LNil (rev acc))
    else SRange
  end.

(** kno_slice, sequences.c:170-263. *)
Definition kno_slice (x : lv) (start end_ : Z) : sres :=
  if start <? 0 then SRange
  else match x with
  | LVec l =>
    (* line 176: without an end, [start] is not checked *)
    if negb (end_ <? 0) && ((zlen l <? start) || (zlen l <? end_)) then SRange
    else let e := if end_ <? 0 then zlen l else end_ in
    if e - start <? 0 then SUnk else SOk (LVec (sub l start (e - start)))
  | LPacket secret bs =>
    (* lines 189-200; kno_make_packet refuses negative lengths, cons.c:621-622 *)
    if negb (end_ <? 0) && (zlen bs <? end_) then SVoid
    else let e := if end_ <? 0 then zlen bs else end_ in
    if e - start <? 0 then SErr
    else SOk (LPacket (secret && negb (end_ <? 0)) (sub bs start (e - start)))
  | LNumvec w l =>
    if (zlen l <? start) || (zlen l <? end_) then SRange
    else let n := if end_ <? 0 then zlen l - start else end_ - start in
    if n <? 0 then SUnk else SOk (LNumvec w (sub l start n))
  | LFlovec d l =>
    if (zlen l <? start) || (zlen l <? end_) then SRange
    else let n := if end_ <? 0 then zlen l - start else end_ - start in
    if n <? 0 then SUnk else SOk (LFlovec d (sub l start n))
  | LPair _ _ => pair_slice x 0 start end_ []
  | LStr s =>
    (* lines 244-253 *)
    if zlen s <? start then SRange
    else if end_ <? 0 then SOk (LStr (sub s start (zlen s - start)))
    else if end_ - start <? 0 then SUnk
    else if zlen s - start <? end_ - start then SRange
    else SOk (LStr (sub s start (end_ - start)))
  | LNil => if (start =? end_) && (start =? 0) then SOk LNil else SRange
  | _ => SErr
  end.

(** ** Searching *)
Section Search.
(** LISP_EQUAL (the same as KNO_EQUALP, cons.h) and kno_overlapp (choices.c:1250-1290):
    arbitrary functions here. *)
Variable eqv ovl : lv -> lv -> bool.

Definition choicep (x : lv) : bool := match x with LChoice _ => true | _ => false end.
Definition numberp (x : lv) : bool :=
  match x with LFix _ | LBig _ | LFlo _ => true | _ => false end.

(** The loops over vectors and compounds, sequences.c:283-300: [n] is the number of
    steps from [i] to [end]. *)
Fixpoint vec_position (key : lv) (data : list lv) (n : nat) (i : Z) : pres :=
  match n with
  | O => PInt (-1)
  | S n' =>
    match zref data i with
    | None => PJunk
    | Some e =>
      if eqv key e then PInt i
      else if choicep e && ovl key e then PInt i
      else vec_position key data n' (i + 1)
    end
  end.
(** The packet case, sequences.c:304-312. *)
Fixpoint packet_position (b : Z) (data : list N) (n : nat) (i : Z) : pres :=
  match n with
  | O => PInt (-1)
  | S n' =>
    match zref data i with
    | None => PJunk
    | Some e => if Z.of_N e =? b then PInt i else packet_position b data n' (i + 1)
    end
  end.
(** kno_generic_position, sequences.c:425-453, the loop upwards: it runs to the length
    of the sequence. *)
Fixpoint generic_up (key x : lv) (n : nat) (i : Z) : pres :=
  match n with
  | O => PInt (-1)
  | S n' =>
    match seq_elt x i with
    | SOk e => if eqv e key then PInt i else generic_up key x n' (i + 1)
    | _ => generic_up key x n' (i + 1)
    end
  end.
(** The loop downwards (delta is -1 when start and end are the same): below 0
    kno_seq_elt returns KNO_RANGE_ERROR, which is not equal to a key, and the loop goes
    on. *)
Fixpoint generic_down (key x : lv) (i : nat) : pres :=
  match seq_elt x (Z.of_nat i) with
  | SOk e => if eqv e key then PInt (Z.of_nat i)
             else match i with O => PLoop | S i' => generic_down key x i' end
  | _ => match i with O => PLoop | S i' => generic_down key x i' end
  end.
Definition generic_position (key x : lv) (start end_ : Z) : pres :=
  let len := seq_length x in
  if len <? 0 then PInt len
  else
    let '(s, e) := if end_ <? 0 then (start, len + end_)
                   else if end_ <? start then (end_, start) else (start, end_) in
    if (s <? 0) || (e <? 0) then PUnk
    else if e <? s then PInt (-1)
    else if s <? e then generic_up key x (Z.to_nat (len - s)) s
    else if s <? len then generic_down key x (Z.to_nat s)
    else PInt (-1).

(** strchr and strrchr on the characters of a string; the terminating NUL counts. *)
Fixpoint strchr (c : N) (s : list N) : option Z :=
  match s with
  | [] => if (c =? 0)%N then Some 0 else None
  | x :: r => if (x =? c)%N then Some 0
              else match strchr c r with Some i => Some (i + 1) | None => None end
  end.
Fixpoint strrchr (c : N) (s : list N) : option Z :=
  match s with
  | [] => if (c =? 0)%N then Some 0 else None
  | x :: r => match strrchr c r with
              | Some i => Some (i + 1)
              | None => if (x =? c)%N then Some 0 else None
              end
  end.
(** The loop for characters from 0x80 on, sequences.c:332-339, forwards; [s] is what
    lies between [lower] and [upper]. *)
Fixpoint scan_char (c : N) (s : list N) (pos : Z) : Z :=
  match s with
  | [] => -1
  | x :: r => if (x =? c)%N then pos else scan_char c r (pos + 1)
  end.
(** The string case of kno_position, sequences.c:319-340, after the checks.  With start
    and end the same [dir] is -1, and strrchr looks from [upper] on. *)
Definition string_position (c : N) (s : list N) (start end_ : Z) : pres :=
  let lower := skipn (Z.to_nat start) s in
  if (c <? 0x80)%N then
    if start <? end_
    then match strchr c lower with Some i => PInt (start + i) | None => PInt (-1) end
    else match strrchr c lower with Some i => PInt (start + i) | None => PInt (-1) end
  else PInt (scan_char c (sub s start (end_ - start)) start).
(** The pair case, sequences.c:341-351. *)
Fixpoint pair_position (key x : lv) (pos start end_ : Z) : pres :=
  match x with
  | LPair a d =>
    if pos <? start then pair_position key d (pos + 1) start end_
    else if end_ <=? pos then PInt (-1)
    else if eqv a key then PInt pos
    else pair_position key d (pos + 1) start end_
  | _ => if (pos <? start) || ((0 <? end_) && (pos <? end_)) then PInt (-3) else PInt (-1)
  end.

(** kno_position, sequences.c:267-358. *)
Definition kno_position (key seq : lv) (start limit : Z) : pres :=
  let len := seq_length seq in
  if len <? 0 then PInt (-2)
  else match seq with LPacket true _ => PInt (-2) | _ =>
    let end_ := if limit <? 0 then len + limit + 1 else if len <? limit then len else limit in
    if (start <? 0) || (end_ <? 0) then PInt (-2)
    else if end_ <? start then PInt (-3)
    else match seq with
    | LVec l => vec_position key l (Z.to_nat (end_ - start)) start
    | LComp _ (Some off) l => vec_position key (skipn off l) (Z.to_nat (end_ - start)) start
    | LPacket _ bs =>
      match key with
      | LFix z => if (0 <=? z) && (z <? 0x100)
                  then packet_position z bs (Z.to_nat (end_ - start)) start else PInt (-1)
      | _ => PInt (-1)
      end
    | LNumvec _ _ | LFlovec _ _ =>
      if numberp key then generic_position key seq start end_ else PInt (-1)
    | LStr s => match key with LChar c => string_position c s start end_ | _ => PInt (-1) end
    | LPair _ _ => if start =? end_ then PInt (-1) else pair_position key seq 0 start end_
    | _ => PInt (-1)
    end
  end.

(** [while (start<end--) if …], sequences.c:383-386: [n] steps down from [start+n]. *)
Fixpoint down_position (f : Z -> option bool) (n : nat) (start : Z) : pres :=
  match n with
  | O => PInt (-1)
  | S n' => match f (start + Z.of_nat n') with
            | None => PJunk
            | Some true => PInt (start + Z.of_nat n')
            | Some false => down_position f n' start
            end
  end.
(** The checks before those loops, sequences.c:380-382. *)
Definition checked_down (f : Z -> option bool) (len start end_ : Z) : pres :=
  let e := if end_ <? 0 then len else end_ in
  if (start <? 0) || (e <? start) || (len <? start) || (len <? e) then PInt (-3)
  else down_position f (Z.to_nat (e - start)) start.
(** Bytes of a character in UTF-8. *)
Definition utf8_len (c : N) : Z :=
  if (c <? 0x80)%N then 1 else if (c <? 0x800)%N then 2 else if (c <? 0x10000)%N then 3 else 4.
(** strrchr(data+start,code): what follows [start] bytes, as characters, with the
    number of characters before it; a character cut by the offset is of no interest, as
    only characters below 0x80 are looked for.  [None]: beyond the string. *)
Fixpoint after_bytes (s : list N) (start : Z) (k : Z) : option (Z * list N) :=
  if start <=? 0 then Some (k, s)
  else match s with
       | [] => None
       | c :: r => after_bytes r (start - utf8_len c) (k + 1)
       end.
(** The loop of the default case of kno_rposition, sequences.c:413-421.  [pos] is not
    initialised. *)
Fixpoint last_position (fuel : nat) (key x : lv) (start end_ last : Z) (pos : option Z) : pres :=
  match fuel with
  | O => PLoop
  | S f =>
    let stop p := match p with
                  | None => PJunk
                  | Some p => if p <? -1 then PInt p else PInt last
                  end in
    if start <? end_ then
      match kno_position key x start end_ with
      | PInt p => if 0 <=? p then last_position f key x (p + 1) end_ p (Some p) else stop (Some p)
      | r => r
      end
    else stop pos
  end.
(** kno_rposition, sequences.c:360-422. *)
Definition kno_rposition (key x : lv) (start end_ : Z) : pres :=
  let default := last_position (Z.to_nat (seq_length x) + 2) key x start end_ (-1) None in
  match x with
  | LNil => PInt (-1)
  | LStr s =>
    match key with
    | LChar c =>
      if (c <? 0x80)%N then
        if start <? 0 then PJunk
        else match after_bytes s start 0 with
        | None => PJunk
        | Some (k, r) =>
          match strrchr c r with
          | Some i => if k + i <? end_ then PInt (k + i) else PInt (-1)
          | None => PInt (-1)
          end
        end
      else default
    | _ => default
    end
  | LVec l => checked_down (fun i => option_map (eqv key) (zref l i)) (zlen l) start end_
  | LComp _ (Some off) l =>
    checked_down (fun i => option_map (eqv key) (zref (skipn off l) i)) (zlen l - Z.of_nat off) start end_
  | LPacket true _ => PInt (-2)
  | LPacket false bs =>
    match key with
    | LFix z => if (z <? 0) || (255 <? z) then PInt (-1)
                else checked_down (fun i => option_map (fun b => Z.of_N b =? z) (zref bs i)) (zlen bs) start end_
    | _ => PInt (-1)
    end
  | LComp _ None _ => PUnk (* KNO_COMPOUND_VECELTS is NULL, KNO_COMPOUND_VECLEN -1 *)
  | _ => default
  end.

(** ** Searching for subsequences *)

Fixpoint starts_with (s k : list N) : bool :=
  match k, s with
  | [], _ => true
  | x :: k', y :: s' => (x =? y)%N && starts_with s' k'
  | _ :: _, [] => false
  end.
(** strstr, for strings. *)
Fixpoint strstr (s k : list N) : option Z :=
  if starts_with s k then Some 0
  else match s with
       | [] => None
       | _ :: r => match strstr r k with Some i => Some (i + 1) | None => None end
       end.
(** The string case, sequences.c:464-488; [start < end]. *)
Definition string_search (k s : list N) (start end_ : Z) : pres :=
  if zlen k =? 0 then PInt 0
  else if zlen s =? 0 then PInt (-1)
  else if start <? 0 then PUnk
  else if zlen s <? start then PInt (-2)
  else match strstr (skipn (Z.to_nat start) s) k with
  | found =>
    if end_ <? 0 then match found with Some i => PInt (start + i) | None => PInt (-1) end
    else if zlen s - start <? end_ - start then PInt (-2)
    else match found with
         | Some i => if i <? end_ - start then PInt (start + i) else PInt (-1)
         | None => PInt (-1)
         end
  end.

(** memcmp, as comparing byte by byte until a difference: [None] if the first argument
    (an array of exactly these bytes) is left. *)
Fixpoint memeq (s k : list N) : option bool :=
  match k, s with
  | [], _ => Some true
  | x :: k', y :: s' => if (x =? y)%N then memeq s' k' else Some false
  | _ :: _, [] => None
  end.
(** The loop of packet_search, sequences.c:545-548: [i] the place of [scan], [n] the
    bytes up to [lim]. *)
Fixpoint packet_scan (k data : list N) (n : nat) (i : Z) : pres :=
  match n with
  | O => PInt (-1)
  | S n' =>
    match zref data i, k with
    | Some b, k0 :: _ =>
      if (b =? k0)%N then
        match memeq (skipn (Z.to_nat i) data) k with
        | Some true => PInt i
        | Some false => packet_scan k data n' (i + 1)
        | None => PJunk
        end
      else packet_scan k data n' (i + 1)
    | _, _ => PJunk
    end
  end.
(** packet_search, sequences.c:538-550. *)
Definition packet_search (k data : list N) (start end_ : Z) : pres :=
  if zlen k =? 0 then PInt 0
  else if end_ - start <? zlen k then PInt (-1)
  else packet_scan k data (Z.to_nat (end_ - start)) start.

(** The inner loop of vector_search, sequences.c:565-572; [None]: beyond the vector. *)
Fixpoint vec_match (k v : list lv) : option bool :=
  match k, v with
  | [], _ => Some true
  | x :: k', y :: v' =>
    if eqv x y || (choicep y && ovl x y) then vec_match k' v' else Some false
  | _ :: _, [] => None
  end.
Fixpoint vec_scan (k data : list lv) (n : nat) (i : Z) : pres :=
  match n with
  | O => PInt (-1)
  | S n' =>
    match zref data i, k with
    | Some e, k0 :: kr =>
      if eqv e k0 || (choicep e && ovl e k0) then
        match vec_match kr (skipn (Z.to_nat (i + 1)) data) with
        | Some true => PInt i
        | Some false => vec_scan k data n' (i + 1)
        | None => PJunk
        end
      else vec_scan k data n' (i + 1)
    | _, _ => PJunk
    end
  end.
(** vector_search, sequences.c:552-577.  Pointer equality (the first disjunct of the
    tests) implies LISP_EQUAL. *)
Definition vector_search (k data : list lv) (start end_ : Z) : pres :=
  if zlen k =? 0 then PInt 0
  else if end_ - start <? zlen k then PInt (-1)
  else vec_scan k data (Z.to_nat (end_ - zlen k + 1 - start)) start.

(** The inner loop of kno_generic_search, sequences.c:523-529: true if [i] gets to the
    length.  An element that cannot be had is an error value, equal to nothing. *)
Fixpoint generic_match (k x : lv) (n : nat) (i j : Z) : bool :=
  match n with
  | O => true
  | S n' =>
    match seq_elt k i, seq_elt x j with
    | SOk a, SOk b => if eqv a b || (choicep b && ovl a b) then generic_match k x n' (i + 1) (j + 1)
                      else false
    | _, _ => false
    end
  end.
(** The outer loop, sequences.c:520-535.  Line 520 gives kno_position the limit
    [pos-subseqlen]. *)
Fixpoint generic_scan (fuel : nat) (k k0 x : lv) (klen pos : Z) : pres :=
  match fuel with
  | O => PLoop
  | S f =>
    match kno_position k0 x pos (pos - klen) with
    | PInt p =>
      if p <? 0 then PInt (-1)
      else if generic_match k x (Z.to_nat (klen - 1)) 1 (p + 1) then PInt p
      else generic_scan f k k0 x klen (p + 1)
    | r => r
    end
  end.
(** kno_generic_search, sequences.c:504-536. *)
Definition generic_search (k x : lv) (start end_ : Z) : pres :=
  let seqlen := seq_length x in
  let klen := seq_length k in
  if klen <? 0 then PInt (-2)
  else if klen =? 0 then PInt 0
  else match seq_elt k 0 with
  | SOk k0 =>
    if negb (end_ <? 0) && (seqlen <? end_) then PInt (-2)
    else generic_scan (Z.to_nat seqlen + 2) k k0 x klen start
  | _ => PUnk (* an error value as a number *)
  end.
(** kno_search, sequences.c:460-502. *)
Definition kno_search (k x : lv) (start end_ : Z) : pres :=
  if end_ <=? start then PInt (-1)
  else match k, x with
  | LStr ks, LStr s => string_search ks s start end_
  | _, LNil => PInt (-1)
  | _, LPacket true _ => PInt (-2)
  | LPacket true _, _ => PInt (-2)
  | LPacket false kb, LPacket false b => packet_search kb b start end_
  | LVec kl, LVec l => vector_search kl l start end_
  | _, _ => generic_search k x start end_
  end.

(** ** Removing: kno_remove, sequences.c:834-858 *)

(** The loop 845-848: [None] if an element cannot be had (an error value would be
    kept). *)
Fixpoint remove_loop (item x : lv) (n : nat) (i : Z) : option (list lv * bool) :=
  match n with
  | O => Some ([], false)
  | S n' =>
    match seq_elt x i, remove_loop item x n' (i + 1) with
    | SOk e, Some (l, r) => if eqv e item then Some (l, true) else Some (e :: l, r)
    | _, _ => None
    end
  end.
Definition sequencep (x : lv) : bool :=
  match x with
  | LStr _ | LPacket _ _ | LVec _ | LPair _ _ | LNumvec _ _ | LFlovec _ _ | LNil => true
  | LComp _ (Some _) _ => true
  | _ => false
  end.
Definition kno_remove (item x : lv) : sres :=
  if negb (sequencep x) then SErr
  else match x with
  | LNil => SOk LNil
  | LPacket true _ => SOk x (* no element of a secret is equal to anything *)
  | _ => match remove_loop item x (Z.to_nat (seq_length x)) 0 with
         | None => SUnk
         | Some (l, true) => makeseq (stypeof x) l
         | Some (_, false) => SOk x
         end
  end.
End Search.

(** ** Reversing: kno_reverse, sequences.c:750-780 *)

(** kno_reverse_list, cons.c:486-498. *)
Fixpoint reverse_list (x res : lv) : sres :=
  match x with
  | LPair a d => reverse_list d (LPair a res)
  | LNil => SOk res
  | _ => SErr
  end.
(** make_short_vector … make_double_vector, sequences.c:863-938, from elements. *)
Fixpoint int_elts (w : width) (v : list lv) : option (list Z) :=
  match v with
  | [] => Some []
  | x :: r =>
    match (match w, x with
           | WShort, LFix z => if (- 32768 <=? z) && (z <=? 32767) then Some z else None
           | WInt, LFix z => if (- 2 ^ 31 <=? z) && (z <? 2 ^ 31) then Some z else None
           | WLong, LFix z => Some z
           | WLong, LBig z => Some z
           | _, _ => None
           end) with
    | None => None
    | Some z => match int_elts w r with Some l => Some (z :: l) | None => None end
    end
  end.
Fixpoint flo_elts (v : list lv) : option (list N) :=
  match v with
  | [] => Some []
  | LFlo f :: r => match flo_elts r with Some l => Some (f :: l) | None => None end
  | _ => None
  end.
(** For the numeric vectors the elements are taken from [elts], not from the reversed
    [tmp] (lines 763-772). *)
Definition kno_reverse (x : lv) : sres :=
  match x with
  | LNil => SOk LNil
  | LPair _ _ => reverse_list x LNil
  | _ =>
    match seq_elts x with
    | None => SUnk (* u8_alloc_n(-1) *)
    | Some elts =>
      match x with
      | LNumvec w _ => match int_elts w elts with Some l => SOk (LNumvec w l) | None => SErr end
      | LFlovec d _ => match flo_elts elts with Some l => SOk (LFlovec d l) | None => SErr end
      | _ => makeseq (stypeof x) (rev elts)
      end
    end
  end.

(** ** Appending: kno_append, sequences.c:784-830 *)

(** The type after one more argument, sequences.c:795-812. *)
Definition append_type (t : stype) (x : lv) : stype :=
  if match x with LNil => stype_eqb t TPair | _ => false end then t
  else if stype_eqb (stypeof x) t then t
  else match t, stypeof x with
  | TSecret, TPacket | TSecret, TStr => TSecret
  | TPacket, TSecret => TSecret
  | TStr, TSecret => TSecret
  | TStr, TPacket => TPacket
  | _, _ => TVec
  end.
Fixpoint append_loop (t : stype) (l : list lv) : option (stype * list lv) :=
  match l with
  | [] => Some (t, [])
  | x :: r =>
    match seq_elts x with
    | None => None
    | Some e => match append_loop (append_type t x) r with
                | Some (t', es) => Some (t', e ++ es)
                | None => None
                end
    end
  end.
Definition kno_append (l : list lv) : sres :=
  match l with
  | [] => SOk LNil
  | x :: _ =>
    match append_loop (match x with LNil => TPair | _ => stypeof x end) l with
    | None => SErr
    | Some (t, es) => makeseq t es
    end
  end.

(** ** The primitives of seqprims.c *)

(** An argument for a position: void or #f, a fixnum, or something else. *)
Inductive parg := ANone | AFix (z : Z) | AOther.
(** KNO_INTP, ptr.h:719-720. *)
Definition intp (z : Z) : bool := (- 2 ^ 31 <=? z) && (z <? 2 ^ 31).
(** check_empty_list_range, seqprims.c:590-611, and check_range, 642-672: [None] is an
    error. *)
Definition check_range (x : lv) (start end_ : parg) : option (Z * Z) :=
  match x with
  | LNil =>
    match start, end_ with
    | (ANone | AFix 0), (ANone | AFix 0) => Some (0, 0)
    | _, _ => None
    end
  | _ =>
    if negb (sequencep x) then None
    else match (match start with
                | AFix z => if intp z then if z <? 0 then None else Some z else None
                | ANone => Some 0
                | AOther => None
                end) with
    | None => None
    | Some s =>
      match end_ with
      | ANone => Some (s, seq_length x)
      | AFix z =>
        if intp z then
          if z <? 0 then
            let off := seq_length x + z in
            if 0 <=? off then Some (s, off) else None
          else if seq_length x <? z then None
          else Some (s, z)
        else None
      | AOther => None
      end
    end
  end.
(** slice_prim, seqprims.c:674-690: KNO_RANGE_ERROR becomes a raised error. *)
Definition slice_prim (x : lv) (start end_ : parg) : sres :=
  match check_range x start end_ with
  | None => SErr
  | Some (s, e) => match kno_slice x s e with SRange => SErr | r => r end
  end.
(** The results of the searching primitives: a position, #f, an error; the numbers below
    -3 do not occur. *)
Inductive fres := FPos (z : Z) | FNone | FErr | FJunk | FLoop | FUnk.
Definition found (r : pres) : fres :=
  match r with
  | PInt z => if 0 <=? z then FPos z else if z =? -1 then FNone else FErr
  | PJunk => FJunk | PLoop => FLoop | PUnk => FUnk
  end.
(** position_prim, seqprims.c:692-715; rposition_prim, 717-739; search_prim, 765-787. *)
Definition position_prim eqv ovl (key x : lv) (start end_ : parg) : fres :=
  match check_range x start end_ with
  | None => FErr | Some (s, e) => found (kno_position eqv ovl key x s e) end.
Definition rposition_prim eqv ovl (key x : lv) (start end_ : parg) : fres :=
  match check_range x start end_ with
  | None => FErr | Some (s, e) => found (kno_rposition eqv ovl key x s e) end.
Definition search_prim eqv ovl (k x : lv) (start end_ : parg) : fres :=
  match check_range x start end_ with
  | None => FErr | Some (s, e) => found (kno_search eqv ovl k x s e) end.
(** rest, seqprims.c:1421-1432. *)
Definition rest_prim (x : lv) : sres :=
  match x with
  | LPair _ d => SOk d
  | _ => match kno_slice x 1 (-1) with SRange => SErr | r => r end
  end.

(** seqmatch_prim, seqprims.c:2219-2272: [Some b] is #t or #f.  The generic loop takes
    both elements from [prefix] (2266-2267). *)
Fixpoint match_vec (eqv : lv -> lv -> bool) (p : list lv) (s : list lv) (i : Z) : option bool :=
  match p with
  | [] => Some true
  | x :: r => match zref s i with
              | None => None
              | Some y => if eqv x y then match_vec eqv r s (i + 1) else Some false
              end
  end.
Fixpoint match_generic (eqv : lv -> lv -> bool) (p : lv) (n : nat) (j i : Z) : bool :=
  match n with
  | O => true
  | S n' =>
    match seq_elt p j, seq_elt p i with
    | SOk a, SOk b => if eqv a b then match_generic eqv p n' (j + 1) (i + 1) else false
    | _, _ => false
    end
  end.
Definition seqmatch_prim eqv (p x : lv) (start : Z) : option bool :=
  if (start <? 0) || (2 ^ 32 <=? start) then None
  else match p, x with
  | LVec pl, LVec l =>
    if start + zlen pl <=? zlen l then match_vec eqv pl l start else Some false
  | LStr ps, LStr s =>
    (* byte offsets and strncmp: on characters, for a start within the string *)
    if zlen s <? start then None
    else Some (starts_with (skipn (Z.to_nat start) s) ps)
  | _, _ =>
    if negb (sequencep p) || negb (sequencep x) then None
    else if start + seq_length p <=? seq_length x
         then Some (match_generic eqv p (Z.to_nat (seq_length p)) 0 start)
         else Some false
  end.

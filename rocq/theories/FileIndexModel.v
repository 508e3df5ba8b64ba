(** * File indexes: the fileindex driver.

    Source: /repo/src/drivers/fileindex.c, /repo/src/drivers/headers/fileindex.h.

    The file.  4 bytes of magic number, 4 bytes for the number [n] of slots, [n] offsets of
    4 bytes, then data.  An offset is 0 (a free slot) or the position of a key entry minus
    [4*n].  A key entry is the number of values (4 bytes), the position of the first value
    minus [4*n] (4 bytes, 0: none) and the key.  A value is followed by 4 bytes: 0 for the
    last value, 1 when the next value comes right behind, or the position of the next value
    minus [4*n].  A key is sought in the slots [h mod n], [(h mod n + w) mod n], ... where [h]
    is its hash code and [w] is [h mod (n-2) + 1].

    What is modelled: fetching one key (217-279), fetching sizes (283-314), keys (337-362)
    and infos (364-399), fetching many keys (442-602), saving (649-1095) for an index whose
    offsets are not cached in memory, and making a file (1249-1280).

    Simplifications, for the whole file.
    - Keys and values are of a type [L] with an equality test (LISP_EQUAL), a hash function
      (fileindex_hash, 188-201) and a codec (kno_write_dtype, kno_read_dtype).
    - The file is the list of its bytes.  The stream buffer is left out: a write at the end
      of the file (kno_endpos and writes) appends, and a read sees what has been written.
    - A choice of values is the list of its elements.
    - [index_offsets] is NULL: the level of caching is below 2. *)

From Coq Require Import NArith ZArith List Bool.
From Verif Require Import BytesModel.
Import ListNotations.
Local Open Scope N_scope.

Section FileIndex.

Variable L : Type.
Variable leq : L -> L -> bool.
Variable hash : L -> N.
Variable enc : L -> bytes.
Variable dec : bytes -> option (L * bytes).
(** [index_n_slots], fileindex.h:16. *)
Variable n : N.
(** redundantp, 203-215: a pair whose first element is a slotid that is not among the
    slotids of the index. *)
Variable redundant : L -> bool.

(** What a call comes to: a result; kno_FileIndexSizeOverflow; a read outside the file or
    the exception of an inconsistent file; no end. *)
Inductive out (A : Type) := Ok (a : A) | Overflow | Bad | Stuck.
Arguments Ok {A}. Arguments Overflow {A}. Arguments Bad {A}. Arguments Stuck {A}.

(** ** Choices *)

Definition mem (x : L) (s : list L) : bool := existsb (leq x) s.
(** CHOICE_ADD for one element. *)
Definition add1 (s : list L) (x : L) : list L := if mem x s then s else s ++ [x].
(** kno_init_choice with KNO_CHOICE_DOSORT, choices.c:286-376: without duplicates (sorted in
    C, in order of appearance here). *)
Definition choice_of (l : list L) : list L := fold_left add1 l [].
(** kno_difference, choices.c. *)
Definition minus (a b : list L) : list L := filter (fun x => negb (mem x b)) a.

(** ** Reading *)

(** The bytes of the file from a position on: kno_start_read, kno_setpos. *)
Definition from (f : bytes) (pos : N) : bytes := skipn (N.to_nat pos) f.
Definition w32 (x : N) : N := x mod 2 ^ 32.
(** [pos_offset], 230. *)
Definition po : N := 4 * n.

(** get_offset, 133-137. *)
Definition get_offset (f : bytes) (slotno : N) : option N :=
  match read_4bytes (from f (slotno * 4 + 8)) with Some (o, _) => Some o | None => None end.

(** The number of values, the position of the first and the key of a key entry: 235-240. *)
Definition read_entry (f : bytes) (pos : N) : option (N * N * L) :=
  match read_4bytes (from f pos) with
  | None => None
  | Some (nv, r) =>
    match read_4bytes r with
    | None => None
    | Some (vp, r') => match dec r' with Some (k, _) => Some (nv, vp, k) | None => None end
    end
  end.

(** The slots for a key: 227, 228, 275. *)
Definition first_slot (k : L) : N := hash k mod n.
Definition width (k : L) : N := hash k mod (n - 2) + 1.
Definition next_slot (s w : N) : N := (s + w) mod n.

(** The loop over the values, 250-260.  [cur] is what follows the last read, [left] is
    [n_vals - i]. *)
Fixpoint read_vals (f : bytes) (cur : bytes) (next : N) (left : nat) : option (list L) :=
  if next =? 0 then Some []
  else match left with
       | O => None
       | S left' =>
         match dec (if 1 <? next then from f (next + po) else cur) with
         | None => None
         | Some (v, r) =>
           match read_4bytes r with
           | None => None
           | Some (nx, r') =>
             match read_vals f r' nx left' with Some l => Some (v :: l) | None => None end
           end
         end
       end.

(** fileindex_fetch, 233-278.  [left] is [257 - n_probes]. *)
Fixpoint fetch_loop (f : bytes) (k : L) (left : nat) (probe : N) : out (list L) :=
  match get_offset f probe with
  | None => Bad
  | Some 0 => Ok []
  | Some o =>
    match read_entry f (w32 (o + po)) with
    | None => Bad
    | Some (nv, vp, k') =>
      if leq k k' then
        if nv =? 0 then Ok []
        else match read_vals f [] vp (N.to_nat nv) with
             | Some l => Ok (choice_of l)
             | None => Bad
             end
      else match left with
           | O => Overflow
           | S left' => fetch_loop f k left' (next_slot probe (width k))
           end
    end
  end.

(** fileindex_fetch, 217-279. *)
Definition fetch (f : bytes) (k : L) : out (list L) :=
  if redundant k then Ok [] else fetch_loop f k 257 (first_slot k).

(** fileindex_fetchsize, 283-314: [keypos] is read once, before the loop, and not when the
    probe moves on.  The result is a C [int]: for a free slot the word EMPTY, which is 13
    (ptr.h:746, 751), and after 258 mismatches the result of kno_err, the word KNO_ERROR,
    which is 61 (ptr.h:763). *)
Definition fetchsize (f : bytes) (k : L) : option N :=
  match get_offset f (first_slot k) with
  | None => None
  | Some 0 => Some 13
  | Some o =>
    match read_entry f (w32 (o + po)) with
    | None => None
    | Some (nv, _, k') => if leq k k' then Some nv else Some 61
    end
  end.

(** ** Keys *)

Fixpoint get_offsets (f : bytes) (slots : list nat) : option (list N) :=
  match slots with
  | [] => Some []
  | s :: r => match get_offset f (N.of_nat s), get_offsets f r with
              | Some o, Some l => Some (o :: l)
              | _, _ => None
              end
  end.

(** Sorting a vector by a number: qsort with sort_offsets (318-324), sort_keydata_serial or
    sort_keydata_pos (660-674), and sort_keydata (649-658) on the entries which are not
    completed.  (Equal ones stay in their order; the C library need not keep it.) *)
Fixpoint insert {A} (key : A -> N) (x : A) (l : list A) : list A :=
  match l with
  | [] => [x]
  | y :: r => if key x <=? key y then x :: l else y :: insert key x r
  end.
Definition qsort {A} (key : A -> N) (l : list A) : list A := fold_right (insert key) [] l.

(** compress_offsets, 326-335: the offsets which are not 0. *)
Definition compress_offsets (l : list N) : list N := filter (fun o => negb (o =? 0)) l.

(** The number of values and the key at each offset: 356-358 (the key only) and 384-395
    (without a filter). *)
Fixpoint read_infos (f : bytes) (offs : list N) : option (list (N * L)) :=
  match offs with
  | [] => Some []
  | o :: r => match read_entry f (w32 (po + o)), read_infos f r with
              | Some (nv, _, k), Some l => Some ((nv, k) :: l)
              | _, _ => None
              end
  end.
Definition fetchinfo_file (f : bytes) : option (list (N * L)) :=
  match get_offsets f (seq 0 (N.to_nat n)) with
  | None => None
  | Some offs => read_infos f (qsort (fun o => o) (compress_offsets offs))
  end.
Definition fetchkeys_file (f : bytes) : option (list L) :=
  match fetchinfo_file f with Some l => Some (map snd l) | None => None end.

(** ** The lock

    An index as its callers see it: the file and whether [index_lock] is held.
    kno_lock_index (indexes.h:25) waits until the lock is free: a call of an operation that
    locks the index while the lock is held does not return ([None]). *)
Record index := { ix_file : bytes; ix_locked : bool }.

(** fileindex_fetch, 217-279: every way out unlocks (243, 261, 268, 277), a redundant key
    does not lock.  (The exception of line 254 leaves the lock held; see [Bad].) *)
Definition fetch_op (ix : index) (k : L) : option (out (list L) * index) :=
  if redundant k then Some (Ok [], ix)
  else if ix_locked ix then None
  else Some (fetch (ix_file ix) k, ix).
(** fileindex_fetchkeys, 337-362: locks at 342; no way out unlocks. *)
Definition fetchkeys_op (ix : index) : option (option (list L) * index) :=
  if ix_locked ix then None
  else Some (fetchkeys_file (ix_file ix), {| ix_file := ix_file ix; ix_locked := true |}).
(** fileindex_fetchinfo, 364-399: locks at 370; no way out unlocks. *)
Definition fetchinfo_op (ix : index) : option (option (list (N * L)) * index) :=
  if ix_locked ix then None
  else Some (fetchinfo_file (ix_file ix), {| ix_file := ix_file ix; ix_locked := true |}).

(** ** Fetching many keys *)

(** The values of a key, 525-540: as read_vals, but the number of values is not looked at;
    [left] bounds the number of values followed. *)
Fixpoint read_chain (f : bytes) (cur : bytes) (next : N) (left : nat) (acc : list L)
  : out (list L) :=
  if next =? 0 then Ok acc
  else match left with
       | O => Stuck
       | S left' =>
         match dec (if 1 <? next then from f (next + po) else cur) with
         | None => Bad
         | Some (v, r) =>
           match read_4bytes r with
           | None => Bad
           | Some (nx, r') => read_chain f r' nx left' (add1 acc v)
           end
         end
       end.

(** fetchn, 545-602 with run_schedule, 442-543, for one key.  The schedule advances all
    keys in turns, in order of file position; what happens to one key depends on the file
    and on that key only, so each is followed to its end here.  [cached] is the value in
    [index_cache], [adds] that in [index_adds] (552-577); both are what they are when fetchn
    starts.  There is no bound on the number of probes: [left] is that of this model. *)
Fixpoint fetchn_loop (f : bytes) (k : L) (adds : option (list L)) (left : nat) (probe : N)
  : out (list L) :=
  match left with
  | O => Stuck
  | S left' =>
    match get_offset f probe with
    | None => Bad
    | Some 0 => Ok (match adds with Some a => a | None => [] end)
    | Some o =>
      match read_entry f (o + po) with
      | None => Bad
      | Some (nv, vp, k') =>
        if leq k' k then
          if nv =? 0 then Ok []
          else read_chain f [] vp (S (length f)) (match adds with Some a => a | None => [] end)
        else fetchn_loop f k adds left' (next_slot probe (width k))
      end
    end
  end.
Definition fetchn1 (f : bytes) (cached adds : option (list L)) (left : nat) (k : L)
  : out (list L) :=
  if redundant k then Ok []
  else match cached with
       | Some c => Ok c
       | None => fetchn_loop f k adds left (first_slot k)
       end.

(** ** Saving *)

(** struct KEYDATA, 638-641.  [kd_seek] says that the offset of the slot is to be read (a
    negative slotno in C), [kd_done] that the entry is completed (a negative chain_width),
    [kd_n] is [None] for -1. *)
Record keydata := KD {
  kd_key : L; kd_add : list L; kd_serial : N;
  kd_slot : N; kd_seek : bool; kd_done : bool; kd_n : option N; kd_pos : N }.

(** struct RESERVATIONS, 645-647 and reserve_slotno, 676-706.  The vector is the list of
    its elements; [bottom], [top] and [middle] are indices into it (-1 for a pointer before
    its start). *)
Fixpoint bsearch (left : nat) (l : list N) (s : N) (bottom top middle : Z) : option Z :=
  match left with
  | O => Some middle
  | S left' =>
    if (bottom <=? top)%Z then
      let m := (bottom + (top - bottom) / 2)%Z in
      if ((m <? 0) || (Z.of_nat (length l) <=? m))%Z then Some m
      else let x := nth (Z.to_nat m) l 0 in
           if x =? s then None
           else if x <? s then bsearch left' l s (m + 1) top m
           else bsearch left' l s bottom (m - 1) m
    else Some middle
  end.
(** [None]: the slot has been reserved before (the result 0 in C). *)
Definition reserve_slotno (l : list N) (s : N) : option (list N) :=
  let len := Z.of_nat (length l) in
  if (length l =? 0)%nat then Some [s]
  else match bsearch (S (S (length l))) l s 0 len (len / 2) with
       | None => None
       | Some m =>
         let off := if ((m <? len)%Z && (nth (Z.to_nat m) l 0 <? s))%bool then (m + 1)%Z else m in
         Some (firstn (Z.to_nat off) l ++ s :: skipn (Z.to_nat off) l)
       end.

(** The entry with its search set up: 728-758. *)
Definition start_kd (d : keydata) : keydata :=
  KD (kd_key d) (kd_add d) (kd_serial d) (first_slot (kd_key d)) true false (kd_n d)
     (8 + 4 * first_slot (kd_key d)).

Definition default (o : option N) (x : N) : option N :=
  match o with Some _ => o | None => Some x end.
(** The next slot: 779-781, 812-814. *)
Definition probe_on (d : keydata) : keydata :=
  let s := next_slot (kd_slot d) (width (kd_key d)) in
  KD (kd_key d) (kd_add d) (kd_serial d) s true false (kd_n d) (8 + 4 * s).

(** One step for one entry: 767-816. *)
Definition step_kd (f : bytes) (res : list N) (d : keydata) : option (list N * keydata) :=
  if kd_seek d then
    match read_4bytes (from f (kd_pos d)) with
    | None => None
    | Some (off, _) =>
      if negb (off =? 0) then
        Some (res, KD (kd_key d) (kd_add d) (kd_serial d) (kd_slot d) false false (kd_n d)
                      (off + 4 * n))
      else match reserve_slotno res (kd_slot d) with
           | Some res' =>
             Some (res', KD (kd_key d) (kd_add d) (kd_serial d) (kd_slot d) false true
                            (default (kd_n d) 0) 0)
           | None => Some (res, probe_on d)
           end
    end
  else
    match read_entry f (kd_pos d) with
    | None => None
    | Some (nv, vp, k) =>
      if leq k (kd_key d) then
        Some (res, KD (kd_key d) (kd_add d) (kd_serial d) (kd_slot d) false true
                      (default (kd_n d) nv) vp)
      else Some (res, probe_on d)
    end.

(** One pass over the entries which are not completed: 765-816. *)
Fixpoint pass_kd (f : bytes) (res : list N) (ds : list keydata)
  : option (list N * list keydata) :=
  match ds with
  | [] => Some (res, [])
  | d :: r =>
    match step_kd f res d with
    | None => None
    | Some (res', d') =>
      match pass_kd f res' r with
      | None => None
      | Some (res'', r') => Some (res'', d' :: r')
      end
    end
  end.

(** The passes: 760-824.  [ds] holds the entries that were not completed before the last
    pass, [fin] the others.  [left] bounds the number of passes; as [chain_length] is
    counted up in every pass that finds all of [ds] uncompleted, 258 such passes in a row
    are the end. *)
Fixpoint passes (left : nat) (f : bytes) (chain : N) (res : list N) (ds fin : list keydata)
  : out (list keydata) :=
  match left with
  | O => Stuck
  | S left' =>
    let todo := qsort kd_pos (filter (fun d => negb (kd_done d)) ds) in
    let fin' := filter kd_done ds ++ fin in
    if (length ds =? 0)%nat then Ok fin'
    else match pass_kd f res todo with
         | None => Bad
         | Some (res', ds') =>
           if (length ds =? length todo)%nat then
             if 256 <? chain then Overflow else passes left' f (chain + 1) res' ds' fin'
           else passes left' f 0 res' ds' fin'
         end
  end.
(** fetch_keydata, 712-827. *)
Definition fetch_keydata (f : bytes) (ds : list keydata) : out (list keydata) :=
  passes (300 * S (length ds)) f 0 [] (map start_kd ds) [].

(** write_values, 829-856: the bytes written.  (The number of values is the length of the
    list.) *)
Fixpoint write_values (vals : list L) (nextpos : N) : bytes :=
  match vals with
  | [] => []
  | [v] => enc v ++ put_4bytes nextpos
  | v :: r => enc v ++ put_4bytes 1 ++ write_values r nextpos
  end.

Definition flen (f : bytes) : N := N.of_nat (length f).

(** The entries for edits: 879-890 and 928-940.  The second component is [valpos]. *)
Fixpoint commit_vals (f : bytes) (serial : N) (kvs : list (L * list L))
  : bytes * list (keydata * N) :=
  match kvs with
  | [] => (f, [])
  | (k, v) :: r =>
    let d := KD k [] serial 0 true false (Some (N.of_nat (length v))) 0 in
    let valpos := match v with [] => 0 | _ => w32 (flen f) end in
    let '(f', l) := commit_vals (f ++ write_values v 0) (serial + 1) r in
    (f', (d, valpos) :: l)
  end.

(** The values that remain of dropped keys: 910-926. *)
Fixpoint drop_vals (f : bytes) (cached adds : L -> option (list L)) (left : nat)
         (drops : list (L * list L)) : out (list (L * list L)) :=
  match drops with
  | [] => Ok []
  | (k, v) :: r =>
    match fetchn1 f (cached k) (adds k) left k with
    | Ok ondisk =>
      match drop_vals f cached adds left r with
      | Ok l => Ok ((k, minus ondisk v) :: l)
      | Overflow => Overflow | Bad => Bad | Stuck => Stuck
      end
    | Overflow => Overflow | Bad => Bad | Stuck => Stuck
    end
  end.

(** The entries for additions: 1030-1040. *)
Fixpoint add_kds (serial : N) (adds : list (L * list L)) : list keydata :=
  match adds with
  | [] => []
  | (k, v) :: r => KD k v serial 0 true false None 0 :: add_kds (serial + 1) r
  end.

Definition set_pos (d : keydata) (nv : option N) (pos : N) : keydata :=
  KD (kd_key d) (kd_add d) (kd_serial d) (kd_slot d) (kd_seek d) (kd_done d) nv pos.

(** The additions are written: 1070-1080. *)
Fixpoint write_adds (f : bytes) (ds : list keydata) : bytes * list keydata :=
  match ds with
  | [] => (f, [])
  | d :: r =>
    let d' := set_pos d (match kd_n d with
                         | Some x => Some (x + N.of_nat (length (kd_add d)))
                         | None => Some (N.of_nat (length (kd_add d)) - 1) end)
                      (flen f - po) in
    let '(f', l) := write_adds (f ++ write_values (kd_add d) (kd_pos d)) r in
    (f', d' :: l)
  end.

(** The positions of the values of edits: 1062-1067.  ([valpos] is unsigned: the difference
    wraps around.) *)
Definition edit_pos (p : keydata * N) : keydata :=
  set_pos (fst p) (kd_n (fst p)) (if snd p =? 0 then 0 else w32 (snd p + 2 ^ 32 - po)).

(** write_keys, 952-969. *)
Fixpoint write_keys (f : bytes) (ds : list keydata) : bytes * list keydata :=
  match ds with
  | [] => (f, [])
  | d :: r =>
    let nv := match kd_n d with Some x => x | None => 2 ^ 32 - 1 end in
    let '(f', l) := write_keys (f ++ put_4bytes nv ++ put_4bytes (kd_pos d) ++ enc (kd_key d)) r in
    (f', set_pos d (kd_n d) (flen f - po) :: l)
  end.

(** A write inside the file. *)
Definition patch (f : bytes) (pos : N) (b : bytes) : bytes :=
  firstn (N.to_nat pos) f ++ b ++ skipn (N.to_nat pos + length b) f.

(** write_offsets, 971-990. *)
Definition write_offset (f : bytes) (d : keydata) : bytes :=
  patch f (8 + kd_slot d * 4) (put_4bytes (kd_pos d)).
Definition write_offsets (f : bytes) (ds : list keydata) : bytes :=
  fold_left write_offset (qsort kd_pos ds) f.

(** What is handed to a save: 1110-1118. *)
Record commits := { c_adds : list (L * list L); c_drops : list (L * list L);
                    c_stores : list (L * list L) }.

(** fileindex_save up to the writing of the offsets, 1027-1081: the file and the entries.
    [cached] and [adds] are the tables of the index. *)
Definition save_data (cached adds : L -> option (list L)) (left : nat) (f : bytes) (c : commits)
  : out (bytes * list keydata) :=
  let n_adds := N.of_nat (length (c_adds c)) in
  let '(f1, stores) := commit_vals f n_adds (c_stores c) in
  match drop_vals f1 cached adds left (c_drops c) with
  | Ok dvs =>
    let '(f2, drops) := commit_vals f1 (n_adds + N.of_nat (length (c_stores c))) dvs in
    match fetch_keydata f2 (add_kds 0 (c_adds c) ++ map fst (stores ++ drops)) with
    | Ok kds =>
      let kds' := qsort kd_serial kds in
      let edits := map edit_pos (combine (skipn (N.to_nat n_adds) kds') (map snd (stores ++ drops))) in
      let '(f3, adds') := write_adds f2 (firstn (N.to_nat n_adds) kds') in
      Ok (write_keys f3 (adds' ++ edits))
    | Overflow => Overflow | Bad => Bad | Stuck => Stuck
    end
  | Overflow => Overflow | Bad => Bad | Stuck => Stuck
  end.
(** fileindex_save, 994-1095. *)
Definition save (cached adds : L -> option (list L)) (left : nat) (f : bytes) (c : commits)
  : out bytes :=
  match c_adds c, c_drops c, c_stores c with
  | [], [], [] => Ok f
  | _, _, _ =>
    match save_data cached adds left f c with
    | Ok (f4, kds) => Ok (write_offsets f4 kds)
    | Overflow => Overflow | Bad => Bad | Stuck => Stuck
    end
  end.

(** kno_make_fileindex, 1271-1278. *)
Definition make_file (magic : N) : bytes :=
  put_4bytes magic ++ put_4bytes n ++ concat (repeat (put_4bytes 0) (N.to_nat n)) ++
  put_4bytes 0xFFFFFFFE ++ put_4bytes 40 ++ concat (repeat (put_4bytes 0) 8).

(** The rollback file, kno_write_rollback (fileindex.c:1108-1109, drivers.c:1154-1174) and
    save_head (alcor.c:56-88): the first [8+4*n] bytes of the file, then its size. *)
Definition save_head (f : bytes) : bytes := firstn (N.to_nat (8 + 4 * n)) f ++ put_8bytes (flen f).
(** ftruncate: what is missing is read as zeros. *)
Definition truncate (f : bytes) (t : nat) : bytes := firstn t f ++ repeat 0 (t - length f).
(** kno_apply_head, alcor.c:117-157 and 251-286 (for kno_commit_rollback, 1121-1128, and
    when a file with a rollback file is opened, 69-73).  [None]: malformed. *)
Definition apply_head (head f : bytes) : option bytes :=
  let len := (length head - 8)%nat in
  match read_8bytes (skipn len head) with
  | None => None
  | Some (t, _) =>
    if (N.to_nat t <? len)%nat then None
    else Some (truncate (patch f 0 (firstn len head)) (N.to_nat t))
  end.

End FileIndex.

Arguments Ok {A}. Arguments Overflow {A}. Arguments Bad {A}. Arguments Stuck {A}.

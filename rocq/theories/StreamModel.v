(** Buffered streams over a file: one buffer shared by reading and writing, a
    cached file position, and the operations that go round the buffer
    (src/storage/streams.c, include/kno/streams.h, include/kno/bufio.h,
    src/lisp/bufio.c).

    What is modelled: a stream on a regular local file opened by
    kno_init_file_stream (streams.c:467-533), so seekable, not memory mapped,
    neither WRITE_ONLY nor a socket, with a buffer of known size.  Simplified:
    locks always succeed; allocation always succeeds; [write] writes all it is
    given, unless the file was opened read-only, in which case it fails;
    [read] may return fewer bytes than asked for (the choices are taken from a
    list carried in the state) but never fails and returns 0 only at the end of
    the file; [pread] returns all the bytes there are; nothing else changes the
    file; lengths and positions are unbounded integers, not int or off_t. *)

From Coq Require Import List Arith ZArith NArith Bool Lia.
Import ListNotations.

(** ** Bytes of a file *)

(** The [n] bytes at offset [o] (what read/pread deliver). *)
Definition slice (l : list N) (o n : nat) : list N := firstn n (skipn o l).

(** write(2) of [bs] at offset [o]: bytes are replaced, the file grows if the
    write ends beyond its end, and a gap between the end and [o] reads as
    zeros.  A write of nothing changes nothing. *)
Definition splice (l : list N) (o : nat) (bs : list N) : list N :=
  match bs with
  | [] => l
  | _ => firstn o (l ++ repeat 0%N (o - length l)) ++ bs ++ skipn (o + length bs) l
  end.

(** ** The stream *)

(** struct KNO_STREAM with its struct KNO_RAWBUF (streams.h:72-89,
    bufio.h:56-70).  [disk] is the file, [off] the descriptor's offset, [wrt]
    is KNO_IS_WRITING in buf_flags, [ro] is KNO_STREAM_READ_ONLY together with
    O_RDONLY on the descriptor, [fpos]/[maxp] are stream_filepos/stream_maxpos,
    [blen] is buflen.  While reading, [buf] is buffer[0..buflim) and [pt] is
    bufpoint-buffer.  While writing, [buf] is buffer[0..bufpoint) and [lim] is
    buflim-buffer.  [chunks] fixes how many bytes each coming read(2) delivers
    at most (1 more than the number given; unlimited when the list is empty). *)
Record stream := MkS {
  disk : list N; off : nat; ro : bool; wrt : bool;
  buf : list N; pt : nat; lim : Z; blen : Z;
  fpos : nat; maxp : nat; chunks : list nat }.

Definition set_disk s d o := MkS d o s.(ro) s.(wrt) s.(buf) s.(pt) s.(lim) s.(blen) s.(fpos) s.(maxp) s.(chunks).
Definition set_off s o := set_disk s s.(disk) o.
Definition set_buf s b p := MkS s.(disk) s.(off) s.(ro) s.(wrt) b p s.(lim) s.(blen) s.(fpos) s.(maxp) s.(chunks).
Definition set_sizes s l n := MkS s.(disk) s.(off) s.(ro) s.(wrt) s.(buf) s.(pt) l n s.(fpos) s.(maxp) s.(chunks).
Definition set_wrt s w := MkS s.(disk) s.(off) s.(ro) w s.(buf) s.(pt) s.(lim) s.(blen) s.(fpos) s.(maxp) s.(chunks).
Definition set_fpos s f := MkS s.(disk) s.(off) s.(ro) s.(wrt) s.(buf) s.(pt) s.(lim) s.(blen) f s.(maxp) s.(chunks).
Definition set_maxp s m := MkS s.(disk) s.(off) s.(ro) s.(wrt) s.(buf) s.(pt) s.(lim) s.(blen) s.(fpos) m s.(chunks).
Definition set_chunks s c := MkS s.(disk) s.(off) s.(ro) s.(wrt) s.(buf) s.(pt) s.(lim) s.(blen) s.(fpos) s.(maxp) c.

(** kno_init_file_stream, streams.c:467-533 (with kno_init_stream, 374-436):
    reading, empty buffer of [n] bytes, stream_maxpos = the file's size,
    stream_filepos = 0. *)
Definition open_stream (d : list N) (n : Z) (readonly : bool) (c : list nat) : stream :=
  MkS d 0 readonly false [] 0 0 n 0 (length d) c.

(** What a call answers.  [OFault] is a write outside the allocated buffer,
    [OHang] a loop that never ends. *)
Inductive out :=
| OVoid | OInt (z : Z) | OBytes (l : list N) | OErr | OHang | OFault.

(** ** System calls *)

(** writeall, streams.c:263-277: false when write(2) fails.  A loop over zero
    bytes makes no call. *)
Definition writeall (s : stream) (bs : list N) : stream * bool :=
  match bs with
  | [] => (s, true)
  | _ => if s.(ro) then (s, false)
         else (set_disk s (splice s.(disk) s.(off) bs) (s.(off) + length bs), true)
  end.

(** read(2) of at most [n] bytes into memory. *)
Definition os_read (s : stream) (n : nat) : list N * stream :=
  let k := match s.(chunks) with [] => n | c :: _ => Nat.min n (S c) end in
  let bs := slice s.(disk) s.(off) k in
  (bs, set_chunks (set_off s (s.(off) + length bs)) (tl s.(chunks))).

(** lseek(2) with SEEK_SET / SEEK_END, recorded in stream_filepos by every
    caller modelled here. *)
Definition seek_to (s : stream) (p : nat) : stream := set_fpos (set_off s p) p.

(** ** Flushing and turning round *)

(** kno_flush_stream, streams.c:899-926 (not mapped).  The number of bytes
    written is not kept, only whether it failed. *)
Definition flush (s : stream) : stream * bool :=
  if negb s.(wrt) then (set_buf s [] 0, true)
  else match s.(buf) with
       | [] => (s, true)
       | b =>
         let '(s1, ok) := writeall s b in
         if ok then
           let f := s1.(fpos) + length b in
           (set_buf (set_maxp (set_fpos s1 f) (Nat.max s1.(maxp) f)) [] 0, true)
         else (s1, false)
       end.

(** kno_set_direction(s,kno_byteflow_write), streams.c:965-983; the file lock
    is taken to succeed. *)
Definition dir_write (s : stream) : stream :=
  if s.(wrt) then s
  else if s.(ro) then s
  else set_wrt (set_sizes (set_buf s [] 0) s.(blen) s.(blen)) true.

(** kno_set_direction(s,kno_byteflow_read), streams.c:984-1003. *)
Definition dir_read (s : stream) : stream :=
  if negb s.(wrt) then s
  else let '(s1, ok) := flush s in
       if ok then set_wrt (set_buf (set_sizes s1 s1.(lim) s1.(lim)) [] 0) false
       else s1.

(** ** Positions *)

(** kno_getpos, streams.h:196-207 (and _kno_getpos, streams.c:1007-1025, which
    differs only in asking lseek for the offset that stream_filepos caches). *)
Definition getpos (s : stream) : Z :=
  if s.(wrt) then Z.of_nat s.(fpos) + Z.of_nat (length s.(buf))
  else Z.of_nat s.(fpos) - (Z.of_nat (length s.(buf)) - Z.of_nat s.(pt)).

(** _kno_setpos, streams.c:1027-1075: negative positions are refused; while
    reading, a position inside the buffer moves bufpoint; otherwise flush and
    lseek.  None is an error. *)
Definition setpos_slow (s : stream) (p : Z) : stream * option Z :=
  if (p <? 0)%Z then (s, None)
  else
    let rel := (Z.of_nat (length s.(buf)) + (p - Z.of_nat s.(fpos)))%Z in
    if negb s.(wrt) && (0 <=? rel)%Z && (rel <? Z.of_nat (length s.(buf)))%Z
    then (set_buf s s.(buf) (Z.to_nat rel), Some p)
    else let '(s1, ok) := flush s in
         if ok then (seek_to s1 (Z.to_nat p), Some p) else (s1, None).

(** kno_setpos, streams.h:209-225 (inline). *)
Definition setpos (s : stream) (p : Z) : stream * option Z :=
  if (p <? 0)%Z then setpos_slow s p
  else if negb s.(wrt) && (p <? Z.of_nat s.(fpos))%Z
          && (Z.of_nat s.(fpos) - Z.of_nat (length s.(buf)) <=? p)%Z
  then (set_buf s s.(buf)
          (Z.to_nat (Z.of_nat (length s.(buf)) + (p - Z.of_nat s.(fpos)))), Some p)
  else if (getpos s =? p)%Z then (s, Some p)
  else setpos_slow s p.

(** _kno_endpos, streams.c:1077-1086 (the result of the flush is ignored). *)
Definition endpos_slow (s : stream) : stream * Z :=
  let '(s1, _) := flush s in
  let e := length s1.(disk) in
  (set_maxp (seek_to s1 e) e, Z.of_nat e).

(** kno_endpos, streams.h:226-237 (inline). *)
Definition endpos (s : stream) : stream * Z :=
  if s.(fpos) =? s.(maxp) then
    if s.(wrt) then (s, (Z.of_nat s.(maxp) + Z.of_nat (length s.(buf)))%Z)
    else (s, Z.of_nat s.(maxp))
  else endpos_slow s.

(** kno_movepos, streams.c:1088-1096. *)
Definition movepos (s : stream) (d : Z) : stream * option Z := setpos s (getpos s + d).

(** kno_start_read, streams.h:251-259 (inline): a negative position counts back
    from stream_maxpos. *)
Definition start_read (s : stream) (p : Z) : stream :=
  let s1 := dir_read s in
  if (p <? 0)%Z then fst (setpos s1 (Z.of_nat s1.(maxp) + p)) else fst (setpos s1 p).

(** _kno_start_read, streams.c:354-361 (exported): a negative position means
    the end. *)
Definition start_read_slow (s : stream) (p : Z) : stream :=
  let s1 := dir_read s in
  if (p <? 0)%Z then fst (endpos s1) else fst (setpos s1 p).

(** kno_start_write, streams.h:261-268 (and streams.c:363-370, the same). *)
Definition start_write (s : stream) (p : Z) : stream :=
  let s1 := dir_write s in
  if (p <? 0)%Z then fst (endpos s1) else fst (setpos s1 p).

(** ** Reading through the buffer *)

(** The doubling loops of kno_fill_stream (streams.c:866-869, [step] =
    0x40000) and grow_output_buffer (bufio.c:106-108, [step] = 250000). *)
Fixpoint double_to (fuel : nat) (step cur need : Z) : Z :=
  match fuel with
  | O => cur
  | S f =>
    if (cur <? need)%Z
    then double_to f step (if (step <=? cur)%Z then cur + step else cur * 2)%Z need
    else cur
  end.

(** The read loop of kno_fill_stream, streams.c:878-892: [need] = n_to_read,
    [req] = read_request, [got] = bytes_read. *)
Fixpoint fill_loop (fuel : nat) (s : stream) (need req got : nat) : stream :=
  match fuel with
  | O => s
  | S f =>
    if got <? need then
      let '(bs, s1) := os_read s (req - got) in
      match bs with
      | [] => s1
      | _ =>
        let s2 := set_fpos (set_buf s1 (s1.(buf) ++ bs) s1.(pt)) (s1.(fpos) + length bs) in
        fill_loop f s2 need req (got + length bs)
      end
    else s
  end.

(** kno_fill_stream, streams.c:847-897.  Its result is ignored by
    kno_request_bytes and so is not modelled. *)
Definition fill (s : stream) (n : nat) : stream :=
  let b := skipn s.(pt) s.(buf) in
  let s1 := set_buf s b 0 in
  let s2 := if (s1.(blen) <? Z.of_nat n)%Z
            then set_sizes s1 s1.(lim)
                   (double_to n 0x40000 (if (s1.(blen) <=? 0)%Z then 256 else s1.(blen)) (Z.of_nat n))
            else s1 in
  fill_loop n s2 (n - length b) (Z.to_nat s2.(blen) - length b) 0.

(** kno_request_bytes, bufio.h:402-410, on a stream being read. *)
Definition request (s : stream) (n : nat) : stream * bool :=
  if s.(pt) + n <=? length s.(buf) then (s, true)
  else let s1 := fill s n in (s1, s1.(pt) + n <=? length s1.(buf)).

(** kno_read_bytes, bufio.h:494-504; kno_read_byte (451-454), kno_read_4bytes
    (472-481) and kno_read_8bytes (483-492) are the same with [n] = 1, 4, 8 and
    the bytes combined.  A stream being written is refused. *)
Definition read_bytes (s : stream) (n : nat) : stream * out :=
  if s.(wrt) then (s, OErr)
  else let '(s1, ok) := request s n in
       if ok then (set_buf s1 s1.(buf) (s1.(pt) + n), OBytes (slice s1.(buf) s1.(pt) n))
       else (s1, OErr).

(** kno_probe_byte, bufio.h:455-459. *)
Definition probe_byte (s : stream) : stream * out :=
  if s.(wrt) then (s, OErr)
  else let '(s1, ok) := request s 1 in
       if ok then (s1, OBytes (slice s1.(buf) s1.(pt) 1)) else (s1, OErr).

(** ** Writing through the buffer *)

(** grow_output_buffer, bufio.c:95-147: the new size of the buffer. *)
Definition grow_out (s : stream) (n : nat) : stream :=
  if (Z.of_nat (length s.(buf)) + Z.of_nat n <? s.(lim))%Z then s
  else let need := (Z.of_nat (length s.(buf)) + Z.of_nat n)%Z in
       let l0 := if (s.(lim) <=? 0)%Z then 1000%Z else s.(lim) in
       let l := double_to (length s.(buf) + n) 250000 l0 need in
       set_sizes s l l.

(** check_output_buffer, bufio.c:149-173, for a stream's buffer: it has a flush
    function and neither NO_GROW nor NO_FLUSH.  None is a negative result. *)
Definition check_output (s : stream) (n : nat) : option stream :=
  match s.(buf) with
  | [] => Some (grow_out s n)
  | _ =>
    let '(s1, ok) := flush s in
    if negb ok then None
    else if (Z.of_nat (length s1.(buf)) + Z.of_nat n <? s1.(lim))%Z then Some s1
    else if (Z.of_nat (length s1.(buf)) + Z.of_nat n <? s1.(blen))%Z
    then Some (set_sizes s1 (Z.of_nat (length s1.(buf)) + Z.of_nat n)%Z s1.(blen))
    else Some (grow_out s1 n)
  end.

(** kno_write_bytes, bufio.h:296-302 with _kno_write_bytes, bufio.c:285-292 and
    kno_needs_space, bufio.c:226-231; kno_write_byte, kno_write_4bytes and
    kno_write_8bytes go the same way with 1, 4 and 8 bytes.  A stream being read
    is refused.  (When the flush fails kno_needs_space answers -1, which the
    caller takes for success; with the writes modelled here a stream that is
    being written never fails to flush.) *)
Definition write_bytes (s : stream) (bs : list N) : stream * out :=
  if negb s.(wrt) then (s, OErr)
  else if (Z.of_nat (length s.(buf)) + Z.of_nat (length bs) <=? s.(lim))%Z
  then (set_buf s (s.(buf) ++ bs) s.(pt), OInt (Z.of_nat (length bs)))
  else match check_output s (length bs) with
       | Some s1 => (set_buf s1 (s1.(buf) ++ bs) s1.(pt), OInt (Z.of_nat (length bs)))
       | None => (s, OFault)
       end.

(** ** Going round the buffer *)

(** stream_pread, streams.c:318-336 with pread_all, 302-316, as called by
    kno_read_block, streams.c:1098-1113, and kno_open_block, 1122-1199. *)
Definition read_block (s : stream) (o n : nat) : stream * out :=
  let s1 := if s.(wrt) && (s.(fpos) <? o + n) then dir_read s else s in
  if (n =? 0) || (o + n <=? length s1.(disk)) then (s1, OBytes (slice s1.(disk) o n))
  else (s1, OErr).

(** kno_read_byte_at, kno_read_4bytes_at, kno_read_8bytes_at, streams.c:1212-1290
    ([n] = 1, 4, 8): pread(2) first, and if that does not deliver all the bytes
    read through the buffer. *)
Definition read_at (s : stream) (n : nat) (p : Z) : stream * out :=
  if (0 <=? p)%Z && (Z.to_nat p + n <=? length s.(disk))
  then (s, OBytes (slice s.(disk) (Z.to_nat p) n))
  else read_bytes (if (0 <=? p)%Z then start_read s p else dir_read s) n.

(** kno_write_4bytes_at, kno_write_8bytes_at, streams.c:1201-1210, 1254-1267:
    the bytes are stored through bufwrite with no test of the direction or of
    the room left, then the stream is flushed.  In a stream that is still being
    read (the turn to writing failed) bufwrite is bufread. *)
Definition write_at (s : stream) (bs : list N) (p : Z) : stream * out :=
  let s1 := if (0 <=? p)%Z then start_write s p else dir_write s in
  let here := if s1.(wrt) then length s1.(buf) else s1.(pt) in
  if (s1.(blen) <? Z.of_nat here + Z.of_nat (length bs))%Z then (s1, OFault)
  else if s1.(wrt)
  then (fst (flush (set_buf s1 (s1.(buf) ++ bs) s1.(pt))), OInt (Z.of_nat (length bs)))
  else (fst (flush s1), OInt (Z.of_nat (length bs))).

(** kno_stream_write, streams.c:1321-1337, and kno_write_ints, 1292-1319 (the
    words already put in network order). *)
Definition stream_write (s : stream) (bs : list N) : stream * out :=
  let s1 := dir_write s in
  let real := getpos s1 in
  let s2 := fst (setpos (dir_write s1) real) in
  let '(s3, ok) := writeall s2 bs in
  let s4 := fst (setpos s3 (real + Z.of_nat (length bs))) in
  (s4, if ok then OInt (Z.of_nat (length bs)) else OErr).

(** The loop of kno_stream_read, streams.c:1387-1396: when read(2) returns 0
    nothing changes and the loop does not end.  None stands for that. *)
Fixpoint read_loop (fuel : nat) (s : stream) (need : nat) (got : list N)
  : stream * option (list N) :=
  if length got <? need then
    match fuel with
    | O => (s, None)
    | S f =>
      let '(bs, s1) := os_read s (need - length got) in
      match bs with
      | [] => (s1, None)
      | _ => read_loop f (set_fpos s1 (s1.(fpos) + length bs)) need (got ++ bs)
      end
    end
  else (s, Some got).

(** kno_stream_read, streams.c:1373-1401, on a seekable stream. *)
Definition stream_read (s : stream) (n : nat) : stream * out :=
  let real := getpos s in
  let s1 := fst (setpos (dir_read s) real) in
  match read_loop n s1 n [] with
  | (s2, Some bs) => (s2, OBytes bs)
  | (s2, None) => (s2, OHang)
  end.

(** The loop of kno_read_ints, streams.c:1350-1358, storing into [mem], the
    caller's array of [len] words seen as bytes.  [words] is an unsigned int
    pointer, so the bytes of a later read go to [words+bytes_read], that is to
    byte 4*bytes_read. *)
Fixpoint ints_loop (fuel : nat) (s : stream) (need got : nat) (mem : list N)
  : stream * out :=
  if got <? need then
    match fuel with
    | O => (s, OHang)
    | S f =>
      let '(bs, s1) := os_read s (need - got) in
      match bs with
      | [] => (s1, OHang)
      | _ =>
        if length mem <? 4 * got + length bs then (s1, OFault)
        else ints_loop f (set_fpos s1 (s1.(fpos) + length bs)) need (got + length bs)
               (splice mem (4 * got) bs)
      end
    end
  else (s, OBytes mem).

(** kno_read_ints, streams.c:1339-1371, on a seekable stream; the answer is the
    array as bytes in file order. *)
Definition read_ints (s : stream) (len : nat) : stream * out :=
  let real := getpos s in
  let s1 := fst (setpos (dir_read s) real) in
  ints_loop (4 * len) s1 (4 * len) 0 (repeat 0%N (4 * len)).

(** kno_setbufsize, streams.c:720-796, for a positive size. *)
Definition setbufsize (s : stream) (n : Z) : stream :=
  let s1 := fst (flush s) in
  set_sizes (set_buf s1 s1.(buf) s1.(pt))
    (if s1.(wrt) then (if (s1.(lim) <? n)%Z then s1.(lim) else n) else s1.(lim)) n.

(** kno_close_stream, streams.c:641-700: what is on disk afterwards. *)
Definition close_stream (s : stream) : list N :=
  if s.(wrt) then (fst (flush s)).(disk) else s.(disk).

(** ** Histories *)

(** One call on the stream. *)
Inductive sop :=
| GetPos | SetPos (p : Z) | SetPosSlow (p : Z) | MovePos (d : Z)
| EndPos | EndPosSlow
| StartRead (p : Z) | StartReadSlow (p : Z) | StartWrite (p : Z)
| ReadBuf | WriteBuf
| Read (n : nat) | Probe | Write (bs : list N)
| Flush | SetBuf (n : Z)
| ReadBlock (o n : nat) | ReadAt (n : nat) (p : Z) | WriteAt (bs : list N) (p : Z)
| DirectWrite (bs : list N) | DirectRead (n : nat) | ReadInts (len : nat).

Definition opt_out (r : option Z) : out := match r with Some z => OInt z | None => OErr end.

Definition step (s : stream) (o : sop) : stream * out :=
  match o with
  | GetPos => (s, OInt (getpos s))
  | SetPos p => let '(s1, r) := setpos s p in (s1, opt_out r)
  | SetPosSlow p => let '(s1, r) := setpos_slow s p in (s1, opt_out r)
  | MovePos d => let '(s1, r) := movepos s d in (s1, opt_out r)
  | EndPos => let '(s1, z) := endpos s in (s1, OInt z)
  | EndPosSlow => let '(s1, z) := endpos_slow s in (s1, OInt z)
  | StartRead p => (start_read s p, OVoid)
  | StartReadSlow p => (start_read_slow s p, OVoid)
  | StartWrite p => (start_write s p, OVoid)
  | ReadBuf => (dir_read s, OVoid)
  | WriteBuf => (dir_write s, OVoid)
  | Read n => read_bytes s n
  | Probe => probe_byte s
  | Write bs => write_bytes s bs
  | Flush => (fst (flush s), OVoid)
  | SetBuf n => (setbufsize s n, OInt n)
  | ReadBlock o n => read_block s o n
  | ReadAt n p => read_at s n p
  | WriteAt bs p => write_at s bs p
  | DirectWrite bs => stream_write s bs
  | DirectRead n => stream_read s n
  | ReadInts len => read_ints s len
  end.

Fixpoint run (s : stream) (l : list sop) : stream * list out :=
  match l with
  | [] => (s, [])
  | o :: l' =>
    let '(s1, r) := step s o in
    let '(s2, rs) := run s1 l' in
    (s2, r :: rs)
  end.

(** * Model of the byte-level I/O layer.

    Source: /repo/include/kno/bufio.h and /repo/src/lisp/bufio.c.

    A byte is an [N] below 256.  An input buffer without a fill function
    (KNO_INBUF set up with KNO_INIT_BYTE_INPUT) is the list of the bytes between
    [bufread] and [buflim]. *)

From Coq Require Export NArith ZArith List Bool Lia.
Export ListNotations.
Local Open Scope N_scope.

Definition byte := N.
Definition bytes := list byte.

(** A well formed byte string. *)
Definition byte_ok (b : byte) : bool := b <? 256.
Definition bytes_ok (l : bytes) : bool := forallb byte_ok l.

(** Truncation of a value stored into an [unsigned char] (C conversion). *)
Definition to_byte (n : N) : byte := N.land n 0xFF.
(** 64-bit and 32-bit unsigned wrap-around. *)
Definition u64 (n : N) : N := N.land n 0xFFFFFFFFFFFFFFFF.
Definition u32 (n : N) : N := N.land n 0xFFFFFFFF.

(** ** Byte order: bufio.h:229-246 *)

(** kno_flip_word, bufio.h:229-231.  [unsigned int] arithmetic: the left shifts
    drop bits above 31, which the masks make irrelevant. *)
Definition flip_word (w : N) : N :=
  N.lor (N.lor (N.lor (N.land (N.shiftl w 24) 0xff000000)
                      (N.land (N.shiftl w 8) 0x00ff0000))
               (N.land (N.shiftr w 8) 0x0000ff00))
        (N.shiftr w 24).

(** kno_flip_word8, bufio.h:233-241, verbatim: note the [<< 48] of the second
    line (a byte reversal would need [<< 40]).  Left shifts are reduced to 64 bits. *)
Definition flip_word8 (w : N) : N :=
  N.lor (u64 (N.shiftl (N.land w 0xFF) 56))
 (N.lor (u64 (N.shiftl (N.land w 0xFF00) 48))
 (N.lor (u64 (N.shiftl (N.land w 0xFF0000) 24))
 (N.lor (u64 (N.shiftl (N.land w 0xFF000000) 8))
 (N.lor (N.land (N.shiftr w 56) 0xFF)
 (N.lor (N.land (N.shiftr w 40) 0xFF00)
 (N.lor (N.land (N.shiftr w 24) 0xFF0000)
        (N.land (N.shiftr w 8) 0xFF000000))))))).

(** kno_flip_ushort, bufio.h:243-244. *)
Definition flip_ushort (w : N) : N :=
  N.lor (N.land (N.shiftr w 8) 0xff) (N.land (N.shiftl w 8) 0xff00).

(** ** Writers: the bytes appended by one call *)

(** kno_write_byte, bufio.h:265-269. *)
Definition put_byte (b : N) : bytes := [to_byte b].

(** kno_write_4bytes, bufio.h:272-281 (and _kno_write_4bytes, bufio.c:257-267). *)
Definition put_4bytes (w : N) : bytes :=
  [ N.land (N.shiftr w 24) 0xFF; N.land (N.shiftr w 16) 0xFF;
    N.land (N.shiftr w 8) 0xFF;  N.land (N.shiftr w 0) 0xFF ].

(** kno_write_8bytes, bufio.h:284-296 (and _kno_write_8bytes, bufio.c:269-283). *)
Definition put_8bytes (w : N) : bytes :=
  [ N.land (N.shiftr w 56) 0xFF; N.land (N.shiftr w 48) 0xFF;
    N.land (N.shiftr w 40) 0xFF; N.land (N.shiftr w 32) 0xFF;
    N.land (N.shiftr w 24) 0xFF; N.land (N.shiftr w 16) 0xFF;
    N.land (N.shiftr w 8) 0xFF;  N.land (N.shiftr w 0) 0xFF ].

(** The value returned by the two paths of kno_write_8bytes.  The macro's fast
    path (bufio.h:287-294) is a comma expression whose value is its last
    assignment, i.e. the low byte of [w]; the slow path (bufio.c:283) returns 8. *)
Definition write_8bytes_rv (fast : bool) (w : N) : N :=
  if fast then N.land (N.shiftr w 0) 0xFF else 8.

(** The continuation byte [0x80|(0x7F&(n>>k))] of kno_write_varint. *)
Definition vgroup (n k : N) : byte := N.lor 0x80 (N.land 0x7F (N.shiftr n k)).

(** kno_write_varint, bufio.h:304-370: the cascade of thresholds, verbatim.  The
    two-byte case does not mask [n>>7]; the store truncates to a byte. *)
Definition put_varint (n : N) : bytes :=
  if n <? N.shiftl 1 7 then [to_byte n]
  else if n <? N.shiftl 1 14 then
    [to_byte (N.lor 0x80 (N.shiftr n 7)); N.land n 0x7F]
  else if n <? N.shiftl 1 21 then
    [vgroup n 14; vgroup n 7; N.land n 0x7F]
  else if n <? N.shiftl 1 28 then
    [vgroup n 21; vgroup n 14; vgroup n 7; N.land n 0x7F]
  else if n <? N.shiftl 1 35 then
    [vgroup n 28; vgroup n 21; vgroup n 14; vgroup n 7; N.land n 0x7F]
  else if n <? N.shiftl 1 42 then
    [vgroup n 35; vgroup n 28; vgroup n 21; vgroup n 14; vgroup n 7; N.land n 0x7F]
  else if n <? N.shiftl 1 49 then
    [vgroup n 42; vgroup n 35; vgroup n 28; vgroup n 21; vgroup n 14; vgroup n 7;
     N.land n 0x7F]
  else if n <? N.shiftl 1 56 then
    [vgroup n 49; vgroup n 42; vgroup n 35; vgroup n 28; vgroup n 21; vgroup n 14;
     vgroup n 7; N.land n 0x7F]
  else
    [vgroup n 56; vgroup n 49; vgroup n 42; vgroup n 35; vgroup n 28; vgroup n 21;
     vgroup n 14; vgroup n 7; N.land n 0x7F].

(** The integer returned by kno_write_varint (the literals 1..9 of its branches). *)
Definition write_varint_rv (n : N) : N :=
  if n <? N.shiftl 1 7 then 1 else if n <? N.shiftl 1 14 then 2
  else if n <? N.shiftl 1 21 then 3 else if n <? N.shiftl 1 28 then 4
  else if n <? N.shiftl 1 35 then 5 else if n <? N.shiftl 1 42 then 6
  else if n <? N.shiftl 1 49 then 7 else if n <? N.shiftl 1 56 then 8 else 9.

(** ** Readers

    [None] is the end-of-data outcome: kno_read_byte, kno_read_4bytes,
    kno_read_bytes and kno_read_varint return -1 then.  kno_read_8bytes is the
    exception, see [read_8bytes_rv]. *)

(** kno_read_byte, bufio.h:451-454. *)
Definition get_byte (inp : bytes) : option (byte * bytes) :=
  match inp with [] => None | b :: r => Some (b, r) end.

(** kno_request_bytes, bufio.h:402-410, for a buffer without fill function. *)
Definition request_bytes (inp : bytes) (n : nat) : bool := Nat.leb n (length inp).

(** kno_get_4bytes, bufio.h:377-381 and kno_get_8bytes, 382-388.  Reading outside
    the buffer is [None]. *)
Definition get4 (b : bytes) : option N :=
  match b with
  | b0 :: b1 :: b2 :: b3 :: _ =>
    Some (N.lor (N.lor (N.lor (N.shiftl b0 24) (N.shiftl b1 16)) (N.shiftl b2 8))
                (N.shiftl b3 0))
  | _ => None
  end.
Definition get8 (b : bytes) : option N :=
  match b with
  | b0 :: b1 :: b2 :: b3 :: b4 :: b5 :: b6 :: b7 :: _ =>
    Some (N.lor (N.lor (N.lor (N.lor (N.lor (N.lor (N.lor
            (N.shiftl b0 56) (N.shiftl b1 48)) (N.shiftl b2 40)) (N.shiftl b3 32))
            (N.shiftl b4 24)) (N.shiftl b5 16)) (N.shiftl b6 8)) (N.shiftl b7 0))
  | _ => None
  end.

(** kno_read_4bytes, bufio.h:472-481. *)
Definition read_4bytes (inp : bytes) : option (N * bytes) :=
  if request_bytes inp 4 then
    match get4 inp with Some v => Some (v, skipn 4 inp) | None => None end
  else None.

(** kno_read_8bytes, bufio.h:483-492, with the end-of-data outcome made visible. *)
Definition read_8bytes (inp : bytes) : option (N * bytes) :=
  if request_bytes inp 8 then
    match get8 inp with Some v => Some (v, skipn 8 inp) | None => None end
  else None.

(** What the C function returns: at end of data _kno_read_8bytes (bufio.c:366)
    returns 0 (and sets an error condition aside). *)
Definition read_8bytes_rv (inp : bytes) : N * bytes :=
  match read_8bytes inp with Some r => r | None => (0, inp) end.

(** kno_read_bytes, bufio.h:494-502. *)
Definition read_bytes (inp : bytes) (n : nat) : option (bytes * bytes) :=
  if request_bytes inp n then Some (firstn n inp, skipn n inp) else None.

(** kno_read_varint, bufio.h:504-516, with [result] as accumulator, 64-bit
    unsigned.  Loop: a zero byte or a byte without the high bit ends it. *)
Fixpoint read_varint_loop (result : N) (inp : bytes) : option (N * bytes) :=
  match inp with
  | [] => None
  | probe :: r =>
    if probe =? 0 then Some (N.lor (u64 (N.shiftl result 7)) probe, r)
    else if negb (N.land probe 0x80 =? 0)
    then read_varint_loop (N.lor (u64 (N.shiftl result 7)) (N.land probe 0x7F)) r
    else Some (N.lor (u64 (N.shiftl result 7)) probe, r)
  end.
Definition read_varint (inp : bytes) : option (N * bytes) := read_varint_loop 0 inp.

(** _kno_read_varint, bufio.c:382-387: the out-of-line version returns an [int]:
    the value is truncated to 32 bits and sign-extended. *)
Definition read_varint_outofline (inp : bytes) : option (Z * bytes) :=
  match read_varint inp with
  | None => None
  | Some (v, r) =>
    let w := u32 v in
    Some ((if w <? 2^31 then Z.of_N w else (Z.of_N w - 2^32)%Z), r)
  end.

(** ** Output buffers: bufio.c:95-173, 226-292

    A KNO_OUTBUF.  [ob_data] is the content between [buffer] and [bufwrite],
    [ob_lim] is [buflim-buffer], [ob_len] is [buflen] (the allocation).
    [ob_out] collects what the flush function has written to the file so far.
    [ob_flush]: a flush function is installed; [ob_nogrow]/[ob_noflush]: the
    flags KNO_BUFFER_NO_GROW/NO_FLUSH.  Memory allocation always succeeds. *)
Record outbuf := mk_outbuf {
  ob_data : bytes; ob_lim : N; ob_len : N; ob_out : bytes;
  ob_flush : bool; ob_nogrow : bool; ob_noflush : bool }.

Definition blen (l : bytes) : N := N.of_nat (length l).

(** The loop of grow_output_buffer, bufio.c:104-107, on explicit fuel. *)
Fixpoint grow_limit (fuel : nat) (new_limit need : N) : option N :=
  if new_limit <? need then
    match fuel with
    | O => None
    | S f => grow_limit f (if 250000 <=? new_limit then new_limit + 250000
                           else new_limit * 2) need
    end
  else Some new_limit.

(** grow_output_buffer, bufio.c:95-147.  Result [Z]: 0 "nothing to do", 1 grown.
    The fuel is enough: each round at least doubles or adds 250000. *)
Definition grow_output_buffer (b : outbuf) (delta : N) : option (outbuf * Z) :=
  if blen (ob_data b) + delta <? ob_lim b then Some (b, 0%Z)
  else
    let need := blen (ob_data b) + delta in
    let init := if ob_lim b =? 0 then 1000 else ob_lim b in
    match grow_limit (S (N.to_nat need)) init need with
    | None => None
    | Some nl =>
      Some (mk_outbuf (ob_data b) nl nl (ob_out b) (ob_flush b) (ob_nogrow b)
                      (ob_noflush b), 1%Z)
    end.

(** check_output_buffer, bufio.c:149-173.  [fl] tells whether the flush succeeds;
    a successful flush writes out the data and resets [bufwrite] to [buffer]
    (streams.c kno_flush_stream). *)
Definition check_output_buffer (fl : bool) (b : outbuf) (delta : N)
  : option (outbuf * Z) :=
  if ob_flush b && (ob_nogrow b || (negb (blen (ob_data b) =? 0) && negb (ob_noflush b)))
  then
    if negb fl then Some (b, (-1)%Z)
    else
      let b1 := mk_outbuf [] (ob_lim b) (ob_len b) (ob_out b ++ ob_data b)
                          (ob_flush b) (ob_nogrow b) (ob_noflush b) in
      if 0 + delta <? ob_lim b1 then Some (b1, Z.of_N (ob_len b1))
      else if (0 + delta) <? ob_len b1 then
        Some (mk_outbuf [] delta (ob_len b1) (ob_out b1) (ob_flush b) (ob_nogrow b)
                        (ob_noflush b), Z.of_N delta)
      else if ob_nogrow b then Some (b1, (-1)%Z)
      else grow_output_buffer b1 delta
  else grow_output_buffer b delta.

(** kno_needs_space, bufio.c:226-231. *)
Definition needs_space (fl : bool) (b : outbuf) (delta : N) : option (outbuf * Z) :=
  if ob_lim b <? blen (ob_data b) + delta
  then check_output_buffer fl b delta else Some (b, 1%Z).

(** A store of [l] at [bufwrite]: undefined behaviour ([WOverflow]) when it does
    not fit the allocation. *)
Inductive wres := WOk (b : outbuf) (rv : Z) | WOverflow.
Definition store_at (b : outbuf) (l : bytes) (rv : Z) : wres :=
  if blen (ob_data b) + blen l <=? ob_len b then
    WOk (mk_outbuf (ob_data b ++ l) (ob_lim b) (ob_len b) (ob_out b) (ob_flush b)
                   (ob_nogrow b) (ob_noflush b)) rv
  else WOverflow.

(** kno_write_bytes: macro fast path (bufio.h:296-302, strict [<]), else
    _kno_write_bytes (bufio.c:285-292): the slow path only tests
    [kno_needs_space(..)==0], so a negative result counts as success.  The fixed
    width writers (bufio.h:265-296, bufio.c:248-283) have the same shape with
    [l] of length 1, 4, 8; the 1-byte fast path tests [bufwrite<buflim]. *)
Definition write_bytes (fl : bool) (b : outbuf) (l : bytes) : wres :=
  if blen (ob_data b) + blen l <? ob_lim b then store_at b l (Z.of_N (blen l))
  else match needs_space fl b (blen l) with
       | None => WOverflow
       | Some (b1, r) =>
         if (r =? 0)%Z then WOk b1 (-1) else store_at b1 l (Z.of_N (blen l))
       end.

(** A history of writes; [fls] are the outcomes of successive flushes. *)
Fixpoint write_all (fls : nat -> bool) (i : nat) (b : outbuf) (ls : list bytes) : wres :=
  match ls with
  | [] => WOk b 0
  | l :: r => match write_bytes (fls i) b l with
              | WOk b1 _ => write_all fls (S i) b1 r
              | WOverflow => WOverflow
              end
  end.

(** * Bloom filters.

    Source: /repo/src/storage/bloom.c, /repo/include/kno/bloom.h. *)
From Verif Require Import BytesModel.
Local Open Scope N_scope.

(** ** murmurhash2, bloom.c:40-85.  [unsigned int] arithmetic modulo 2^32; the four
    bytes are read as a little-endian word (the cast on a little-endian machine). *)
Definition mm_m : N := 0x5bd1e995.
Definition le32 (b0 b1 b2 b3 : N) : N := b0 + b1 * 2^8 + b2 * 2^16 + b3 * 2^24.
Fixpoint mm_loop (h : N) (data : list N) {struct data} : N * list N :=
  match data with
  | b0 :: b1 :: b2 :: b3 :: rest =>
    let k := u32 (le32 b0 b1 b2 b3 * mm_m) in
    let k := N.lxor k (N.shiftr k 24) in
    let k := u32 (k * mm_m) in
    let h := u32 (h * mm_m) in
    mm_loop (N.lxor h k) rest
  | _ => (h, data)
  end.
Definition murmurhash2 (key : list N) (seed : N) : N :=
  let h := N.lxor seed (u32 (N.of_nat (length key))) in
  let (h, data) := mm_loop h key in
  let h := match data with
           | [b0; b1; b2] => u32 (N.lxor (N.lxor (N.lxor h (N.shiftl b2 16)) (N.shiftl b1 8)) b0 * mm_m)
           | [b0; b1] => u32 (N.lxor (N.lxor h (N.shiftl b1 8)) b0 * mm_m)
           | [b0] => u32 (N.lxor h b0 * mm_m)
           | _ => h
           end in
  let h := N.lxor h (N.shiftr h 13) in
  let h := u32 (h * mm_m) in
  N.lxor h (N.shiftr h 15).

(** struct KNO_BLOOM, bloom.h:30-49.  [bits] and [hashes] are C ints; here the
    non-negative ones (see [bloom_sizes]).  [bf] is the array of [bytes] bytes;
    [bpe] and [error] do not take part in the operations. *)
Record bloom := { adds : N; added : N; entries : N; bits : N; hashes : N; bf : list N }.

(** The array size computed in bloom.c:156-160 and 200-204. *)
Definition bytes_for (bits : N) : N := if bits mod 8 =? 0 then bits / 8 else bits / 8 + 1.

(** kno_init_bloom_filter, bloom.c:131-172, and kno_import_bloom_filter,
    bloom.c:174-223, after the floating-point computation: [sz] are the values of
    [bits] and [hashes] computed from [entries] and [error] (a deterministic
    function of the two, not modelled further).  [None]: refused. *)
Definition init_bloom (n : N) (sz : N * N) : option bloom :=
  if n <? 1 then None else
  Some {| adds := 0; added := 0; entries := n; bits := fst sz; hashes := snd sz;
          bf := repeat 0 (N.to_nat (bytes_for (fst sz))) |}.
Definition import_bloom (adds0 n : N) (sz : N * N) (bytes : list N) : option bloom :=
  if n <? 1 then None else
  if negb (bytes_for (fst sz) =? N.of_nat (length bytes)) then None else
  Some {| adds := adds0; added := 0; entries := n; bits := fst sz; hashes := snd sz; bf := bytes |}.

(** Array access; [None] is an access outside the array. *)
Fixpoint store (l : list N) (i : nat) (v : N) : list N :=
  match l, i with
  | [], _ => []
  | _ :: r, O => v :: r
  | a :: r, S i => a :: store r i v
  end.

(** test_bit_set_bit, bloom.c:90-105. *)
Definition test_bit_set_bit (buf : list N) (x : N) (set_bit : bool) : option (bool * list N) :=
  let byte := N.to_nat (N.shiftr x 3) in
  match nth_error buf byte with
  | None => None
  | Some c =>
    let mask := N.shiftl 1 (x mod 8) in
    if negb (N.land c mask =? 0) then Some (true, buf)
    else Some (false, if set_bit then store buf byte (to_byte (N.lor c mask)) else buf)
  end.

(** The loop of bloom_check_add, bloom.c:117-123, from [i] on; [n] is the number of
    remaining rounds.  [None]: division by zero or an access outside the array. *)
Fixpoint ca_loop (n : nat) (i : N) (a b bits : N) (buf : list N) (add : bool) (hits : N)
  : option (N * list N) :=
  match n with
  | O => Some (hits, buf)
  | S n' =>
    if bits =? 0 then None else
    let x := u32 (a + u32 (i * b)) mod bits in
    match test_bit_set_bit buf x add with
    | None => None
    | Some (hit, buf') => ca_loop n' (i + 1) a b bits buf' add (if hit then hits + 1 else hits)
    end
  end.
(** bloom_check_add, bloom.c:107-129; [bf] is never NULL here. *)
Definition bloom_check_add (f : bloom) (key : list N) (add : bool) : option (N * bloom) :=
  let a := murmurhash2 key 0x9747b28c in
  let b := murmurhash2 key a in
  match ca_loop (N.to_nat (hashes f)) 0 a b (bits f) (bf f) add 0 with
  | None => None
  | Some (hits, buf') =>
    let f' := {| adds := adds f; added := added f; entries := entries f;
                 bits := bits f; hashes := hashes f; bf := buf' |} in
    if hits =? hashes f then Some (1, f')
    else Some (0, if add then {| adds := adds f; added := added f + 1; entries := entries f;
                                 bits := bits f; hashes := hashes f; bf := buf' |} else f')
  end.

(** kno_bloom_op, bloom.c:258-283, on the byte strings of the elements (the raw
    bytes, or the serialised form of each element, bloom.c:227-256); a single key
    returns the flag itself, a choice returns a count.  [check] and [add] are the
    flags KNO_BLOOM_CHECK and KNO_BLOOM_ADD.  The list is not empty: the empty choice
    is no CHOICE object and is treated as one key. *)
Fixpoint bloom_each (f : bloom) (keys : list (list N)) (add check : bool) (count : N)
  : option (N * bloom) :=
  match keys with
  | [] => Some (count, f)
  | k :: r =>
    match bloom_check_add f k add with
    | None => None
    | Some (rv, f') =>
      if negb (rv =? 0) && check then Some (1, f')
      else if add && (rv =? 0) then bloom_each f' r add check (count + 1)
      else if negb add && (rv =? 1) then bloom_each f' r add check (count + 1)
      else bloom_each f' r add check count
    end
  end.
Definition bloom_op (f : bloom) (keys : list (list N)) (add check : bool) : option (N * bloom) :=
  match keys with
  | [k] => bloom_check_add f k add
  | _ => bloom_each f keys add check 0
  end.

(** bloom_add, dbprims.c:4133-4150, and bloom_check, 4166-4183: the value returned to
    the caller. *)
Definition prim_bloom_add (f : bloom) (keys : list (list N)) : option (bool * bloom) :=
  match bloom_op f keys true false with
  | None => None
  | Some (rv, f') => Some (rv =? 0, f')
  end.
Definition prim_bloom_check (f : bloom) (keys : list (list N)) : option (bool * bloom) :=
  match bloom_op f keys false true with
  | None => None
  | Some (rv, f') => Some (negb (rv =? 0), f')
  end.
(** bloom_hits, dbprims.c:4199-4213. *)
Definition prim_bloom_hits (f : bloom) (keys : list (list N)) : option (N * bloom) :=
  bloom_op f keys false false.

(** ** Dump and restore, bloom.c:347-375

    The elements of the dumped vector. *)
Inductive dumped := DInt (z : N) | DFlo (f : N) | DPacket (l : list N).
(** dump_bloom, bloom.c:347-355; [err] stands for the stored error rate. *)
Definition dump_bloom (f : bloom) (err : N) : list dumped :=
  [DInt (adds f + added f); DInt (entries f); DFlo err; DPacket (bf f)].
(** KNO_FLONUM(x): reads the double inside the object; [None] on any object that is
    not a flonum (a fixnum is not even a pointer). *)
Definition get_flonum (d : dumped) : option N := match d with DFlo f => Some f | _ => None end.
(** A cast to [kno_string] and use of its fields. *)
Definition get_packet (d : dumped) : option (list N) := match d with DPacket l => Some l | _ => None end.
Inductive restored := RUB | RErr | ROk (f : option bloom).
(** restore_bloom, bloom.c:357-375: the indices of lines 366 and 367 are 1 and 2. *)
Definition restore_bloom (sizes : N -> N -> N * N) (x : list dumped) : restored :=
  match x with
  | [DInt n_adds; DInt n_entries; DFlo _; DPacket _] =>
    match nth_error x 1, nth_error x 2 with
    | Some e1, Some e2 =>
      match get_flonum e1, get_packet e2 with
      | Some err, Some packet => ROk (import_bloom n_adds n_entries (sizes n_entries err) packet)
      | _, _ => RUB
      end
    | _, _ => RUB
    end
  | _ => RErr
  end.

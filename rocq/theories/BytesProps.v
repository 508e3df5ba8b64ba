(** * Properties of the byte-level I/O layer: C01, C02, C03 (integers), C43, C44. *)
From Verif Require Import BytesModel BytesProofs.
Local Open Scope N_scope.

(** ** Specification, independent of the model *)

(** Big-endian value of a byte string (network byte order). *)
Fixpoint be_val_from (acc : N) (l : list N) : N :=
  match l with [] => acc | b :: r => be_val_from (acc * 256 + b) r end.
Definition be_val (l : list N) : N := be_val_from 0 l.

(** Base 128 value of the low seven bits of each byte. *)
Fixpoint b128_val_from (acc : N) (l : list N) : N :=
  match l with [] => acc | b :: r => b128_val_from (acc * 128 + b mod 128) r end.
Definition b128_val (l : list N) : N := b128_val_from 0 l.

(** ** C01 *)

Theorem C01_byte_roundtrip : forall b rest,
  b < 256 -> get_byte (put_byte b ++ rest) = Some (b, rest).
Proof.
  intros b rest H. cbn. unfold to_byte. rewrite land_FF.
  now rewrite N.mod_small by exact H.
Qed.

(** Four bytes: what is read back is the integer written, the rest of the stream
    is untouched; the bytes are the big-endian digits. *)
Theorem C01_4bytes_roundtrip : forall w rest,
  w < 2^32 ->
  read_4bytes (put_4bytes w ++ rest) = Some (w, rest)
  /\ length (put_4bytes w) = 4%nat
  /\ be_val (put_4bytes w) = w
  /\ Forall (fun b => b < 256) (put_4bytes w).
Proof.
  intros w rest H. rewrite read_4bytes_put, N.mod_small by exact H.
  repeat split.
  - rewrite put_4bytes_div. unfold be_val, be_val_from.
    pose proof (mod32_split w) as E. rewrite N.mod_small in E by exact H.
    rewrite E at 5. change (2^24) with (256*256*256). change (2^16) with (256*256).
    change (2^8) with 256. ring.
  - rewrite put_4bytes_div. repeat constructor; apply N.mod_lt; discriminate.
Qed.

Theorem C01_8bytes_roundtrip : forall w rest,
  w < 2^64 ->
  read_8bytes (put_8bytes w ++ rest) = Some (w, rest)
  /\ length (put_8bytes w) = 8%nat
  /\ be_val (put_8bytes w) = w
  /\ Forall (fun b => b < 256) (put_8bytes w).
Proof.
  intros w rest H. rewrite read_8bytes_put, N.mod_small by exact H.
  repeat split.
  - rewrite put_8bytes_div. unfold be_val, be_val_from.
    pose proof (mod64_split w) as E. rewrite N.mod_small in E by exact H.
    rewrite E at 9. pows. ring.
  - rewrite put_8bytes_div. repeat constructor; apply N.mod_lt; discriminate.
Qed.

Example C01_ex : read_4bytes (put_4bytes 0xDEADBEEF ++ [7; 8]) = Some (0xDEADBEEF, [7; 8])
  /\ put_8bytes 0x0102030405060708 = [1;2;3;4;5;6;7;8]
  /\ read_8bytes (put_8bytes (2^64 - 1) ++ [9]) = Some (2^64 - 1, [9]).
Proof. repeat split. Qed.

(** Finding: the return value of kno_write_8bytes is the number of bytes written
    only on the slow path; when the buffer has room it is the low byte of the
    integer, which a caller testing the result sees as 0 or a length. *)
Theorem C01_write_8bytes_returns_length_refuted :
  exists w, write_8bytes_rv true w <> N.of_nat (length (put_8bytes w))
            /\ write_8bytes_rv true w = 0 /\ w <> 0.
Proof. exists 256. repeat split; discriminate. Qed.

(** ** C02 *)

Theorem C02_varint_roundtrip_partial : forall n rest,
  n < 2^63 -> read_varint (put_varint n ++ rest) = Some (n, rest).
Proof. intros. now apply read_varint_put. Qed.

(** The length returned is the number of bytes, between 1 and 9, and monotone. *)
Theorem C02_varint_length : forall n,
  n < 2^63 ->
  N.of_nat (length (put_varint n)) = write_varint_rv n
  /\ (1 <= length (put_varint n) <= 9)%nat
  /\ (forall m, m <= n -> (length (put_varint m) <= length (put_varint n))%nat).
Proof.
  intros n H. destruct (put_varint_len n H) as [H1 H2].
  split; [exact H1|split; [exact H2|]]. intros m Hm. now apply put_varint_mono.
Qed.

(** The encoding is the minimal one: [n] does not fit fewer 7-bit groups. *)
Theorem C02_varint_minimal : forall n,
  n < 2^63 -> (1 < length (put_varint n))%nat ->
  2 ^ (7 * (N.of_nat (length (put_varint n)) - 1)) <= n.
Proof.
  intros n H Hl. destruct (put_varint_groups n H) as (j & Hj & E & _ & Hlo & _).
  rewrite E in *. rewrite groups_length in *. destruct Hlo as [->|Hlo]; [lia|].
  replace (N.of_nat (S j) - 1) with (N.of_nat j) by lia. exact Hlo.
Qed.

(** The format: seven bits per byte, most significant first, the high bit set on
    all bytes except the last. *)
Lemma groups_format n j :
  b128_val_from (n / 2 ^ (7 * N.of_nat (S j))) (groups n j) = n
  /\ exists hi lo, groups n j = hi ++ [lo] /\ lo < 128
       /\ Forall (fun b => 128 <= b < 256) hi.
Proof.
  induction j as [|j [IH1 (hi & lo & IH2 & IH3 & IH4)]]; cbn [groups b128_val_from].
  - split.
    + change (2 ^ (7 * N.of_nat 1)) with 128.
      rewrite (N.mod_small (n mod 128) 128) by (apply N.mod_lt; discriminate).
      rewrite N.mul_comm. symmetry. apply N.div_mod. discriminate.
    + exists [], (n mod 128). split; [reflexivity|]. split; [apply N.mod_lt; discriminate|constructor].
  - assert (Hp : 2^(7 * N.of_nat (S (S j))) = 2^(7 * N.of_nat (S j)) * 128).
    { replace (7 * N.of_nat (S (S j))) with (7 * N.of_nat (S j) + 7) by lia.
      rewrite N.pow_add_r. reflexivity. }
    assert (Hz : 2^(7 * N.of_nat (S j)) <> 0) by (apply N.pow_nonzero; discriminate).
    rewrite Hp, <- N.div_div by (assumption || discriminate).
    set (q := n / 2 ^ (7 * N.of_nat (S j))) in *.
    assert (Hm : q mod 128 < 128) by (apply N.mod_lt; discriminate).
    split.
    + replace ((128 + q mod 128) mod 128) with (q mod 128).
      2:{ apply N.mod_unique with 1; lia. }
      replace (q / 128 * 128 + q mod 128) with q; [exact IH1|].
      rewrite (N.mul_comm (q / 128)). apply N.div_mod. discriminate.
    + exists ((128 + q mod 128) :: hi), lo. rewrite IH2. split; [reflexivity|].
      split; [exact IH3|]. constructor; [lia|exact IH4].
Qed.

Theorem C02_varint_format : forall n,
  n < 2^63 ->
  b128_val (put_varint n) = n
  /\ exists hi lo, put_varint n = hi ++ [lo] /\ lo < 128
       /\ Forall (fun b => 128 <= b < 256) hi.
Proof.
  intros n H. destruct (put_varint_groups n H) as (j & Hj & -> & Hlt & _).
  destruct (groups_format n j) as [H1 H2]. rewrite N.div_small in H1 by exact Hlt.
  split; [exact H1|exact H2].
Qed.

(** No encoding is a strict prefix of another (so a stream of varints is
    uniquely decodable). *)
Theorem C02_varint_prefix_free : forall n m r1 r2,
  n < 2^63 -> m < 2^63 ->
  put_varint n ++ r1 = put_varint m ++ r2 -> n = m /\ r1 = r2.
Proof.
  intros n m r1 r2 Hn Hm E.
  pose proof (read_varint_put n r1 Hn) as E1. pose proof (read_varint_put m r2 Hm) as E2.
  rewrite E in E1. rewrite E1 in E2. inversion E2. auto.
Qed.

Example C02_ex : put_varint 300 = [130; 44]
  /\ read_varint (put_varint (2^63 - 1) ++ [5]) = Some (2^63 - 1, [5])
  /\ length (put_varint (2^63 - 1)) = 9%nat.
Proof. repeat split. Qed.

(** Finding: 63 bits only.  From 2^63 on the top bit is silently dropped. *)
Theorem C02_varint_above_63_bits_refuted :
  exists n, n < 2^64 /\ read_varint (put_varint n) = Some (n - 2^63, []) /\ 2^63 <= n.
Proof. exists (2^63 + 5). repeat split; discriminate || reflexivity. Qed.

(** Finding: the exported function _kno_read_varint returns an [int]. *)
Theorem C02_varint_outofline_refuted :
  exists n, n < 2^63 /\ read_varint_outofline (put_varint n) = Some ((-1)%Z, []).
Proof. exists (2^32 - 1). split; [reflexivity|]. vm_compute. reflexivity. Qed.

Theorem C02_varint_outofline_small : forall n rest,
  n < 2^31 -> read_varint_outofline (put_varint n ++ rest) = Some (Z.of_N n, rest).
Proof.
  intros n rest H. unfold read_varint_outofline.
  assert (n < 2^63) by (apply N.lt_trans with (1 := H); reflexivity).
  rewrite read_varint_put by assumption.
  rewrite land_u32. rewrite N.mod_small by (apply N.lt_trans with (1 := H); reflexivity).
  destruct (N.ltb_spec n (2^31)); [reflexivity|lia].
Qed.

(** ** C03 for integers *)

Theorem C03_varint_truncated : forall n k,
  n < 2^63 -> (k < length (put_varint n))%nat ->
  read_varint (firstn k (put_varint n)) = None.
Proof. exact read_varint_prefix. Qed.

Theorem C03_fixed_truncated : forall l,
  ((length l < 4)%nat -> read_4bytes l = None) /\
  ((length l < 8)%nat -> read_8bytes l = None) /\
  (forall n, (length l < n)%nat -> read_bytes l n = None).
Proof.
  intros l. split; [apply read_4bytes_short|]. split; [apply read_8bytes_short|].
  intros n H. unfold read_bytes, request_bytes.
  destruct (Nat.leb_spec n (length l)); [lia|reflexivity].
Qed.

(** What is read on success are bytes of the input: the input is the bytes
    consumed followed by the rest. *)
Theorem C03_read_within_buffer : forall inp,
  (forall v r, read_4bytes inp = Some (v, r) -> exists a, inp = a ++ r /\ length a = 4%nat) /\
  (forall v r, read_8bytes inp = Some (v, r) -> exists a, inp = a ++ r /\ length a = 8%nat) /\
  (forall n v r, read_bytes inp n = Some (v, r) -> inp = v ++ r /\ length v = n) /\
  (forall v r, read_varint inp = Some (v, r) -> exists a, inp = a ++ r /\ (0 < length a)%nat).
Proof.
  intros inp. repeat split.
  - intros v r. unfold read_4bytes, request_bytes.
    destruct (Nat.leb_spec 4 (length inp)); [|discriminate].
    destruct (get4 inp); [|discriminate]. intros E. inversion E; subst.
    exists (firstn 4 inp). rewrite firstn_skipn, firstn_length. split; [reflexivity|lia].
  - intros v r. unfold read_8bytes, request_bytes.
    destruct (Nat.leb_spec 8 (length inp)); [|discriminate].
    destruct (get8 inp); [|discriminate]. intros E. inversion E; subst.
    exists (firstn 8 inp). rewrite firstn_skipn, firstn_length. split; [reflexivity|lia].
  - revert H. unfold read_bytes, request_bytes.
    destruct (Nat.leb_spec n (length inp)); [|discriminate].
    intros E. inversion E; subst. now rewrite firstn_skipn.
  - revert H. unfold read_bytes, request_bytes.
    destruct (Nat.leb_spec n (length inp)); [|discriminate].
    intros E. inversion E; subst. rewrite firstn_length. lia.
  - intros v r. unfold read_varint. generalize 0 at 1 as acc.
    induction inp as [|b inp IH]; intros acc E; [discriminate|].
    cbn [read_varint_loop] in E.
    destruct (b =? 0); [inversion E; subst; exists [b]; split; [reflexivity|cbn; lia]|].
    destruct (negb _).
    + apply IH in E. destruct E as (a & -> & Ha). exists (b :: a). split; [reflexivity|cbn; lia].
    + inversion E; subst; exists [b]; split; [reflexivity|cbn; lia].
Qed.

Example C03_ex : read_varint (firstn 2 (put_varint 100000)) = None
  /\ read_4bytes (firstn 3 (put_4bytes 77)) = None.
Proof. repeat split. Qed.

(** Finding: kno_read_8bytes reports end of data by returning 0, which is also a
    legitimate value. *)
Theorem C03_read_8bytes_eod_refuted :
  exists l, (length l < 8)%nat /\ fst (read_8bytes_rv l) = 0
            /\ fst (read_8bytes_rv (put_8bytes 0)) = fst (read_8bytes_rv l).
Proof. exists [1; 2; 3]. cbn [length]. split; [lia|]. split; reflexivity. Qed.

(** ** C43 *)

Theorem C43_flip_word_partial : forall w, w < 2^32 ->
  flip_word (flip_word w) = w /\ put_4bytes (flip_word w) = rev (put_4bytes w).
Proof. intros w H. split; [now apply flip_word_invol|now apply flip_word_bytes]. Qed.

Theorem C43_flip_ushort : forall a b, a < 256 -> b < 256 ->
  flip_ushort (a * 256 + b) = b * 256 + a.
Proof.
  intros a b Ha Hb. unfold flip_ushort. rewrite N.lor_comm.
  change 0xff00 with (N.shiftl (N.ones 8) 8). rewrite mask_field.
  arith_bits. change (2^8) with 256.
  replace ((a * 256 + b) * 256 / 256) with (a * 256 + b)
    by (symmetry; apply N.div_mul; discriminate).
  replace ((a * 256 + b) mod 256) with b
    by (rewrite N.add_comm, N.mod_add by discriminate; symmetry; apply N.mod_small; exact Hb).
  replace ((a * 256 + b) / 256) with a
    by (rewrite N.add_comm, N.div_add by discriminate; rewrite (N.div_small b) by exact Hb; reflexivity).
  rewrite (N.mod_small a) by exact Ha.
  apply (lor_add _ 8); [apply N.mod_mul; discriminate|exact Ha].
Qed.

(** Finding: the 64-bit flip is wrong whenever the second lowest byte is not 0. *)
Theorem C43_flip_word8_refuted :
  exists w, w < 2^64 /\ flip_word8 (flip_word8 w) <> w
            /\ put_8bytes (flip_word8 w) <> rev (put_8bytes w).
Proof. exists 0x0100. repeat split; discriminate. Qed.

Example C43_ex : flip_word 0x12345678 = 0x78563412 /\ flip_ushort 0x1234 = 0x3412.
Proof. split; reflexivity. Qed.

(** ** C44 *)

(** Any history of writes of any sizes to a growable buffer: nothing is lost,
    duplicated or reordered, and nothing is stored outside the allocation. *)
Theorem C44_writes_concatenate_partial : forall fls ls size,
  exists b rv,
    write_all fls 0 (mk_outbuf [] size size [] false false false) ls = WOk b rv
    /\ ob_data b = concat ls
    /\ blen (ob_data b) <= ob_len b.
Proof.
  intros fls ls size.
  destruct (write_all_spec fls ls 0 (mk_outbuf [] size size [] false false false))
    as (b & rv & E & [H1 H2] & Ho).
  - split; cbn; lia.
  - left. reflexivity.
  - exists b, rv. split; [exact E|].
    assert (Hout : ob_out b = []).
    { clear H1 H2 Ho. revert E.
      assert (G : forall l i c b rv, ob_flush c = false -> write_all fls i c l = WOk b rv ->
                  ob_out b = ob_out c).
      { clear. induction l as [|x l IH]; intros i c b rv Hc; cbn [write_all].
        - intros E; inversion E; reflexivity.
        - unfold write_bytes, store_at, needs_space, check_output_buffer, grow_output_buffer.
          rewrite Hc. cbn [andb].
          repeat match goal with
          | |- context [if ?x then _ else _] => destruct x
          | |- context [match grow_limit ?f ?a ?d with _ => _ end] => destruct (grow_limit f a d)
          end; cbn; intros E; try discriminate;
          first [ rewrite (IH _ _ _ _ Hc E); reflexivity | (apply IH in E; [cbn in E; exact E | first [reflexivity | exact Hc]]) ]. }
      intros E. apply G in E; [exact E|reflexivity]. }
    rewrite Hout in Ho. cbn in Ho. split; [exact Ho|]. lia.
Qed.

(** With a flush function that succeeds, on a stream whose buffer may grow: what
    went to the file followed by what is in the buffer is exactly what was
    written. *)
Theorem C44_writes_with_flush_partial : forall fls ls b,
  blen (ob_data b) <= ob_lim b -> ob_lim b <= ob_len b ->
  (forall j, fls j = true) -> ob_nogrow b = false ->
  exists b1 rv,
    write_all fls 0 b ls = WOk b1 rv
    /\ ob_out b1 ++ ob_data b1 = (ob_out b ++ ob_data b) ++ concat ls
    /\ blen (ob_data b1) <= ob_len b1.
Proof.
  intros fls ls b H1 H2 Hfl Hng.
  destruct (write_all_spec fls ls 0 b) as (b1 & rv & E & [H3 H4] & Ho).
  - split; assumption.
  - right. split; assumption.
  - exists b1, rv. split; [exact E|]. split; [exact Ho|]. lia.
Qed.

Example C44_ex :
  match write_all (fun _ => true) 0 (mk_outbuf [] 3 3 [] true false false)
                  [[1;2]; [3;4;5]; [6]; [7;8;9;10;11;12;13]] with
  | WOk b _ => ob_out b ++ ob_data b = [1;2;3;4;5;6;7;8;9;10;11;12;13]
  | WOverflow => False
  end.
Proof. vm_compute. reflexivity. Qed.

(** Finding: a flush failure, or a NO_GROW buffer smaller than the datum, makes
    kno_needs_space return a negative number; the writers only test for zero and
    store outside the buffer. *)
Theorem C44_flush_failure_refuted :
  exists b l, outbuf_wf b /\ ob_flush b = true /\ ob_nogrow b = false
              /\ write_bytes false b l = WOverflow.
Proof.
  exists (mk_outbuf [1;2;3] 4 4 [] true false false), [4;5;6].
  split; [split; cbn; discriminate|]. repeat split.
Qed.
Theorem C44_nogrow_refuted :
  exists b l, outbuf_wf b /\ ob_nogrow b = true /\ write_bytes true b l = WOverflow.
Proof.
  exists (mk_outbuf [] 4 4 [] true true false), [1;2;3;4;5;6].
  split; [split; cbn; discriminate|]. repeat split.
Qed.

Print Assumptions C01_byte_roundtrip.
Print Assumptions C01_4bytes_roundtrip.
Print Assumptions C01_8bytes_roundtrip.
Print Assumptions C01_write_8bytes_returns_length_refuted.
Print Assumptions C02_varint_roundtrip_partial.
Print Assumptions C02_varint_length.
Print Assumptions C02_varint_minimal.
Print Assumptions C02_varint_format.
Print Assumptions C02_varint_prefix_free.
Print Assumptions C02_varint_above_63_bits_refuted.
Print Assumptions C02_varint_outofline_refuted.
Print Assumptions C02_varint_outofline_small.
Print Assumptions C03_varint_truncated.
Print Assumptions C03_fixed_truncated.
Print Assumptions C03_read_within_buffer.
Print Assumptions C03_read_8bytes_eod_refuted.
Print Assumptions C43_flip_word_partial.
Print Assumptions C43_flip_ushort.
Print Assumptions C43_flip_word8_refuted.
Print Assumptions C44_writes_concatenate_partial.
Print Assumptions C44_writes_with_flush_partial.
Print Assumptions C44_flush_failure_refuted.
Print Assumptions C44_nogrow_refuted.

(** * Three properties with the limits of C02, C43 and C44 as hypotheses *)

(** Varints of integers below 2^63: each is written as its digits in base 128, most
    significant first and without leading zeros, the last byte below 128 and the others
    above; in one to nine bytes, as many as the writer returns, and no more than any
    greater integer takes; it is read back as it was, with any rest; it is not a prefix of another, and what is cut short is not read. *)
Theorem C70_varints : forall n, n < 2^63 ->
  (forall rest, read_varint (put_varint n ++ rest) = Some (n, rest)) /\
  (b128_val (put_varint n) = n /\
   exists hi lo, put_varint n = hi ++ [lo] /\ lo < 128 /\ Forall (fun b => 128 <= b < 256) hi) /\
  (N.of_nat (length (put_varint n)) = write_varint_rv n /\ (1 <= length (put_varint n) <= 9)%nat) /\
  ((1 < length (put_varint n))%nat -> 2 ^ (7 * (N.of_nat (length (put_varint n)) - 1)) <= n) /\
  (forall m, m <= n -> (length (put_varint m) <= length (put_varint n))%nat) /\
  (forall m r1 r2, m < 2^63 -> put_varint n ++ r1 = put_varint m ++ r2 -> n = m /\ r1 = r2) /\
  (forall k, (k < length (put_varint n))%nat -> read_varint (firstn k (put_varint n)) = None).
Proof.
  intros n H. split; [intros rest; apply C02_varint_roundtrip_partial; exact H|].
  split; [apply C02_varint_format; exact H|].
  destruct (C02_varint_length n H) as (A & B & C). split; [split; [exact A|exact B]|].
  split; [intros L; apply C02_varint_minimal; [exact H|exact L]|]. split; [exact C|].
  split; [intros m r1 r2 M; apply C02_varint_prefix_free; [exact H|exact M]|].
  intros k K. apply C03_varint_truncated; [exact H|exact K].
Qed.
Example C70_varints_case : 2 ^ 62 + 300 < 2 ^ 63 /\ length (put_varint (2 ^ 62 + 300)) = 9%nat
  /\ read_varint (put_varint (2 ^ 62 + 300) ++ [7]) = Some (2 ^ 62 + 300, [7])
  /\ read_varint (firstn 8 (put_varint (2 ^ 62 + 300))) = None.
Proof. split; [reflexivity|]. split; [vm_compute; reflexivity|]. split; vm_compute; reflexivity. Qed.

(** Byte order of 16 and 32 bit words: flipping exchanges the order of all bytes, and
    flipping twice changes nothing. *)
Theorem C71_flips :
  (forall w, w < 2^32 -> put_4bytes (flip_word w) = rev (put_4bytes w) /\ flip_word (flip_word w) = w) /\
  (forall a b, a < 256 -> b < 256 ->
    flip_ushort (a * 256 + b) = b * 256 + a /\ flip_ushort (flip_ushort (a * 256 + b)) = a * 256 + b).
Proof.
  split.
  - intros w H. destruct (C43_flip_word_partial w H) as [A B]. split; [exact B|exact A].
  - intros a b A B. rewrite (C43_flip_ushort a b A B). split; [reflexivity|]. apply C43_flip_ushort; [exact B|exact A].
Qed.
Example C71_flips_case : flip_word 0x01020384 = 0x84030201 /\ flip_ushort (0x80 * 256 + 1) = 0x180.
Proof. split; vm_compute; reflexivity. Qed.

(** Output buffers that may grow: with or without a flush function, as long as its flushes
    succeed, what went out and what is in the buffer together are what was there before
    and all that was written, in order; nothing is stored outside of the buffer. *)
Theorem C72_growing_buffers : forall fls ls b, outbuf_wf b -> ob_nogrow b = false ->
  (ob_flush b = false \/ forall j, fls j = true) ->
  exists b1 rv, write_all fls 0 b ls = WOk b1 rv /\ outbuf_wf b1
    /\ ob_out b1 ++ ob_data b1 = (ob_out b ++ ob_data b) ++ concat ls.
Proof.
  intros fls ls b W G F. destruct (write_all_spec fls ls 0 b W) as (b1 & rv & E & W1 & Ho).
  - destruct F as [F|F]; [left; try split; assumption|right; split; assumption].
  - exists b1, rv. split; [exact E|]. split; [exact W1|exact Ho].
Qed.
Example C72_growing_buffers_case :
  let b := mk_outbuf [1;2] 4 4 [0] false false false in
  outbuf_wf b /\ ob_flush b = false /\
  match write_all (fun _ => false) 0 b [[3;4;5]; []; [6;7;8;9;10;11]] with
  | WOk b1 _ => ob_out b1 ++ ob_data b1 = [0;1;2;3;4;5;6;7;8;9;10;11]
  | WOverflow => False
  end.
Proof. split; [split; cbn; discriminate|]. split; [reflexivity|]. vm_compute. reflexivity. Qed.

Print Assumptions C70_varints.
Print Assumptions C71_flips.
Print Assumptions C72_growing_buffers.
